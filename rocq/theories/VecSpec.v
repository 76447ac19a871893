(** What a growable array is to its user: a list. *)
From Coq Require Import ZArith List.
Import ListNotations.
Local Open Scope Z_scope.

Inductive vop (A : Type) := Append (x : A) | Get (i : Z) | Put (i : Z) (x : A) | Pop | Drop | Len.
Arguments Append {A} x.
Arguments Get {A} i.
Arguments Put {A} i x.
Arguments Pop {A}.
Arguments Drop {A}.
Arguments Len {A}.
Inductive ans (A : Type) := Done | Elem (x : A) | Count (n : Z).
Arguments Done {A}.
Arguments Elem {A} x.
Arguments Count {A} n.

(** the answers and the list afterwards; [None] if an operation asks for an
    element that is not there *)
Definition place {A} (l : list A) (i : Z) : option nat :=
  if Z.leb 0 i then if Z.ltb i (Z.of_nat (length l)) then Some (Z.to_nat i) else None else None.
Definition on_list {A} (l : list A) (o : vop A) : option (ans A * list A) :=
  match o with
  | Append x => Some (Done, l ++ [x])
  | Get i => match place l i with
             | Some n => option_map (fun x => (Elem x, l)) (nth_error l n)
             | None => None
             end
  | Put i x => option_map (fun n => (Done, firstn n l ++ x :: skipn (S n) l)) (place l i)
  | Pop => match rev l with x :: r => Some (Elem x, rev r) | [] => None end
  | Drop => match rev l with _ :: r => Some (Done, rev r) | [] => None end
  | Len => Some (Count (Z.of_nat (length l)), l)
  end.
Fixpoint on_lists {A} (l : list A) (ops : list (vop A)) : option (list (ans A) * list A) :=
  match ops with
  | [] => Some ([], l)
  | o :: ops' => match on_list l o with
                 | Some (a, l1) => option_map (fun r => (a :: fst r, snd r)) (on_lists l1 ops')
                 | None => None
                 end
  end.
(** the greatest length on the way *)
Fixpoint longest {A} (l : list A) (ops : list (vop A)) : Z :=
  Z.max (Z.of_nat (length l))
    match ops with
    | [] => 0
    | o :: ops' => match on_list l o with Some (_, l1) => longest l1 ops' | None => 0 end
    end.
Fixpoint appends {A} (ops : list (vop A)) : Z :=
  match ops with [] => 0 | Append _ :: ops' => 1 + appends ops' | _ :: ops' => appends ops' end.

(** a history of registrations of packages: the table of a package is the one
    registered last *)
Fixpoint registered {A} (h : list (Z * A)) (id : Z) : option A :=
  match h with
  | [] => None
  | (k, t) :: h' => match registered h' id with Some t' => Some t' | None => if Z.eqb k id then Some t else None end
  end.
