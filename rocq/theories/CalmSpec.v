(** Programs in which no operand is assigned between its evaluation and its
    use: a condition that can be read off the program. *)
From Coq Require Import List ZArith Bool String Arith.
From Verif Require Import CoreSpec TocWhole.
Import ListNotations.
Local Open Scope list_scope.
Local Open Scope nat_scope.

Definition named (x : name) (l : list name) : bool := existsb (name_eqb x) l.

(** The variables whose value an expression can have. *)
Fixpoint tails (ks : nat) (e : sexp) : list name :=
  match ks with
  | O => []
  | S k =>
      match view e with
      | FVar x => [x]
      | FIf _ b c => tails k b ++ tails k c
      | FDo _ b => tails k b
      | FLet _ _ c => tails k c
      | _ => []
      end
  end.

(** nothing is called *)
Definition trivial (e : sexp) : bool := match view e with FConst _ | FVar _ | FLam _ _ => true | _ => false end.

(** the operands of a call: one that can be a variable of [S] is followed by
    trivial ones only *)
Fixpoint steady (ks : nat) (S : list name) (l : list sexp) : bool :=
  match l with
  | [] => true
  | e :: r => (forallb trivial r || forallb (fun x => negb (named x S)) (tails ks e)) && steady ks S r
  end.

(** the variable of an assignment (set 'x e) *)
Definition assigned (f : sexp) (args : list sexp) : option (name * sexp) :=
  if is_sym "set" f then
    match args with
    | [q; e] => match view q with FConst (SSym x) => Some (x, e) | _ => None end
    | _ => None
    end
  else None.

(** [calm ks S e]: [e] assigns no other variable than those of [S], even in the
    functions it makes; set is not used as a value; operands are steady. *)
Fixpoint calm (ks : nat) (S : list name) (e : sexp) : bool :=
  match ks with
  | O => false
  | Datatypes.S k =>
      match view e with
      | FConst _ => true
      | FVar x => negb (name_eqb x (NS "set"))
      | FLam _ b => calm k S b
      | FIf a b c => calm k S a && calm k S b && calm k S c
      | FDo a b => calm k S a && calm k S b
      | FLet _ b c => calm k S b && calm k S c
      | FApp f args =>
          match assigned f args with
          | Some (x, v) => named x S && calm k S v
          | None => calm k S f && forallb (calm k S) args && steady k S (f :: args)
          end
      | FBad => false
      end
  end.

(** [definitions ks S e]: at top level, outside functions and operands, other
    variables can be assigned too *)
Fixpoint definitions (ks : nat) (S : list name) (e : sexp) : bool :=
  match ks with
  | O => false
  | Datatypes.S k =>
      calm (Datatypes.S k) S e ||
      match view e with
      | FIf a b c => definitions k S a && definitions k S b && definitions k S c
      | FDo a b => definitions k S a && definitions k S b
      | FLet _ b c => definitions k S b && definitions k S c
      | FApp f args => match assigned f args with Some (_, v) => definitions k S v | None => false end
      | _ => false
      end
  end.

(** initially no variable but set itself is the primitive set *)
Definition quiet_base (B : base) : Prop := forall x, B x = Some (inr PSet) -> x = NS "set".
