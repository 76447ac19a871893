(** What a trace is. *)
From Coq Require Import List ZArith Bool.
From Verif Require Import TraceModel.
Import ListNotations.
Local Open Scope list_scope.
Local Open Scope Z_scope.

(** Events that fit the format. *)
Definition fits (e : event) : Prop :=
  In (ph e) [66; 69; 98; 101; 115; 102] /\ Z.of_nat (length (name e)) < 256 /\ 0 <= tid e < 2 ^ 16 /\ 0 <= eid e < 2 ^ 32 /\ 0 <= ts e < 2 ^ 64.

(** The events of each session, newest session first; those emitted while
    nothing is enabled are not part of one. *)
Fixpoint sessions (l : list top) (on : bool) (acc : list (list event)) : list (list event) :=
  match l with
  | [] => acc
  | TEnable :: r => sessions r true ([] :: acc)
  | TDisable :: r => sessions r false acc
  | TEmit e :: r =>
      sessions r on (match on, acc with true, s :: more => (s ++ [e]) :: more | _, _ => acc end)
  end.
(** Every session ends before the next begins, and the last one ends. *)
Fixpoint closed (l : list top) (on : bool) : Prop :=
  match l with
  | [] => on = false
  | TEnable :: r => on = false /\ closed r true
  | TDisable :: r => closed r false
  | TEmit _ :: r => closed r on
  end.
Definition emitted (l : list top) : list event := flat_map (fun o => match o with TEmit e => [e] | _ => [] end) l.

(** Begin and end events match. *)
Inductive balanced : list event -> Prop :=
| b_nil : balanced []
| b_scope : forall n t i s0 s1 a b, balanced a -> balanced b ->
    balanced (mkEvent 66 n t i s0 :: a ++ mkEvent 69 n t i s1 :: b).
