(** Tasks taking turns, without loops, stacks and queues made of two lists. *)
From Coq Require Import List Bool.
From Verif Require Import SchedModel.
Import ListNotations.

Section Spec.
Variables (S : Type) (code : S -> cmd S).

(** Who runs, who is ready (first come, first served), who is blocked, what was shown. *)
Record turns := mkU { u_now : option S; u_ready : list S; u_blocked : list S; u_shown : list nat }.

Inductive turn : turns -> turns -> Prop :=
| TNext : forall x r b h, turn (mkU None (x :: r) b h) (mkU (Some x) r b h)
| TEnd : forall s r b h, code s = CEnd _ -> turn (mkU (Some s) r b h) (mkU None r b h)
| TShow : forall s n s' r b h, code s = CShow _ n s' ->
    turn (mkU (Some s) r b h) (mkU (Some s') r b (h ++ [n]))
| TSpawn : forall s c s' r b h, code s = CSpawn _ c s' ->
    turn (mkU (Some s) r b h) (mkU (Some s') (r ++ [c]) b h)
| TYield : forall s s' r b h, code s = CYield _ s' ->
    turn (mkU (Some s) r b h) (mkU None (r ++ [s']) b h)
| TBlock : forall s s' r b h, code s = CBlock _ s' ->
    turn (mkU (Some s) r b h) (mkU None r (b ++ [s']) h)
| TWake : forall s i s' r b1 w b2 h, code s = CWake _ i s' -> i = length b1 ->
    turn (mkU (Some s) r (b1 ++ w :: b2) h) (mkU (Some s') (r ++ [w]) (b1 ++ b2) h)
| TWakeNone : forall s i s' r b h, code s = CWake _ i s' -> length b <= i ->
    turn (mkU (Some s) r b h) (mkU (Some s') r b h).

Inductive turnstar : turns -> turns -> Prop :=
| turns_0 : forall u, turnstar u u
| turns_S : forall u1 u2 u3, turnstar u1 u2 -> turn u2 u3 -> turnstar u1 u3.

Definition over (u : turns) : Prop := u_now u = None /\ u_ready u = [].
End Spec.

(** Asking external schedulers one after the other: each sees the world the one before left,
    and what they answer is kept in order. *)
Inductive asked (S E : Type) (timeout : bool) : list (external S E) -> E -> list (bool * list S) -> E -> Prop :=
| asked_nil : forall e, asked S E timeout [] e [] e
| asked_cons : forall f l e res ts e1 rest e2, f timeout e = Some (res, ts, e1) ->
    asked S E timeout l e1 rest e2 -> asked S E timeout (f :: l) e ((res, ts) :: rest) e2.
