(** Shared vocabulary: outcomes of C code. *)
From Coq Require Import ZArith List Bool.
Import ListNotations.

(** What running a piece of the C runtime can lead to.
    [Ok a]   : normal result.
    [Trap]   : the process is stopped by the code itself ([assert] in
               src/types.h:14 is [__builtin_trap], [assert.h]'s assert, or
               [exit(1)]).
    [UB]     : the C code would perform an access or operation that C leaves
               undefined (out-of-bounds, freed memory, division by zero,
               signed overflow ...). *)
Inductive outcome (A : Type) : Type :=
| Ok (a : A)
| Trap
| UB.
Arguments Ok {A} a.
Arguments Trap {A}.
Arguments UB {A}.

Definition obind {A B} (x : outcome A) (f : A -> outcome B) : outcome B :=
  match x with Ok a => f a | Trap => Trap | UB => UB end.

Definition omap {A B} (f : A -> B) (x : outcome A) : outcome B :=
  match x with Ok a => Ok (f a) | Trap => Trap | UB => UB end.

Declare Scope out_scope.
Delimit Scope out_scope with out.
Notation "'do!' x <- a ; b" := (obind a (fun x => b))
  (at level 200, x name, a at level 100, b at level 200) : out_scope.
Notation "'do!' ' p <- a ; b" := (obind a (fun p => b))
  (at level 200, p pattern, a at level 100, b at level 200) : out_scope.

(** [assert(c)] *)
Definition assertT {A} (c : bool) (k : outcome A) : outcome A := if c then k else Trap.

Lemma Ok_inj : forall A (a b : A), Ok a = Ok b -> a = b.
Proof. intros A a b H. now inversion H. Qed.
