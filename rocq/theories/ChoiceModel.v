(** lib/cml.cora:123-146: the order in which a choice tries its operations.

    Simplifications: [(randN 2)] (lib/rand.c) is any stream of coins, of which
    [k] have been thrown; [true] is the outcome 0.  The operations are any
    values.  The number of rounds is computed with the runtime's own division
    (NumModel.v).  A negative number of rounds never ends: [None]. *)
From Coq Require Import List ZArith Bool.
From Verif Require Import Base NumModel.
Import ListNotations.
Local Open Scope list_scope.

Section Shuffle.
  Context {A : Type}.
  Variable coin : nat -> bool.

  (** :123-127 *)
  Fixpoint random_split (l to1 to2 : list A) (k : nat) : (list A * list A) * nat :=
    match l with
    | [] => ((to1, to2), k)
    | hd :: tl => if coin k then random_split tl (hd :: to1) to2 (S k) else random_split tl to1 (hd :: to2) (S k)
    end.

  (** :129-134 *)
  Fixpoint random_merge (from1 : list A) : list A -> list A -> nat -> list A * nat :=
    fix go (from2 to : list A) (k : nat) {struct from2} :=
      match from1, from2 with
      | [], from => (from ++ to, k)
      | from, [] => (from ++ to, k)
      | x1 :: r1, x2 :: r2 => if coin k then random_merge r1 from2 (x1 :: to) (S k) else go r2 (x2 :: to) (S k)
      end.

  (** :136-140, for a number of rounds that is not negative *)
  Fixpoint shuffle_h (l : list A) (n : nat) (k : nat) : list A * nat :=
    match n with
    | O => (l, k)
    | S n =>
        let '((l1, l2), k) := random_split l [] [] k in
        let '(l, k) := random_merge l1 l2 [] k in
        shuffle_h l n k
    end.

  (** (/ (+ 1 (length arr)) 2) of :143 *)
  Definition rounds (len : nat) : outcome Z :=
    obind (makeNumber (1 + Z.of_nat len)) (fun a =>
    obind (makeNumber 2) (fun b =>
    obind (primDiv a b) fixnum)).

  (** :142-143 *)
  Definition shuffle (l : list A) (k : nat) : option (list A * nat) :=
    match rounds (length l) with
    | Ok n => if (n <? 0)%Z then None else Some (shuffle_h l (Z.to_nat n) k)
    | _ => None
    end.
End Shuffle.
