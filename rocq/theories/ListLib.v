(** List facts missing from the 8.16 standard library, and indexed update. *)
From Coq Require Import List Arith Lia.
Import ListNotations.

Lemma nth_error_ext : forall A (l l' : list A),
  (forall i, nth_error l i = nth_error l' i) -> l = l'.
Proof.
  intros A l; induction l as [|x l IH]; intros [|y l'] H; auto.
  - specialize (H 0). discriminate.
  - specialize (H 0). discriminate.
  - f_equal.
    + specialize (H 0). cbn in H. congruence.
    + apply IH. intro i. apply (H (S i)).
Qed.

Lemma nth_error_firstn : forall A (l : list A) n i,
  nth_error (firstn n l) i = if i <? n then nth_error l i else None.
Proof.
  intros A l; induction l as [|x l IH]; intros n i.
  - rewrite firstn_nil. destruct i; destruct (_ <? n); reflexivity.
  - destruct n as [|n]. { destruct i; reflexivity. }
    destruct i as [|i]; [reflexivity|]. cbn [firstn nth_error]. rewrite IH.
    destruct (Nat.ltb_spec i n), (Nat.ltb_spec (S i) (S n)); auto; lia.
Qed.

Lemma nth_error_skipn : forall A (l : list A) n i,
  nth_error (skipn n l) i = nth_error l (n + i).
Proof.
  intros A l; induction l as [|x l IH]; intros n i.
  - rewrite skipn_nil. destruct i, n; reflexivity.
  - destruct n; [reflexivity|]. cbn [skipn]. rewrite IH. reflexivity.
Qed.

Lemma skipn_skipn : forall A (l : list A) n m, skipn n (skipn m l) = skipn (m + n) l.
Proof.
  intros. apply nth_error_ext. intro i. rewrite !nth_error_skipn. f_equal. lia.
Qed.

Lemma nth_error_map' : forall A B (f : A -> B) l i,
  nth_error (map f l) i = option_map f (nth_error l i).
Proof. intros A B f l; induction l; intros [|i]; cbn; auto. Qed.

Lemma nth_error_repeat' : forall A (x : A) n i,
  nth_error (repeat x n) i = if i <? n then Some x else None.
Proof.
  intros A x n; induction n as [|n IH]; intros i; cbn [repeat].
  - destruct i; reflexivity.
  - destruct i; [reflexivity|]. cbn [nth_error]. rewrite IH.
    destruct (Nat.ltb_spec i n), (Nat.ltb_spec (S i) (S n)); auto; lia.
Qed.

Lemma firstn_app_exact : forall A (l l' : list A), firstn (length l) (l ++ l') = l.
Proof.
  intros. rewrite firstn_app, Nat.sub_diag, firstn_all. cbn. apply app_nil_r.
Qed.

Lemma skipn_app_exact : forall A (l l' : list A), skipn (length l) (l ++ l') = l'.
Proof. intros. rewrite skipn_app, Nat.sub_diag, skipn_all. reflexivity. Qed.

(** indexed update; no effect out of range *)
Fixpoint list_set {A} (l : list A) (i : nat) (x : A) : list A :=
  match l, i with
  | [], _ => []
  | _ :: l', O => x :: l'
  | y :: l', S i' => y :: list_set l' i' x
  end.

Lemma list_set_length : forall A (l : list A) i x, length (list_set l i x) = length l.
Proof. intros A l; induction l; intros [|i] x; cbn; auto. Qed.

Lemma nth_error_list_set : forall A (l : list A) i j x,
  nth_error (list_set l i x) j =
  if Nat.eqb i j then (if i <? length l then Some x else None) else nth_error l j.
Proof.
  intros A l; induction l as [|y l IH]; intros i j x.
  - cbn [list_set length]. destruct (Nat.eqb_spec i j); [|reflexivity].
    subst. destruct j; reflexivity.
  - destruct i as [|i], j as [|j]; cbn [list_set nth_error]; try reflexivity.
    rewrite IH. cbn [Nat.eqb length].
    destruct (Nat.eqb_spec i j); [|reflexivity].
    destruct (Nat.ltb_spec i (length l)), (Nat.ltb_spec (S i) (S (length l))); auto; lia.
Qed.

Lemma nth_error_list_set_eq : forall A (l : list A) i x, i < length l ->
  nth_error (list_set l i x) i = Some x.
Proof.
  intros. rewrite nth_error_list_set, Nat.eqb_refl.
  destruct (Nat.ltb_spec i (length l)); [reflexivity|lia].
Qed.

Lemma nth_error_list_set_neq : forall A (l : list A) i j x, i <> j ->
  nth_error (list_set l i x) j = nth_error l j.
Proof.
  intros. rewrite nth_error_list_set. destruct (Nat.eqb_spec i j); [contradiction|reflexivity].
Qed.

Lemma list_set_app : forall A (l l' : list A) i x,
  list_set (l ++ l') i x =
  if i <? length l then list_set l i x ++ l' else l ++ list_set l' (i - length l) x.
Proof.
  intros A l; induction l as [|y l IH]; intros l' i x.
  - cbn. now rewrite Nat.sub_0_r.
  - destruct i as [|i]; [reflexivity|]. cbn [app list_set length].
    rewrite IH. cbn [Nat.sub].
    destruct (Nat.ltb_spec i (length l)), (Nat.ltb_spec (S i) (S (length l))); auto; lia.
Qed.

Lemma nth_error_lt : forall A (l : list A) i x, nth_error l i = Some x -> i < length l.
Proof. intros A l i x H. apply nth_error_Some. congruence. Qed.

Lemma nth_error_ex : forall A (l : list A) i, i < length l -> exists x, nth_error l i = Some x.
Proof.
  intros A l i H. destruct (nth_error l i) eqn:E; [eauto|].
  apply nth_error_None in E. lia.
Qed.

Lemma list_set_same : forall A (l : list A) i x, nth_error l i = Some x -> list_set l i x = l.
Proof.
  intros A l; induction l as [|y l IH]; intros [|i] x H; cbn in *; try discriminate.
  - congruence.
  - f_equal. auto.
Qed.
