(** The expander with a hook: proofs. *)
From Coq Require Import List ZArith Bool String Arith Lia.
From Verif Require Import Base CoreSpec CoreProofs TocModel NsModel MacroModel SurfSpec MacroExp FineProps PevalModel HookModel.
Import ListNotations.
Local Open Scope list_scope.
Local Open Scope nat_scope.

Definition less {A B} (f g : A -> nat -> option B) : Prop := forall x n r, f x n = Some r -> g x n = Some r.
Lemma match_helper_more : forall mx mx', less mx mx' -> forall v rules n r, match_helper mx v rules n = Some r -> match_helper mx' v rules n = Some r.
Proof.
  intros mx mx' L v. fix IH 1. intros [| | | | | |pat rest] n r E; cbn [match_helper] in E |- *; try discriminate; [exact E|].
  destruct rest as [| | | | | |act rest]; try discriminate. destruct (rule_action act (NG n)); [|discriminate].
  destruct (mx pat (S n)) as [(p, n1)|] eqn:E1; [|discriminate]. rewrite (L _ _ _ E1). destruct (match1 p v s (NG n)); [|discriminate].
  destruct (match_helper mx v rest n1) as [(c, n2)|] eqn:E2; [|discriminate]. now rewrite (IH _ _ _ E2).
Qed.
Lemma expand1_more : forall mx mx', less mx mx' -> less (expand1 mx) (expand1 mx').
Proof.
  intros mx mx' L e n r E. unfold expand1 in *. destruct e as [| | | | | |h t]; try exact E. destruct h; try exact E. destruct (macro_of x) as [m|]; [|exact E].
  destruct m; try exact E. cbn [expand] in *. unfold rewrite_match in *. destruct (ocadr _); [|discriminate]. destruct (ocddr _) as [rules|]; [|discriminate].
  destruct (mx s n) as [(v, n1)|] eqn:E1; [|discriminate]. rewrite (L _ _ _ E1).
  destruct (match v with SCons h _ => negb (is_sym "cons" h) | _ => false end).
  - destruct (match_helper mx _ rules _) as [(c, n2)|] eqn:E2; [|discriminate]. now rewrite (match_helper_more _ _ L _ _ _ _ E2).
  - now apply (match_helper_more _ _ L).
Qed.
Lemma map_gen_more : forall f g, less f g -> forall l n r, map_gen f l n = Some r -> map_gen g l n = Some r.
Proof.
  intros f g L. induction l as [|x l IH]; intros n r E; cbn in *; [exact E|]. destruct (f x n) as [(y, n1)|] eqn:E1; [|discriminate]. rewrite (L _ _ _ E1).
  destruct (map_gen f l n1) as [(ys, n2)|] eqn:E2; [|discriminate]. now rewrite (IH _ _ E2).
Qed.

Section Compare.
  Context (gt : nat -> string) (exports : string -> list name) (h1 h2 : nat -> sexp -> option sexp) (R : nat -> nat -> Prop).
  Hypothesis R_pred : forall a b, R (S a) b -> exists c, b = S c /\ R a c.
  Hypothesis R_le : forall a b, R a b -> a <= b.
  Hypothesis H12 : forall a b e r, R a b -> h1 a e = Some r -> h2 b e = Some r.
  Lemma hboot_more : forall k k', R k k' -> less (hboot gt exports h1 k) (hboot gt exports h2 k').
  Proof.
    induction k as [|k IH]; intros k0 HR e n r E; [discriminate|]. destruct (R_pred _ _ HR) as (k' & -> & HR'). specialize (IH _ HR').
    cbn [hboot] in E |- *. destruct e as [| | | | | |h t]; try exact E. destruct (is_protect h); [exact E|]. destruct (is_sym "lambda" h).
    { destruct (ocadr _); [|discriminate]. destruct (ocaddr _); [|discriminate]. destruct (hboot gt exports h1 k _ n) as [(b1, n1)|] eqn:E1; [|discriminate]. now rewrite (IH _ _ _ E1). }
    destruct (is_sym "quote" h); [exact E|].
    match type of E with match expand1 ?m _ _ with _ => _ end = _ => set (mx1 := m) in E end.
    match goal with |- match expand1 ?m _ _ with _ => _ end = _ => set (mx2 := m) end.
    assert (L : less mx1 mx2).
    { intros x m q Q. unfold mx1, mx2 in *. destruct (hboot gt exports h1 k x m) as [(y, m1)|] eqn:E1; [|discriminate]. rewrite (IH _ _ _ E1).
      destruct (nsparse gt exports k [] "" [] y) as [z|] eqn:E2; [|discriminate]. rewrite (nsparse_more _ _ k k' _ _ _ _ _ (R_le _ _ HR') E2).
      destruct (h1 k z) as [w|] eqn:E3; [|discriminate]. now rewrite (H12 _ _ _ _ HR' E3). }
    destruct (expand1 mx1 (SCons h t) n) as [(e1, n1)|] eqn:E1; [|discriminate]. rewrite (expand1_more _ _ L _ _ _ E1).
    destruct (sexp_eqb e1 (SCons h t)); [|now apply IH].
    destruct (map_gen _ (cells e1) n1) as [(l, n2)|] eqn:E2; [|discriminate]. now rewrite (map_gen_more _ _ IH _ _ _ E2).
  Qed.
End Compare.

(** without a hook *)
Lemma hboot_id : forall gt exports k e n, hboot gt exports (fun _ e => Some e) k e n = boot gt exports k e n.
Proof. reflexivity. Qed.

Lemma unchanged_hook : forall hook k e r, unchanged hook k e = Some r -> hook k e = Some r.
Proof.
  intros hook k e r H. unfold unchanged in H. destruct (hook k e) as [e'|]; [|discriminate]. destruct (sexp_eqb e' e) eqn:Q; [|discriminate].
  apply sexp_eqb_eq in Q. congruence.
Qed.
Lemma unchanged_id : forall hook k e r, unchanged hook k e = Some r -> r = e.
Proof. intros hook k e r H. unfold unchanged in H. destruct (hook k e) as [e'|]; [|discriminate]. destruct (sexp_eqb e' e); congruence. Qed.

Lemma checked_boot : forall gt exports hook k e n r, hboot gt exports (unchanged hook) k e n = Some r -> hboot gt exports hook k e n = Some r.
Proof.
  intros gt exports hook k e n r. apply (hboot_more gt exports (unchanged hook) hook eq); auto.
  - intros a b <-. eauto.
  - intros a b <-. auto.
  - intros a b e0 r0 <-. apply unchanged_hook.
Qed.
Lemma boot_more : forall gt exports k k' e n r, k <= k' -> boot gt exports k e n = Some r -> boot gt exports k' e n = Some r.
Proof.
  intros gt exports k k' e n r H. rewrite <- !hboot_id. apply (hboot_more gt exports _ _ le); auto.
  intros a [|b] L; [lia|]. exists b. split; [reflexivity|lia].
Qed.
Lemma checked_plain : forall gt exports hook k e n r, hboot gt exports (unchanged hook) k e n = Some r -> boot gt exports k e n = Some r.
Proof.
  intros gt exports hook k e n r. rewrite <- hboot_id. apply (hboot_more gt exports _ _ eq); auto.
  - intros a b <-. eauto.
  - intros a b <-. auto.
  - intros a b e0 r0 <- H. apply unchanged_id in H. now subst.
Qed.
