(** Proofs about the hash trie, interning and global variables. *)
From Coq Require Import ZArith Bool List Ascii Lia Arith.
From Verif Require Import Base ListLib StrModel StrProofs NumModel NumProofs TrieModel.
Import ListNotations.
Open Scope Z_scope.

Section Trie.
  Context {K V : Type} (eqb : K -> K -> bool) (hash : K -> Z).
  Hypothesis eqb_spec : forall a b, eqb a b = true <-> a = b.

  Lemma lookup_insert_same : forall (t : trie K V) h k v, lookup eqb (insert eqb t h k v) h k = Some v.
  Proof.
    assert (Hr : forall k, eqb k k = true) by (intro; now apply eqb_spec).
    intros t; induction t as [|k0 v0 c0 IH0 c1 IH1 c2 IH2 c3 IH3]; intros h k v; cbn [insert].
    - cbn [lookup]. now rewrite Hr.
    - destruct (eqb k k0) eqn:E.
      + cbn [lookup]. now rewrite E.
      + cbv zeta. destruct (h / 2^62) as [|p|p] eqn:Eh;
          [|destruct p as [p|p|]; [|destruct p as [p|p|]|]|];
          cbn [lookup]; rewrite E; cbv zeta; rewrite Eh; auto.
  Qed.

  Lemma lookup_insert_other : forall (t : trie K V) h h' k k' v, k <> k' ->
    lookup eqb (insert eqb t h k v) h' k' = lookup eqb t h' k'.
  Proof.
    intros t; induction t as [|k0 v0 c0 IH0 c1 IH1 c2 IH2 c3 IH3]; intros h h' k k' v Hne.
    - cbn [insert lookup]. assert (eqb k' k = false) as ->.
      { apply not_true_is_false. intro H. apply eqb_spec in H. congruence. }
      destruct (h' / 2^62) as [|p|p]; [|destruct p as [p|p|]; [|destruct p as [p|p|]|]|]; reflexivity.
    - cbn [insert]. destruct (eqb k k0) eqn:E.
      + apply eqb_spec in E. subst k0. cbn [lookup].
        assert (eqb k' k = false) as ->.
        { apply not_true_is_false. intro H. apply eqb_spec in H. congruence. }
        reflexivity.
      + cbv zeta.
        destruct (h / 2^62) as [|p|p]; [|destruct p as [p|p|]; [|destruct p as [p|p|]|]|];
          cbn [lookup]; destruct (eqb k' k0); auto; cbv zeta;
          destruct (h' / 2^62) as [|q|q]; auto; destruct q as [q|q|]; auto;
          destruct q as [q|q|]; auto.
  Qed.

  Lemma map_get_set : forall (t : trie K V) k v k',
    (k = k' -> map_get eqb hash (map_set eqb hash t k v) k' = Some v) /\
    (k <> k' -> map_get eqb hash (map_set eqb hash t k v) k' = map_get eqb hash t k').
  Proof.
    intros t k v k'. unfold map_get, map_set. split.
    - intros <-. apply lookup_insert_same.
    - apply lookup_insert_other.
  Qed.
End Trie.

Lemma strEQ_spec : forall a b, strEQ a b = true <-> a = b.
Proof. intros a b. unfold strEQ. rewrite Z.eqb_eq. apply strCmp_zero. Qed.

Lemma sget_same : forall V (t : trie bytes V) k v,
  map_get strEQ fnv1a64 (map_set strEQ fnv1a64 t k v) k = Some v.
Proof. intros. now apply (map_get_set strEQ fnv1a64 strEQ_spec). Qed.
Lemma sget_other : forall V (t : trie bytes V) k k' v, k <> k' ->
  map_get strEQ fnv1a64 (map_set strEQ fnv1a64 t k v) k' = map_get strEQ fnv1a64 t k'.
Proof. intros. now apply (map_get_set strEQ fnv1a64 strEQ_spec). Qed.

(** ** interning *)
Definition addr_ok (a : Z) := 0 <= a < 2^48.

Definition sym_inv (st : symtab) : Prop :=
  (forall n a, map_get strEQ fnv1a64 (st_map st) n = Some a <-> In (a, n) (st_mem st)) /\
  (forall a n, In (a, n) (st_mem st) -> addr_ok a) /\
  NoDup (map fst (st_mem st)).

Lemma sym_empty_inv : sym_inv sym_empty.
Proof.
  split; [|split].
  - intros n a. cbn. split; [discriminate|intros []].
  - intros a n [].
  - constructor.
Qed.

Definition fresh_for (st : symtab) (a : Z) := addr_ok a /\ ~ In a (map fst (st_mem st)).

Lemma nodup_fst_inj : forall (l : list (Z * bytes)) a n n',
  NoDup (map fst l) -> In (a, n) l -> In (a, n') l -> n = n'.
Proof.
  intros l; induction l as [|[x y] l IH]; intros a n n' Hd H H'; [destruct H|].
  cbn in Hd. inversion Hd as [|? ? Hnin Hd']; subst.
  destruct H as [H|H], H' as [H'|H'].
  - congruence.
  - exfalso. apply Hnin. injection H as -> ->. change a with (fst (a, n')). now apply in_map.
  - exfalso. apply Hnin. injection H' as -> ->. change a with (fst (a, n)). now apply in_map.
  - eapply IH; eauto.
Qed.

Lemma intern_step : forall st s a, sym_inv st -> fresh_for st a ->
  exists st' o p, intern st s a = Ok (st', o) /\ sym_inv st' /\
    (forall x, In x (st_mem st) -> In x (st_mem st')) /\
    In (p, cstr s) (st_mem st') /\ addr_ok p /\ makeNaNPtr p TAG_SYMBOL = Ok o.
Proof.
  intros st s a (Hm & Ha & Hd) [Hok Hfr]. unfold intern.
  destruct (map_get strEQ fnv1a64 (st_map st) (cstr s)) as [p|] eqn:E.
  - apply Hm in E. pose proof (Ha _ _ E) as Hp. unfold addr_ok in Hp.
    destruct (makeNaNPtr p TAG_SYMBOL) as [o| |] eqn:Eo;
      try (rewrite makeNaNPtr_ok in Eo by (unfold TAG_SYMBOL; lia); discriminate).
    exists st, o, p. cbn [omap]. split; [reflexivity|]. split; [split; [exact Hm|split; assumption]|].
    split; [auto|]. split; [exact E|]. split; [unfold addr_ok; lia|exact Eo].
  - unfold addr_ok in Hok.
    destruct (makeNaNPtr a TAG_SYMBOL) as [o| |] eqn:Eo;
      try (rewrite makeNaNPtr_ok in Eo by (unfold TAG_SYMBOL; lia); discriminate).
    cbn [omap]. eexists _, o, a. split; [reflexivity|]. cbn [st_map st_mem].
    split; [|split; [intros x Hx; now right|split; [now left|split; [exact Hok|exact Eo]]]].
    split; [|split].
    + cbn [st_map st_mem]. intros n b. split.
      * intro H. destruct (list_eq_dec ascii_dec (cstr s) n) as [<-|Hne].
        -- rewrite sget_same in H. injection H as <-. now left.
        -- rewrite sget_other in H by assumption. right. now apply Hm.
      * intros [H|H].
        -- injection H as <- <-. apply sget_same.
        -- destruct (list_eq_dec ascii_dec (cstr s) n) as [<-|Hne].
           ++ apply Hm in H. congruence.
           ++ rewrite sget_other by assumption. now apply Hm.
    + cbn [st_mem]. intros b n [H|H]; [injection H as <- <-; exact Hok|now apply (Ha b n)].
    + cbn [st_mem map fst]. constructor; assumption.
Qed.

Lemma find_addr : forall (l : list (Z * bytes)) a n, NoDup (map fst l) -> In (a, n) l ->
  find (fun e => fst e =? a) l = Some (a, n).
Proof.
  intros l; induction l as [|[x y] l IH]; intros a n Hd H; [destruct H|].
  cbn [find fst]. cbn in Hd. inversion Hd as [|? ? Hnin Hd']; subst.
  destruct H as [H|H].
  - injection H as -> ->. now rewrite Z.eqb_refl.
  - destruct (Z.eqb_spec x a) as [->|]; [|now apply IH].
    exfalso. apply Hnin. change a with (fst (a, n)). now apply in_map.
Qed.

Lemma symbolStr_of : forall st p n o sz, sym_inv st -> In (p, n) (st_mem st) ->
  makeNaNPtr p TAG_SYMBOL = Ok o -> (length n + 1 < sz)%nat -> symbolStr st o sz = Ok n.
Proof.
  intros st p n o sz (Hm & Ha & Hd) Hin Ho Hsz. pose proof (Ha _ _ Hin) as Hp. unfold addr_ok in Hp.
  rewrite makeNaNPtr_ok in Ho by (unfold TAG_SYMBOL; lia). apply Ok_inj in Ho. subst o.
  unfold symbolStr. rewrite boxed_isobj, boxed_tag, boxed_ptr by (unfold TAG_SYMBOL; lia).
  rewrite Z.eqb_refl. cbn [andb]. rewrite (find_addr _ _ _ Hd Hin).
  unfold assertT. destruct (Nat.ltb_spec (length n + 1) sz); [reflexivity|lia].
Qed.

(** ** globals *)
Definition genv_inv (g : genv) : Prop :=
  (forall s i, map_get strEQ fnv1a64 (g_env g) s = Some i -> (i < length (g_vals g))%nat) /\
  (forall s s' i, map_get strEQ fnv1a64 (g_env g) s = Some i ->
     map_get strEQ fnv1a64 (g_env g) s' = Some i -> s = s').

(** the value a name has, independent of the table's layout *)
Definition gval (g : genv) (s : bytes) : Z :=
  match map_get strEQ fnv1a64 (g_env g) s with
  | Some i => match nth_error (g_vals g) i with Some v => v | None => Undef end
  | None => Undef
  end.

Lemma genv_empty_inv : genv_inv genv_empty.
Proof. split; intros s; intros; cbn in *; discriminate. Qed.

Lemma bind_spec : forall g s, genv_inv g ->
  exists g' i, bindSymbol g s = (g', i) /\ genv_inv g' /\
    map_get strEQ fnv1a64 (g_env g') s = Some i /\ (i < length (g_vals g'))%nat /\
    (forall s' j, map_get strEQ fnv1a64 (g_env g) s' = Some j -> map_get strEQ fnv1a64 (g_env g') s' = Some j) /\
    (forall s', gval g' s' = gval g s').
Proof.
  intros g s [H1 H2]. unfold bindSymbol.
  destruct (map_get strEQ fnv1a64 (g_env g) s) as [i|] eqn:E.
  - exists g, i. repeat split; auto. eauto.
  - eexists _, _. split; [reflexivity|]. cbn [g_env g_vals].
    split; [split|].
    + cbn [g_env g_vals]. intros s' i. rewrite app_length. cbn [length].
      destruct (list_eq_dec ascii_dec s s') as [<-|Hne].
      * rewrite sget_same. intro H. injection H as <-. lia.
      * rewrite sget_other by assumption. intro H. apply H1 in H. lia.
    + cbn [g_env]. intros s1 s2 i.
      destruct (list_eq_dec ascii_dec s s1) as [<-|Hne1], (list_eq_dec ascii_dec s s2) as [<-|Hne2];
        rewrite ?sget_same, ?sget_other by assumption; auto.
      * intros Ha Hb. injection Ha as <-. apply H1 in Hb. lia.
      * intros Ha Hb. injection Hb as <-. apply H1 in Ha. lia.
      * apply H2.
    + split; [apply sget_same|]. split; [rewrite app_length; cbn; lia|]. split.
      * intros s' j Hj. rewrite sget_other; [exact Hj|congruence].
      * intro s'. unfold gval. cbn [g_env g_vals].
        destruct (list_eq_dec ascii_dec s s') as [<-|Hne].
        -- rewrite sget_same, E. rewrite nth_error_app2, Nat.sub_diag by lia. reflexivity.
        -- rewrite sget_other by assumption.
           destruct (map_get strEQ fnv1a64 (g_env g) s') eqn:E'; [|reflexivity].
           apply H1 in E'. now rewrite nth_error_app1 by assumption.
Qed.

Lemma primSet_spec : forall g s v, genv_inv g ->
  exists g', primSet g s v = Ok g' /\ genv_inv g' /\
    (forall s' j, map_get strEQ fnv1a64 (g_env g) s' = Some j -> map_get strEQ fnv1a64 (g_env g') s' = Some j) /\
    gval g' s = v /\ (forall s', s' <> s -> gval g' s' = gval g s').
Proof.
  intros g s v Hg. unfold primSet.
  destruct (bind_spec g s Hg) as (g1 & i & -> & [H1 H2] & Hi & Hlt & Hmono & Hval).
  unfold globalSet. destruct (Nat.ltb_spec i (length (g_vals g1))); [|lia].
  eexists. split; [reflexivity|]. split; [split|].
  - cbn [g_env g_vals]. intros s' j. rewrite list_set_length. apply H1.
  - exact H2.
  - cbn [g_env g_vals]. split; [exact Hmono|]. split.
    + unfold gval. cbn [g_env g_vals]. rewrite Hi, nth_error_list_set_eq by assumption. reflexivity.
    + intros s' Hne. rewrite <- Hval. unfold gval. cbn [g_env g_vals].
      destruct (map_get strEQ fnv1a64 (g_env g1) s') as [j|] eqn:E; [|reflexivity].
      rewrite nth_error_list_set_neq; [reflexivity|].
      intros <-. apply Hne. eapply H2; eassumption.
Qed.

Lemma symbolGet_spec : forall g s, genv_inv g ->
  exists g', symbolGet g s = Ok (g', gval g s) /\ genv_inv g' /\
    (forall s' j, map_get strEQ fnv1a64 (g_env g) s' = Some j -> map_get strEQ fnv1a64 (g_env g') s' = Some j) /\
    (forall s', gval g' s' = gval g s').
Proof.
  intros g s Hg. unfold symbolGet.
  destruct (bind_spec g s Hg) as (g1 & i & -> & Hg1 & Hi & Hlt & Hmono & Hval).
  unfold globalRef. destruct (nth_error (g_vals g1) i) as [v|] eqn:E.
  2:{ apply nth_error_None in E. lia. }
  cbn [omap]. exists g1. assert (v = gval g s) as ->.
  { rewrite <- Hval. unfold gval. now rewrite Hi, E. }
  auto.
Qed.
