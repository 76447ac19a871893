(** Lemmas about values, primitives and calls, and the value relation that
    carries every compiler pass. *)
From Coq Require Import List ZArith Bool String Arith Lia.
From Verif Require Import CoreSpec TocModel TocSem.
Import ListNotations.
Local Open Scope list_scope.
Local Open Scope nat_scope.

Lemma name_eqb_spec : forall a b, reflect (a = b) (name_eqb a b).
Proof.
  intros [s|j] [t|k]; cbn; try (constructor; congruence).
  - destruct (String.eqb_spec s t); constructor; congruence.
  - destruct (Nat.eqb_spec j k); constructor; congruence.
Qed.
Lemma name_eqb_refl : forall a, name_eqb a a = true.
Proof. intro a. destruct (name_eqb_spec a a); congruence. Qed.

Lemma mem_spec : forall x l, reflect (In x l) (mem x l).
Proof.
  intros x l. unfold mem. destruct (existsb (name_eqb x) l) eqn:E; constructor.
  - apply existsb_exists in E. destruct E as (y & H & E). destruct (name_eqb_spec x y); congruence.
  - intro H. assert (existsb (name_eqb x) l = true); [|congruence].
    apply existsb_exists. exists x. split; [exact H|apply name_eqb_refl].
Qed.

Lemma in_union : forall x a b, In x (union a b) <-> In x a \/ In x b.
Proof.
  intros x a b. induction a as [|y a IH]; cbn; [tauto|].
  destruct (mem_spec y b) as [H|H].
  - rewrite IH. split; [tauto|]. intros [[<-|?]|?]; tauto.
  - cbn. rewrite IH. tauto.
Qed.
Lemma in_diff : forall x a b, In x (diff a b) <-> In x a /\ ~ In x b.
Proof.
  intros x a b. induction a as [|y a IH]; cbn; [tauto|].
  destruct (mem_spec y b) as [H|H].
  - rewrite IH. split; [tauto|]. intros [[<-|?] ?]; tauto.
  - cbn. rewrite IH. split; [intros [<-|?]; tauto|tauto].
Qed.
Lemma in_unions : forall x l, In x (unions l) <-> exists s, In s l /\ In x s.
Proof.
  intros x l. unfold unions.
  assert (H : forall acc, In x (fold_left union l acc) <-> In x acc \/ exists s, In s l /\ In x s).
  { induction l as [|s l IH]; intro acc; cbn.
    - split; [tauto|]. intros [?|(s & [] & _)]; auto.
    - rewrite IH, in_union. split.
      + intros [[?|?]|(t & ? & ?)]; [tauto|right; exists s; auto|right; exists t; auto].
      + intros [?|(t & [<-|?] & ?)]; [tauto|tauto|right; exists t; auto]. }
  rewrite H. cbn. split; [intros [[]|?]; auto|auto].
Qed.

Lemma index_some : forall x l i, index x l = Some i -> nth_error l i = Some x.
Proof.
  induction l as [|y l IH]; intros i H; cbn in H; [discriminate|].
  destruct (name_eqb_spec x y); [injection H as <-; cbn; congruence|].
  destruct (index x l) as [j|]; [|discriminate]. injection H as <-. cbn. now apply IH.
Qed.
Lemma index_in : forall x l, In x l <-> exists i, index x l = Some i.
Proof.
  induction l as [|y l IH]; cbn; [split; [intros []|intros (i & H); discriminate]|].
  destruct (name_eqb_spec x y) as [->|N].
  - split; [intros _; now exists 0|intros _; now left].
  - split.
    + intros [H|H]; [congruence|]. apply IH in H. destruct H as (i & ->). now exists (S i).
    + intros (i & H). right. apply IH. destruct (index x l) as [j|]; [now exists j|discriminate].
Qed.
Lemma index_none : forall x l, index x l = None <-> ~ In x l.
Proof.
  intros x l. rewrite index_in. destruct (index x l) as [i|].
  - split; [discriminate|]. intro H. exfalso. apply H. now exists i.
  - split; [|auto]. intros _ (i & H). discriminate.
Qed.

Lemma lookup_in : forall {A} x (l : list (name * A)) v, lookup x l = Some v -> In x (map fst l).
Proof.
  induction l as [|(y, w) l IH]; intros v H; cbn in *; [discriminate|].
  destruct (name_eqb_spec x y); [left; congruence|right; eauto].
Qed.
Lemma in_lookup : forall {A} x (l : list (name * A)), In x (map fst l) -> exists v, lookup x l = Some v.
Proof.
  induction l as [|(y, w) l IH]; intros H; cbn in *; [contradiction|].
  destruct (name_eqb_spec x y); [eauto|]. destruct H as [H|H]; [congruence|auto].
Qed.
Lemma lookup_app : forall {A} x (l1 l2 : list (name * A)),
  lookup x (l1 ++ l2) = match lookup x l1 with Some v => Some v | None => lookup x l2 end.
Proof.
  induction l1 as [|(y, w) l1 IH]; intro l2; cbn; [reflexivity|]. destruct (name_eqb x y); auto.
Qed.
Lemma lookup_combine : forall {A} x ns (vs : list A),
  lookup x (combine ns vs) =
  match index x ns with Some i => nth_error vs i | None => None end.
Proof.
  induction ns as [|y ns IH]; intros vs; cbn; [reflexivity|].
  destruct vs as [|v vs]; cbn.
  - destruct (name_eqb x y); [reflexivity|]. destruct (index x ns) as [i|]; reflexivity.
  - destruct (name_eqb x y); [reflexivity|]. rewrite IH. destruct (index x ns); reflexivity.
Qed.
Lemma combine_fst_snd : forall {A} (l : list (name * A)), combine (map fst l) (map snd l) = l.
Proof. induction l as [|(x, v) l IH]; cbn; congruence. Qed.

(** * Results that all large enough fuels agree on *)
Definition evt {A} (f : nat -> option A) (P : A -> Prop) : Prop :=
  exists a m, P a /\ forall m', m <= m' -> f m' = Some a.

Lemma evt_now : forall {A} (f : nat -> option A) (P : A -> Prop) a,
  P a -> (forall m, f (S m) = Some a) -> evt f P.
Proof.
  intros A f P a H E. exists a, 1. split; [exact H|]. intros [|m] L; [lia|apply E].
Qed.
Lemma evt_const : forall {A} (P : A -> Prop) a, P a -> evt (fun _ => Some a) P.
Proof. intros. exists a, 0. auto. Qed.
Lemma evt_S : forall {A} (f : nat -> option A) (P : A -> Prop), evt (fun m => f (S m)) P -> evt f P.
Proof.
  intros A f P (a & m & H & E). exists a, (S m). split; [exact H|].
  intros [|m'] L; [lia|]. apply E. lia.
Qed.
Lemma evt_S_inv : forall {A} (f : nat -> option A) (P : A -> Prop), evt f P -> evt (fun m => f (S m)) P.
Proof. intros A f P (a & m & H & E). exists a, m. split; [exact H|]. intros m' L. apply E. lia. Qed.
Lemma evt_bind : forall {A B} (f : nat -> option A) (g : nat -> A -> option B) (P : A -> Prop) (Q : B -> Prop),
  evt f P -> (forall a, P a -> evt (fun m => g m a) Q) ->
  evt (fun m => match f m with Some a => g m a | None => None end) Q.
Proof.
  intros A B f g P Q (a & m & H & E) K. destruct (K a H) as (b & m2 & HQ & E2).
  exists b, (max m m2). split; [exact HQ|]. intros m' L. rewrite E by lia. apply E2. lia.
Qed.
Lemma evt_weaken : forall {A} (f : nat -> option A) (P Q : A -> Prop), (forall a, P a -> Q a) -> evt f P -> evt f Q.
Proof. intros A f P Q H (a & m & HP & E). exists a, m. auto. Qed.
Lemma evt_ext : forall {A} (f g : nat -> option A) (P : A -> Prop), (forall m, f m = g m) -> evt f P -> evt g P.
Proof. intros A f g P H (a & m & HP & E). exists a, m. split; [exact HP|]. intros m' L. rewrite <- H. auto. Qed.

(** * The value relation

    [crel] relates the code of two closures; [sel c1 c2 k i j] says that, when the
    first has k captured values, its i-th and the j-th of the other must be
    related. *)
Section Rel.
  Context {C1 C2 : Type} (crel : C1 -> C2 -> Prop) (sel : C1 -> C2 -> nat -> nat -> nat -> Prop).
  Context (ar1 : C1 -> nat) (ar2 : C2 -> nat).

  Inductive vrel : val C1 -> val C2 -> Prop :=
  | r_num z : vrel (VNum z) (VNum z)
  | r_sym x : vrel (VSym x) (VSym x)
  | r_str s : vrel (VStr s) (VStr s)
  | r_true : vrel VTrue VTrue
  | r_false : vrel VFalse VFalse
  | r_nil : vrel VNil VNil
  | r_cons a1 a2 d1 d2 : vrel a1 a2 -> vrel d1 d2 -> vrel (VCons a1 d1) (VCons a2 d2)
  | r_clo c1 c2 vs1 vs2 : crel c1 c2 ->
      (forall i j, sel c1 c2 (List.length vs1) i j -> exists v1 v2, nth_error vs1 i = Some v1 /\ nth_error vs2 j = Some v2 /\ vrel v1 v2) ->
      vrel (VClo c1 vs1) (VClo c2 vs2)
  | r_pap f1 f2 l1 l2 k : vrel f1 f2 -> Forall2 vrel l1 l2 ->
      need ar1 f1 = Some k -> List.length l1 < k -> vrel (VPap f1 l1) (VPap f2 l2)
  | r_prim p : vrel (VPrim p) (VPrim p).

  Definition grel (G1 : store C1) (G2 : store C2) : Prop :=
    (g_next G1 = g_next G2 /\ forall x, g_ver G1 x = g_ver G2 x) /\
    forall x, match g_val G1 x, g_val G2 x with
              | Some v1, Some v2 => vrel v1 v2
              | None, None => True
              | _, _ => False
              end.

  Definition arel (a1 : ans C1) (a2 : ans C2) : Prop :=
    match a1, a2 with
    | AVal v1, AVal v2 => vrel v1 v2
    | AGlob x, AGlob y => x = y
    | _, _ => False
    end.

  Definition rres (r1 : val C1 * store C1) (r2 : val C2 * store C2) : Prop :=
    vrel (fst r1) (fst r2) /\ grel (snd r1) (snd r2).
  Definition rans (r1 : ans C1 * store C1) (r2 : ans C2 * store C2) : Prop :=
    arel (fst r1) (fst r2) /\ grel (snd r1) (snd r2).

  Lemma quoted_rel : forall s, vrel (quoted s) (quoted s).
  Proof. induction s; cbn; constructor; auto. Qed.

  Lemma force_rel : forall a1 a2 G1 G2 v1, arel a1 a2 -> grel G1 G2 -> force a1 G1 = Some v1 ->
    exists v2, force a2 G2 = Some v2 /\ vrel v1 v2.
  Proof.
    intros [v|x] [w|y] G1 G2 v1 A (_ & HG) E; cbn in *; try contradiction.
    - injection E as <-. eauto.
    - subst y. specialize (HG x). rewrite E in HG. destruct (g_val G2 x); [eauto|contradiction].
  Qed.
  Lemma force_all_rel : forall l1 l2 G1 G2 vs1, Forall2 arel l1 l2 -> grel G1 G2 -> force_all l1 G1 = Some vs1 ->
    exists vs2, force_all l2 G2 = Some vs2 /\ Forall2 vrel vs1 vs2.
  Proof.
    induction l1 as [|a1 l1 IH]; intros l2 G1 G2 vs1 F HG E; inversion F; subst; cbn in *.
    - injection E as <-. exists []. auto.
    - destruct (force a1 G1) as [v1|] eqn:E1; [|discriminate].
      destruct (force_all l1 G1) as [w1|] eqn:E2; [|discriminate]. injection E as <-.
      destruct (force_rel _ _ _ _ _ H1 HG E1) as (v2 & -> & R1).
      destruct (IH _ _ _ _ H3 HG E2) as (w2 & -> & R2). eauto.
  Qed.
  Lemma forced_rel : forall r1 r2 o, rans r1 r2 -> forced (Some r1) = Some o ->
    exists o2, forced (Some r2) = Some o2 /\ rres o o2.
  Proof.
    intros (a1 & G1) (a2 & G2) o (HA & HG) E. cbn in *.
    destruct (force a1 G1) as [v1|] eqn:E1; [|discriminate]. injection E as <-.
    destruct (force_rel _ _ _ _ _ HA HG E1) as (v2 & -> & R). eexists. split; [reflexivity|]. split; auto.
  Qed.

  Lemma veq_rel : forall a1 a2, vrel a1 a2 -> forall b1 b2, vrel b1 b2 -> veq a1 b1 = veq a2 b2.
  Proof.
    induction a1; intros w H b1 b2 Hb; inversion H; subst; inversion Hb; subst; cbn; try reflexivity.
    match goal with
    | A : vrel a1_1 ?x, B : vrel ?y ?z |- match veq a1_1 ?y with _ => _ end = _ =>
        rewrite (IHa1_1 _ A _ _ B); destruct (veq x z) as [[]|]; auto
    end.
  Qed.

  Lemma g_set_rel : forall G1 G2 x v1 v2, grel G1 G2 -> vrel v1 v2 -> grel (g_set G1 x v1) (g_set G2 x v2).
  Proof.
    intros G1 G2 x v1 v2 ((HN & HT) & HG) HV. split; [split; [exact HN|intro y; cbn; now rewrite HT]|]. intro y. cbn.
    destruct (name_eqb y x); [exact HV|apply HG].
  Qed.

  Lemma prim_rel : forall ar p l1 l2 G1 G2 v G1', Forall2 vrel l1 l2 -> grel G1 G2 ->
    prim_sem ar p l1 G1 = Some (v, G1') ->
    exists r2, prim_sem ar p l2 G2 = Some r2 /\ rres (v, G1') r2.
  Proof.
    intros ar p l1 l2 G1 G2 v G1' F HG E.
    assert (OB : forall b, vrel (of_bool b) (of_bool b)) by (intros []; constructor).
    destruct F as [|a1 a2 r1 r2 Ha F]; [|destruct F as [|b1 b2 r1 r2 Hb F]; [|destruct F as [|c1 c2 r1 r2 Hc F]]].
    - destruct p; cbn in E; try discriminate. injection E as <- <-.
      eexists. split; [reflexivity|]. destruct HG as ((HN & HT) & HG). cbn. rewrite HN.
      split; [constructor|]. split; [split; [cbn; congruence|exact HT]|exact HG].
    - destruct p; cbn in E; try discriminate;
        try (destruct Ha; cbn in E; try discriminate; injection E as <- <-;
             eexists; (split; [reflexivity|]); split; cbn; auto; try constructor; fail).
    - destruct p; cbn [prim_sem] in E |- *; try (destruct Ha; discriminate).
      + destruct Ha; try discriminate. cbn in E. injection E as <- <-.
        eexists. split; [reflexivity|]. split; [exact Hb|now apply g_set_rel].
      + injection E as <- <-. eexists. split; [reflexivity|]. split; [now constructor|exact HG].
      + destruct Ha; try discriminate. destruct Hb; try discriminate. destruct (ar PAdd z z0); [|discriminate].
        injection E as <- <-. eexists. split; [reflexivity|]. split; [constructor|exact HG].
      + destruct Ha; try discriminate. destruct Hb; try discriminate. destruct (ar PSub z z0); [|discriminate].
        injection E as <- <-. eexists. split; [reflexivity|]. split; [constructor|exact HG].
      + destruct Ha; try discriminate. destruct Hb; try discriminate. destruct (ar PMul z z0); [|discriminate].
        injection E as <- <-. eexists. split; [reflexivity|]. split; [constructor|exact HG].
      + destruct Ha; try discriminate. destruct Hb; try discriminate. destruct (ar PDiv z z0); [|discriminate].
        injection E as <- <-. eexists. split; [reflexivity|]. split; [constructor|exact HG].
      + rewrite <- (veq_rel _ _ Ha _ _ Hb). destruct (veq a1 b1); [|discriminate].
        injection E as <- <-. eexists. split; [reflexivity|]. split; [apply OB|exact HG].
      + destruct Ha; try discriminate. destruct Hb; try discriminate. destruct (ar PGt z z0); [|discriminate].
        injection E as <- <-. eexists. split; [reflexivity|]. split; [apply OB|exact HG].
      + destruct Ha; try discriminate. destruct Hb; try discriminate. destruct (ar PLt z z0); [|discriminate].
        injection E as <- <-. eexists. split; [reflexivity|]. split; [apply OB|exact HG].
    - exfalso. destruct p; cbn in E; try discriminate; destruct Ha; try discriminate; destruct Hb; discriminate.
  Qed.

  Context (ar : arith) (crel_arity : forall c1 c2, crel c1 c2 -> ar1 c1 = ar2 c2).

  Lemma Forall2_len : forall {A B} (R : A -> B -> Prop) l1 l2, Forall2 R l1 l2 -> List.length l1 = List.length l2.
  Proof. intros A B R l1 l2 H. induction H; cbn; congruence. Qed.

  Lemma need_rel : forall f1 f2, vrel f1 f2 -> need ar1 f1 = need ar2 f2.
  Proof.
    induction f1; intros f2 H; inversion H; subst; cbn; try reflexivity.
    - now rewrite (crel_arity c c2).
    - match goal with A : vrel f1 ?g |- _ => rewrite <- (IHf1 _ A) end.
      destruct (need ar1 f1); [|reflexivity]. do 2 f_equal. eapply Forall2_len; eauto.
  Qed.

  Context (run1 : C1 -> list (val C1) -> list (val C1) -> store C1 -> option (val C1 * store C1)).
  Context (run2 : nat -> C2 -> list (val C2) -> list (val C2) -> store C2 -> option (val C2 * store C2)).
  Hypothesis run_rel : forall c1 c2 vs1 vs2 l1 l2 G1 G2 r,
    vrel (VClo c1 vs1) (VClo c2 vs2) -> Forall2 vrel l1 l2 -> List.length l1 = ar1 c1 -> grel G1 G2 ->
    run1 c1 vs1 l1 G1 = Some r -> evt (fun m => run2 m c2 vs2 l2 G2) (rres r).

  Lemma exact_rel : forall f1 f2 l1 l2 G1 G2 r, vrel f1 f2 -> Forall2 vrel l1 l2 ->
    need ar1 f1 = Some (List.length l1) ->
    grel G1 G2 -> exact ar run1 f1 l1 G1 = Some r ->
    evt (fun m => exact ar (run2 m) f2 l2 G2) (rres r).
  Proof.
    induction f1; intros f2 l1 l2 G1 G2 r HF HL HN HG E; inversion HF; subst; cbn in E; try discriminate.
    - cbn. eapply run_rel; eauto. cbn in HN. congruence.
    - cbn. cbn [need] in HN. match goal with A : need ar1 f1 = Some _ |- _ => rewrite A in HN end.
      injection HN as HN.
      eapply IHf1; eauto; [now apply Forall2_app|].
      match goal with A : need ar1 f1 = Some _ |- _ => rewrite A end. f_equal. rewrite app_length. lia.
    - cbn. destruct r as (v, G'). destruct (prim_rel _ _ _ _ _ _ _ _ HL HG E) as (r2 & -> & R).
      now apply evt_const.
  Qed.

  Lemma Forall2_firstn : forall {A B} (R : A -> B -> Prop) n l1 l2, Forall2 R l1 l2 -> Forall2 R (firstn n l1) (firstn n l2).
  Proof. intros A B R n l1 l2 H. revert n. induction H; intros [|n]; cbn; auto. Qed.
  Lemma Forall2_skipn : forall {A B} (R : A -> B -> Prop) n l1 l2, Forall2 R l1 l2 -> Forall2 R (skipn n l1) (skipn n l2).
  Proof. intros A B R n l1 l2 H. revert n. induction H; intros [|n]; cbn; auto. Qed.

  Lemma apply_rel : forall n f1 f2 l1 l2 G1 G2 r, vrel f1 f2 -> Forall2 vrel l1 l2 -> grel G1 G2 ->
    apply ar ar1 run1 n f1 l1 G1 = Some r ->
    evt (fun m => apply ar ar2 (run2 m) m f2 l2 G2) (rres r).
  Proof.
    assert (X : forall n f1 f2 l1 l2 G1 G2 r, vrel f1 f2 -> Forall2 vrel l1 l2 -> grel G1 G2 ->
      apply ar ar1 run1 n f1 l1 G1 = Some r ->
      exists r2 m0, rres r r2 /\ forall m m1, m0 <= m -> m0 <= m1 -> apply ar ar2 (run2 m) m1 f2 l2 G2 = Some r2).
    { induction n as [|n IH]; intros f1 f2 l1 l2 G1 G2 r HF HL HG E; [discriminate|]. cbn [apply] in E.
      rewrite (need_rel _ _ HF) in E.
      destruct (need ar2 f2) as [rq|] eqn:En; [|discriminate].
      pose proof (Forall2_len _ _ _ HL) as HLen.
      destruct (Nat.ltb_spec (List.length l1) rq) as [L|L].
      - injection E as <-. exists (match l2 with [] => f2 | _ => VPap f2 l2 end, G2), 1.
        split.
        + split; [|exact HG]. cbn. destruct HL; [exact HF|].
          econstructor; eauto. rewrite (need_rel _ _ HF). exact En.
        + intros m [|m1] _ L1; [lia|]. cbn [apply]. rewrite En, <- HLen.
          destruct (Nat.ltb_spec (List.length l1) rq); [reflexivity|lia].
      - destruct (exact ar run1 f1 (firstn rq l1) G1) as [(v, G3)|] eqn:Ex; [|discriminate].
        assert (HN : need ar1 f1 = Some (List.length (firstn rq l1))).
        { rewrite (need_rel _ _ HF), En. f_equal. rewrite firstn_length. lia. }
        destruct (exact_rel _ _ _ _ _ _ _ HF (Forall2_firstn _ rq _ _ HL) HN HG Ex) as ((v2, G4) & m1 & (HV & HG4) & Em).
        cbn in HV, HG4.
        pose proof (Forall2_skipn _ rq _ _ HL) as HS.
        destruct (skipn rq l1) as [|x xs] eqn:Es1.
        + injection E as <-. exists (v2, G4), (S m1). split; [split; auto|].
          intros m [|m2] L1 L2; [lia|]. cbn [apply]. rewrite En, <- HLen.
          destruct (Nat.ltb_spec (List.length l1) rq); [lia|]. rewrite Em by lia.
          inversion HS. reflexivity.
        + destruct (IH v v2 (x :: xs) (skipn rq l2) G3 G4 r HV HS HG4 E) as (r2 & m2 & R & Em2).
          exists r2, (S (max m1 m2)). split; [exact R|].
          intros m [|m3] L1 L2; [lia|]. cbn [apply]. rewrite En, <- HLen.
          destruct (Nat.ltb_spec (List.length l1) rq); [lia|]. rewrite Em by lia.
          inversion HS as [|y z ys zs A1 A2 A3 A4]; subst. rewrite <- A4 in Em2. apply Em2; lia. }
    intros n f1 f2 l1 l2 G1 G2 r HF HL HG E.
    destruct (X n f1 f2 l1 l2 G1 G2 r HF HL HG E) as (r2 & m0 & R & Em).
    exists r2, m0. split; [exact R|]. intros m L. apply Em; auto.
  Qed.

  (** lists of operands *)
  Lemma ev_list_rel : forall {E1 E2} (ev1 : E1 -> store C1 -> option (ans C1 * store C1))
      (ev2 : nat -> E2 -> store C2 -> option (ans C2 * store C2)) es1 es2,
    Forall2 (fun e1 e2 => forall G1 G2 r, grel G1 G2 -> ev1 e1 G1 = Some r -> evt (fun m => ev2 m e2 G2) (rans r)) es1 es2 ->
    forall G1 G2 l1 G1', grel G1 G2 -> ev_list ev1 es1 G1 = Some (l1, G1') ->
    evt (fun m => ev_list (ev2 m) es2 G2) (fun '(l2, G2') => Forall2 arel l1 l2 /\ grel G1' G2').
  Proof.
    intros E1 E2 ev1 ev2 es1 es2 F. induction F as [|e1 e2 es1 es2 H F IH]; intros G1 G2 l1 G1' HG E; cbn in E.
    - injection E as <- <-. apply evt_const. auto.
    - destruct (ev1 e1 G1) as [(a1, G3)|] eqn:E1'; [|discriminate].
      destruct (ev_list ev1 es1 G3) as [(r1, G4)|] eqn:E2'; [|discriminate]. injection E as <- <-.
      cbn [ev_list].
      eapply evt_bind with (g := fun m '(a, G) => match ev_list (ev2 m) es2 G with Some (la, G2') => Some (a :: la, G2') | None => None end);
        [eapply H; eauto|].
      intros (a2, G5) (HA & HG5). cbn in HA, HG5.
      eapply evt_bind with (g := fun m '(la, G2') => Some (a2 :: la, G2')); [eapply IH; eauto|].
      intros (l2, G6) (HL & HG6). apply evt_const. auto.
  Qed.
End Rel.
