(** Unification and the type checker. *)
From Coq Require Import List ZArith Bool String Arith Lia.
From Verif Require Import CoreSpec TocModel TocSem CoreProofs InferSpec InferModel.
Import ListNotations.
Local Open Scope list_scope.
Local Open Scope nat_scope.

(** * Variables *)
Fixpoint ksize (k : sty) : nat :=
  match k with
  | KThunk a | KList a => S (ksize a)
  | KArr a b => S (ksize a + ksize b)
  | _ => 1
  end.
Lemma ksize_pos : forall k, 0 < ksize k.
Proof. destruct k; cbn; lia. Qed.
Lemma inst_size : forall th v t, In v (vars t) -> t = TVar v \/ ksize (th v) < ksize (inst th t).
Proof.
  intros th v. induction t; cbn; intro H; try contradiction.
  - destruct H as [->|[]]. now left.
  - right. destruct (IHt H) as [->|]; cbn; lia.
  - right. apply in_app_iff in H. destruct H as [H|H]; [destruct (IHt1 H) as [->|]|destruct (IHt2 H) as [->|]]; cbn; lia.
  - right. destruct (IHt H) as [->|]; cbn; lia.
Qed.
Lemma inst_agree : forall th th' t, (forall v, In v (vars t) -> th' v = th v) -> inst th' t = inst th t.
Proof.
  intros th th'. induction t; cbn; intro H; try reflexivity.
  - apply H. now left.
  - now rewrite IHt.
  - rewrite IHt1, IHt2; auto; intros; apply H; apply in_app_iff; auto.
  - now rewrite IHt.
Qed.

(** * Triangular substitutions *)
Lemma tri_app : forall p v u q, tri (p ++ (v, u) :: q) ->
  (forall w, In w (vars u) -> w <> v /\ ~ In w (keys q)) /\ ~ In v (keys p).
Proof.
  induction p as [|(w, t) p IH]; cbn; intros v u q H.
  - destruct H as (_ & _ & H). auto.
  - destruct H as (H1 & H2 & H3). destruct (IH _ _ _ H1) as (A & B). split; [exact A|].
    intros [->|H]; [|contradiction]. apply H2. unfold keys. rewrite map_app. apply in_app_iff. right. now left.
Qed.
Lemma assv_split : forall v s u, assv v s = Some u -> exists p q, s = p ++ (v, u) :: q /\ ~ In v (keys p).
Proof.
  induction s as [|(w, t) s IH]; cbn; intros u H; [discriminate|].
  destruct (Nat.eqb_spec v w) as [->|N].
  - injection H as <-. exists [], s. auto.
  - destruct (IH _ H) as (p & q & -> & B). exists ((w, t) :: p), q. split; [reflexivity|]. cbn. intros [?|?]; [congruence|contradiction].
Qed.
Lemma assv_none : forall v s, assv v s = None <-> ~ In v (keys s).
Proof.
  induction s as [|(w, t) s IH]; cbn; [tauto|]. destruct (Nat.eqb_spec v w) as [->|N]; [split; [discriminate|tauto]|].
  rewrite IH. split; [intros H [?|?]; [congruence|contradiction]|tauto].
Qed.
Lemma assv_in : forall v s u, assv v s = Some u -> In (v, u) s.
Proof. intros v s u H. destruct (assv_split _ _ _ H) as (p & q & -> & _). apply in_app_iff. right. now left. Qed.
Lemma tri_filter : forall f s, tri s -> tri (filter f s).
Proof.
  induction s as [|(v, t) s IH]; cbn; [auto|]. intros (H1 & H2 & H3).
  assert (K : forall w, In w (keys (filter f s)) -> In w (keys s)).
  { intros w H. unfold keys in *. apply in_map_iff in H. destruct H as (p & <- & H). apply filter_In in H. apply in_map. tauto. }
  destruct (f (v, t)); [|auto]. cbn. split; [auto|]. split; [auto|]. intros w Hw. destruct (H3 w Hw). auto.
Qed.

Definition sbelow (n : nat) (s : subst) : Prop := forall v t, In (v, t) s -> v < n /\ below n t.

(** * apply-subst *)
Definition done (s : subst) (t : ty) : Prop := forall v, In v (vars t) -> ~ In v (keys s).
Definition applied (s : subst) (t t' : ty) : Prop :=
  done s t' /\ (forall th, solves th s -> inst th t' = inst th t) /\ (forall n, sbelow n s -> below n t -> below n t').

Lemma apply_done : forall s t, done s t -> evt (fun n => apply_subst n t s) (fun t' => t' = t).
Proof.
  intros s. induction t; intro H; apply evt_S; cbn [apply_subst]; try (now apply evt_const).
  - replace (assv v s) with (@None ty); [now apply evt_const|]. symmetry. apply assv_none. apply H. now left.
  - eapply evt_bind with (g := fun m a => Some (TThunk a)); [exact (IHt H)|]. intros ? ->. now apply evt_const.
  - eapply evt_bind with (g := fun m a => match apply_subst m t2 s with Some b => Some (TArr a b) | None => None end).
    { apply IHt1. intros v Hv. apply H. cbn. apply in_app_iff. auto. }
    intros ? ->. eapply evt_bind with (g := fun m b => Some (TArr t1 b)).
    { apply IHt2. intros v Hv. apply H. cbn. apply in_app_iff. auto. }
    intros ? ->. now apply evt_const.
  - eapply evt_bind with (g := fun m a => Some (TList a)); [exact (IHt H)|]. intros ? ->. now apply evt_const.
Qed.

Lemma apply_ends_h : forall s, tri s -> forall k p q, s = p ++ q -> List.length p = k ->
  forall t, (forall v, In v (vars t) -> ~ In v (keys q)) -> evt (fun n => apply_subst n t s) (applied s t).
Proof.
  intros s HT. induction k as [k IHk] using lt_wf_ind. intros p q E L.
  assert (BASE : forall t, t <> TVar 0 -> vars t = [] -> applied s t t).
  { intros t _ Hv. split; [intros v Hi; rewrite Hv in Hi; contradiction|]. split; auto. }
  induction t; intro H; apply evt_S; cbn [apply_subst]; try (apply evt_const; apply BASE; [discriminate|reflexivity]).
  - destruct (assv v s) as [u|] eqn:EA.
    + destruct (assv_split _ _ _ EA) as (p1 & q1 & E1 & NP).
      assert (HL : List.length p1 < k).
      { destruct (Nat.lt_ge_cases (List.length p1) k) as [|HL]; [assumption|exfalso]. apply (H v ltac:(now left)).
        subst k. assert (X : nth_error s (List.length p1) = Some (v, u)).
        { rewrite E1, nth_error_app2, Nat.sub_diag by lia. reflexivity. }
        rewrite E, nth_error_app2 in X by lia. apply nth_error_In in X. unfold keys. apply in_map_iff. exists (v, u). auto. }
      pose proof HT as HT'. rewrite E1 in HT'. destruct (tri_app _ _ _ _ HT') as (HU & _).
      eapply evt_weaken; [|eapply (IHk (List.length p1) HL p1 ((v, u) :: q1)); [exact E1|reflexivity|]].
      * intros t' (A1 & A2 & A3). split; [exact A1|]. split.
        -- intros th Hth. rewrite (A2 th Hth). cbn. symmetry. apply Hth. now apply assv_in.
        -- intros n Hn Hb. apply A3; [exact Hn|]. apply (Hn v u). now apply assv_in.
      * intros w Hw. destruct (HU w Hw) as (N1 & N2). cbn. intros [?|?]; [congruence|contradiction].
    + apply evt_const. split; [|split; auto]. intros w [->|[]]. now apply assv_none.
  - eapply evt_bind with (g := fun m a => Some (TThunk a)); [exact (IHt H)|]. intros t' (A1 & A2 & A3). apply evt_const.
    split; [exact A1|]. split; [intros th Hth; cbn; now rewrite A2|]. exact A3.
  - eapply evt_bind with (g := fun m a => match apply_subst m t2 s with Some b => Some (TArr a b) | None => None end).
    { apply IHt1. intros v Hv. apply H. cbn. apply in_app_iff. auto. }
    intros t1' (A1 & A2 & A3). eapply evt_bind with (g := fun m b => Some (TArr t1' b)).
    { apply IHt2. intros v Hv. apply H. cbn. apply in_app_iff. auto. }
    intros t2' (B1 & B2 & B3). apply evt_const. split; [|split].
    + intros v Hv. cbn in Hv. apply in_app_iff in Hv. destruct Hv; auto.
    + intros th Hth. cbn. now rewrite A2, B2.
    + intros n Hn Hb v Hv. cbn in Hv. apply in_app_iff in Hv. destruct Hv as [Hv|Hv].
      * apply (A3 n Hn); auto. intros w Hw. apply Hb. cbn. apply in_app_iff. auto.
      * apply (B3 n Hn); auto. intros w Hw. apply Hb. cbn. apply in_app_iff. auto.
  - eapply evt_bind with (g := fun m a => Some (TList a)); [exact (IHt H)|]. intros t' (A1 & A2 & A3). apply evt_const.
    split; [exact A1|]. split; [intros th Hth; cbn; now rewrite A2|]. exact A3.
Qed.
Lemma apply_ends : forall s t, tri s -> evt (fun n => apply_subst n t s) (applied s t).
Proof.
  intros s t HT. eapply (apply_ends_h s HT (List.length s) s []); [now rewrite app_nil_r|reflexivity|]. intros v _ [].
Qed.

Lemma apply_sound : forall th s, solves th s -> forall n t t', apply_subst n t s = Some t' -> inst th t' = inst th t.
Proof.
  intros th s H. induction n as [|n IH]; intros t t' E; [discriminate|]. destruct t; cbn [apply_subst] in E; try (injection E as <-; reflexivity).
  - destruct (assv v s) as [u|] eqn:EA; [|injection E as <-; reflexivity]. rewrite (IH _ _ E). symmetry. apply H. now apply assv_in.
  - destruct (apply_subst n t s) eqn:E1; [|discriminate]. injection E as <-. cbn. now rewrite (IH _ _ E1).
  - destruct (apply_subst n t1 s) eqn:E1; [|discriminate]. destruct (apply_subst n t2 s) eqn:E2; [|discriminate].
    injection E as <-. cbn. now rewrite (IH _ _ E1), (IH _ _ E2).
  - destruct (apply_subst n t s) eqn:E1; [|discriminate]. injection E as <-. cbn. now rewrite (IH _ _ E1).
Qed.

(** * unify *)
Lemma may_bind_some : forall x y v, may_bind x y = Some v -> x = TVar v /\ occur v y = false.
Proof.
  intros x y v H. unfold may_bind, number in H. destruct x; try discriminate. destruct (occur v0 y) eqn:E; [discriminate|].
  injection H as ->. auto.
Qed.
Lemma occur_vars : forall v t, occur v t = true -> In v (vars t).
Proof.
  intros v. induction t; cbn; intro H; try discriminate.
  - apply Nat.eqb_eq in H. auto.
  - apply orb_prop in H. apply in_app_iff. destruct H; auto.
Qed.

(** what is found describes exactly the common instances *)
Theorem unify_solutions : forall n x y s s', unify n x y s = Some (Succ s') ->
  forall th, solves th s' <-> solves th s /\ inst th x = inst th y.
Proof.
  induction n as [|n IH]; intros x y s s' E th; [discriminate|]. cbn [unify] in E.
  destruct (apply_subst n x s) as [x'|] eqn:EX; [|discriminate]. destruct (apply_subst n y s) as [y'|] eqn:EY; [|discriminate].
  assert (R : solves th s -> (inst th x = inst th y <-> inst th x' = inst th y')).
  { intro H. now rewrite (apply_sound _ _ H _ _ _ EX), (apply_sound _ _ H _ _ _ EY). }
  assert (CONS : forall v t, solves th ((v, t) :: s) <-> solves th s /\ th v = inst th t).
  { intros v t. unfold solves. split.
    - intro H. split; [intros; apply H; now right|apply H; now left].
    - intros (H1 & H2) v0 t0 [E0|H0]; [injection E0 as <- <-; exact H2|auto]. }
  unfold unify1 in E. destruct (ty_eq_dec x' y') as [->|N].
  { injection E as <-. split; [intro H; split; [exact H|now apply R]|tauto]. }
  destruct (may_bind x' y') as [v|] eqn:EB1.
  { injection E as <-. apply may_bind_some in EB1. destruct EB1 as (-> & _). rewrite CONS. cbn in R. tauto. }
  destruct (may_bind y' x') as [v|] eqn:EB2.
  { injection E as <-. apply may_bind_some in EB2. destruct EB2 as (-> & _). rewrite CONS. cbn in R.
    split; intros (A & B); (split; [exact A|]); [apply R; auto|]. symmetry. now apply R. }
  destruct x'; destruct y'; try discriminate E.
  - rewrite (IH _ _ _ _ E th). split; intros (A & B); (split; [exact A|]); [apply R; [exact A|]; cbn; now rewrite B|].
    apply R in B; [|exact A]. cbn in B. congruence.
  - destruct (unify n x'1 y'1 s) as [[|s1]|] eqn:E1; try discriminate. rewrite (IH _ _ _ _ E th), (IH _ _ _ _ E1 th).
    split.
    + intros ((A & B) & C). split; [exact A|]. apply R; [exact A|]. cbn. now rewrite B, C.
    + intros (A & B). apply R in B; [|exact A]. cbn in B. injection B as B C. auto.
  - rewrite (IH _ _ _ _ E th). split; intros (A & B); (split; [exact A|]); [apply R; [exact A|]; cbn; now rewrite B|].
    apply R in B; [|exact A]. cbn in B. congruence.
Qed.

(** if there is a common instance, it succeeds *)
Definition unified (th : nat -> sty) (x y : ty) (s : subst) (r : ures) : Prop :=
  exists s', r = Succ s' /\ solves th s' /\ tri s' /\
    forall n, sbelow n s -> below n x -> below n y -> sbelow n s'.
Theorem unify_complete : forall th k x y s, ksize (inst th x) = k -> tri s -> solves th s -> inst th x = inst th y ->
  evt (fun n => unify n x y s) (unified th x y s).
Proof.
  intros th. induction k as [k IH] using lt_wf_ind. intros x y s HK HT HS HE.
  apply evt_S. cbn [unify].
  eapply evt_bind with (g := fun n x' => match apply_subst n y s with Some y' => unify1 (unify n) x' y' s | None => None end); [apply apply_ends; exact HT|].
  intros x' (A1 & A2 & A3).
  eapply evt_bind with (g := fun n y' => unify1 (unify n) x' y' s); [apply apply_ends; exact HT|].
  intros y' (B1 & B2 & B3).
  assert (EQ : inst th x' = inst th y') by (rewrite A2, B2 by assumption; exact HE).
  assert (SZ : ksize (inst th x') = k) by (rewrite A2 by assumption; exact HK).
  unfold unify1. destruct (ty_eq_dec x' y') as [->|N].
  { apply evt_const. exists s. do 3 (split; [auto|]). auto. }
  assert (BIND : forall a b v, a = TVar v -> a <> b -> inst th a = inst th b -> done s a -> done s b ->
     (forall n, sbelow n s -> below n x -> below n y -> below n a /\ below n b) ->
     evt (fun _ : nat => Some (Succ ((v, b) :: s))) (unified th x y s)).
  { intros a b v -> NE Ei Da Db Hb. apply evt_const. exists ((v, b) :: s). split; [reflexivity|].
    assert (NV : ~ In v (vars b)).
    { intro Hv. destruct (inst_size th v b Hv) as [->|Hlt]; [now apply NE|]. cbn in Ei. rewrite <- Ei in Hlt. lia. }
    split; [intros w t [E|Hi]; [injection E as <- <-; exact Ei|now apply HS]|]. split.
    - cbn. split; [exact HT|]. split; [apply Da; now left|]. intros w Hw. split; [intros ->; contradiction|auto].
    - intros n Hn Hx Hy w t [E|Hi]; [injection E as <- <-|auto]. destruct (Hb n Hn Hx Hy) as (Hv & Ht). split; [apply Hv; now left|exact Ht]. }
  destruct (may_bind x' y') as [v|] eqn:EB1.
  { destruct (may_bind_some _ _ _ EB1) as (EX & _). apply (BIND x' y' v); auto. }
  destruct (may_bind y' x') as [v|] eqn:EB2.
  { destruct (may_bind_some _ _ _ EB2) as (EY & _). apply (BIND y' x' v); auto. }
  assert (NOV : forall a b v, a = TVar v -> a <> b -> inst th a = inst th b -> may_bind a b = None -> False).
  { intros a b v -> NE Ei EB. unfold may_bind, number in EB. destruct (occur v b) eqn:EO; [|discriminate].
    apply occur_vars in EO. destruct (inst_size th v b EO) as [->|Hlt]; [now apply NE|]. cbn in Ei. rewrite <- Ei in Hlt. lia. }
  destruct x' as [| | | |v|a|a b|a].
  5: { exfalso. eapply NOV; [reflexivity| | |]; eauto. }
  all: destruct y' as [| | | |w|c|c d|c]; try discriminate EQ; try contradiction;
    try (exfalso; eapply (NOV (TVar w)); [reflexivity| | |]; eauto; fail).
  - cbn in EQ, SZ. injection EQ as EQ.
    destruct (IH (ksize (inst th a)) ltac:(lia) a c s eq_refl HT HS EQ) as (r & m & (s' & -> & C1 & C2 & C3) & EM).
    exists (Succ s'), m. split; [|exact EM]. exists s'. do 3 (split; [auto|]). intros n Hn Hx Hy. apply C3; auto; [exact (A3 n Hn Hx)|exact (B3 n Hn Hy)].
  - cbn in EQ, SZ. injection EQ as EQ1 EQ2.
    eapply evt_ext; [|eapply evt_bind with (f := fun n => unify n a c s) (g := fun n r => match r with Succ s1 => unify n b d s1 | Fail => Some Fail end)
      (P := unified th a c s) (Q := unified th x y s)].
    + intro n. cbn. destruct (unify n a c s) as [[|s1]|]; reflexivity.
    + pose proof (ksize_pos (inst th b)). apply (IH (ksize (inst th a))); auto; lia.
    + intros r (s1 & -> & C1 & C2 & C3). pose proof (ksize_pos (inst th a)).
      destruct (IH (ksize (inst th b)) ltac:(lia) b d s1 eq_refl C2 C1 EQ2) as (r & m & (s2 & -> & D1 & D2 & D3) & EM).
      exists (Succ s2), m. split; [|exact EM]. exists s2. do 3 (split; [auto|]). intros n Hn Hx Hy.
      assert (X1 := A3 n Hn Hx). assert (X2 := B3 n Hn Hy).
      apply D3; [apply C3; [exact Hn|intros u Hu; apply X1; cbn; apply in_app_iff; auto|intros u Hu; apply X2; cbn; apply in_app_iff; auto]
        |intros u Hu; apply X1; cbn; apply in_app_iff; auto|intros u Hu; apply X2; cbn; apply in_app_iff; auto].
  - cbn in EQ, SZ. injection EQ as EQ.
    destruct (IH (ksize (inst th a)) ltac:(lia) a c s eq_refl HT HS EQ) as (r & m & (s' & -> & C1 & C2 & C3) & EM).
    exists (Succ s'), m. split; [|exact EM]. exists s'. do 3 (split; [auto|]). intros n Hn Hx Hy. apply C3; auto; [exact (A3 n Hn Hx)|exact (B3 n Hn Hy)].
Qed.

(** * A decision for types built from functions only *)
Lemma tri_solution : forall s, tri s -> forall rho, exists th, solves th s /\ forall w, ~ In w (keys s) -> th w = rho w.
Proof.
  induction s as [|(v, t) s IH]; intros H rho.
  - exists rho. split; [intros ? ? []|auto].
  - destruct H as (H1 & H2 & H3).
    destruct (IH H1 (fun w => if w =? v then inst rho t else rho w)) as (th & S & A). exists th. split.
    + intros w u [E|Hi]; [|now apply S]. injection E as <- <-. rewrite (A v H2), Nat.eqb_refl. symmetry. apply inst_agree.
      intros w Hw. destruct (H3 w Hw) as (N1 & N2). rewrite (A w N2). destruct (Nat.eqb_spec w v); [contradiction|reflexivity].
    + intros w Hw. cbn in Hw. rewrite A by tauto. destruct (Nat.eqb_spec w v) as [->|]; [tauto|reflexivity].
Qed.
Lemma evt_also : forall {A} (f : nat -> option A) (P Q : A -> Prop), evt f P -> (forall n a, f n = Some a -> Q a) -> evt f (fun a => P a /\ Q a).
Proof. intros A f P Q (a & m & HP & H) HQ. exists a, m. split; [split; [exact HP|]|exact H]. apply (HQ m). apply H. lia. Qed.
Lemma apply_arrows : forall s, sarrows s -> forall n t t', apply_subst n t s = Some t' -> arrows t = true -> arrows t' = true.
Proof.
  intros s HS. induction n as [|n IH]; intros t t' E H; [discriminate|]. destruct t; cbn [apply_subst] in E; try (injection E as <-; exact H); try discriminate H.
  - destruct (assv v s) as [u|] eqn:EA; [|injection E as <-; exact H]. apply (IH _ _ E). apply (HS v). now apply assv_in.
  - destruct (apply_subst n t1 s) eqn:E1; [|discriminate]. destruct (apply_subst n t2 s) eqn:E2; [|discriminate].
    injection E as <-. cbn in *. apply andb_true_iff in H. destruct H as (Ha & Hb). now rewrite (IH _ _ E1 Ha), (IH _ _ E2 Hb).
Qed.
Lemma arrows_occur : forall v t, arrows t = true -> In v (vars t) -> occur v t = true.
Proof.
  intros v. induction t; cbn; intros H Hi; try contradiction; try discriminate.
  - destruct Hi as [->|[]]. now rewrite Nat.eqb_refl.
  - apply andb_true_iff in H. apply in_app_iff in Hi. apply orb_true_iff. destruct H, Hi; auto.
Qed.
Lemma tri_length : forall N s, tri s -> sbelow N s -> List.length s <= N.
Proof.
  intros N s HT HB. rewrite <- (seq_length N 0). replace (List.length s) with (List.length (keys s)) by (unfold keys; apply map_length).
  apply NoDup_incl_length.
  - clear HB. induction s as [|(v, t) s IH]; cbn; [constructor|]. destruct HT as (A & B & _). constructor; auto.
  - intros v Hv. unfold keys in Hv. apply in_map_iff in Hv. destruct Hv as ((w, t) & <- & Hi). destruct (HB w t Hi). apply in_seq. cbn. lia.
Qed.
Fixpoint tsize (t : ty) : nat :=
  match t with TThunk a | TList a => S (tsize a) | TArr a b => S (tsize a + tsize b) | _ => 1 end.

Section Decide.
  Context (N : nat).
  Definition sane (s : subst) : Prop := tri s /\ sbelow N s /\ sarrows s.
  Definition plain_ty (t : ty) : Prop := below N t /\ arrows t = true.
  Definition ended (s : subst) (r : ures) : Prop :=
    r = Fail \/ exists s', r = Succ s' /\ sane s' /\ (s' = s \/ List.length s < List.length s').

  Lemma unify_from_done : forall x y s, sane s -> plain_ty x -> plain_ty y ->
    (forall x' y', done s x' -> done s y' -> plain_ty x' -> plain_ty y' -> evt (fun n => unify1 (unify n) x' y' s) (ended s)) ->
    evt (fun n => unify n x y s) (ended s).
  Proof.
    intros x y s (HT & HB & HA) (Bx & Ax) (By & Ay) H. apply evt_S. cbn [unify].
    eapply evt_bind with (g := fun n x' => match apply_subst n y s with Some y' => unify1 (unify n) x' y' s | None => None end).
    { eapply evt_also; [apply apply_ends; exact HT|]. intros n a E. exact (apply_arrows s HA n _ _ E Ax). }
    intros x' ((A1 & _ & A3) & A4).
    eapply evt_bind with (g := fun n y' => unify1 (unify n) x' y' s).
    { eapply evt_also; [apply apply_ends; exact HT|]. intros n a E. exact (apply_arrows s HA n _ _ E Ay). }
    intros y' ((B1 & _ & B3) & B4). apply H; auto; split; auto.
  Qed.

  Lemma unify_done : forall d k s x y, N - List.length s = d -> tsize x = k -> sane s -> done s x -> done s y -> plain_ty x -> plain_ty y ->
    evt (fun n => unify1 (unify n) x y s) (ended s).
  Proof.
    induction d as [d IHd] using lt_wf_ind. induction k as [k IHk] using lt_wf_ind.
    intros s x y Hd Hk HS Dx Dy Px Py. pose proof HS as (HT & HB & HA). pose proof (tri_length N s HT HB) as HL.
    assert (SAME : forall a c, tsize a < k -> done s a -> done s c -> plain_ty a -> plain_ty c -> evt (fun n => unify n a c s) (ended s)).
    { intros a c Hlt Da Dc Pa Pc. apply evt_S. cbn [unify].
      eapply evt_bind with (g := fun n x' => match apply_subst n c s with Some y' => unify1 (unify n) x' y' s | None => None end); [apply apply_done; exact Da|].
      intros ? ->. eapply evt_bind with (g := fun n y' => unify1 (unify n) a y' s); [apply apply_done; exact Dc|].
      intros ? ->. apply (IHk (tsize a)); auto. }
    assert (BIND : forall a b v, a = TVar v -> occur v b = false -> done s a -> done s b -> plain_ty a -> plain_ty b ->
       evt (fun _ : nat => Some (Succ ((v, b) :: s))) (ended s)).
    { intros a b v -> EO Da Db (Ba & _) (Bb & Ab). apply evt_const. right. exists ((v, b) :: s). split; [reflexivity|]. split; [|right; cbn; lia].
      split; [|split].
      - cbn. split; [exact HT|]. split; [apply Da; now left|]. intros w Hw. split; [|now apply Db]. intros ->. apply (arrows_occur v b Ab) in Hw. congruence.
      - intros w t [E|Hi]; [injection E as <- <-|auto]. split; [apply Ba; now left|exact Bb].
      - intros w t [E|Hi]; [injection E as <- <-; exact Ab|eapply HA; eauto]. }
    unfold unify1. destruct (ty_eq_dec x y) as [->|NE].
    { apply evt_const. right. exists s. auto. }
    destruct (may_bind x y) as [v|] eqn:EB1.
    { destruct (may_bind_some _ _ _ EB1) as (EX & EO). now apply (BIND x y v). }
    destruct (may_bind y x) as [v|] eqn:EB2.
    { destruct (may_bind_some _ _ _ EB2) as (EX & EO). now apply (BIND y x v). }
    assert (FAIL : evt (fun _ : nat => Some Fail) (ended s)) by (apply evt_const; now left).
    destruct x as [| | | |v|a|a b|a]; try exact FAIL; try (destruct Px as (_ & Px); discriminate Px).
    destruct y as [| | | |v|c|c e|c]; try exact FAIL.
    destruct Px as (Bx & Ax), Py as (By & Ay). cbn in Ax, Ay. apply andb_true_iff in Ax, Ay. destruct Ax as (Aa & Ab), Ay as (Ac & Ae). cbn in Hk.
    assert (Pa : plain_ty a) by (split; [intros v Hv; apply Bx; cbn; apply in_app_iff; auto|exact Aa]).
    assert (Pb : plain_ty b) by (split; [intros v Hv; apply Bx; cbn; apply in_app_iff; auto|exact Ab]).
    assert (Pc : plain_ty c) by (split; [intros v Hv; apply By; cbn; apply in_app_iff; auto|exact Ac]).
    assert (Pe : plain_ty e) by (split; [intros v Hv; apply By; cbn; apply in_app_iff; auto|exact Ae]).
    eapply evt_ext; [|eapply evt_bind with (f := fun n => unify n a c s) (g := fun n r => match r with Succ s1 => unify n b e s1 | Fail => Some Fail end)].
    - intro n. cbn. destruct (unify n a c s) as [[|s1]|]; reflexivity.
    - apply SAME; auto; [lia| |].
      + intros v Hv. apply Dx. cbn. apply in_app_iff. auto.
      + intros v Hv. apply Dy. cbn. apply in_app_iff. auto.
    - cbn beta. intros r [->|(s1 & -> & HS1 & [->|HL1])]; [exact FAIL| |].
      + apply SAME; auto; [lia| |].
        * intros v Hv. apply Dx. cbn. apply in_app_iff. auto.
        * intros v Hv. apply Dy. cbn. apply in_app_iff. auto.
      + eapply evt_weaken; [|apply unify_from_done with (s := s1); auto].
        * intros r [->|(s2 & -> & HS2 & HL2)]; [now left|]. right. exists s2. split; [reflexivity|]. split; [exact HS2|]. right. destruct HL2 as [->|]; lia.
        * intros x' y' Dx' Dy' Px' Py'. destruct HS1 as (T1 & B1 & A1). pose proof (tri_length N s1 T1 B1).
          apply (IHd (N - List.length s1) ltac:(lia) (tsize x')); auto. split; auto.
  Qed.
  Lemma unify_ends : forall x y s, sane s -> plain_ty x -> plain_ty y -> evt (fun n => unify n x y s) (ended s).
  Proof. intros x y s HS Px Py. apply unify_from_done; auto. intros. eapply unify_done; eauto. Qed.
End Decide.

Lemma bound_exists : forall l : list nat, exists n, forall v, In v l -> v < n.
Proof.
  induction l as [|a l (n & H)]; [exists 0; intros ? []|]. exists (S (a + n)). intros v [<-|Hv]; [lia|specialize (H v Hv); lia].
Qed.
Theorem unify_decide : forall x y s, tri s -> sarrows s -> arrows x = true -> arrows y = true ->
  exists r m, (forall n, m <= n -> unify n x y s = Some r) /\
    match r with
    | Fail => forall th, solves th s -> inst th x <> inst th y
    | Succ s' => tri s' /\ exists th, solves th s' /\ solves th s /\ inst th x = inst th y
    end.
Proof.
  intros x y s HT HA Ax Ay.
  destruct (bound_exists (vars x ++ vars y ++ keys s ++ flat_map (fun p => vars (snd p)) s)) as (N & HN).
  assert (Bx : below N x) by (intros v Hv; apply HN; apply in_app_iff; auto).
  assert (By : below N y) by (intros v Hv; apply HN; rewrite !in_app_iff; auto).
  assert (Bs : sbelow N s).
  { intros v t Hi. split; [apply HN; rewrite !in_app_iff; right; right; left; unfold keys; apply in_map_iff; exists (v, t); auto|].
    intros w Hw. apply HN. rewrite !in_app_iff. right. right. right. apply in_flat_map. exists (v, t). auto. }
  destruct (unify_ends N x y s) as (r & m & HE & HM); [split; auto|split; auto|split; auto|].
  exists r, m. split; [exact HM|]. destruct HE as [->|(s' & -> & (T' & _ & _) & _)].
  - intros th Hth E. destruct (unify_complete th _ x y s eq_refl HT Hth E) as (r & m2 & (s' & -> & _) & HM2).
    pose proof (HM (m + m2) ltac:(lia)). pose proof (HM2 (m + m2) ltac:(lia)). congruence.
  - split; [exact T'|]. destruct (tri_solution s' T' (fun _ => KInt)) as (th & Hth & _). exists th. split; [exact Hth|].
    apply (unify_solutions _ _ _ _ _ (HM m ltac:(lia))). exact Hth.
Qed.

(** * The type checker *)
Lemma lookup_tinst : forall th x env, lookup x (tinst th env) = match lookup x env with Some t => Some (inst th t) | None => None end.
Proof.
  intros th x. induction env as [|(y, t) env IH]; cbn; [reflexivity|]. destruct (name_eqb_spec x y); [reflexivity|exact IH].
Qed.
Lemma lookup_in : forall {A} x (env : list (name * A)) t, lookup x env = Some t -> In (x, t) env.
Proof.
  intros A x. induction env as [|(y, u) env IH]; cbn; intros t H; [discriminate|]. destruct (name_eqb_spec x y) as [->|]; [injection H as ->; now left|]. right. auto.
Qed.
Lemma tinst_agree : forall th th' n env, (forall v, v < n -> th' v = th v) -> ebelow n env -> tinst th' env = tinst th env.
Proof.
  intros th th' n env H HB. unfold tinst. apply map_ext_in. intros (x, t) Hi. cbn. f_equal. apply inst_agree. intros v Hv. apply H. exact (HB x t Hi v Hv).
Qed.
Lemma below_le : forall n m t, n <= m -> below n t -> below m t.
Proof. intros n m t H HB v Hv. specialize (HB v Hv). lia. Qed.
Lemma sbelow_le : forall n m s, n <= m -> sbelow n s -> sbelow m s.
Proof. intros n m s H HB v t Hi. destruct (HB v t Hi). split; [lia|eapply below_le; eauto]. Qed.
Lemma ebelow_le : forall n m env, n <= m -> ebelow n env -> ebelow m env.
Proof. intros n m s H HB v t Hi. eapply below_le; eauto. Qed.
Lemma solves_agree : forall th th' n s, (forall v, v < n -> th' v = th v) -> sbelow n s -> solves th s -> solves th' s.
Proof.
  intros th th' n s H HB HS v t Hi. destruct (HB v t Hi) as (A & B). rewrite (H v A), (HS v t Hi). symmetry. apply inst_agree. intros w Hw. apply H. now apply B.
Qed.

Definition upd (th : nat -> sty) (v : nat) (k : sty) : nat -> sty := fun w => if w =? v then k else th w.
Lemma upd_same : forall th v k, upd th v k v = k.
Proof. intros. unfold upd. now rewrite Nat.eqb_refl. Qed.
Lemma upd_below : forall th n k v, v < n -> upd th n k v = th v.
Proof. intros. unfold upd. destruct (Nat.eqb_spec v n); [lia|reflexivity]. Qed.

Section Check.
  Context (D : list (name * sty)).
  Context (HD : forall T, lookup (NS "cons") D = Some T -> exists A, T = KArr A (KArr (KList A) (KList A))).

  Record fits (g : list (name * sty)) (th : nat -> sty) (env : list (name * ty)) (s : subst) (st : state) : Prop := {
    f_env : tinst th env = g;
    f_D : tinst th (tenv st) = D;
    f_sol : solves th s;
    f_tri : tri s;
    f_bs : sbelow (next st) s;
    f_be : ebelow (next st) env;
    f_bd : ebelow (next st) (tenv st);
    f_cons : lookup (NS "cons") env = None }.

  (** the answer: a substitution with a solution that keeps what was known *)
  Definition good (th : nat -> sty) (st : state) (p : ures * state) : Prop :=
    exists s' th', fst p = Succ s' /\ (forall v, v < next st -> th' v = th v) /\ solves th' s' /\ tri s' /\
      next st <= next (snd p) /\ sbelow (next (snd p)) s' /\ tenv (snd p) = tenv st.

  Definition accepts (g : list (name * sty)) (e : sexp) (T : sty) : Prop :=
    fine e = true -> forall th t env s st h, fits g th env s st -> inst th t = T -> below (next st) t ->
      (h = true -> e = SNil -> exists v, t = TVar v) ->
      evt (fun n => check_type n h e t env s st) (good th st).

  Lemma fits_next : forall g th env s st s' th' st', fits g th env s st -> (forall v, v < next st -> th' v = th v) -> solves th' s' -> tri s' ->
    next st <= next st' -> sbelow (next st') s' -> tenv st' = tenv st -> fits g th' env s' st'.
  Proof.
    intros g th env s st s' th' st' F A S T L B E. destruct F. constructor; auto.
    - rewrite <- f_env0. eapply tinst_agree; eauto.
    - rewrite E, <- f_D0. eapply tinst_agree; eauto.
    - eapply ebelow_le; eauto.
    - rewrite E. eapply ebelow_le; eauto.
  Qed.
  Lemma good_trans : forall th st th' st' p, (forall v, v < next st -> th' v = th v) -> next st <= next st' -> tenv st' = tenv st ->
    good th' st' p -> good th st p.
  Proof.
    intros th st th' st' p A L E (s2 & th2 & E2 & A2 & S2 & T2 & L2 & B2 & D2). exists s2, th2. split; [exact E2|].
    split; [intros v Hv; rewrite A2 by lia; now apply A|]. split; [exact S2|]. split; [exact T2|]. split; [lia|]. split; [exact B2|congruence].
  Qed.
  Lemma evt_bind_s : forall (f : nat -> answer) (k : nat -> subst -> state -> answer) th st (Q : ures * state -> Prop),
    evt f (good th st) ->
    (forall s1 th1 st1, (forall v, v < next st -> th1 v = th v) -> solves th1 s1 -> tri s1 -> next st <= next st1 -> sbelow (next st1) s1 ->
       tenv st1 = tenv st -> evt (fun n => k n s1 st1) Q) ->
    evt (fun n => bind_s (f n) (k n)) Q.
  Proof.
    intros f k th st Q H1 H2. eapply evt_ext; [|eapply evt_bind with (f := f) (g := fun n p => bind_s (Some p) (k n)); [exact H1|]].
    - intro n. unfold bind_s. destruct (f n) as [([|s], st1)|]; reflexivity.
    - intros (r, st1) (s1 & th1 & E & A & S & T & L & B & ED). cbn in E. subst r. cbn. apply (H2 s1 th1 st1); auto.
  Qed.
  Lemma unify_good : forall th x y s st, tri s -> solves th s -> inst th x = inst th y -> sbelow (next st) s -> below (next st) x -> below (next st) y ->
    evt (fun n => pure (unify n x y s) st) (good th st).
  Proof.
    intros th x y s st T S E B Bx By. destruct (unify_complete th _ x y s eq_refl T S E) as (r & m & (s' & -> & S' & T' & B') & EM).
    exists (Succ s', st), m. split; [|intros n Hn; now rewrite EM].
    exists s', th. cbn. split; [reflexivity|]. split; [auto|]. split; [exact S'|]. split; [exact T'|]. split; [lia|]. split; [now apply B'|reflexivity].
  Qed.

  (** a fresh variable for a type *)
  Lemma fits_tvar : forall g th env s st k, fits g th env s st ->
    fits g (upd th (next st) k) env s (snd (tvar st)).
  Proof.
    intros g th env s st k F. pose proof (upd_below th (next st) k) as A.
    eapply fits_next; eauto; cbn; try lia; destruct F; auto.
    - eapply solves_agree; eauto.
    - eapply sbelow_le; [|eassumption]. lia.
  Qed.
  Lemma fits_extend : forall g th env s st x t, fits g th env s st -> below (next st) t -> x <> NS "cons" ->
    fits ((x, inst th t) :: g) th ((x, t) :: env) s st.
  Proof.
    intros g th env s st x t F B N. destruct F. constructor; auto.
    - change (tinst th ((x, t) :: env)) with ((x, inst th t) :: tinst th env). now rewrite f_env0.
    - intros y u [E|Hi]; [injection E as <- <-; exact B|eauto].
    - cbn [lookup]. destruct (name_eqb_spec (NS "cons") x); [congruence|assumption].
  Qed.

  Definition accepts_h (g : list (name * sty)) (e : sexp) (T : sty) : Prop :=
    fine e = true -> forall th t env s st, fits g th env s st -> inst th t = T -> below (next st) t ->
      (e = SNil -> exists v, t = TVar v) ->
      evt (fun n => check_type n true e t env s st) (good th st).
  Local Notation "'L' l" := (fold_right SCons SNil l) (at level 9, l at level 0).

  Lemma slist_fold : forall l, slist (L l) = Some l.
  Proof. induction l as [|a l IH]; [reflexivity|]. cbn. now rewrite IH. Qed.
  Lemma slist_inv : forall e l, slist e = Some l -> e = L l.
  Proof.
    induction e; cbn; intros l H; try discriminate; [injection H as <-; reflexivity|].
    destruct (slist e2) as [r|]; [|discriminate]. injection H as <-. cbn. now rewrite (IHe2 _ eq_refl).
  Qed.
  Lemma is_sym_eq : forall k c, is_sym k c = true -> c = SSym (NS k).
  Proof. intros k c H. destruct c; try discriminate. cbn [is_sym] in H. destruct (name_eqb_spec x (NS k)); [congruence|discriminate]. Qed.

  Definition list_rule (g : list (name * sty)) (e : sexp) (T : sty) : Prop :=
    forall x y, e = L [SSym (NS "cons"); x; y] -> fine e = true -> forall th a env s st, fits g th env s st -> KList (inst th a) = T -> below (next st) a ->
      evt (fun n => bind_s (check_type n false x a env s st) (fun s1 st => check_type n false y (TList a) env s1 st)) (good th st).

  Lemma lift : forall g e T, accepts_h g e T -> e <> SNil -> list_rule g e T -> accepts g e T.
  Proof.
    intros g e T H N HL HF th t env s st h F ET B HN. destruct h; [apply H; auto|].
    assert (H' : evt (fun n => check_type n true e t env s st) (good th st)) by (apply H; auto; intro; contradiction).
    apply evt_S. cbn [check_type negb]. destruct t; try exact H'.
    destruct (slist e) as [[|c [|x [|y [|? ?]]]]|] eqn:ES; try exact H'.
    - apply slist_inv in ES. contradiction.
    - destruct (is_sym "cons" c) eqn:EC; [|exact H']. apply is_sym_eq in EC. subst c. apply slist_inv in ES.
      eapply HL; eauto.
  Qed.
  Lemma no_list : forall g e T, (forall x y, e <> L [SSym (NS "cons"); x; y]) -> list_rule g e T.
  Proof. intros g e T H x y E. now apply H in E. Qed.

  Lemma inst_keep : forall th th' n t, (forall v, v < n -> th' v = th v) -> below n t -> inst th' t = inst th t.
  Proof. intros. apply inst_agree. auto. Qed.
  Lemma below_var : forall n v, v < n -> below n (TVar v).
  Proof. intros n v H w [->|[]]. exact H. Qed.

  Lemma unify_fits : forall g th env s st x y, fits g th env s st -> inst th x = inst th y -> below (next st) x -> below (next st) y ->
    evt (fun n => pure (unify n x y s) st) (good th st).
  Proof. intros g th env s st x y F E Bx By. destruct F. now apply unify_good. Qed.

  Lemma solves_filter : forall th f s, solves th s -> solves th (filter f s).
  Proof. intros th f s H v t Hi. apply filter_In in Hi. now apply H. Qed.
  Lemma sbelow_filter : forall n f s, sbelow n s -> sbelow n (filter f s).
  Proof. intros n f s H v t Hi. apply filter_In in Hi. now apply H. Qed.

  (** ** The rules *)
  Lemma acc_lam : forall g x e a b, accepts ((x, a) :: g) e b -> accepts_h g (L [SSym (NS "lambda"); L [SSym x]; e]) (KArr a b).
  Proof.
    intros g x e a b H HF th t env s st F ET B _.
    assert (Nx : x <> NS "cons").
    { intros ->. cbn in HF. discriminate. }
    assert (Fe : fine e = true).
    { revert HF. cbn [fold_right fine]. rewrite !andb_true_iff. tauto. }
    apply evt_S. cbn [check_type negb fold_right slist]. cbn [is_sym name_eqb String.eqb Ascii.eqb Bool.eqb].
    cbn [tvar next tenv extend].
    pose proof (fits_tvar _ _ _ _ _ a F) as F1. pose proof (fits_tvar _ _ _ _ _ b F1) as F2. cbn [tvar snd next tenv] in F1, F2.
    set (th1 := upd (upd th (next st) a) (S (next st)) b) in *.
    assert (Va : th1 (next st) = a) by (unfold th1; rewrite upd_below, upd_same by lia; reflexivity).
    assert (Vb : th1 (S (next st)) = b) by (unfold th1; now rewrite upd_same).
    assert (K1 : forall v, v < next st -> th1 v = th v) by (intros; unfold th1; rewrite !upd_below by lia; reflexivity).
    pose proof (fits_extend _ _ _ _ _ x (TVar (next st)) F2) as F3.
    assert (BX : below (S (S (next st))) (TVar (next st))) by (apply below_var; lia). specialize (F3 BX Nx). cbn [inst] in F3. rewrite Va in F3.
    eapply evt_weaken; [intros p Hp; eapply (good_trans th st th1 (mkSt (S (S (next st))) (tenv st))); [exact K1| | |exact Hp]; cbn; [lia|reflexivity]|].
    eapply evt_bind_s.
    { apply H; [exact Fe|exact F3|exact Vb|apply below_var; cbn; lia|discriminate]. }
    intros s1 th2 st2 A2 S2 T2 L2 B2 D2. cbn in L2.
    eapply evt_weaken; [intros p Hp; eapply (good_trans _ _ th2 st2); [exact A2|cbn; lia|exact D2|exact Hp]|].
    eapply unify_fits; [eapply (fits_next _ _ _ _ _ _ th2 st2 F2); auto| | |].
    - cbn [inst]. rewrite (A2 (next st)), (A2 (S (next st))) by (cbn; lia). rewrite Va, Vb, <- ET.
      rewrite (inst_keep th1 th2 (next st) t); [apply (inst_keep th th1 (next st)); auto| |exact B]. intros v Hv. apply A2. cbn. lia.
    - eapply below_le; [|exact B]. lia.
    - intros v [<-|[<-|[]]]; lia.
  Qed.
  Lemma lam_not_cons : forall ps e, forall x y, L [SSym (NS "lambda"); ps; e] <> L [SSym (NS "cons"); x; y].
  Proof. intros ps e x y E. cbn in E. discriminate. Qed.

  Ltac reduce := cbn [check_type negb fold_right slist]; cbn [is_sym name_eqb String.eqb Ascii.eqb Bool.eqb]; cbn [tvar next tenv extend].
  Ltac fineness := match goal with HF : fine _ = true |- _ => revert HF; cbn [fold_right fine]; rewrite !andb_true_iff; tauto end.

  Lemma acc_thunk : forall g e a, accepts g e a -> accepts_h g (L [SSym (NS "lambda"); SNil; e]) (KThunk a).
  Proof.
    intros g e a H HF th t env s st F ET B _. assert (Fe : fine e = true) by fineness. apply evt_S. reduce.
    pose proof (fits_tvar _ _ _ _ _ a F) as F1. cbn [tvar snd next tenv] in F1. set (th1 := upd th (next st) a) in *.
    assert (Va : th1 (next st) = a) by (unfold th1; now rewrite upd_same).
    assert (K1 : forall v, v < next st -> th1 v = th v) by (intros; unfold th1; rewrite !upd_below by lia; reflexivity).
    eapply evt_weaken; [intros p Hp; eapply (good_trans th st th1 (mkSt (S (next st)) (tenv st))); [exact K1| | |exact Hp]; cbn; [lia|reflexivity]|].
    eapply evt_bind_s.
    { apply H; [exact Fe|exact F1|exact Va|apply below_var; cbn; lia|discriminate]. }
    intros s1 th2 st2 A2 S2 T2 L2 B2 D2. cbn in L2.
    eapply evt_weaken; [intros p Hp; eapply (good_trans _ _ th2 st2); [exact A2|cbn; lia|exact D2|exact Hp]|].
    eapply unify_fits; [eapply (fits_next _ _ _ _ _ _ th2 st2 F1); auto| | |].
    - cbn [inst]. rewrite (A2 (next st)) by (cbn; lia). rewrite Va, <- ET.
      rewrite (inst_keep th1 th2 (next st) t); [apply (inst_keep th th1 (next st)); auto| |exact B]. intros v Hv. apply A2. cbn. lia.
    - eapply below_le; [|exact B]. lia.
    - intros v [<-|[]]; lia.
  Qed.

  Lemma acc_let : forall g x e1 e2 a b, accepts g e1 a -> accepts ((x, a) :: g) e2 b -> accepts_h g (L [SSym (NS "let"); SSym x; e1; e2]) b.
  Proof.
    intros g x e1 e2 a b H1 H2 HF th t env s st F ET B _.
    assert (Nx : x <> NS "cons") by (intros ->; cbn in HF; discriminate).
    assert (Fe1 : fine e1 = true) by fineness. assert (Fe2 : fine e2 = true) by fineness. apply evt_S. reduce.
    pose proof (fits_tvar _ _ _ _ _ a F) as F1. cbn [tvar snd next tenv] in F1. set (th1 := upd th (next st) a) in *.
    assert (Va : th1 (next st) = a) by (unfold th1; now rewrite upd_same).
    assert (K1 : forall v, v < next st -> th1 v = th v) by (intros; unfold th1; rewrite !upd_below by lia; reflexivity).
    eapply evt_weaken; [intros p Hp; eapply (good_trans th st th1 (mkSt (S (next st)) (tenv st))); [exact K1| | |exact Hp]; cbn; [lia|reflexivity]|].
    eapply evt_bind_s.
    { apply H1; [exact Fe1|exact F1|exact Va|apply below_var; cbn; lia|discriminate]. }
    intros s1 th2 st2 A2 S2 T2 L2 B2 D2. cbn in L2.
    eapply evt_weaken; [intros p Hp; eapply (good_trans _ _ th2 st2); [exact A2|cbn; lia|exact D2|exact Hp]|].
    pose proof (fits_next _ _ _ _ _ s1 th2 st2 F1 A2 S2 T2 L2 B2 D2) as F2.
    pose proof (fits_extend _ _ _ _ _ x (TVar (next st)) F2) as F3.
    assert (BX : below (next st2) (TVar (next st))) by (apply below_var; lia). specialize (F3 BX Nx). cbn [inst] in F3.
    rewrite (A2 (next st)) in F3 by (cbn; lia). rewrite Va in F3.
    apply H2; [exact Fe2|exact F3| | |discriminate].
    - rewrite <- ET. rewrite (inst_keep th1 th2 (next st) t); [apply (inst_keep th th1 (next st)); auto| |exact B]. intros v Hv. apply A2. cbn. lia.
    - eapply below_le; [|exact B]. lia.
  Qed.

  Lemma acc_do : forall g e1 e2 a b, accepts g e1 a -> accepts g e2 b -> accepts_h g (L [SSym (NS "do"); e1; e2]) b.
  Proof.
    intros g e1 e2 a b H1 H2 HF th t env s st F ET B _.
    assert (N2 : e2 <> SNil) by (intros ->; cbn in HF; discriminate).
    assert (Fe1 : fine e1 = true) by fineness. assert (Fe2 : fine e2 = true) by fineness. apply evt_S. reduce.
    pose proof (fits_tvar _ _ _ _ _ a F) as F1. cbn [tvar snd next tenv] in F1. set (th1 := upd th (next st) a) in *.
    assert (Va : th1 (next st) = a) by (unfold th1; now rewrite upd_same).
    eapply evt_bind_s.
    { apply H1; [exact Fe1|exact F1|exact Va|apply below_var; cbn; lia|eauto]. }
    intros s1 th2 st2 A2 S2 T2 L2 B2 D2. cbn in L2.
    assert (L0 : next st <= next st2) by lia.
    eapply evt_weaken; [intros p Hp; eapply (good_trans th st th st2); [auto|exact L0|exact D2|exact Hp]|].
    apply H2; [exact Fe2| |exact ET|eapply below_le; [exact L0|exact B]|intros; contradiction].
    apply (fits_next _ _ _ _ _ s th st2 F); auto; try apply F. eapply sbelow_le; [exact L0|apply F].
  Qed.

  Lemma acc_if : forall g e1 e2 e3 a, e1 <> SNil -> accepts g e1 KBool -> accepts g e2 a -> accepts g e3 a ->
    accepts_h g (L [SSym (NS "if"); e1; e2; e3]) a.
  Proof.
    intros g e1 e2 e3 a N1 H1 H2 H3 HF th t env s st F ET B _.
    assert (Fe1 : fine e1 = true) by fineness. assert (Fe2 : fine e2 = true) by fineness. assert (Fe3 : fine e3 = true) by fineness. apply evt_S. reduce.
    eapply evt_bind_s.
    { apply H1; [exact Fe1|exact F|reflexivity|intros v []|intros; contradiction]. }
    intros s1 th1 st1 A1 S1 T1 L1 B1 D1.
    eapply evt_weaken; [intros p Hp; eapply (good_trans _ _ th1 st1); [exact A1|exact L1|exact D1|exact Hp]|].
    pose proof (fits_next _ _ _ _ _ s1 th1 st1 F A1 S1 T1 L1 B1 D1) as F1.
    eapply evt_bind_s.
    { apply H2; [exact Fe2|exact F1| |eapply below_le; [exact L1|exact B]|discriminate]. rewrite <- ET. now apply (inst_keep th th1 (next st)). }
    intros s2 th2 st2 A2 S2 T2 L2 B2 D2.
    eapply evt_weaken; [intros p Hp; eapply (good_trans _ _ th2 st2); [exact A2|exact L2|exact D2|exact Hp]|].
    pose proof (fits_next _ _ _ _ _ s2 th2 st2 F1 A2 S2 T2 L2 B2 D2) as F2.
    apply H3; [exact Fe3|exact F2| |eapply below_le; [|exact B]; lia|discriminate].
    rewrite <- ET. rewrite (inst_keep th1 th2 (next st) t); [now apply (inst_keep th th1 (next st))| |exact B]. intros v Hv. apply A2. lia.
  Qed.

  Lemma keyword_not : forall k f, keyword f = false -> In k ["quote"; "if"; "do"; "lambda"; "let"; "set"]%string -> is_sym k f = false.
  Proof.
    intros k f H Hi. unfold keyword in H. destruct (is_sym k f) eqn:E; [|reflexivity].
    assert (X : existsb (fun k => is_sym k f) ["quote"; "if"; "do"; "lambda"; "let"; "set"]%string = true) by (apply existsb_exists; eauto). congruence.
  Qed.
  Ltac nokey K := repeat rewrite (keyword_not _ _ K) by (cbn; tauto).

  Lemma acc_force : forall g f a, keyword f = false -> f <> SNil -> accepts g f (KThunk a) -> accepts_h g (L [f]) a.
  Proof.
    intros g f a K N H HF th t env s st F ET B _. assert (Ff : fine f = true) by fineness.
    apply evt_S. cbn [check_type negb fold_right slist].
    apply H; [exact Ff|exact F|cbn; now rewrite ET|exact B|intros; contradiction].
  Qed.

  Lemma acc_app : forall g f x a b, keyword f = false -> f <> SNil -> accepts g f (KArr a b) -> accepts g x a -> accepts_h g (L [f; x]) b.
  Proof.
    intros g f x a b K N H1 H2 HF th t env s st F ET B _. assert (Ff : fine f = true) by fineness. assert (Fx : fine x = true) by fineness.
    apply evt_S. cbn [check_type negb fold_right slist]. nokey K. cbn [tvar next tenv].
    pose proof (fits_tvar _ _ _ _ _ a F) as F1. pose proof (fits_tvar _ _ _ _ _ b F1) as F2. cbn [tvar snd next tenv] in F1, F2.
    set (th1 := upd (upd th (next st) a) (S (next st)) b) in *.
    assert (Va : th1 (next st) = a) by (unfold th1; rewrite upd_below, upd_same by lia; reflexivity).
    assert (Vb : th1 (S (next st)) = b) by (unfold th1; now rewrite upd_same).
    assert (K1 : forall v, v < next st -> th1 v = th v) by (intros; unfold th1; rewrite !upd_below by lia; reflexivity).
    eapply evt_weaken; [intros p Hp; eapply (good_trans th st th1 (mkSt (S (S (next st))) (tenv st))); [exact K1| | |exact Hp]; cbn; [lia|reflexivity]|].
    eapply evt_bind_s with (k := fun n s1 st0 => match apply_subst n (TVar (next st)) s1 with
       | Some ta => bind_s (check_type n false x ta env s1 st0) (fun s2 st1 => bind_s (pure (unify n t (TVar (S (next st))) s2) st1)
            (fun s3 st2 => Some (Succ (forget (next st) (S (next st)) s3), st2))) | None => None end).
    { apply H1; [exact Ff|exact F2|cbn; now rewrite Va, Vb| |intros; contradiction]. intros v [<-|[<-|[]]]; cbn; lia. }
    intros s1 th2 st2 A2 S2 T2 L2 B2 D2. cbn [next tenv] in A2, L2, D2.
    eapply evt_weaken; [intros p Hp; eapply (good_trans _ _ th2 st2); [exact A2|exact L2|exact D2|exact Hp]|].
    pose proof (fits_next _ _ _ _ _ s1 th2 st2 F2 A2 S2 T2 L2 B2 D2) as F3.
    eapply evt_bind with (g := fun n ta => bind_s (check_type n false x ta env s1 st2) (fun s2 st1 => bind_s (pure (unify n t (TVar (S (next st))) s2) st1)
            (fun s3 st2 => Some (Succ (forget (next st) (S (next st)) s3), st2)))); [apply apply_ends; exact T2|].
    intros ta (_ & I2 & I3).
    eapply evt_bind_s with (k := fun n s2 st1 => bind_s (pure (unify n t (TVar (S (next st))) s2) st1)
            (fun s3 st2 => Some (Succ (forget (next st) (S (next st)) s3), st2))).
    { apply H2; [exact Fx|exact F3| | |discriminate].
      - rewrite (I2 th2 S2). cbn. rewrite A2 by lia. exact Va.
      - apply I3; [exact B2|]. apply below_var. lia. }
    intros s2 th3 st3 A3 S3 T3 L3 B3 D3.
    eapply evt_weaken; [intros p Hp; eapply (good_trans _ _ th3 st3); [exact A3|exact L3|exact D3|exact Hp]|].
    pose proof (fits_next _ _ _ _ _ s2 th3 st3 F3 A3 S3 T3 L3 B3 D3) as F4.
    eapply evt_bind_s with (k := fun n s3 st2 => Some (Succ (forget (next st) (S (next st)) s3), st2)).
    { eapply unify_fits; [exact F4| | |].
      - cbn. rewrite A3, A2 by lia. rewrite Vb, <- ET.
        rewrite (inst_keep th2 th3 (next st) t); [|intros; apply A3; lia|exact B].
        rewrite (inst_keep th1 th2 (next st) t); [|intros; apply A2; lia|exact B]. now apply (inst_keep th th1 (next st)).
      - eapply below_le; [|exact B]. lia.
      - apply below_var. lia. }
    intros s4 th4 st4 A4 S4 T4 L4 B4 D4. apply evt_const.
    exists (forget (next st) (S (next st)) s4), th4. cbn [fst snd]. split; [reflexivity|]. split; [exact A4|].
    split; [now apply solves_filter|]. split; [now apply tri_filter|]. split; [exact L4|]. split; [now apply sbelow_filter|exact D4].
  Qed.

  Lemma acc_apps : forall g f x y l b, keyword f = false -> accepts g (SCons (L [f; x]) (SCons y (L l))) b -> accepts_h g (SCons f (SCons x (SCons y (L l)))) b.
  Proof.
    intros g f x y l b K H HF th t env s st F ET B _.
    assert (FF : fine (SCons (L [f; x]) (SCons y (L l))) = true).
    { revert HF. cbn [fold_right fine]. rewrite !andb_true_iff. intros ((_ & A) & (_ & B1) & (C & D1) & E1). repeat split; auto; destruct l; reflexivity. }
    apply evt_S. cbn [check_type negb slist]. rewrite slist_fold.
    assert (R : evt (fun n => check_type n false (SCons (SCons f (SCons x SNil)) (L (y :: l))) t env s st) (good th st)).
    { apply H; auto; discriminate. }
    destruct l as [|z [|w l]]; nokey K; exact R.
  Qed.

  Definition comps (g : list (name * sty)) (e : sexp) (T : sty) : Prop :=
    forall f x, e = L [f; x] -> keyword f = false -> exists a, typed D g f (KArr a T) /\ accepts g x a /\
      (forall f' x', f = L [f'; x'] -> keyword f' = false -> exists a', typed D g f' (KArr a' (KArr a T)) /\ accepts g x' a').

  Ltac nocomps := let E := fresh in let K := fresh in intros ? ? E K; cbn in E; first [discriminate E | injection E as <- <-; cbn in K; discriminate K].
  Ltac base := intros ? ? ? ? ? ? F ET B _; apply evt_S; cbn [check_type negb]; eapply unify_fits; [exact F|rewrite ET; reflexivity| |exact B]; cbn; try (intros ? []; fail).

  Lemma accepts_nil : forall g a, accepts g SNil (KList a).
  Proof.
    intros g a _ th t env s st h F ET B HN.
    assert (G0 : good th st (Succ s, st)).
    { exists s, th. cbn. split; [reflexivity|]. split; [auto|]. split; [apply F|]. split; [apply F|]. split; [lia|]. split; [apply F|reflexivity]. }
    destruct h.
    - destruct (HN eq_refl eq_refl) as (v & ->). apply evt_S. cbn [check_type negb]. now apply evt_const.
    - apply evt_S. cbn [check_type negb]. destruct t; try discriminate ET; cbn [slist].
      + apply evt_S. cbn [check_type negb]. now apply evt_const.
      + now apply evt_const.
  Qed.

  Theorem check_accepts : forall g e T, typed D g e T -> accepts g e T /\ comps g e T.
  Proof.
    assert (NN : forall g T, typed D g SNil T -> exists a, T = KList a).
    { intros g T H. inversion H; subst; eauto; try (match goal with E : _ = SNil |- _ => cbn in E; discriminate E end). }
    assert (KEYS : forall k g T, typed D g (SSym (NS k)) T -> lookup (NS k) g = None -> lookup (NS k) D = Some T).
    { intros k g T H N. inversion H; subst; try congruence; match goal with E : _ = SSym _ |- _ => cbn in E; discriminate E end. }
    induction 1.
    - split; [|nocomps]. apply lift; [base|discriminate|apply no_list; intros x y E; cbn in E; discriminate].
    - split; [|nocomps]. apply lift; [base|discriminate|apply no_list; intros x y E; cbn in E; discriminate].
    - split; [|nocomps]. apply lift; [base|discriminate|apply no_list; intros x y E; cbn in E; discriminate].
    - split; [|nocomps]. apply lift; [base|discriminate|apply no_list; intros x y E; cbn in E; discriminate].
    - split; [|nocomps]. apply lift; [|cbn; discriminate|apply no_list; intros y z E; cbn in E; discriminate].
      intros ? ? ? ? ? ? F ET B _; apply evt_S. reduce. eapply unify_fits; [exact F|rewrite ET; reflexivity| |exact B]. intros ? [].
    - split; [|nocomps]. apply accepts_nil.
    - split; [|nocomps]. apply lift; [|discriminate|apply no_list; intros y z E; cbn in E; discriminate].
      intros ? th t env s st F ET B _. apply evt_S. cbn [check_type negb]. pose proof (f_env _ _ _ _ _ F) as EG. rewrite <- EG, lookup_tinst in H.
      destruct (lookup x env) as [u|] eqn:EL; [|discriminate]. eapply unify_fits; [exact F|congruence| |exact B].
      eapply (f_be _ _ _ _ _ F). eapply lookup_in; eauto.
    - split; [|nocomps]. apply lift; [|discriminate|apply no_list; intros y z E; cbn in E; discriminate].
      intros ? th t env s st F ET B _. apply evt_S. cbn [check_type negb]. pose proof (f_env _ _ _ _ _ F) as EG. rewrite <- EG, lookup_tinst in H.
      destruct (lookup x env) as [u|] eqn:EL; [discriminate|].
      pose proof (f_D _ _ _ _ _ F) as ED. rewrite <- ED, lookup_tinst in H0.
      destruct (lookup x (tenv st)) as [u|] eqn:EL2; [|discriminate]. eapply unify_fits; [exact F|congruence| |exact B].
      eapply (f_bd _ _ _ _ _ F). eapply lookup_in; eauto.
    - split; [|nocomps]. apply lift; [|cbn; discriminate|apply no_list; intros y z E; cbn in E; discriminate].
      apply acc_if; try tauto. intros ->. destruct (NN _ _ H) as (? & ?). discriminate.
    - split; [|nocomps]. apply lift; [|cbn; discriminate|apply no_list; intros y z E; cbn in E; discriminate]. eapply acc_do; apply IHtyped1 || apply IHtyped2.
    - split; [|nocomps]. apply lift; [|cbn; discriminate|apply no_list; intros y z E; cbn in E; discriminate]. eapply acc_let; apply IHtyped1 || apply IHtyped2.
    - split; [|nocomps]. apply lift; [|cbn; discriminate|apply no_list; intros y z E; cbn in E; discriminate]. apply acc_thunk, IHtyped.
    - split; [|nocomps]. apply lift; [|cbn; discriminate|apply no_list; intros y z E; cbn in E; discriminate]. apply acc_lam, IHtyped.
    - split; [|nocomps]. apply lift; [|cbn; discriminate|apply no_list; intros y' z E; cbn in E; discriminate].
      intros HF th t env s st F ET B _. apply evt_S. reduce.
      assert (HF' : fine (lam1 (SSym x) (lam (SCons (SSym y) ps) e)) = true).
      { revert HF. unfold lam1, lam. cbn [fold_right fine]. rewrite !andb_true_iff. cbn [bad cells existsb]. 
        cbn [is_sym name_eqb String.eqb Ascii.eqb Bool.eqb orb andb]. rewrite !negb_true_iff, !orb_false_iff. intuition auto. }
      assert (A1 : accepts g (lam1 (SSym x) (lam (SCons (SSym y) ps) e)) (KArr a b)).
      { apply lift; [|cbn; discriminate|apply no_list; intros y' z E; cbn in E; discriminate]. apply acc_lam, IHtyped. }
      apply A1; auto; discriminate.
    - split; [|nocomps]. apply lift; [|cbn; discriminate|apply no_list; intros y z E; cbn in E; discriminate].
      apply acc_force; [assumption| |apply IHtyped]. intros ->. destruct (NN _ _ H0) as (? & ?). discriminate.
    - split.
      + apply lift; [|cbn; discriminate|apply no_list; intros y z E; cbn in E; discriminate].
        eapply acc_app; [assumption| |apply IHtyped1|apply IHtyped2]. intros ->. destruct (NN _ _ H0) as (? & ?). discriminate.
      + intros f1 x1 E K. cbn in E. injection E as <- <-. exists a. split; [assumption|]. split; [apply IHtyped2|].
        intros f' x' -> K'. destruct (proj2 IHtyped1 f' x' eq_refl K') as (a' & T' & A' & _). eauto.
    - split; [|nocomps]. apply lift; [|discriminate|].
      + apply acc_apps; [assumption|apply IHtyped].
      + intros x1 y1 E HF th ta env s st F ET B. cbn in E. injection E as -> -> -> EL.
        assert (l = []) by (destruct l; [reflexivity|discriminate]). subst l.
        destruct (proj2 IHtyped (L [SSym (NS "cons"); x1]) y1 eq_refl eq_refl) as (a2 & T2 & Ay & C).
        destruct (C (SSym (NS "cons")) x1 eq_refl eq_refl) as (a1 & T1 & Ax).
        apply KEYS in T1; [|rewrite <- (f_env _ _ _ _ _ F), lookup_tinst, (f_cons _ _ _ _ _ F); reflexivity].
        destruct (HD _ T1) as (A & EA). injection EA as -> -> ->. injection ET as ET.
        assert (Fx : fine x1 = true) by fineness. assert (Fy : fine y1 = true) by fineness.
        eapply evt_bind_s.
        { apply Ax; [exact Fx|exact F|exact ET|exact B|discriminate]. }
        intros s1 th1 st1 A1 S1 TR1 L1 B1 D1.
        eapply evt_weaken; [intros p Hp; eapply (good_trans _ _ th1 st1); [exact A1|exact L1|exact D1|exact Hp]|].
        apply Ay; [exact Fy|eapply (fits_next _ _ _ _ _ s1 th1 st1 F); auto| | |discriminate].
        * cbn. f_equal. rewrite <- ET. now apply (inst_keep th th1 (next st)).
        * eapply below_le; [exact L1|exact B].
  Qed.
End Check.
