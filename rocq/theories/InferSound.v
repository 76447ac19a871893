(** What the type checker accepts, for first-order expressions. *)
From Coq Require Import List ZArith Bool String Arith Lia.
From Verif Require Import CoreSpec CoreProofs InferSpec InferModel InferProofs.
Import ListNotations.
Local Open Scope list_scope.
Local Open Scope nat_scope.

Definition clean (C : nat -> Prop) (t : ty) : Prop := forall c, C c -> ~ In c (vars t).
Definition sclean (C : nat -> Prop) (s : subst) : Prop := forall v u, In (v, u) s -> clean C u.
Definition eclean (C : nat -> Prop) (env : list (name * ty)) : Prop := forall x u, In (x, u) env -> clean C u.
Definition keeps (C : nat -> Prop) (s s' : subst) : Prop := forall c u, C c -> (In (c, u) s' <-> In (c, u) s).
Definition aclean (C : nat -> Prop) (s : subst) (t : ty) : Prop := forall k t', apply_subst k t s = Some t' -> clean C t'.

Lemma clean_ground : forall C t, vars t = [] -> clean C t.
Proof. intros C t H c _. rewrite H. auto. Qed.
Lemma keeps_refl : forall C s, keeps C s s.
Proof. intros C s c u _. tauto. Qed.
Lemma keeps_trans : forall C a b c, keeps C a b -> keeps C b c -> keeps C a c.
Proof. intros C a b c H1 H2 v u Hv. rewrite (H2 v u Hv). now apply H1. Qed.

Lemma apply_clean : forall C s, sclean C s -> forall k t t', apply_subst k t s = Some t' -> clean C t -> clean C t'.
Proof.
  intros C s HS. induction k as [|k IH]; intros t t' E HC; [discriminate|].
  destruct t; cbn [apply_subst] in E; try (injection E as <-; exact HC).
  - destruct (assv v s) as [u|] eqn:EA; [|injection E as <-; exact HC]. apply (IH _ _ E). apply (HS v). now apply assv_in.
  - destruct (apply_subst k t s) eqn:E1; [|discriminate]. injection E as <-. exact (IH _ _ E1 HC).
  - destruct (apply_subst k t1 s) eqn:E1; [|discriminate]. destruct (apply_subst k t2 s) eqn:E2; [|discriminate]. injection E as <-.
    intros c Hc Hi. cbn in Hi. apply in_app_iff in Hi. destruct Hi as [Hi|Hi].
    + eapply (IH _ _ E1); [|exact Hc|exact Hi]. intros d Hd Hj. apply (HC d Hd). cbn. apply in_app_iff. auto.
    + eapply (IH _ _ E2); [|exact Hc|exact Hi]. intros d Hd Hj. apply (HC d Hd). cbn. apply in_app_iff. auto.
  - destruct (apply_subst k t s) eqn:E1; [|discriminate]. injection E as <-. exact (IH _ _ E1 HC).
Qed.
Lemma aclean_clean : forall C s t, sclean C s -> clean C t -> aclean C s t.
Proof. intros C s t HS HC k t' E. eapply apply_clean; eauto. Qed.
Lemma apply_below : forall N s, sbelow N s -> forall k t t', apply_subst k t s = Some t' -> below N t -> below N t'.
Proof.
  intros N s HS k t t' E HB v Hv.
  destruct (Nat.lt_ge_cases v N) as [|HN]; [assumption|exfalso].
  assert (X : clean (fun c => N <= c) t') by (eapply apply_clean; [|exact E|]; [intros w u Hi c Hc Hj; destruct (HS w u Hi) as (_ & A); specialize (A c Hj); lia|intros c Hc Hj; specialize (HB c Hj); lia]).
  exact (X v HN Hv).
Qed.
Lemma apply_done_always : forall s k t t', apply_subst k t s = Some t' -> done s t'.
Proof.
  intros s. induction k as [|k IH]; intros t t' E; [discriminate|].
  destruct t; cbn [apply_subst] in E; try (injection E as <-; intros ? []; fail).
  - destruct (assv v s) as [u|] eqn:EA; [exact (IH _ _ E)|injection E as <-]. intros w [->|[]]. now apply assv_none.
  - destruct (apply_subst k t s) eqn:E1; [|discriminate]. injection E as <-. exact (IH _ _ E1).
  - destruct (apply_subst k t1 s) eqn:E1; [|discriminate]. destruct (apply_subst k t2 s) eqn:E2; [|discriminate]. injection E as <-.
    intros v Hv. cbn in Hv. apply in_app_iff in Hv. destruct Hv as [Hv|Hv]; [exact (IH _ _ E1 v Hv)|exact (IH _ _ E2 v Hv)].
  - destruct (apply_subst k t s) eqn:E1; [|discriminate]. injection E as <-. exact (IH _ _ E1).
Qed.
Lemma apply_ground : forall s k t t', vars t = [] -> apply_subst k t s = Some t' -> t' = t.
Proof.
  intros s. induction k as [|k IH]; intros t t' V E; [discriminate|].
  destruct t; cbn [apply_subst] in E; cbn in V; try (injection E as <-; reflexivity); try discriminate.
  - destruct (apply_subst k t s) eqn:E1; [|discriminate]. injection E as <-. f_equal. eauto.
  - apply app_eq_nil in V. destruct V. destruct (apply_subst k t1 s) eqn:E1; [|discriminate]. destruct (apply_subst k t2 s) eqn:E2; [|discriminate]. injection E as <-.
    f_equal; eauto.
  - destruct (apply_subst k t s) eqn:E1; [|discriminate]. injection E as <-. f_equal. eauto.
Qed.
Lemma apply_var_ground : forall s v A k t', (forall u, In (v, u) s <-> u = A) -> vars A = [] -> apply_subst k (TVar v) s = Some t' -> t' = A.
Proof.
  intros s v A [|k] t' H V E; [discriminate|]. cbn [apply_subst] in E. destruct (assv v s) as [u|] eqn:EA.
  - apply assv_in in EA. apply H in EA. subst u. eapply apply_ground; eauto.
  - exfalso. apply assv_none in EA. apply EA. unfold keys. apply in_map_iff. exists (v, A). split; [reflexivity|]. now apply H.
Qed.
Lemma apply_var_free : forall s v k t', ~ In v (keys s) -> apply_subst k (TVar v) s = Some t' -> t' = TVar v.
Proof.
  intros s v [|k] t' H E; [discriminate|]. cbn [apply_subst] in E. apply assv_none in H. rewrite H in E. congruence.
Qed.

(** * unify *)
Lemma unify_local : forall C n x y s s', unify n x y s = Some (Succ s') -> sclean C s -> aclean C s x -> aclean C s y -> sclean C s' /\ keeps C s s'.
Proof.
  intros C. induction n as [|n IH]; intros x y s s' E HS HX HY; [discriminate|]. cbn [unify] in E.
  destruct (apply_subst n x s) as [x'|] eqn:EX; [|discriminate]. destruct (apply_subst n y s) as [y'|] eqn:EY; [|discriminate].
  apply HX in EX. apply HY in EY.
  assert (BIND : forall v b, clean C (TVar v) -> clean C b -> sclean C ((v, b) :: s) /\ keeps C s ((v, b) :: s)).
  { intros v b Hv Hb. split; [intros w u [Ei|Hi]; [injection Ei as <- <-; exact Hb|eauto]|].
    intros c u Hc. split; [|now right]. intros [Ei|Hi]; [|exact Hi]. injection Ei as <- <-. exfalso. apply (Hv v Hc). now left. }
  unfold unify1 in E. destruct (ty_eq_dec x' y'); [injection E as <-; split; [exact HS|apply keeps_refl]|].
  destruct (may_bind x' y') as [v|] eqn:EB1; [destruct (may_bind_some _ _ _ EB1) as (-> & _); injection E as <-; auto|].
  destruct (may_bind y' x') as [v|] eqn:EB2; [destruct (may_bind_some _ _ _ EB2) as (-> & _); injection E as <-; auto|].
  destruct x'; destruct y'; try discriminate E.
  - eapply IH; eauto; apply aclean_clean; auto.
  - destruct (unify n x'1 y'1 s) as [[|s1]|] eqn:E1; try discriminate.
    assert (Cx1 : clean C x'1) by (intros c Hc Hi; apply (EX c Hc); cbn; apply in_app_iff; auto).
    assert (Cx2 : clean C x'2) by (intros c Hc Hi; apply (EX c Hc); cbn; apply in_app_iff; auto).
    assert (Cy1 : clean C y'1) by (intros c Hc Hi; apply (EY c Hc); cbn; apply in_app_iff; auto).
    assert (Cy2 : clean C y'2) by (intros c Hc Hi; apply (EY c Hc); cbn; apply in_app_iff; auto).
    destruct (IH _ _ _ _ E1 HS (aclean_clean _ _ _ HS Cx1) (aclean_clean _ _ _ HS Cy1)) as (A1 & A2).
    destruct (IH _ _ _ _ E A1 (aclean_clean _ _ _ A1 Cx2) (aclean_clean _ _ _ A1 Cy2)) as (B1 & B2).
    split; [exact B1|eapply keeps_trans; eauto].
  - eapply IH; eauto; apply aclean_clean; auto.
Qed.
Lemma unify_below : forall N n x y s s', unify n x y s = Some (Succ s') -> sbelow N s -> below N x -> below N y -> sbelow N s'.
Proof.
  intros N. induction n as [|n IH]; intros x y s s' E HS HX HY; [discriminate|]. cbn [unify] in E.
  destruct (apply_subst n x s) as [x'|] eqn:EX; [|discriminate]. destruct (apply_subst n y s) as [y'|] eqn:EY; [|discriminate].
  pose proof (apply_below N s HS _ _ _ EX HX) as Bx. pose proof (apply_below N s HS _ _ _ EY HY) as By. clear EX EY.
  assert (BIND : forall v b, below N (TVar v) -> below N b -> sbelow N ((v, b) :: s)).
  { intros v b Hv Hb w u [Ei|Hi]; [injection Ei as <- <-; split; [apply Hv; now left|exact Hb]|auto]. }
  unfold unify1 in E. destruct (ty_eq_dec x' y'); [injection E as <-; exact HS|].
  destruct (may_bind x' y') as [v|] eqn:EB1; [destruct (may_bind_some _ _ _ EB1) as (-> & _); injection E as <-; auto|].
  destruct (may_bind y' x') as [v|] eqn:EB2; [destruct (may_bind_some _ _ _ EB2) as (-> & _); injection E as <-; auto|].
  destruct x'; destruct y'; try discriminate E.
  - eapply IH; eauto.
  - destruct (unify n x'1 y'1 s) as [[|s1]|] eqn:E1; try discriminate.
    assert (HS1 : sbelow N s1) by (eapply IH; [exact E1|exact HS| |]; intros c Hi; [apply Bx|apply By]; cbn; apply in_app_iff; auto).
    eapply IH; [exact E|exact HS1| |]; intros c Hi; [apply Bx|apply By]; cbn; apply in_app_iff; auto.
  - eapply IH; eauto.
Qed.
Lemma unify_tri : forall n x y s s', unify n x y s = Some (Succ s') -> tri s -> sarrows s -> arrows x = true -> arrows y = true -> tri s' /\ sarrows s'.
Proof.
  induction n as [|n IH]; intros x y s s' E HT HA Ax Ay; [discriminate|]. cbn [unify] in E.
  destruct (apply_subst n x s) as [x'|] eqn:EX; [|discriminate]. destruct (apply_subst n y s) as [y'|] eqn:EY; [|discriminate].
  pose proof (apply_arrows s HA _ _ _ EX Ax) as Bx. pose proof (apply_arrows s HA _ _ _ EY Ay) as By.
  apply apply_done_always in EX. apply apply_done_always in EY.
  assert (BIND : forall v b, occur v b = false -> done s (TVar v) -> done s b -> arrows b = true -> tri ((v, b) :: s) /\ sarrows ((v, b) :: s)).
  { intros v b EO Dv Db Ab. split.
    - cbn. split; [exact HT|]. split; [apply Dv; now left|]. intros w Hw. split; [|now apply Db]. intros ->. apply (arrows_occur v b Ab) in Hw. congruence.
    - intros w t [Ei|Hi]; [injection Ei as <- <-; exact Ab|eapply HA; eauto]. }
  unfold unify1 in E. destruct (ty_eq_dec x' y'); [injection E as <-; auto|].
  destruct (may_bind x' y') as [v|] eqn:EB1; [destruct (may_bind_some _ _ _ EB1) as (-> & ?); injection E as <-; auto|].
  destruct (may_bind y' x') as [v|] eqn:EB2; [destruct (may_bind_some _ _ _ EB2) as (-> & ?); injection E as <-; auto|].
  destruct x'; destruct y'; try discriminate E; try discriminate Bx.
  cbn in Bx, By. apply andb_true_iff in Bx, By. destruct Bx, By.
  destruct (unify n x'1 y'1 s) as [[|s1]|] eqn:E1; try discriminate.
  destruct (IH _ _ _ _ E1 HT HA) as (T1 & A1); auto. eapply IH; eauto.
Qed.

(** two fresh variables against a type without variables *)
Definition pins (a b : nat) (A B : ty) (s' : subst) : Prop :=
  vars A = [] /\ vars B = [] /\ (forall u, In (a, u) s' <-> u = A) /\ (forall u, In (b, u) s' <-> u = B).
Lemma ground_occur : forall v t, vars t = [] -> occur v t = false.
Proof. intros v t H. destruct (occur v t) eqn:E; [|reflexivity]. apply occur_vars in E. rewrite H in E. destruct E. Qed.

Lemma unify_free_ground : forall n a A s s', vars A = [] -> ~ In a (keys s) ->
  unify n (TVar a) A s = Some (Succ s') \/ unify n A (TVar a) s = Some (Succ s') -> s' = (a, A) :: s.
Proof.
  intros n a A s s' V N [E|E]; destruct n as [|n]; try discriminate; cbn [unify] in E.
  - destruct (apply_subst n (TVar a) s) as [x'|] eqn:EX; [|discriminate]. destruct (apply_subst n A s) as [y'|] eqn:EY; [|discriminate].
    apply (apply_var_free s a) in EX; [|exact N]. apply apply_ground in EY; [|exact V]. subst. unfold unify1 in E.
    destruct (ty_eq_dec (TVar a) A) as [<-|]; [discriminate V|]. cbn [may_bind number] in E. unfold may_bind, number in E. rewrite (ground_occur a A V) in E. congruence.
  - destruct (apply_subst n A s) as [y'|] eqn:EY; [|discriminate]. destruct (apply_subst n (TVar a) s) as [x'|] eqn:EX; [|discriminate].
    apply (apply_var_free s a) in EX; [|exact N]. apply apply_ground in EY; [|exact V]. subst. unfold unify1 in E.
    destruct (ty_eq_dec A (TVar a)) as [->|]; [discriminate V|]. unfold may_bind, number in E. rewrite (ground_occur a A V) in E.
    destruct A; try congruence. discriminate V.
Qed.
Lemma unify_pins : forall n x y a b K s s', (x = TArr (TVar a) (TVar b) /\ (forall k y', apply_subst k y s = Some y' -> y' = K)) \/
    (y = TArr (TVar a) (TVar b) /\ (forall k y', apply_subst k x s = Some y' -> y' = K)) -> vars K = [] ->
  a <> b -> ~ In a (keys s) -> ~ In b (keys s) -> unify n x y s = Some (Succ s') ->
  exists A B, vars A = [] /\ vars B = [] /\ s' = (b, B) :: (a, A) :: s.
Proof.
  intros n x y a b K s s' H V NE Na Nb E. destruct n as [|n]; [discriminate|]. cbn [unify] in E.
  destruct (apply_subst n x s) as [x'|] eqn:EX; [|discriminate]. destruct (apply_subst n y s) as [y'|] eqn:EY; [|discriminate].
  assert (AB : forall t', apply_subst n (TArr (TVar a) (TVar b)) s = Some t' -> t' = TArr (TVar a) (TVar b)).
  { intros t' E0. destruct n as [|m]; [discriminate|]. cbn [apply_subst] in E0. destruct (apply_subst m (TVar a) s) eqn:Ea; [|discriminate].
    destruct (apply_subst m (TVar b) s) eqn:Eb; [|discriminate]. injection E0 as <-. f_equal; eapply apply_var_free; eauto. }
  destruct H as [(-> & HK)|(-> & HK)].
  - apply AB in EX. apply HK in EY. subst. unfold unify1 in E. destruct (ty_eq_dec _ K) as [<-|_]; [discriminate V|].
    cbn [may_bind number] in E. destruct K as [| | | |v|c|c d|c]; try discriminate E; [discriminate V|]. cbn [may_bind number] in E.
    cbn in V. apply app_eq_nil in V. destruct V as (Vc & Vd).
    destruct (unify n (TVar a) c s) as [[|s1]|] eqn:E1; try discriminate E.
    assert (s1 = (a, c) :: s) by (eapply unify_free_ground; eauto). subst s1.
    assert (s' = (b, d) :: (a, c) :: s) by (eapply unify_free_ground; [exact Vd| |left; exact E]; cbn; intros [?|?]; [congruence|contradiction]).
    exists c, d. auto.
  - apply HK in EX. apply AB in EY. subst. unfold unify1 in E. destruct (ty_eq_dec K _) as [->|_]; [discriminate V|].
    destruct K as [| | | |v|c|c d|c]; try discriminate E; [discriminate V|]. cbn [may_bind number] in E.
    cbn in V. apply app_eq_nil in V. destruct V as (Vc & Vd).
    destruct (unify n c (TVar a) s) as [[|s1]|] eqn:E1; try discriminate E.
    assert (s1 = (a, c) :: s) by (eapply unify_free_ground; eauto). subst s1.
    assert (s' = (b, d) :: (a, c) :: s) by (eapply unify_free_ground; [exact Vd| |right; exact E]; cbn; intros [?|?]; [congruence|contradiction]).
    exists c, d. auto.
Qed.

Lemma bind_inv : forall r f s' st', bind_s r f = Some (Succ s', st') -> exists s1 st1, r = Some (Succ s1, st1) /\ f s1 st1 = Some (Succ s', st').
Proof. intros [([|s1], st1)|] f s' st' E; try discriminate E. eauto. Qed.
Lemma pure_inv : forall r st s' st', pure r st = Some (Succ s', st') -> r = Some (Succ s') /\ st' = st.
Proof. intros [u|] st s' st' E; [|discriminate]. injection E as -> ->. auto. Qed.
Lemma clean_below : forall (C : nat -> Prop) n t, (forall c, C c -> n <= c) -> below n t -> clean C t.
Proof. intros C n t H B c Hc Hi. specialize (B c Hi). specialize (H c Hc). lia. Qed.
Lemma eclean_below : forall (C : nat -> Prop) n env, (forall c, C c -> n <= c) -> ebelow n env -> eclean C env.
Proof. intros C n env H B x u Hi. eapply clean_below; eauto. Qed.
Lemma sclean_below : forall (C : nat -> Prop) n s, (forall c, C c -> n <= c) -> sbelow n s -> sclean C s.
Proof. intros C n env H B x u Hi. destruct (B x u Hi). eapply clean_below; eauto. Qed.
Lemma keys_below : forall n s v, sbelow n s -> n <= v -> ~ In v (keys s).
Proof. intros n s v B H Hi. unfold keys in Hi. apply in_map_iff in Hi. destruct Hi as ((w, u) & <- & Hi). destruct (B w u Hi). cbn in *. lia. Qed.

Section Sound.
  Context (DD : list (name * ty)) (z : bool).
  Local Notation "'L' l" := (fold_right SCons SNil l) (at level 9, l at level 0).

  Definition snd_ok (m : mode) (e : sexp) (h : bool) (t : ty) (env : list (name * ty)) (s : subst) (st : state) (s' : subst) (st' : state) : Prop :=
    tenv st' = DD /\ next st <= next st' /\ sbelow (next st') s' /\
    (forall C : nat -> Prop, (forall c, C c -> c < next st) -> clean C t -> eclean C env -> eclean C DD -> sclean C s -> sclean C s' /\ keeps C s s') /\
    (z = false -> arrows t = true -> earrows env -> earrows DD -> tri s -> sarrows s -> tri s' /\ sarrows s') /\
    (forall th, solves th s' -> solves th s /\ typed (tinst th DD) (tinst th env) e (inst th t)) /\
    (m = FCall -> h = true -> forall a b, t = TArr (TVar a) (TVar b) -> a <> b -> ~ In a (keys s) -> ~ In b (keys s) ->
       sclean (fun c => c = a \/ c = b) s -> eclean (fun c => c = a \/ c = b) env -> eclean (fun c => c = a \/ c = b) DD ->
       exists A B, pins a b A B s' /\ sclean (fun c => c = a \/ c = b) s').
  Definition sound (hh : option bool) (m : mode) (xs : list name) (e : sexp) : Prop :=
    forall n h t env s st s' st', (forall b, hh = Some b -> h = b) -> check_type n h e t env s st = Some (Succ s', st') ->
      tenv st = DD -> map fst env = xs -> below (next st) t -> sbelow (next st) s -> ebelow (next st) env -> ebelow (next st) DD ->
      snd_ok m e h t env s st s' st'.

  Lemma demote : forall m xs e, e <> SNil -> (forall x y, e <> L [SSym (NS "cons"); x; y]) -> sound (Some true) m xs e -> sound None m xs e.
  Proof.
    intros m xs e N NC H n h t env s st s' st' _ E ED EX Bt Bs Be Bd. destruct h; [eapply H; eauto; congruence|].
    destruct n as [|n]; [discriminate|]. cbn [check_type negb] in E.
    assert (E' : check_type n true e t env s st = Some (Succ s', st')).
    { destruct t; try exact E. destruct (slist e) as [[|c [|x [|y [|? ?]]]]|] eqn:ES; try exact E.
      - apply slist_inv in ES. contradiction.
      - destruct (is_sym "cons" c) eqn:EC; [|exact E]. apply is_sym_eq in EC. subst c. apply slist_inv in ES. now apply NC in ES. }
    destruct (H n true t env s st s' st') as (A1 & A2 & A3 & A4 & A5 & A6 & _); auto; [congruence|].
    unfold snd_ok. do 6 (split; [assumption|]). discriminate.
  Qed.

  Lemma leaf : forall e u m h k t env s st s', unify k u t s = Some (Succ s') -> tenv st = DD ->
    below (next st) t -> sbelow (next st) s -> below (next st) u ->
    (forall C, eclean C env -> eclean C DD -> clean C u) -> (earrows env -> earrows DD -> arrows u = true) ->
    (forall th, typed (tinst th DD) (tinst th env) e (inst th u)) ->
    (m = FCall -> vars u = []) -> snd_ok m e h t env s st s' st.
  Proof.
    intros e u m h k t env s st s' E ED Bt Bs Bu HC HA HT HM. unfold snd_ok.
    split; [exact ED|]. split; [lia|]. split; [eapply unify_below; eauto|]. split; [|split; [|split]].
    - intros C _ Ct Ce Cd Cs. eapply unify_local; [exact E|exact Cs| |]; apply aclean_clean; auto.
    - intros _ At Ae Ad Ts As. eapply unify_tri; eauto.
    - intros th Hth. destruct (proj1 (unify_solutions _ _ _ _ _ E th) Hth) as (A & B). split; [exact A|]. rewrite <- B. apply HT.
    - intros Em _ a b -> NE Na Nb Cs Ce Cd. specialize (HM Em).
      destruct (unify_pins k u (TArr (TVar a) (TVar b)) a b u s s') as (A & B & VA & VB & ->); auto.
      { right. split; [reflexivity|]. intros j y' Ey. eapply apply_ground; eauto. }
      exists A, B. split.
      + split; [exact VA|]. split; [exact VB|]. split; intro w; cbn; split.
        * intros [Ei|[Ei|Hi]]; [congruence|congruence|]. exfalso. apply Na. unfold keys. apply in_map_iff. exists (a, w). auto.
        * intros ->. auto.
        * intros [Ei|[Ei|Hi]]; [congruence|congruence|]. exfalso. apply Nb. unfold keys. apply in_map_iff. exists (b, w). auto.
        * intros ->. auto.
      + intros w v [Ei|[Ei|Hi]]; [injection Ei as <- <-; now apply clean_ground|injection Ei as <- <-; now apply clean_ground|eauto].
  Qed.

  Ltac reduce_in E := cbn [check_type negb fold_right slist] in E; cbn [is_sym name_eqb String.eqb Ascii.eqb Bool.eqb] in E; cbn [tvar next tenv extend] in E.

  Lemma tinst_map : forall th th' env, (forall x u, In (x, u) env -> inst th' u = inst th u) -> tinst th' env = tinst th env.
  Proof. intros th th' env H. unfold tinst. apply map_ext_in. intros (x, u) Hi. cbn. f_equal. eauto. Qed.

  Lemma snd_if : forall xs e1 e2 e3, sound None FExp xs e1 -> sound None FExp xs e2 -> sound None FExp xs e3 ->
    sound (Some true) FExp xs (L [SSym (NS "if"); e1; e2; e3]).
  Proof.
    intros xs e1 e2 e3 H1 H2 H3 n h t env s st s' st' Eh E ED EX Bt Bs Be Bd. specialize (Eh true eq_refl). subst h.
    destruct n as [|n]; [discriminate|]. reduce_in E.
    apply bind_inv in E. destruct E as (s1 & st1 & E1 & E). apply bind_inv in E. destruct E as (s2 & st2 & E2 & E3).
    destruct (H1 _ _ _ _ _ _ _ _ ltac:(discriminate) E1 ED EX (fun v Hv => match Hv with end) Bs Be Bd) as (D1 & L1 & B1 & C1 & T1 & S1 & _).
    destruct (H2 _ _ _ _ _ _ _ _ ltac:(discriminate) E2 D1 EX (below_le _ _ _ L1 Bt) B1 (ebelow_le _ _ _ L1 Be) (ebelow_le _ _ _ L1 Bd)) as (D2 & L2 & B2 & C2 & T2 & S2 & _).
    assert (L12 : next st <= next st2) by lia.
    destruct (H3 _ _ _ _ _ _ _ _ ltac:(discriminate) E3 D2 EX (below_le _ _ _ L12 Bt) B2 (ebelow_le _ _ _ L12 Be) (ebelow_le _ _ _ L12 Bd)) as (D3 & L3 & B3 & C3 & T3 & S3 & _).
    split; [exact D3|]. split; [lia|]. split; [exact B3|]. split; [|split; [|split; [|discriminate]]].
    - intros C HC Ct Ce Cd Cs. destruct (C1 C HC) as (X1 & K1); auto; [intros c _ []|].
      destruct (C2 C) as (X2 & K2); auto; [intros c Hc; specialize (HC c Hc); lia|].
      destruct (C3 C) as (X3 & K3); auto; [intros c Hc; specialize (HC c Hc); lia|].
      split; [exact X3|]. eapply keeps_trans; [exact K1|eapply keeps_trans; eauto].
    - intros Z At Ae Ad Ts As. destruct (T1 Z) as (X1 & Y1); auto. destruct (T2 Z) as (X2 & Y2); auto.
    - intros th Hth. destruct (S3 th Hth) as (Y3 & Z3). destruct (S2 th Y3) as (Y2 & Z2). destruct (S1 th Y2) as (Y1 & Z1).
      split; [exact Y1|]. now apply t_if.
  Qed.

  Lemma ebelow_cons : forall n x t env, below n t -> ebelow n env -> ebelow n ((x, t) :: env).
  Proof. intros n x t env B H y u [Ei|Hi]; [injection Ei as <- <-; exact B|eauto]. Qed.
  Lemma eclean_cons : forall C x t env, clean C t -> eclean C env -> eclean C ((x, t) :: env).
  Proof. intros C x t env B H y u [Ei|Hi]; [injection Ei as <- <-; exact B|eauto]. Qed.
  Lemma earrows_cons : forall x t env, arrows t = true -> earrows env -> earrows ((x, t) :: env).
  Proof. intros x t env B H y u [Ei|Hi]; [injection Ei as <- <-; exact B|eapply H; eauto]. Qed.
  Lemma clean_fresh : forall (C : nat -> Prop) n v, (forall c, C c -> c < n) -> n <= v -> clean C (TVar v).
  Proof. intros C n v H Hv c Hc [<-|[]]. specialize (H _ Hc). lia. Qed.

  Lemma snd_let : forall xs x e1 e2, sound None FExp xs e1 -> sound None FExp (x :: xs) e2 ->
    sound (Some true) FExp xs (L [SSym (NS "let"); SSym x; e1; e2]).
  Proof.
    intros xs x e1 e2 H1 H2 n h t env s st s' st' Eh E ED EX Bt Bs Be Bd. specialize (Eh true eq_refl). subst h.
    destruct n as [|n]; [discriminate|]. reduce_in E.
    apply bind_inv in E. destruct E as (s1 & st1 & E1 & E2). set (st0 := mkSt (S (next st)) (tenv st)) in *.
    assert (L0 : next st <= next st0) by (cbn; lia).
    assert (EX' : map fst ((x, TVar (next st)) :: env) = x :: xs) by (cbn; now rewrite EX).
    assert (Bv : below (next st0) (TVar (next st))) by (apply below_var; cbn; lia).
    destruct (H1 _ _ _ _ _ _ _ _ ltac:(discriminate) E1 ED EX Bv (sbelow_le _ _ _ L0 Bs) (ebelow_le _ _ _ L0 Be) (ebelow_le _ _ _ L0 Bd)) as (D1 & L1 & B1 & C1 & T1 & S1 & _).
    assert (L01 : next st <= next st1) by lia.
    assert (Be1 : ebelow (next st1) ((x, TVar (next st)) :: env)) by (exact (ebelow_cons _ _ _ _ (below_le _ _ _ L1 Bv) (ebelow_le _ _ _ L01 Be))).
    destruct (H2 _ _ _ _ _ _ _ _ ltac:(discriminate) E2 D1 EX' (below_le _ _ _ L01 Bt) B1 Be1 (ebelow_le _ _ _ L01 Bd)) as (D2 & L2 & B2 & C2 & T2 & S2 & _).
    split; [exact D2|]. split; [lia|]. split; [exact B2|]. split; [|split; [|split; [|discriminate]]].
    - intros C HC Ct Ce Cd Cs. pose proof (clean_fresh C (next st) (next st) HC (le_n _)) as Cv.
      destruct (C1 C) as (X1 & K1); auto; [intros c Hc; specialize (HC c Hc); cbn; lia|].
      destruct (C2 C) as (X2 & K2); auto; [intros c Hc; specialize (HC c Hc); lia|now apply eclean_cons|].
      split; [exact X2|]. eapply keeps_trans; eauto.
    - intros Z At Ae Ad Ts As. destruct (T1 Z) as (X1 & Y1); auto. apply (T2 Z); auto. now apply earrows_cons.
    - intros th Hth. destruct (S2 th Hth) as (Y2 & Z2). destruct (S1 th Y2) as (Y1 & Z1).
      split; [exact Y1|]. eapply t_let; [exact Z1|exact Z2].
  Qed.

  Lemma snd_thunk : forall xs e, z = true -> sound None FExp xs e -> sound (Some true) FExp xs (L [SSym (NS "lambda"); SNil; e]).
  Proof.
    intros xs e Hz H1 n h t env s st s' st' Eh E ED EX Bt Bs Be Bd. specialize (Eh true eq_refl). subst h.
    destruct n as [|n]; [discriminate|]. reduce_in E.
    apply bind_inv in E. destruct E as (s1 & st1 & E1 & E2). set (st0 := mkSt (S (next st)) (tenv st)) in *.
    assert (L0 : next st <= next st0) by (cbn; lia).
    assert (Bv : below (next st0) (TVar (next st))) by (apply below_var; cbn; lia).
    destruct (H1 _ _ _ _ _ _ _ _ ltac:(discriminate) E1 ED EX Bv (sbelow_le _ _ _ L0 Bs) (ebelow_le _ _ _ L0 Be) (ebelow_le _ _ _ L0 Bd)) as (D1 & L1 & B1 & C1 & T1 & S1 & _).
    assert (L01 : next st <= next st1) by lia. apply pure_inv in E2. destruct E2 as (E2 & ->).
    split; [exact D1|]. split; [lia|]. split; [|split; [|split; [|split; [|discriminate]]]].
    - eapply unify_below; [exact E2|exact B1|exact (below_le _ _ _ L01 Bt)|]. exact (below_le _ _ _ L1 Bv).
    - intros C HC Ct Ce Cd Cs. pose proof (clean_fresh C (next st) (next st) HC (le_n _)) as Cv.
      destruct (C1 C) as (X1 & K1); auto; [intros c Hc; specialize (HC c Hc); cbn; lia|].
      destruct (unify_local C _ _ _ _ _ E2 X1) as (X2 & K2); [apply aclean_clean; auto|apply aclean_clean; auto|].
      split; [exact X2|]. eapply keeps_trans; eauto.
    - congruence.
    - intros th Hth. destruct (proj1 (unify_solutions _ _ _ _ _ E2 th) Hth) as (Y2 & Z2). destruct (S1 th Y2) as (Y1 & Z1).
      split; [exact Y1|]. rewrite Z2. cbn [inst]. now apply t_thunk.
  Qed.

  Lemma snd_lam : forall xs x e, sound None FExp (x :: xs) e -> sound (Some true) FExp xs (L [SSym (NS "lambda"); L [SSym x]; e]).
  Proof.
    intros xs x e H1 n h t env s st s' st' Eh E ED EX Bt Bs Be Bd. specialize (Eh true eq_refl). subst h.
    destruct n as [|n]; [discriminate|]. reduce_in E.
    apply bind_inv in E. destruct E as (s1 & st1 & E1 & E2). set (st0 := mkSt (S (S (next st))) (tenv st)) in *.
    assert (L0 : next st <= next st0) by (cbn; lia).
    assert (EX' : map fst ((x, TVar (next st)) :: env) = x :: xs) by (cbn; now rewrite EX).
    assert (Bv : below (next st0) (TVar (next st))) by (apply below_var; cbn; lia).
    assert (Bw : below (next st0) (TVar (S (next st)))) by (apply below_var; cbn; lia).
    assert (Be0 : ebelow (next st0) ((x, TVar (next st)) :: env)) by (exact (ebelow_cons _ _ _ _ Bv (ebelow_le _ _ _ L0 Be))).
    destruct (H1 _ _ _ _ _ _ _ _ ltac:(discriminate) E1 ED EX' Bw (sbelow_le _ _ _ L0 Bs) Be0 (ebelow_le _ _ _ L0 Bd)) as (D1 & L1 & B1 & C1 & T1 & S1 & _).
    assert (L01 : next st <= next st1) by lia. apply pure_inv in E2. destruct E2 as (E2 & ->).
    split; [exact D1|]. split; [lia|]. split; [|split; [|split; [|split; [|discriminate]]]].
    - eapply unify_below; [exact E2|exact B1|exact (below_le _ _ _ L01 Bt)|].
      intros v [<-|[<-|[]]]; [apply (below_le _ _ _ L1 Bv)|apply (below_le _ _ _ L1 Bw)]; now left.
    - intros C HC Ct Ce Cd Cs. pose proof (clean_fresh C (next st) (next st) HC (le_n _)) as Cv. pose proof (clean_fresh C (next st) (S (next st)) HC ltac:(lia)) as Cw.
      destruct (C1 C) as (X1 & K1); auto; [intros c Hc; specialize (HC c Hc); cbn; lia|now apply eclean_cons|].
      destruct (unify_local C _ _ _ _ _ E2 X1) as (X2 & K2); [apply aclean_clean; auto|apply aclean_clean; auto|].
      { intros c Hc [<-|[<-|[]]]; specialize (HC _ Hc); lia. }
      split; [exact X2|]. eapply keeps_trans; eauto.
    - intros Z At Ae Ad Ts As. destruct (T1 Z) as (X1 & Y1); auto; [now apply earrows_cons|]. eapply unify_tri; eauto.
    - intros th Hth. destruct (proj1 (unify_solutions _ _ _ _ _ E2 th) Hth) as (Y2 & Z2). destruct (S1 th Y2) as (Y1 & Z1).
      split; [exact Y1|]. rewrite Z2. cbn [inst]. apply t_lam. exact Z1.
  Qed.

  Lemma snd_force : forall xs f, keyword f = false -> z = true -> sound None FCall xs f -> sound (Some true) FExp xs (L [f]).
  Proof.
    intros xs f K Hz H1 n h t env s st s' st' Eh E ED EX Bt Bs Be Bd. specialize (Eh true eq_refl). subst h.
    destruct n as [|n]; [discriminate|]. cbn [check_type negb fold_right slist] in E.
    destruct (H1 _ _ _ _ _ _ _ _ ltac:(discriminate) E ED EX Bt Bs Be Bd) as (D1 & L1 & B1 & C1 & T1 & S1 & _).
    split; [exact D1|]. split; [lia|]. split; [exact B1|]. split; [exact C1|]. split; [congruence|]. split; [|discriminate].
    intros th Hth. destruct (S1 th Hth) as (Y1 & Z1). split; [exact Y1|]. apply t_force; [exact K|exact Z1].
  Qed.

  Lemma in_keys : forall s v, In v (keys s) -> exists u, In (v, u) s.
  Proof. intros s v H. unfold keys in H. apply in_map_iff in H. destruct H as ((w, u) & <- & H). eauto. Qed.
  Lemma forget_in : forall a b c u s, c <> a -> c <> b -> (In (c, u) (forget a b s) <-> In (c, u) s).
  Proof.
    intros a b c u s Ha Hb. unfold forget. rewrite filter_In. cbn. destruct (Nat.eqb_spec c a); [contradiction|]. destruct (Nat.eqb_spec c b); [contradiction|]. cbn. tauto.
  Qed.

  Lemma snd_app : forall m xs f x, keyword f = false -> sound None FCall xs f -> sound None FExp xs x -> sound (Some true) m xs (L [f; x]).
  Proof.
    intros m xs f x K H1 H2 n h t env s st s' st' Eh E ED EX Bt Bs Be Bd. specialize (Eh true eq_refl). subst h.
    destruct n as [|n]; [discriminate|]. cbn [check_type negb fold_right slist] in E. rewrite (keyword_not _ _ K) in E by (cbn; tauto).
    cbn [tvar next tenv] in E. set (N := next st) in *. set (st0 := mkSt (S (S N)) (tenv st)) in *.
    apply bind_inv in E. destruct E as (s1 & st1 & E1 & E). destruct (apply_subst n (TVar N) s1) as [ta|] eqn:EA; [|discriminate].
    apply bind_inv in E. destruct E as (s2 & st2 & E2 & E). apply bind_inv in E. destruct E as (s3 & st3 & E3 & E).
    apply pure_inv in E3. destruct E3 as (E3 & ->). injection E as <- <-.
    assert (L0 : N <= next st0) by (cbn; lia).
    assert (BAB : below (next st0) (TArr (TVar N) (TVar (S N)))) by (intros v [<-|[<-|[]]]; cbn; lia).
    destruct (H1 _ _ _ _ _ _ _ _ ltac:(discriminate) E1 ED EX BAB (sbelow_le _ _ _ L0 Bs) (ebelow_le _ _ _ L0 Be) (ebelow_le _ _ _ L0 Bd)) as (D1 & L1 & B1 & C1 & T1 & S1 & P1).
    cbn [next st0] in L1.
    set (C0 := fun c => c = N \/ c = S N) in *.
    assert (C0N : forall c, C0 c -> N <= c) by (intros c [->| ->]; lia).
    assert (Ce0 : eclean C0 env) by (exact (eclean_below _ _ _ C0N Be)).
    assert (Cd0 : eclean C0 DD) by (exact (eclean_below _ _ _ C0N Bd)).
    assert (Cs0 : sclean C0 s) by (exact (sclean_below _ _ _ C0N Bs)).
    assert (Ct0 : clean C0 t) by (exact (clean_below _ _ _ C0N Bt)).
    destruct (P1 eq_refl eq_refl N (S N) eq_refl ltac:(lia) (keys_below _ _ _ Bs (le_n _)) (keys_below _ _ _ Bs (le_S _ _ (le_n _))) Cs0 Ce0 Cd0)
      as (A & B & (VA & VB & PA & PB) & Cs1).
    assert (ta = A) by (exact (apply_var_ground _ _ _ _ _ PA VA EA)). subst ta. clear EA P1.
    assert (BA : below (next st1) A) by (intros v Hv; rewrite VA in Hv; destruct Hv).
    assert (LN1 : N <= next st1) by lia.
    destruct (H2 _ _ _ _ _ _ _ _ ltac:(discriminate) E2 D1 EX BA B1 (ebelow_le _ _ _ LN1 Be) (ebelow_le _ _ _ LN1 Bd)) as (D2 & L2 & B2 & C2 & T2 & S2 & _).
    assert (LN2 : N <= next st2) by lia.
    destruct (C2 C0) as (Cs2 & K2); [intros c [->| ->]; lia|now apply clean_ground|exact Ce0|exact Cd0|exact Cs1|].
    assert (PA2 : forall u, In (N, u) s2 <-> u = A) by (intro u; rewrite (K2 N u) by (now left); apply PA).
    assert (PB2 : forall u, In (S N, u) s2 <-> u = B) by (intro u; rewrite (K2 (S N) u) by (now right); apply PB).
    assert (APB : forall k y', apply_subst k (TVar (S N)) s2 = Some y' -> y' = B) by (intros k y' Ek; exact (apply_var_ground _ _ _ _ _ PB2 VB Ek)).
    assert (ACB : forall C, aclean C s2 (TVar (S N))) by (intros C k y' Ek; rewrite (APB _ _ Ek); now apply clean_ground).
    destruct (unify_local C0 _ _ _ _ _ E3 Cs2 (aclean_clean _ _ _ Cs2 Ct0) (ACB C0)) as (Cs3 & K3).
    assert (PA3 : forall u, In (N, u) s3 <-> u = A) by (intro u; rewrite (K3 N u) by (now left); apply PA2).
    assert (PB3 : forall u, In (S N, u) s3 <-> u = B) by (intro u; rewrite (K3 (S N) u) by (now right); apply PB2).
    assert (B3 : sbelow (next st2) s3).
    { eapply unify_below; [exact E3|exact B2|exact (below_le _ _ _ LN2 Bt)|]. apply below_var. lia. }
    split; [exact D2|]. split; [exact LN2|]. split; [exact (sbelow_filter _ _ _ B3)|]. split; [|split; [|split]].
    - intros C HC Ct Ce Cd Cs. fold N in HC.
      destruct (C1 C) as (X1 & Y1); auto; [intros c Hc; specialize (HC c Hc); cbn; lia|intros c Hc [<-|[<-|[]]]; specialize (HC _ Hc); lia|].
      destruct (C2 C) as (X2 & Y2); auto; [intros c Hc; specialize (HC c Hc); lia|now apply clean_ground|].
      destruct (unify_local C _ _ _ _ _ E3 X2 (aclean_clean _ _ _ X2 Ct) (ACB C)) as (X3 & Y3). split.
      + intros v u Hi. apply filter_In in Hi. exact (X3 v u (proj1 Hi)).
      + intros c u Hc. specialize (HC c Hc). rewrite forget_in by lia. rewrite (Y3 c u Hc), (Y2 c u Hc). now apply Y1.
    - intros Z At Ae Ad Ts As. destruct (T1 Z) as (X1 & Y1); auto.
      assert (AA : arrows A = true) by (apply (Y1 N); now apply PA).
      destruct (T2 Z) as (X2 & Y2); auto. destruct (unify_tri _ _ _ _ _ E3 X2 Y2 At eq_refl) as (X3 & Y3).
      split; [now apply tri_filter|]. intros v u Hi. apply filter_In in Hi. exact (Y3 v u (proj1 Hi)).
    - intros th Hth.
      set (th' := fun v => if v =? N then inst th A else if v =? S N then inst th B else th v).
      assert (AG : forall u, clean C0 u -> inst th' u = inst th u).
      { intros u Hu. apply inst_agree. intros v Hv. unfold th'. destruct (Nat.eqb_spec v N) as [->|N1]; [exfalso; apply (Hu N); [now left|exact Hv]|].
        destruct (Nat.eqb_spec v (S N)) as [->|N2]; [exfalso; apply (Hu (S N)); [now right|exact Hv]|reflexivity]. }
      assert (VN : th' N = inst th' A) by (rewrite (AG A) by (now apply clean_ground); unfold th'; now rewrite Nat.eqb_refl).
      assert (VS : th' (S N) = inst th' B).
      { rewrite (AG B) by (now apply clean_ground). unfold th'. destruct (Nat.eqb_spec (S N) N); [lia|]. now rewrite Nat.eqb_refl. }
      assert (S3' : solves th' s3).
      { intros v u Hi. destruct (Nat.eq_dec v N) as [->|N1]; [apply PA3 in Hi; now subst u|].
        destruct (Nat.eq_dec v (S N)) as [->|N2]; [apply PB3 in Hi; now subst u|].
        rewrite (AG u) by (exact (Cs3 v u Hi)). unfold th'. destruct (Nat.eqb_spec v N); [contradiction|]. destruct (Nat.eqb_spec v (S N)); [contradiction|].
        apply Hth. apply forget_in; auto. }
      destruct (proj1 (unify_solutions _ _ _ _ _ E3 th') S3') as (S2' & Et). destruct (S2 th' S2') as (S1' & Tx). destruct (S1 th' S1') as (S0' & Tf).
      assert (TE : tinst th' env = tinst th env) by (apply tinst_map; intros y u Hi; apply AG; exact (Ce0 y u Hi)).
      assert (TD : tinst th' DD = tinst th DD) by (apply tinst_map; intros y u Hi; apply AG; exact (Cd0 y u Hi)).
      rewrite TE, TD in Tx, Tf. split.
      + intros v u Hi. pose proof (S0' v u Hi) as EV. rewrite (AG u (Cs0 v u Hi)) in EV. rewrite <- EV. unfold th'.
        destruct (Bs v u Hi) as (Hv & _). destruct (Nat.eqb_spec v N); [lia|]. destruct (Nat.eqb_spec v (S N)); [lia|reflexivity].
      + rewrite <- (AG t Ct0), Et. cbn [inst] in Tf |- *. eapply t_app; [exact K|exact Tf|]. rewrite VN. exact Tx.
    - intros _ _ a b -> NE Na Nb Cs Ce Cd.
      assert (Ha : a < N) by (apply Bt; now left). assert (Hb : b < N) by (apply Bt; right; now left).
      destruct (C1 (fun c => c = a \/ c = b)) as (X1 & Y1); auto; [intros c [->| ->]; cbn; lia|intros c [->| ->] [?|[?|[]]]; lia|].
      destruct (C2 (fun c => c = a \/ c = b)) as (X2 & Y2); auto; [intros c [->| ->]; lia|now apply clean_ground|].
      assert (Na2 : ~ In a (keys s2)).
      { intro Hi. apply in_keys in Hi. destruct Hi as (u & Hi). apply (Y2 a u) in Hi; [|auto]. apply (Y1 a u) in Hi; [|auto]. apply Na. unfold keys. apply in_map_iff. exists (a, u). auto. }
      assert (Nb2 : ~ In b (keys s2)).
      { intro Hi. apply in_keys in Hi. destruct Hi as (u & Hi). apply (Y2 b u) in Hi; [|auto]. apply (Y1 b u) in Hi; [|auto]. apply Nb. unfold keys. apply in_map_iff. exists (b, u). auto. }
      destruct (unify_pins n (TArr (TVar a) (TVar b)) (TVar (S N)) a b B s2 s3) as (A' & B' & VA' & VB' & ->); auto.
      exists A', B'. split.
      + split; [exact VA'|]. split; [exact VB'|]. split; intro w; rewrite forget_in by lia; cbn; split.
        * intros [Ei|[Ei|Hi]]; [congruence|congruence|]. exfalso. apply Na2. unfold keys. apply in_map_iff. exists (a, w). auto.
        * intros ->. auto.
        * intros [Ei|[Ei|Hi]]; [congruence|congruence|]. exfalso. apply Nb2. unfold keys. apply in_map_iff. exists (b, w). auto.
        * intros ->. auto.
      + intros w v Hi. apply filter_In in Hi. destruct Hi as ([Ei|[Ei|Hi]] & _); [injection Ei as <- <-; now apply clean_ground|injection Ei as <- <-; now apply clean_ground|eauto].
  Qed.

  Lemma snd_calls : forall xs f x y l, keyword f = false -> sound None FExp xs (SCons (L [f; x]) (SCons y (L l))) ->
    sound (Some true) FExp xs (SCons f (SCons x (SCons y (L l)))).
  Proof.
    intros xs f x y l K H n h t env s st s' st' Eh E ED EX Bt Bs Be Bd. specialize (Eh true eq_refl). subst h.
    destruct n as [|n]; [discriminate|]. cbn [check_type negb slist] in E. rewrite slist_fold in E.
    assert (E' : check_type n false (SCons (L [f; x]) (SCons y (L l))) t env s st = Some (Succ s', st')).
    { destruct l as [|w [|w' l]]; repeat rewrite (keyword_not _ _ K) in E by (cbn; tauto); exact E. }
    destruct (H _ _ _ _ _ _ _ _ ltac:(discriminate) E' ED EX Bt Bs Be Bd) as (D1 & L1 & B1 & C1 & T1 & S1 & _).
    do 5 (split; [assumption|]). split; [|discriminate]. intros th Hth. destruct (S1 th Hth) as (Y & Z). split; [exact Y|]. now apply t_apps.
  Qed.

  Lemma lookup_some : forall x (env : list (name * ty)), In x (map fst env) -> exists u, lookup x env = Some u.
  Proof.
    intros x. induction env as [|(y, u) env IH]; cbn; intro H; [contradiction|]. destruct (name_eqb_spec x y); [eauto|]. destruct H; [congruence|auto].
  Qed.
  Lemma lookup_none : forall x (env : list (name * ty)), ~ In x (map fst env) -> lookup x env = None.
  Proof.
    intros x env H. destruct (lookup x env) as [u|] eqn:E; [|reflexivity]. exfalso. apply H. apply lookup_in in E. apply in_map_iff. exists (x, u). auto.
  Qed.
  Lemma fo_call_head : forall xs f, fo DD z FCall xs f -> keyword f = false.
  Proof. intros xs f H. inversion H; subst; [assumption|reflexivity]. Qed.

  Lemma snd_base : forall xs e u, (forall n t env s st, check_type (S n) true e t env s st = pure (unify n u t s) st) ->
    vars u = [] -> arrows u = true -> (forall D g th, typed D g e (inst th u)) -> sound (Some true) FExp xs e.
  Proof.
    intros xs e u HE V HA HT n h t env s st s' st' Eh E ED EX Bt Bs Be Bd. specialize (Eh true eq_refl). subst h.
    destruct n as [|n]; [discriminate|]. rewrite HE in E. apply pure_inv in E. destruct E as (E & ->).
    eapply leaf; eauto; [intros v Hv; rewrite V in Hv; destruct Hv|intros; now apply clean_ground].
  Qed.

  Theorem fo_sound : forall m xs e, fo DD z m xs e -> sound None m xs e.
  Proof.
    induction 1.
    - apply demote; [discriminate|intros x y E; cbn in E; discriminate|]. eapply (snd_base _ _ TInt); try reflexivity. intros; apply t_num.
    - apply demote; [discriminate|intros x y E; cbn in E; discriminate|]. eapply (snd_base _ _ TBool); try reflexivity. intros; apply t_true.
    - apply demote; [discriminate|intros x y E; cbn in E; discriminate|]. eapply (snd_base _ _ TBool); try reflexivity. intros; apply t_false.
    - apply demote; [discriminate|intros x y E; cbn in E; discriminate|]. eapply (snd_base _ _ TString); try reflexivity. intros; apply t_str.
    - apply demote; [discriminate|intros y y' E; cbn in E; discriminate|]. eapply (snd_base _ _ TSymbol); try reflexivity. intros; apply t_quote.
    - apply demote; [discriminate|intros y y' E; cbn in E; discriminate|].
      intros n h t env s st s' st' Eh E ED EX Bt Bs Be Bd. specialize (Eh true eq_refl). subst h. destruct n as [|n]; [discriminate|]. cbn [check_type negb] in E.
      destruct (lookup x env) as [u|] eqn:EL.
      + apply pure_inv in E. destruct E as (E & ->). pose proof (lookup_in _ _ _ EL) as Hi. eapply leaf; eauto; [|discriminate].
        intro th. apply t_local. now rewrite lookup_tinst, EL.
      + destruct H as [Hx|(t0 & Ht0)]; [rewrite <- EX in Hx; apply lookup_some in Hx; destruct Hx; congruence|].
        rewrite ED, Ht0 in E. apply pure_inv in E. destruct E as (E & ->). pose proof (lookup_in _ _ _ Ht0) as Hi. eapply leaf; eauto; [|discriminate].
        intro th. apply t_declared; [now rewrite lookup_tinst, EL|now rewrite lookup_tinst, Ht0].
    - apply demote; [discriminate|intros y y' E; cbn in E; discriminate|]. now apply snd_if.
    - apply demote; [discriminate|intros y y' E; cbn in E; discriminate|]. now apply snd_let.
    - apply demote; [discriminate|intros y y' E; cbn in E; discriminate|]. now apply snd_thunk.
    - apply demote; [discriminate|intros y y' E; cbn in E; discriminate|]. now apply snd_lam.
    - apply demote; [discriminate|intros y' y'' E; cbn in E; discriminate|].
      intros n h t env s st s' st' Eh E ED EX Bt Bs Be Bd. specialize (Eh true eq_refl). subst h. destruct n as [|n]; [discriminate|]. reduce_in E.
      assert (HL : sound None FExp xs (lam1 (SSym x) (lam (SCons (SSym y) ps) e))).
      { apply demote; [discriminate|intros y' y'' E0; cbn in E0; discriminate|]. now apply snd_lam. }
      destruct (HL _ _ _ _ _ _ _ _ ltac:(discriminate) E ED EX Bt Bs Be Bd) as (D1 & L1 & B1 & C1 & T1 & S1 & _).
      do 5 (split; [assumption|]). split; [|discriminate]. intros th Hth. destruct (S1 th Hth) as (Y & Z). split; [exact Y|].
      inversion Z; subst; try discriminate.
      now apply t_lams.
    - apply demote; [discriminate|intros y y' E; cbn in E; discriminate|].
      intros n h t' env s st s' st' Eh E ED EX Bt Bs Be Bd. specialize (Eh true eq_refl). subst h. destruct n as [|n]; [discriminate|]. cbn [check_type negb] in E.
      rewrite <- EX in H. apply lookup_none in H. rewrite H, ED, H0 in E. apply pure_inv in E. destruct E as (E & ->). pose proof (lookup_in _ _ _ H0) as Hi.
      eapply leaf; eauto. intro th. apply t_declared; [now rewrite lookup_tinst, H|now rewrite lookup_tinst, H0].
    - apply demote; [discriminate|intros y y' E; cbn in E; discriminate|]. apply snd_force; auto. eapply fo_call_head; eauto.
    - apply demote; [discriminate|intros y y' E; cbn in E; discriminate|]. apply snd_app; auto. eapply fo_call_head; eauto.
    - apply demote; [discriminate|intros y' y'' E; cbn in E; congruence|]. now apply snd_calls.
  Qed.
End Sound.
