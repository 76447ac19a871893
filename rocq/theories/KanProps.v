(** C53: the answers of a goal of lib/ukanren.cora are its solutions. *)
From Coq Require Import List ZArith String Bool Arith Lia.
From Verif Require Import KanSpec KanModel Base.
Import ListNotations.
Local Open Scope list_scope.
Local Open Scope nat_scope.

(** what the logic variables stand for *)
Notation valuation := (nat -> datum).
Fixpoint app (th : valuation) (t : term) : datum :=
  match t with TVar x => th x | TAtom a => DAtom a | TPair x y => DPair (app th x) (app th y) end.
(** the valuations that a substitution describes *)
Definition solves (th : valuation) (s : sub) : Prop := forall x t, In (x, t) s -> th x = app th t.

Lemma assp_in : forall u s v t, assp u s = Some (v, t) -> u = v /\ In (v, t) s.
Proof.
  induction s as [|(y, q) s IH]; cbn; [discriminate|]. intros v t H. destruct (Nat.eqb_spec u y) as [->|N].
  - injection H as -> ->. auto.
  - apply IH in H. tauto.
Qed.
Lemma walk_solves : forall n u s w th, solves th s -> walk n u s = Some w -> app th w = app th u.
Proof.
  induction n as [|n IH]; cbn; [discriminate|]. intros u s w th S H. destruct u as [x| |]; try (injection H as <-; reflexivity).
  destruct (assp x s) as [(y, t)|] eqn:E; [|injection H as <-; reflexivity].
  apply assp_in in E. destruct E as (<- & I). rewrite (IH _ _ _ _ S H). symmetry. now apply S.
Qed.
Lemma solves_cons : forall th k v s, solves th ((k, v) :: s) <-> th k = app th v /\ solves th s.
Proof.
  intros. unfold solves. split.
  - intro H. split; [apply H; now left|]. intros x t I. apply H. now right.
  - intros (E & H) x t [I|I]; [injection I as <- <-; exact E|auto].
Qed.

(** Unification describes exactly the valuations that make the two terms equal,
    unless it answers with the empty substitution; then there is no such
    valuation, or the substitution it started from was empty too. *)
Theorem unify_exact : forall n u v s s', unify n u v s = Some s' ->
  (s' <> [] -> forall th, solves th s' <-> solves th s /\ app th u = app th v) /\
  (s' = [] -> s <> [] -> forall th, solves th s -> app th u <> app th v).
Proof.
  induction n as [|n IH]; cbn; [discriminate|]. intros u v s s' H.
  destruct (walk n u s) as [u1|] eqn:WU; [|discriminate]. destruct (walk n v s) as [v1|] eqn:WV; [|discriminate].
  assert (W : forall th, solves th s -> app th u1 = app th u /\ app th v1 = app th v) by (intros th S; split; eapply walk_solves; eauto).
  assert (SAME : forall th, app th u1 = app th v1 -> solves th s -> app th u = app th v).
  { intros th E S. destruct (W th S) as (<- & <-). exact E. }
  assert (EXT : forall k w, (u1 = TVar k /\ v1 = w \/ v1 = TVar k /\ u1 = w) -> s' = (k, w) :: s ->
    (s' <> [] -> forall th, solves th s' <-> solves th s /\ app th u = app th v) /\
    (s' = [] -> s <> [] -> forall th, solves th s -> app th u <> app th v)).
  { intros k w C ->. split; [|discriminate]. intros _ th. rewrite solves_cons. split.
    - intros (E & S). split; [exact S|]. apply SAME; [|exact S]. destruct C as [(-> & ->)|(-> & ->)]; cbn; congruence.
    - intros (S & E). split; [|exact S]. destruct (W th S) as (WU1 & WV1). destruct C as [(-> & ->)|(-> & ->)]; cbn in *; congruence. }
  assert (KEEP : (forall th, app th u1 = app th v1) -> s' = s ->
    (s' <> [] -> forall th, solves th s' <-> solves th s /\ app th u = app th v) /\
    (s' = [] -> s <> [] -> forall th, solves th s -> app th u <> app th v)).
  { intros E ->. split; [|congruence]. intros _ th. split; [|tauto]. intro S. auto. }
  assert (NO : (forall th, app th u1 <> app th v1) -> s' = [] ->
    (s' <> [] -> forall th, solves th s' <-> solves th s /\ app th u = app th v) /\
    (s' = [] -> s <> [] -> forall th, solves th s -> app th u <> app th v)).
  { intros E ->. split; [congruence|]. intros _ _ th S. destruct (W th S) as (<- & <-). apply E. }
  destruct u1 as [x|a|a1 a2], v1 as [y|b|b1 b2]; cbn in H; try (injection H as <-).
  - destruct (Nat.eqb_spec x y) as [->|N]; injection H as <-; [apply KEEP; auto|eapply EXT; [left; split; reflexivity|reflexivity]].
  - eapply EXT; [left; split; reflexivity|reflexivity].
  - eapply EXT; [left; split; reflexivity|reflexivity].
  - eapply EXT; [right; split; reflexivity|reflexivity].
  - destruct (atom_eq_dec a b) as [->|N]; injection H as <-; [apply KEEP; auto|apply NO; auto]. intros th E. cbn in E. congruence.
  - apply NO; auto. discriminate.
  - eapply EXT; [right; split; reflexivity|reflexivity].
  - apply NO; auto. discriminate.
  - destruct (unify n a1 b1 s) as [s1|] eqn:E1; [|discriminate]. apply IH in E1. destruct E1 as (E1 & F1).
    destruct s1 as [|p s1].
    + injection H as <-. split; [congruence|]. intros _ NE th S E. destruct (W th S) as (EU & EV). rewrite <- EU, <- EV in E.
      cbn in E. injection E as Ea _. exact (F1 eq_refl NE th S Ea).
    + apply IH in H. destruct H as (E2 & F2). split.
      * intros NE th. rewrite (E2 NE th), (E1 ltac:(discriminate) th). split.
        -- intros ((S & Ea) & Eb). split; [exact S|]. apply SAME; [cbn; congruence|exact S].
        -- intros (S & E). destruct (W th S) as (EU & EV). rewrite <- EU, <- EV in E. cbn in E. injection E as Ea Eb. auto.
      * intros E NE th S E3. destruct (W th S) as (EU & EV). rewrite <- EU, <- EV in E3. cbn in E3. injection E3 as Ea Eb.
        apply (F2 E ltac:(discriminate) th); [|exact Eb]. apply (E1 ltac:(discriminate)). auto.
Qed.

(** * Goals *)
Fixpoint states (x : stream) : list state := match x with Next h t => h :: states t | _ => [] end.
Fixpoint suspended (x : stream) : Prop := match x with Stop => False | Next _ t => suspended t | Susp _ _ _ => True end.

Lemma mplus_good : forall x y r, mplus x y = Good r -> states r = states x ++ states y /\ ~ suspended x /\ (suspended r <-> suspended y).
Proof.
  induction x as [|h t IH|g env st]; intros y r H; cbn in H; [injection H as <-; cbn; tauto| |discriminate].
  destruct (mplus t y) as [|r1] eqn:E; [discriminate|]. injection H as <-. apply IH in E. destruct E as (E & NS & SS). cbn. rewrite E. tauto.
Qed.
Lemma bind_good : forall f x r, bind f x = Some (Good r) -> ~ suspended x /\
  (forall st, In st (states x) -> exists a, f st = Some (Good a) /\ (forall st1, In st1 (states a) -> In st1 (states r))
     /\ (suspended a -> suspended r)) /\
  (forall st1, In st1 (states r) -> exists st a, In st (states x) /\ f st = Some (Good a) /\ In st1 (states a)).
Proof.
  intros f. induction x as [|h t IH|g env st]; intros r H; cbn in H; [injection H as <-; cbn; repeat split; tauto| |discriminate].
  destruct (f h) as [[|a]|] eqn:EH; try discriminate. destruct (bind f t) as [[|b]|] eqn:EB; try discriminate. injection H as H.
  apply mplus_good in H. destruct H as (ES & NS & SS). destruct (IH _ eq_refl) as (N2 & F & B). cbn. split; [exact N2|]. split.
  - intros st [<-|I].
    + exists a. split; [exact EH|]. split; [|tauto]. intros st1 I. rewrite ES. apply in_or_app. now left.
    + destruct (F st I) as (a1 & E1 & I1 & S1). exists a1. split; [exact E1|]. split; [|tauto].
      intros st1 J. rewrite ES. apply in_or_app. right. auto.
  - intros st1 I. rewrite ES in I. apply in_app_or in I. destruct I as [I|I]; [exists h, a; auto|].
    destruct (B st1 I) as (st & a1 & I1 & E1 & J). exists st, a1. auto.
Qed.

Lemma build_den : forall th env e t, build e env = Some t -> den e (map (app th) env) = Some (app th t).
Proof.
  intros th env. induction e as [i|a|x IHx y IHy]; intros t H; cbn in H |- *.
  - rewrite nth_error_map, H. reflexivity.
  - injection H as <-. reflexivity.
  - destruct (build x env) as [a|]; [|discriminate]. destruct (build y env) as [b|]; [|discriminate]. injection H as <-.
    rewrite (IHx _ eq_refl), (IHy _ eq_refl). reflexivity.
Qed.
Lemma build_all_den : forall th env es ts, build_all es env = Some ts ->
  Forall2 (fun e d => den e (map (app th) env) = Some d) es (map (app th) ts).
Proof.
  intros th env. induction es as [|e es IH]; intros ts H; cbn in H; [injection H as <-; constructor|].
  destruct (build e env) as [a|] eqn:E; [|discriminate]. destruct (build_all es env) as [l|]; [|discriminate]. injection H as <-.
  constructor; [now apply build_den|auto].
Qed.

(** Every valuation that an answer describes satisfies the goal. *)
Theorem answers_hold : forall defs n g env s c x, run defs n g env (s, c) = Some (Good x) ->
  forall s' c', In (s', c') (states x) -> forall th, solves th s' -> solves th s /\ means defs (map (app th) env) g.
Proof.
  intros defs. induction n as [|n IH]; [discriminate|]. intros g env s c x H s' c' I th S.
  destruct g as [u v|b|g1 g2|g1 g2|b|r es]; cbn in H.
  - destruct (build u env) as [a|] eqn:BU; [|discriminate]. destruct (build v env) as [b|] eqn:BV; [|discriminate].
    destruct (unify n a b s) as [s1|] eqn:EU; [|discriminate]. injection H as <-. apply unify_exact in EU. destruct EU as (EU & _).
    destruct s1 as [|p s1]; [destruct I|]. destruct I as [I|[]]. injection I as <- <-. apply EU in S; [|discriminate].
    destruct S as (S & E). split; [exact S|]. apply m_eq with (app th a); [now apply build_den|]. rewrite E. now apply build_den.
  - destruct (IH _ _ _ _ _ H _ _ I th S) as (S1 & M). split; [exact S1|]. econstructor. exact M.
  - destruct (run defs n g1 env (s, c)) as [[|a]|] eqn:E1; try discriminate. apply bind_good in H. destruct H as (_ & _ & B).
    destruct (B _ I) as ((s2, c2) & a2 & I2 & E2 & I3). destruct (IH _ _ _ _ _ E2 _ _ I3 th S) as (S2 & M2).
    destruct (IH _ _ _ _ _ E1 _ _ I2 th S2) as (S1 & M1). split; [exact S1|]. now constructor.
  - destruct (run defs n g1 env (s, c)) as [[|a]|] eqn:E1; [destruct (run defs n g2 env (s, c)); discriminate| |discriminate].
    destruct (run defs n g2 env (s, c)) as [[|b]|] eqn:E2; try discriminate. injection H as H. apply mplus_good in H. destruct H as (ES & _).
    rewrite ES in I. apply in_app_or in I. destruct I as [I|I].
    + destruct (IH _ _ _ _ _ E1 _ _ I th S) as (S1 & M). split; [exact S1|now constructor].
    + destruct (IH _ _ _ _ _ E2 _ _ I th S) as (S1 & M). split; [exact S1|now apply m_right].
  - injection H as <-. destruct I.
  - destruct (build_all es env) as [args|] eqn:BA; [|discriminate]. destruct (defs r) as [b|] eqn:ED; [|discriminate].
    destruct (IH _ _ _ _ _ H _ _ I th S) as (S1 & M). split; [exact S1|]. econstructor; [eapply build_all_den; eauto|exact ED|exact M].
Qed.
Print Assumptions answers_hold.

(** variables below a number *)
Fixpoint below (c : nat) (t : term) : Prop :=
  match t with TVar x => x < c | TAtom _ => True | TPair x y => below c x /\ below c y end.
Definition sub_below (c : nat) (s : sub) : Prop := forall x t, In (x, t) s -> x < c /\ below c t.
Definition agree (c : nat) (th th' : valuation) : Prop := forall x, x < c -> th' x = th x.

Lemma below_le : forall c c' t, c <= c' -> below c t -> below c' t.
Proof. intros c c' t L. induction t; cbn; [lia|auto|tauto]. Qed.
Lemma app_agree : forall c th th' t, agree c th th' -> below c t -> app th' t = app th t.
Proof. intros c th th' t A. induction t; cbn; [apply A|auto|]. intros (B1 & B2). now rewrite IHt1, IHt2. Qed.
Lemma map_agree : forall c th th' env, agree c th th' -> Forall (below c) env -> map (app th') env = map (app th) env.
Proof. intros c th th' env A F. induction F; cbn; [reflexivity|]. erewrite app_agree; eauto. congruence. Qed.
Lemma build_below : forall c env e t, Forall (below c) env -> build e env = Some t -> below c t.
Proof.
  intros c env e. induction e as [i|a|x IHx y IHy]; intros t F H; cbn in H.
  - apply nth_error_In in H. rewrite Forall_forall in F. auto.
  - injection H as <-. exact I.
  - destruct (build x env) as [a|]; [|discriminate]. destruct (build y env) as [b|]; [|discriminate]. injection H as <-. cbn. auto.
Qed.
Lemma build_all_below : forall c env es ts, Forall (below c) env -> build_all es env = Some ts -> Forall (below c) ts.
Proof.
  intros c env. induction es as [|e es IH]; intros ts F H; cbn in H; [injection H as <-; constructor|].
  destruct (build e env) as [a|] eqn:E; [|discriminate]. destruct (build_all es env) as [l|]; [|discriminate]. injection H as <-.
  constructor; [eapply build_below; eauto|auto].
Qed.
Lemma walk_below : forall c n u s w, sub_below c s -> below c u -> walk n u s = Some w -> below c w.
Proof.
  intros c. induction n as [|n IH]; cbn; [discriminate|]. intros u s w S B H. destruct u as [x| |]; try (injection H as <-; exact B).
  destruct (assp x s) as [(y, t)|] eqn:E; [|injection H as <-; exact B]. apply assp_in in E. destruct E as (_ & I).
  apply (IH t s w); [exact S|apply (S _ _ I)|exact H].
Qed.
Lemma unify_below : forall c n u v s s', sub_below c s -> below c u -> below c v -> unify n u v s = Some s' -> sub_below c s'.
Proof.
  intros c. induction n as [|n IH]; cbn; [discriminate|]. intros u v s s' S BU BV H.
  destruct (walk n u s) as [u1|] eqn:WU; [|discriminate]. destruct (walk n v s) as [v1|] eqn:WV; [|discriminate].
  eapply walk_below in WU; eauto. eapply walk_below in WV; eauto.
  assert (EXT : forall k w, k < c -> below c w -> sub_below c ((k, w) :: s)).
  { intros k w L B x t [I|I]; [injection I as <- <-; auto|apply (S _ _ I)]. }
  assert (NIL : sub_below c []) by (intros x t []).
  destruct u1 as [x|a|a1 a2], v1 as [y|b|b1 b2]; cbn in H, WU, WV; try (injection H as <-; auto; apply EXT; cbn; tauto).
  - destruct (x =? y); injection H as <-; auto; apply EXT; auto.
  - destruct (atom_eq_dec a b); injection H as <-; auto.
  - destruct (unify n a1 b1 s) as [s1|] eqn:E1; [|discriminate]. destruct s1 as [|p s1]; [injection H as <-; auto|].
    eapply IH in E1; [|exact S|tauto|tauto]. eapply IH in H; [exact H|exact E1|tauto|tauto].
Qed.

(** Every solution of the goal is described by one of the answers, unless the
    stream of answers is suspended. *)
Theorem answers_complete_partial : forall defs n g env s c x, run defs n g env (s, c) = Some (Good x) ->
  s <> [] -> sub_below c s -> Forall (below c) env ->
  (forall s' c', In (s', c') (states x) -> c <= c' /\ s' <> [] /\ sub_below c' s') /\
  forall th, solves th s -> means defs (map (app th) env) g ->
    suspended x \/ exists s' c' th', In (s', c') (states x) /\ solves th' s' /\ agree c th th'.
Proof.
  intros defs. induction n as [|n IH]; [discriminate|]. intros g env s c x H NE SB EB.
  destruct g as [u v|b|g1 g2|g1 g2|b|r es]; cbn in H.
  - destruct (build u env) as [a|] eqn:BU; [|discriminate]. destruct (build v env) as [b|] eqn:BV; [|discriminate].
    destruct (unify n a b s) as [s1|] eqn:EU; [|discriminate]. injection H as <-.
    assert (SB1 : sub_below c s1) by (apply (unify_below c n a b s); [exact SB|apply (build_below c env u); auto|apply (build_below c env v); auto|exact EU]).
    apply unify_exact in EU. destruct EU as (E1 & E2). split.
    + intros s' c' I. destruct s1; [destruct I|]. destruct I as [I|[]]. injection I as <- <-. split; [lia|]. split; [discriminate|exact SB1].
    + intros th S M. inversion M; subst. rewrite (build_den th env u a BU) in *. rewrite (build_den th env v b BV) in *.
      assert (EQ : app th a = app th b) by congruence. right.
      destruct s1 as [|p s1]; [exfalso; exact (E2 eq_refl NE th S EQ)|].
      exists (p :: s1), c, th. split; [now left|]. split; [|intros y _; reflexivity]. apply E1; [discriminate|auto].
  - assert (SB1 : sub_below (c + 1) s).
    { intros y t I. destruct (SB y t I). split; [lia|]. apply below_le with c; [lia|assumption]. }
    assert (EB1 : Forall (below (c + 1)) (TVar c :: env)).
    { constructor; [cbn; lia|]. eapply Forall_impl; [|exact EB]. intros t. apply below_le. lia. }
    destruct (IH _ _ _ _ _ H NE SB1 EB1) as (INV & C). split.
    + intros s' c' I. destruct (INV _ _ I) as (L & R). split; [lia|exact R].
    + intros th S M. inversion M as [|? ? d M1| | | | |]; subst.
      set (th1 := fun k => if k =? c then d else th k).
      assert (A1 : agree c th th1). { intros k L. unfold th1. destruct (Nat.eqb_spec k c); [lia|reflexivity]. }
      assert (S1 : solves th1 s).
      { intros k t I. destruct (SB k t I) as (L & B). rewrite (A1 k L), (app_agree c th th1 t A1 B). now apply S. }
      destruct (C th1 S1) as [SU|(s' & c' & th' & I & S' & A')]; [|now left|].
      { cbn [map app]. rewrite (map_agree c th th1 env A1 EB). unfold th1 at 1. rewrite Nat.eqb_refl. exact M1. }
      right. exists s', c', th'. split; [exact I|]. split; [exact S'|]. intros k L. rewrite A' by lia. now apply A1.
  - destruct (run defs n g1 env (s, c)) as [[|a]|] eqn:E1; try discriminate. apply bind_good in H. destruct H as (NS & F & B).
    destruct (IH _ _ _ _ _ E1 NE SB EB) as (INV1 & C1).
    assert (EB2 : forall c2, c <= c2 -> Forall (below c2) env).
    { intros c2 L. eapply Forall_impl; [|exact EB]. intros t. now apply below_le. }
    split.
    + intros s' c' I. destruct (B _ I) as ((s2, c2) & a2 & I2 & E2 & I3). destruct (INV1 _ _ I2) as (L2 & N2 & B2).
      destruct (IH _ _ _ _ _ E2 N2 B2 (EB2 _ L2)) as (INV2 & _). destruct (INV2 _ _ I3) as (L3 & R). split; [lia|exact R].
    + intros th S M. inversion M; subst.
      destruct (C1 th S) as [SU|(s2 & c2 & th2 & I2 & S2 & A2)]; [assumption|contradiction|].
      destruct (INV1 _ _ I2) as (L2 & N2 & B2). destruct (F _ I2) as (a2 & E2 & J2 & U2).
      destruct (IH _ _ _ _ _ E2 N2 B2 (EB2 _ L2)) as (_ & C2).
      destruct (C2 th2 S2) as [SU|(s3 & c3 & th3 & I3 & S3 & A3)]; [rewrite (map_agree c th th2 env A2 EB); assumption|left; auto|].
      right. exists s3, c3, th3. split; [auto|]. split; [exact S3|]. intros k L. rewrite A3 by lia. now apply A2.
  - destruct (run defs n g1 env (s, c)) as [[|a]|] eqn:E1; [destruct (run defs n g2 env (s, c)); discriminate| |discriminate].
    destruct (run defs n g2 env (s, c)) as [[|b]|] eqn:E2; try discriminate. injection H as H. apply mplus_good in H. destruct H as (ES & NS & SS).
    destruct (IH _ _ _ _ _ E1 NE SB EB) as (INV1 & C1). destruct (IH _ _ _ _ _ E2 NE SB EB) as (INV2 & C2). split.
    + intros s' c' I. rewrite ES in I. apply in_app_or in I. destruct I; auto.
    + intros th S M. inversion M; subst.
      * destruct (C1 th S) as [SU|(s' & c' & th' & I & R)]; [assumption|contradiction|]. right. exists s', c', th'. split; [|exact R].
        rewrite ES. apply in_or_app. now left.
      * destruct (C2 th S) as [SU|(s' & c' & th' & I & R)]; [assumption|left; tauto|]. right. exists s', c', th'. split; [|exact R].
        rewrite ES. apply in_or_app. now right.
  - injection H as <-. split; [intros s' c' []|]. intros. left. exact I.
  - destruct (build_all es env) as [args|] eqn:BA; [|discriminate]. destruct (defs r) as [b|] eqn:ED; [|discriminate].
    destruct (IH _ _ _ _ _ H NE SB (build_all_below _ _ _ _ EB BA)) as (INV & C). split; [exact INV|].
    intros th S M. apply C; [exact S|]. inversion M as [| | | | | |? ? ? ds b' F2 D M1]; subst. rewrite ED in D. injection D as <-.
    assert (X : ds = map (app th) args); [|now subst].
    pose proof (build_all_den th env es args BA) as F1. clear - F1 F2. revert ds F2. remember (map (app th) args) as l eqn:EL. clear EL.
    induction F1 as [|e d es l E F1 IH]; intros ds F2; inversion F2; subst; [reflexivity|]. f_equal; [congruence|auto].
Qed.
Print Assumptions answers_complete_partial.

(** * The substitutions that goals build *)
Definition unbound (s : sub) (x : nat) : Prop := forall t, ~ In (x, t) s.
(** each binding was added for a variable that had none, to a term that is not
    a variable, or that is another variable without binding *)
Inductive built : sub -> Prop :=
| b_nil : built []
| b_cons k v s : built s -> unbound s k -> (forall y, v = TVar y -> y <> k /\ unbound s y) -> built ((k, v) :: s).

Lemma assp_none : forall x s, assp x s = None <-> unbound s x.
Proof.
  intros x s. split.
  - intros H t I. induction s as [|(y, q) s IH]; [destruct I|]. cbn in H. destruct (Nat.eqb_spec x y) as [->|N]; [discriminate|].
    destruct I as [I|I]; [congruence|auto].
  - intros U. induction s as [|(y, q) s IH]; [reflexivity|]. cbn. destruct (Nat.eqb_spec x y) as [->|N].
    + exfalso. apply (U q). now left.
    + apply IH. intros t I. apply (U t). now right.
Qed.
Lemma walk_unbound : forall n u s w, walk n u s = Some w -> forall y, w = TVar y -> unbound s y.
Proof.
  induction n as [|n IH]; cbn; [discriminate|]. intros u s w H y ->. destruct u as [x| |]; try discriminate.
  destruct (assp x s) as [(z, t)|] eqn:E; [eapply IH; eauto|]. injection H as <-. now apply assp_none.
Qed.
Lemma walk_step : forall n k v s u w, unbound s k -> (forall y, v = TVar y -> y <> k /\ unbound s y) ->
  walk n u s = Some w -> exists w', walk (S n) u ((k, v) :: s) = Some w'.
Proof.
  intros n k v s u w UK UV. revert u w. induction n as [|n IH]; [discriminate|]. intros u w H.
  change (exists w', match u with TVar x => match assp x ((k, v) :: s) with None => Some u | Some (_, t) => walk (S n) t ((k, v) :: s) end
                              | _ => Some u end = Some w').
  destruct u as [x| |]; eauto. cbn [assp]. destruct (Nat.eqb_spec x k) as [->|N].
  - cbn [walk]. destruct v as [y| |]; eauto. destruct (UV y eq_refl) as (NK & UY).
    replace (assp y ((k, TVar y) :: s)) with (@None (nat * term)); eauto.
    symmetry. apply assp_none. intros t [I|I]; [congruence|exact (UY t I)].
  - cbn [walk] in H. destruct (assp x s) as [(z, t)|] eqn:E; eauto.
Qed.
(** Following the bindings of a variable ends. *)
Theorem walk_ends : forall s, built s -> forall u, exists w, walk (S (List.length s)) u s = Some w.
Proof.
  induction 1 as [|k v s B IH UK UV]; intros u.
  - cbn. destruct u; eauto.
  - destruct (IH u) as (w & E). exact (walk_step _ k v s u w UK UV E).
Qed.

Lemma unify_built : forall n u v s s', built s -> unify n u v s = Some s' -> built s'.
Proof.
  induction n as [|n IH]; cbn; [discriminate|]. intros u v s s' B H.
  destruct (walk n u s) as [u1|] eqn:WU; [|discriminate]. destruct (walk n v s) as [v1|] eqn:WV; [|discriminate].
  pose proof (walk_unbound _ _ _ _ WU) as UU. pose proof (walk_unbound _ _ _ _ WV) as UV.
  destruct u1 as [x|a|a1 a2], v1 as [y|b|b1 b2]; cbn in H;
    try (injection H as <-; constructor; [exact B|auto|intros; discriminate]); try (injection H as <-; constructor).
  - destruct (Nat.eqb_spec x y) as [->|N]; injection H as <-; [exact B|]. constructor; [exact B|auto|].
    intros z E. injection E as <-. split; [congruence|auto].
  - destruct (atom_eq_dec a b); injection H as <-; [exact B|constructor].
  - destruct (unify n a1 b1 s) as [s1|] eqn:E1; [|discriminate]. destruct s1 as [|p s1]; [injection H as <-; constructor|].
    eapply IH; [|exact H]. eapply IH; [exact B|exact E1].
Qed.
Theorem answers_built : forall defs n g env s c x, run defs n g env (s, c) = Some (Good x) -> built s ->
  forall s' c', In (s', c') (states x) -> built s'.
Proof.
  intros defs. induction n as [|n IH]; [discriminate|]. intros g env s c x H B s' c' I.
  destruct g as [u v|b|g1 g2|g1 g2|b|r es]; cbn in H.
  - destruct (build u env); [|discriminate]. destruct (build v env); [|discriminate].
    destruct (unify n t t0 s) as [s1|] eqn:EU; [|discriminate]. injection H as <-. destruct s1; [destruct I|].
    destruct I as [I|[]]. injection I as <- <-. eapply unify_built; eauto.
  - exact (IH _ _ _ _ _ H B _ _ I).
  - destruct (run defs n g1 env (s, c)) as [[|a]|] eqn:E1; try discriminate. apply bind_good in H. destruct H as (_ & _ & BB).
    destruct (BB _ I) as ((s2, c2) & a2 & I2 & E2 & I3). eapply IH; [exact E2| |exact I3]. eapply IH; [exact E1|exact B|exact I2].
  - destruct (run defs n g1 env (s, c)) as [[|a]|] eqn:E1; [destruct (run defs n g2 env (s, c)); discriminate| |discriminate].
    destruct (run defs n g2 env (s, c)) as [[|b]|] eqn:E2; try discriminate. injection H as H. apply mplus_good in H. destruct H as (ES & _).
    rewrite ES in I. apply in_app_or in I. destruct I as [I|I]; [exact (IH _ _ _ _ _ E1 B _ _ I)|exact (IH _ _ _ _ _ E2 B _ _ I)].
  - injection H as <-. destruct I.
  - destruct (build_all es env); [|discriminate]. destruct (defs r); [|discriminate]. exact (IH _ _ _ _ _ H B _ _ I).
Qed.
Print Assumptions walk_ends.
Print Assumptions answers_built.

(** Reading a term through a substitution gives the same datum, and leaves no
    variable that the substitution binds. *)
Fixpoint resolved (s : sub) (t : term) : Prop :=
  match t with TVar x => unbound s x | TAtom _ => True | TPair x y => resolved s x /\ resolved s y end.
Theorem walk_star_exact : forall n v s t, walk_star n v s = Some t ->
  resolved s t /\ forall th, solves th s -> app th t = app th v.
Proof.
  induction n as [|n IH]; [discriminate|]. intros v s t H. cbn in H. destruct (walk n v s) as [u|] eqn:W; [|discriminate].
  pose proof (walk_unbound _ _ _ _ W) as U.
  destruct u as [x|a|h r].
  - injection H as <-. split; [cbn; auto|]. intros th S. exact (walk_solves _ _ _ _ _ S W).
  - injection H as <-. split; [exact I|]. intros th S. exact (walk_solves _ _ _ _ _ S W).
  - destruct (walk_star n h s) as [a|] eqn:E1; [|discriminate]. destruct (walk_star n r s) as [b|] eqn:E2; [|discriminate]. injection H as <-.
    destruct (IH _ _ _ E1) as (R1 & S1). destruct (IH _ _ _ E2) as (R2 & S2). split; [cbn; auto|].
    intros th S. rewrite <- (walk_solves _ _ _ _ _ S W). cbn. now rewrite S1, S2.
Qed.
Print Assumptions walk_star_exact.

(** * Reified answers *)
Fixpoint ground (t : term) : Prop :=
  match t with TVar _ => False | TAtom _ => True | TPair x y => ground x /\ ground y end.
Lemma walk_nil : forall n v w, walk n v [] = Some w -> w = v.
Proof. intros [|n] v w H; [discriminate|]. cbn in H. destruct v; now injection H as <-. Qed.
Lemma walk_star_nil : forall n v w, walk_star n v [] = Some w -> w = v.
Proof.
  induction n as [|n IH]; [discriminate|]. intros v w H. cbn in H. destruct (walk n v []) as [u|] eqn:W; [|discriminate].
  apply walk_nil in W. subst u. destruct v as [x|a|h r]; try (now injection H as <-).
  destruct (walk_star n h []) as [a|] eqn:E1; [|discriminate]. destruct (walk_star n r []) as [b|] eqn:E2; [|discriminate].
  injection H as <-. apply IH in E1, E2. now subst.
Qed.
Lemma reify_s_spec : forall n v o, reify_s n v [] = Some o ->
  match o with Ok s => s = [] /\ ground v | Trap => ~ ground v | UB => False end.
Proof.
  induction n as [|n IH]; [discriminate|]. intros v o H. cbn in H. destruct (walk n v []) as [u|] eqn:W; [|discriminate].
  apply walk_nil in W. subst u. destruct v as [x|a|h r].
  - injection H as <-. cbn. tauto.
  - injection H as <-. cbn. auto.
  - destruct (reify_s n h []) as [[s1| |]|] eqn:E1; [| | |discriminate].
    + destruct (IH _ _ E1) as [-> G1]. specialize (IH _ _ H). destruct o; cbn [ground] in IH |- *; cbv beta iota in IH |- *; tauto.
    + specialize (IH _ _ E1). cbv beta iota in IH. injection H as <-. cbn [ground]. tauto.
    + destruct (IH _ _ E1).
Qed.
(** A state reifies to the value of the first variable if that value contains no
    variable; otherwise the process ends. *)
Theorem reify_state_right : forall n st o, reify_state n st = Some o ->
  exists v, walk_star n (TVar 0) (fst st) = Some v /\
    match o with Ok t => t = v /\ ground v | Trap => ~ ground v | UB => False end.
Proof.
  intros n st o H. unfold reify_state in H. destruct (walk_star n (TVar 0) (fst st)) as [v|]; [|discriminate].
  exists v. split; [reflexivity|]. destruct (reify_s n v []) as [[s| |]|] eqn:E; try discriminate.
  - apply reify_s_spec in E. destruct E as [-> G]. destruct (walk_star n v []) as [w|] eqn:W; [|discriminate].
    injection H as <-. apply walk_star_nil in W. auto.
  - injection H as <-. now apply reify_s_spec in E.
  - now apply reify_s_spec in E.
Qed.
Lemma ground_app : forall t th th', ground t -> app th t = app th' t.
Proof. induction t as [x|a|x IHx y IHy]; intros th th' G; cbn in *; [tauto|reflexivity|]. destruct G. f_equal; auto. Qed.
Lemma reify_each : forall n l ts, reify n l = Some (Ok ts) -> Forall2 (fun st t => reify_state n st = Some (Ok t)) l ts.
Proof.
  induction l as [|st l IH]; intros ts H; cbn in H; [injection H as <-; constructor|].
  destruct (reify_state n st) as [[t| |]|] eqn:E; try discriminate. destruct (reify n l) as [[r| |]|]; try discriminate.
  injection H as <-. constructor; auto.
Qed.
Lemma take_all_states : forall x l, take_all x = Some l -> l = states x.
Proof.
  induction x as [|st x IH|g e st]; intros l H; cbn in H; [now injection H as <-| |discriminate].
  destruct (take_all x) as [r|]; [|discriminate]. injection H as <-. cbn. f_equal. auto.
Qed.
(** What (reify (take-all (call/empty-state (call/fresh f)))) lists: one datum for each
    answer that some valuation satisfies, the value of the variable in that answer, and it
    is a solution of the goal. *)
Theorem reified_answers_hold : forall defs n m g x l ts,
  run defs n (GFresh g) [] ([], 0) = Some (Good x) -> take_all x = Some l -> reify m l = Some (Ok ts) ->
  Forall2 (fun st t => ground t /\ forall th, solves th (fst st) -> th 0 = app th t /\
             forall th0, means defs [app th0 t] g) l ts.
Proof.
  intros defs n m g x l ts HR HT HF. apply take_all_states in HT. subst l.
  assert (A : forall st, In st (states x) -> forall th, solves th (fst st) -> means defs [th 0] g).
  { intros [s' c'] I th S. destruct n as [|n]; [discriminate|]. cbn in HR.
    destruct (answers_hold _ _ _ _ _ _ _ HR _ _ I th S) as (_ & M). exact M. }
  apply reify_each in HF. revert A. induction HF as [|st t l ts E F IH]; intros A; constructor.
  - destruct (reify_state_right _ _ _ E) as (v & W & -> & G). split; [exact G|]. intros th S.
    destruct (walk_star_exact _ _ _ _ W) as (_ & X). split; [symmetry; exact (X th S)|].
    intros th0. rewrite (ground_app v th0 th G), (X th S). cbn [app]. apply (A st); [now left|exact S].
  - apply IH. intros st' I. apply A. now right.
Qed.
Print Assumptions reify_state_right.
Print Assumptions reified_answers_hold.
Example reified_ex :
  let g := GDisj (GEq (EV 0) (EA (ANum 1))) (GFresh (GConj (GEq (EV 0) (EA ATrue)) (GEq (EV 1) (EP (EV 0) (EV 0))))) in
  exists x l, run (fun _ => None) 9 (GFresh g) [] ([], 0) = Some (Good x) /\ take_all x = Some l /\
    reify 9 l = Some (Ok [TAtom (ANum 1); TPair (TAtom ATrue) (TAtom ATrue)]).
Proof. cbv zeta. eexists _, _. split; [reflexivity|]. split; reflexivity. Qed.
(** "An answer can leave a variable open": reifying it ends the process. *)
Theorem reify_open_refuted : exists g x l, run (fun _ => None) 5 (GFresh g) [] ([], 0) = Some (Good x) /\
  take_all x = Some l /\ forall n o, reify n l = Some o -> o = Trap.
Proof.
  exists (GFresh (GEq (EV 1) (EP (EV 0) (EV 0)))). eexists _, _. split; [reflexivity|]. split; [reflexivity|].
  intros n o H. cbn [reify] in H.
  match type of H with context [reify_state n ?s] => destruct (reify_state n s) as [[t| |]|] eqn:E end; try discriminate.
  - destruct (reify_state_right _ _ _ E) as (v & W & _ & G). destruct n as [|[|[|n]]]; discriminate.
  - now injection H as <-.
  - destruct (reify_state_right _ _ _ E) as (v & W & []).
Qed.
Print Assumptions reify_open_refuted.

(** * Refutations *)
(** "A goal that holds has an answer in the empty state": (== 1 1) has none,
    because the empty substitution also stands for failure. *)
Theorem trivial_equation_refuted : exists g, means (fun _ => None) [] g /\
  forall n x, run (fun _ => None) n g [] ([], 0) = Some (Good x) -> states x = [].
Proof.
  exists (GEq (EA (ANum 1)) (EA (ANum 1))). split; [econstructor; reflexivity|].
  intros [|[|[|n]]] x H; cbn in H; try discriminate. injection H as <-. reflexivity.
Qed.

(** "Every answer describes a solution": there is no occurs check. *)
Theorem answer_without_solution_refuted : exists g s c, run (fun _ => None) 5 g [] ([], 0) = Some (Good (Next (s, c) Stop)) /\
  forall th, ~ solves th s.
Proof.
  exists (GFresh (GEq (EV 0) (EP (EV 0) (EA ANil)))), [(0, TPair (TVar 0) (TAtom ANil))], 1. split; [vm_compute; reflexivity|].
  intros th S. specialize (S 0 _ (or_introl eq_refl)). cbn in S.
  assert (G : forall d e, d <> DPair d e). { induction d; intros e E; [discriminate|]. injection E as E _. exact (IHd1 _ E). }
  exact (G _ _ S).
Qed.

(** "Unification ends": not for two variables that contain themselves; three
    equations reach that state. *)
Definition circle : sub := [(1, TPair (TVar 1) (TAtom ANil)); (0, TPair (TVar 0) (TAtom ANil))].
Theorem unify_ends_refuted :
  exists s, run (fun _ => None) 9
    (GFresh (GFresh (GConj (GEq (EV 1) (EP (EV 1) (EA ANil))) (GEq (EV 0) (EP (EV 0) (EA ANil)))))) [] ([], 0)
    = Some (Good (Next (s, 2) Stop)) /\ forall n, unify n (TVar 0) (TVar 1) s = None.
Proof.
  exists circle. split; [vm_compute; reflexivity|].
  induction n as [|n IH]; [reflexivity|]. cbn [unify]. destruct n as [|[|n]]; [reflexivity|reflexivity|].
  change (walk (S (S n)) (TVar 0) circle) with (Some (TPair (TVar 0) (TAtom ANil))).
  change (walk (S (S n)) (TVar 1) circle) with (Some (TPair (TVar 1) (TAtom ANil))). cbv beta iota zeta.
  rewrite IH. reflexivity.
Qed.

(** "(run* (x) g …) lists the answers": conj+, disj+ and fresh delay every goal,
    and taking the answers of a delayed goal is an error, whatever the goal. *)
Theorem delayed_answers_refuted : forall defs n g env st x, run defs n (GDelay g) env st = Some (Good x) -> take_all x = None.
Proof. intros defs [|n] g env st x H; cbn in H; [discriminate|]. injection H as <-. reflexivity. Qed.
(** Nor can a delayed goal be the first of a conj or a disj. *)
Theorem delayed_first_refuted : forall defs n g g2 env st r,
  (run defs n (GConj (GDelay g) g2) env st = Some r -> r = Crash) /\
  (run defs n (GDisj (GDelay g) g2) env st = Some r -> r = Crash).
Proof.
  intros defs [|[|n]] g g2 env st r; split; intro H; cbn in H; try discriminate; try (injection H as <-; reflexivity).
  destruct (match g2 with GEq _ _ => _ | _ => _ end) as [[|b]|]; try discriminate; injection H as <-; reflexivity.
Qed.
Print Assumptions unify_ends_refuted.

(** * Examples *)
(** appendo: l is empty and s is out, or l = (a . d), out = (a . r) and
    appendo d s r *)
Definition appendo : goal :=
  GDisj (GConj (GEq (EV 0) (EA ANil)) (GEq (EV 1) (EV 2)))
    (GFresh (GFresh (GFresh (GConj (GEq (EV 3) (EP (EV 2) (EV 1)))
      (GConj (GEq (EV 5) (EP (EV 2) (EV 0))) (GCall 0 [EV 1; EV 4; EV 0])))))).
Definition lists : nat -> option goal := fun r => if r =? 0 then Some appendo else None.
Definition num (z : Z) : expr := EA (ANum z).
Definition l12 : expr := EP (num 1) (EP (num 2) (EA ANil)).
Definition l3 : expr := EP (num 3) (EA ANil).
Definition asked : goal := GFresh (GCall 0 [l12; l3; EV 0]).
Definition one_of : goal := GDisj (GEq (EV 0) (num 7)) (GDisj (GEq (EV 0) (num 8)) (GConj (GEq (EV 0) (num 9)) (GEq (EV 0) (num 1)))).

(** appending (3) to (1 2) has one answer, (1 2 3) *)
Example appendo_demo : exists s c, run lists 40 asked [] ([], 0) = Some (Good (Next (s, c) Stop)) /\
  walk_star 40 (TVar 0) s = build (EP (num 1) (EP (num 2) (EP (num 3) (EA ANil)))) [].
Proof. eexists. eexists. split; [vm_compute; reflexivity|vm_compute; reflexivity]. Qed.
Example one_of_demo : run lists 40 one_of [TVar 0] ([(1, TAtom ANil)], 2) =
  Some (Good (Next ([(0, TAtom (ANum 7)); (1, TAtom ANil)], 2) (Next ([(0, TAtom (ANum 8)); (1, TAtom ANil)], 2) Stop))).
Proof. vm_compute. reflexivity. Qed.
Example one_of_below : sub_below 2 [(1, TAtom ANil)] /\ Forall (below 2) [TVar 0].
Proof. split; [|repeat constructor]. intros x t [I|[]]. injection I as <- <-. cbn. auto. Qed.
Example one_of_holds : means lists [DAtom (ANum 8)] one_of.
Proof. apply m_right, m_left. econstructor; reflexivity. Qed.
Example built_demo : built [(0, TPair (TVar 2) (TVar 1)); (1, TVar 2)].
Proof.
  repeat constructor; try (intros; discriminate); try (intros t I; cbn in I; intuition discriminate).
  all: injection H as <-; congruence || (intros t []).
Qed.
