(** C78: the scheduler of tasks. *)
From Coq Require Import List Bool PeanoNat Lia.
From Verif Require Import SchedModel SchedSpec.
Import ListNotations.

Section Props.
Variables (S E : Type) (code : S -> cmd S) (externals : list (external S E)).
Notation step := (step S E code externals).
Notation steps := (steps S E code externals).
Notation entry := (entry S E).
Notation waiting := (waiting S).
Notation run_externals := (run_externals S E).
Notation MRun := (MRun S).

(** * Queues *)
Lemma enqueue_waiting : forall q x, waiting (enqueue S q x) = waiting q ++ [x].
Proof. intros [a b'] x. unfold waiting, enqueue. cbn [fst snd rev]. now rewrite app_assoc. Qed.
Lemma enqueue_all_waiting : forall l q, waiting (enqueue_all S q l) = waiting q ++ l.
Proof.
  unfold enqueue_all. induction l as [|x l IH]; intros q; cbn [fold_left]; [now rewrite app_nil_r|].
  rewrite IH, enqueue_waiting, <- app_assoc. reflexivity.
Qed.
Lemma empty_waiting : forall q, queue_empty S q = true <-> waiting q = [].
Proof.
  intros [a b']. unfold queue_empty, waiting. cbn [fst snd]. split.
  - destruct a, b'; try discriminate. reflexivity.
  - intros H. apply app_eq_nil in H. destruct H as [-> H]. destruct a as [|x a]; [reflexivity|].
    cbn in H. now apply app_eq_nil in H.
Qed.
Lemma dequeue_waiting : forall q x r, waiting q = x :: r ->
  exists q', dequeue S q = Some (x, q') /\ waiting q' = r.
Proof.
  intros [a b'] x r H. unfold waiting, dequeue in *. cbn [fst snd] in *. destruct b' as [|y b'].
  - cbn [app] in H. rewrite H. exists ([], r). split; [reflexivity|]. cbn. apply app_nil_r.
  - cbn [app] in H. injection H as -> <-. exists (a, b'). auto.
Qed.
Lemma dequeue_some : forall q x q', dequeue S q = Some (x, q') -> waiting q = x :: waiting q'.
Proof.
  intros q x q' H. destruct (waiting q) as [|y r] eqn:W.
  - apply empty_waiting in W. destruct q as [[|] [|]]; discriminate.
  - destruct (dequeue_waiting q y r W) as (q1 & H1 & <-). rewrite H in H1. injection H1 as -> ->. reflexivity.
Qed.
Lemma remove_at_spec : forall i (l : list S),
  match remove_at S i l with
  | Some (w, r) => exists b1 b2, l = b1 ++ w :: b2 /\ r = b1 ++ b2 /\ i = length b1
  | None => length l <= i
  end.
Proof.
  induction i as [|i IH]; intros [|x l]; cbn [remove_at length]; try lia.
  - exists [], l. auto.
  - specialize (IH l). destruct (remove_at S i l) as [[w r]|]; [|lia].
    destruct IH as (b1 & b2 & -> & -> & ->). exists (x :: b1), b2. auto.
Qed.

(** * External schedulers *)
(** All of them are asked, in order; there is more work if one says so, and the tasks of all of
    them are handed on. *)
Theorem externals_right : forall l timeout e more new e',
  run_externals l timeout false [] e = Some (more, new, e') <->
  exists answers, asked S E timeout l e answers e' /\ more = existsb fst answers /\
    new = concat (map snd answers).
Proof.
  intros l timeout.
  assert (G : forall l succ new0 e more new e',
    run_externals l timeout succ new0 e = Some (more, new, e') <->
    exists answers, asked S E timeout l e answers e' /\ more = succ || existsb fst answers /\
      new = new0 ++ concat (map snd answers)).
  { clear l. induction l as [|f l IH]; intros succ new0 e more new e'; cbn [SchedModel.run_externals].
    - split.
      + intros H. injection H as <- <- <-. exists []. cbn. rewrite orb_false_r, app_nil_r. repeat split. constructor.
      + intros (an & A & -> & ->). inversion A; subst. cbn. now rewrite orb_false_r, app_nil_r.
    - split.
      + intros H. destruct (f timeout e) as [[[res ts] e1]|] eqn:F; [|discriminate].
        apply IH in H. destruct H as (an & A & -> & ->). exists ((res, ts) :: an).
        split; [econstructor; eauto|]. cbn. now rewrite orb_assoc, app_assoc.
      + intros (an & A & -> & ->). inversion A as [|? ? ? res ts e1 rest ? F A']; subst. rewrite F.
        apply IH. exists rest. split; [exact A'|]. cbn. now rewrite orb_assoc, app_assoc. }
  intros e more new e'. rewrite G. reflexivity.
Qed.

(** * Order *)
(** An external scheduler that says there is no more work has enqueued nothing. *)
Definition honest (f : external S E) : Prop :=
  forall timeout e new e', f timeout e = Some (false, new, e') -> new = [].

Definition ordered (t : thread S E) : Prop :=
  t_started _ _ t ++ waiting (t_queue _ _ t) = t_enqueued _ _ t.

Lemma step_ordered : forall t t', step t = Some t' -> ordered t -> ordered t'.
Proof.
  intros [m q bl e d sh st en] t' H O. unfold ordered in *. cbn in O. cbn [SchedModel.step] in H.
  destruct m as [| |s| | |]; try discriminate.
  - injection H as <-. exact O.
  - destruct (run_externals externals false false [] e) as [[[more new] e1]|] eqn:R.
    2: { injection H as <-. exact O. }
    assert (O1 : st ++ waiting (enqueue_all S q new) = en ++ new).
    { rewrite enqueue_all_waiting, app_assoc, O. reflexivity. }
    destruct (queue_empty S (enqueue_all S q new)) eqn:Q.
    + destruct more.
      * destruct (run_externals externals true false [] e1) as [[[m2 new2] e2]|]; injection H as <-; cbn [t_started t_queue t_enqueued].
        -- rewrite enqueue_all_waiting, app_assoc, O1. reflexivity.
        -- exact O1.
      * injection H as <-. exact O1.
    + destruct (dequeue S (enqueue_all S q new)) as [[x q2]|] eqn:D; [|discriminate].
      injection H as <-. cbn [t_started t_queue t_enqueued]. apply dequeue_some in D. rewrite D in O1. now rewrite <- app_assoc.
  - destruct (code s) as [|n s'|c s'|s'|s'|i s'].
    + injection H as <-. exact O.
    + injection H as <-. exact O.
    + injection H as <-. cbn [t_started t_queue t_enqueued]. now rewrite enqueue_waiting, app_assoc, O.
    + injection H as <-. cbn [t_started t_queue t_enqueued]. now rewrite enqueue_waiting, app_assoc, O.
    + injection H as <-. exact O.
    + destruct (remove_at S i bl) as [[w bl']|]; injection H as <-; cbn [t_started t_queue t_enqueued]; [|exact O].
      now rewrite enqueue_waiting, app_assoc, O.
  - destruct d as [|d]; [injection H as <-; exact O|].
    destruct (queue_empty S q).
    + destruct (run_externals externals false false [] e) as [[[more new] e1]|].
      * destruct more; injection H as <-; cbn [t_started t_queue t_enqueued]; now rewrite enqueue_all_waiting, app_assoc, O.
      * injection H as <-. exact O.
    + injection H as <-. exact O.
Qed.

(** In every execution, whatever the tasks and the external schedulers do, the tasks that have
    been started followed by those that wait are those that became ready, in that order:
    nothing is lost, started twice, or overtaken. *)
Theorem tasks_in_order : forall n main e t, steps n (entry main e) t ->
  t_started _ _ t ++ waiting (t_queue _ _ t) = t_enqueued _ _ t.
Proof.
  intros n main e t H. change (ordered t). remember (entry main e) as t0 eqn:E0.
  induction H as [|n t0 t1 t2 H IH St]; subst.
  - reflexivity.
  - apply (step_ordered t1 t2 St). auto.
Qed.

Lemma step_grows : forall t t', step t = Some t' ->
  (exists l, t_started _ _ t' = t_started _ _ t ++ l) /\ (exists l, t_enqueued _ _ t' = t_enqueued _ _ t ++ l).
Proof.
  intros [m q bl e d sh st en] t' H. cbn [SchedModel.step] in H. cbv zeta in H. cbn [t_started t_enqueued].
  assert (Z : forall A (l : list A), exists k, l = l ++ k) by (intros A l; exists []; now rewrite app_nil_r).
  destruct m as [| |s| | |]; try discriminate;
  repeat match type of H with
  | Some _ = Some _ => injection H as <-; cbn [t_started t_enqueued]
  | match ?x with _ => _ end = _ => destruct x; try discriminate
  end; split; try rewrite <- app_assoc; eauto.
Qed.

(** Who waits behind i others is the i-th to be started from now on. *)
Theorem turns_come : forall n m main e t t' i s, steps n (entry main e) t ->
  steps m t t' -> nth_error (waiting (t_queue _ _ t)) i = Some s ->
  length (t_started _ _ t) + i < length (t_started _ _ t') ->
  nth_error (t_started _ _ t') (length (t_started _ _ t) + i) = Some s.
Proof.
  intros n m main e t t' i s H1 H2 N L.
  assert (H3 : exists k, steps k (entry main e) t').
  { clear N L. induction H2 as [|m t1 t2 t3 H IH St]; [eauto|].
    destruct (IH H1) as (k & K). eexists. econstructor; eauto. }
  destruct H3 as (k & H3). apply tasks_in_order in H1. apply tasks_in_order in H3.
  assert (G : exists l, t_enqueued _ _ t' = t_enqueued _ _ t ++ l).
  { clear -H2. induction H2 as [t|m t1 t2 t3 H (l & IH) St]; [exists []; now rewrite app_nil_r|].
    apply step_grows in St. destruct St as [_ (l' & St)]. exists (l ++ l'). rewrite St, IH. now rewrite app_assoc. }
  destruct G as (l & G). rewrite <- (nth_error_app1 _ (waiting (t_queue _ _ t')) L), H3, G, <- H1.
  rewrite <- app_assoc, nth_error_app2 by lia.
  replace (length (t_started S E t) + i - length (t_started S E t)) with i by lia.
  rewrite nth_error_app1; [exact N|]. apply nth_error_Some. congruence.
Qed.

(** * The end *)
Lemma honest_all : forall l timeout succ new e new' e', Forall honest l ->
  run_externals l timeout succ new e = Some (false, new', e') -> succ = false /\ new' = new.
Proof.
  induction l as [|f l IH]; intros timeout succ new e new' e' F H; cbn [SchedModel.run_externals] in H.
  - injection H as -> -> _. auto.
  - inversion F as [|? ? Hf Fl]; subst. destruct (f timeout e) as [[[res ts] e1]|] eqn:R; [|discriminate].
    apply IH in H; [|assumption]. destruct H as [H ->]. apply orb_false_iff in H. destruct H as [-> ->].
    apply Hf in R. subst ts. now rewrite app_nil_r.
Qed.

Definition calm (t : thread S E) : Prop :=
  (t_mode _ _ t = MReturn S -> t_loops _ _ t = 0 -> waiting (t_queue _ _ t) = []) /\
  (t_mode _ _ t = MExit S -> waiting (t_queue _ _ t) = []) /\
  (match t_mode _ _ t with MSchedule _ | SchedModel.MRun _ _ => 0 < t_loops _ _ t | _ => True end).

Lemma step_calm : Forall honest externals -> forall t t', step t = Some t' -> calm t -> calm t'.
Proof.
  intros Hx [m q bl e d sh st en] t' H (C1 & C2 & C3). cbn in C1, C2, C3. cbn [SchedModel.step] in H.
  destruct m as [| |s| | |]; try discriminate.
  - injection H as <-. repeat split; try discriminate. cbn. lia.
  - destruct (run_externals externals false false [] e) as [[[more new] e1]|] eqn:R.
    2: { injection H as <-. repeat split; discriminate. }
    destruct (queue_empty S (enqueue_all S q new)) eqn:Q.
    + destruct more.
      * destruct (run_externals externals true false [] e1) as [[[m2 new2] e2]|]; injection H as <-;
          repeat split; try discriminate; cbn; intros; lia.
      * injection H as <-. repeat split; try discriminate. cbn. intros. lia.
    + destruct (dequeue S (enqueue_all S q new)) as [[x q2]|]; [|discriminate].
      injection H as <-. repeat split; try discriminate. cbn. exact C3.
  - destruct (code s) as [|n s'|c s'|s'|s'|i s']; try (injection H as <-; repeat split; try discriminate; cbn; intros; lia).
    destruct (remove_at S i bl) as [[w bl']|]; injection H as <-; repeat split; try discriminate; cbn; intros; lia.
  - destruct d as [|d].
    + injection H as <-. repeat split; try discriminate. cbn. intros _. now apply C1.
    + destruct (queue_empty S q) eqn:Q.
      * destruct (run_externals externals false false [] e) as [[[more new] e1]|] eqn:R.
        -- destruct more; injection H as <-; repeat split; try discriminate. cbn. intros _ _.
           apply honest_all in R; [|assumption]. destruct R as [_ ->].
           apply empty_waiting in Q. exact Q.
        -- injection H as <-. repeat split; discriminate.
      * injection H as <-. repeat split; discriminate.
Qed.

(** The scheduler ends only when every task that became ready has been started. *)
Theorem end_is_complete : forall n main e t, Forall honest externals ->
  steps n (entry main e) t -> t_mode _ _ t = MExit S -> t_started _ _ t = t_enqueued _ _ t.
Proof.
  intros n main e t Hx H M. pose proof (tasks_in_order n main e t H) as O.
  assert (C : calm t).
  { clear M O. remember (entry main e) as t0 eqn:E0. induction H as [|n t0 t1 t2 H IH St]; subst.
    - repeat split; discriminate.
    - apply (step_calm Hx t1 t2 St). auto. }
  destruct C as (_ & C & _). specialize (C M). rewrite C, app_nil_r in O. exact O.
Qed.

(** * Turns *)
(** When external schedulers answer at once to the time-out 0, a ready task is started within
    three steps after the running task has ended, yielded or blocked. *)
Theorem next_starts : forall n main e t x r, Forall honest externals ->
  (forall f e, In f externals -> f false e <> None) ->
  steps n (entry main e) t -> waiting (t_queue _ _ t) = x :: r ->
  (forall s, t_mode _ _ t <> MRun s) -> t_mode _ _ t <> MWait S ->
  exists k t', k <= 3 /\ steps k t t' /\ t_mode _ _ t' = MRun x /\
    t_started _ _ t' = t_started _ _ t ++ [x].
Proof.
  intros n main e t x r Hx NB H W M MW.
  assert (C : calm t).
  { clear -Hx H. remember (entry main e) as t0 eqn:E0. induction H as [|n t0 t1 t2 H IH St]; subst.
    - repeat split; discriminate.
    - apply (step_calm Hx t1 t2 St). auto. }
  assert (RE : forall l su new e, (forall f e, In f l -> f false e <> None) ->
            run_externals l false su new e <> None).
  { clear. induction l as [|f l IH]; intros su new e NB; cbn [SchedModel.run_externals]; [discriminate|].
    specialize (NB f e (or_introl eq_refl)) as N1. destruct (f false e) as [[[res ts] e']|]; [|congruence].
    apply IH. intros g e0 I. apply NB. now right. }
  assert (A : forall t, t_mode _ _ t = MSchedule S -> waiting (t_queue _ _ t) = x :: r ->
            exists t', step t = Some t' /\ t_mode _ _ t' = MRun x /\ t_started _ _ t' = t_started _ _ t ++ [x]).
  { clear -NB RE. intros [m q bl e d sh st en] Hm W. cbn in Hm, W. subst m. cbn [SchedModel.step].
    specialize (RE externals false [] e NB).
    destruct (run_externals externals false false [] e) as [[[more new] e1]|]; [|congruence].
    assert (W1 : waiting (enqueue_all S q new) = x :: (r ++ new)) by now rewrite enqueue_all_waiting, W.
    destruct (queue_empty S (enqueue_all S q new)) eqn:Q.
    - apply empty_waiting in Q. congruence.
    - destruct (dequeue_waiting _ _ _ W1) as (q2 & -> & _). eexists. split; [reflexivity|]. split; reflexivity. }
  assert (B : forall t, t_mode _ _ t = MLoop S -> waiting (t_queue _ _ t) = x :: r ->
            exists t1 t', step t = Some t1 /\ step t1 = Some t' /\ t_mode _ _ t' = MRun x /\
              t_started _ _ t' = t_started _ _ t ++ [x]).
  { clear -A. intros [m q bl e d sh st en] Hm W. cbn in Hm, W. subst m.
    destruct (A (mkT S E (MSchedule S) q bl e (Datatypes.S d) sh st en) eq_refl W) as (t' & H1 & H2 & H3).
    exists (mkT S E (MSchedule S) q bl e (Datatypes.S d) sh st en), t'. repeat split; auto. }
  destruct t as [m q bl e0 d sh st en]. cbn in W, M, MW. destruct C as (C1 & C2 & C3). cbn in C1, C2, C3.
  destruct m as [| |s| | |].
  - destruct (B (mkT S E (MLoop S) q bl e0 d sh st en) eq_refl W) as (t1 & t' & H1 & H2 & H3 & H4).
    exists 2, t'. split; [lia|]. split; [|auto].
    econstructor; [econstructor; [constructor|exact H1]|exact H2].
  - destruct (A (mkT S E (MSchedule S) q bl e0 d sh st en) eq_refl W) as (t' & H1 & H2 & H3).
    exists 1, t'. split; [lia|]. split; [|auto]. econstructor; [constructor|exact H1].
  - exfalso. now apply (M s).
  - destruct d as [|d]; [rewrite (C1 eq_refl eq_refl) in W; discriminate|].
    destruct (B (mkT S E (MLoop S) q bl e0 d sh st en) eq_refl W) as (t1 & t' & H1 & H2 & H3 & H4).
    exists 3, t'. split; [lia|]. split; [|auto].
    econstructor; [econstructor; [econstructor; [constructor|]|exact H1]|exact H2].
    cbn [SchedModel.step]. destruct (queue_empty S q) eqn:Q; [|reflexivity].
    apply empty_waiting in Q. congruence.
  - rewrite (C2 eq_refl) in W. discriminate.
  - congruence.
Qed.

(** * The stack *)
(** Without yield, however the tasks spawn, block and wake each other, the scheduler is never
    more than one loop deep. *)
Theorem depth_without_yield : forall n main e t, (forall s s', code s <> CYield S s') ->
  steps n (entry main e) t -> t_loops _ _ t <= 1.
Proof.
  intros n main e t NY H.
  assert (G : t_loops _ _ t <= 1 /\ (t_mode _ _ t = MLoop S -> t_loops _ _ t = 0)).
  { remember (entry main e) as t0 eqn:E0. induction H as [|n t0 t1 t2 H IH St]; subst; [cbn; auto|].
    specialize (IH eq_refl). destruct t1 as [m q bl e1 d sh st en]. cbn in IH. destruct IH as [D1 D2].
    cbn [SchedModel.step] in St. cbv zeta in St. destruct m as [| |s| | |]; try discriminate.
    - injection St as <-. cbn. split; [rewrite D2; auto|discriminate].
    - repeat match type of St with
      | Some _ = Some _ => injection St as <-; cbn; split; [auto|discriminate]
      | match ?x with _ => _ end = _ => destruct x; try discriminate
      end.
    - specialize (NY s). destruct (code s); try (exfalso; eapply NY; reflexivity);
      repeat match type of St with
      | Some _ = Some _ => injection St as <-; cbn; split; [auto|discriminate]
      | match ?x with _ => _ end = _ => destruct x; try discriminate
      end.
    - destruct d as [|d]; [injection St as <-; cbn; split; [auto|discriminate]|].
      assert (d = 0) by lia. subst d.
      repeat match type of St with
      | Some _ = Some _ => injection St as <-; cbn; split; [lia|intros; first [lia|discriminate]]
      | match ?x with _ => _ end = _ => destruct x; try discriminate
      end. }
  apply G.
Qed.
End Props.

(** * What is shown *)
(** A program without external schedulers shows what tasks show that take turns, step by step,
    and ends when they do. *)
Section Shown.
Variables (S : Type) (code : S -> cmd S).
Notation step := (step S unit code []).
Notation steps := (steps S unit code []).
Definition seen (t : thread S unit) : turns S :=
  mkU S (match t_mode _ _ t with SchedModel.MRun _ s => Some s | _ => None end)
    (waiting S (t_queue _ _ t)) (t_blocked _ _ t) (t_shown _ _ t).

Lemma step_seen : forall t t', step t = Some t' ->
  seen t' = seen t \/ turn S code (seen t) (seen t').
Proof.
  intros [m q bl [] d sh st en] t' H. cbn in H. destruct m as [| |s| | |]; try discriminate.
  - injection H as <-. now left.
  - cbn in H. destruct (queue_empty S q) eqn:Q; [injection H as <-; now left|].
    destruct (dequeue S q) as [[x q2]|] eqn:D; [|discriminate]. injection H as <-.
    apply dequeue_some in D. right. unfold seen. cbn. rewrite D. constructor.
  - right. unfold seen. destruct (code s) as [|n s'|c s'|s'|s'|i s'] eqn:C.
    + injection H as <-. cbn. now constructor.
    + injection H as <-. cbn. now constructor.
    + injection H as <-. cbn [t_mode t_queue t_blocked t_shown]. rewrite enqueue_waiting. now constructor.
    + injection H as <-. cbn [t_mode t_queue t_blocked t_shown]. rewrite enqueue_waiting. now constructor.
    + injection H as <-. cbn. now constructor.
    + pose proof (remove_at_spec S i bl) as R. destruct (remove_at S i bl) as [[w bl']|].
      * destruct R as (b1 & b2 & -> & -> & L). injection H as <-.
        cbn [t_mode t_queue t_blocked t_shown]. rewrite enqueue_waiting. eapply TWake; eauto.
      * injection H as <-. cbn. eapply TWakeNone; eauto.
  - left. destruct d as [|d]; [injection H as <-; reflexivity|].
    destruct (queue_empty S q); injection H as <-; reflexivity.
Qed.

Lemma steps_cat : forall n m t1 t2 t3, steps n t1 t2 -> steps m t2 t3 -> steps (m + n) t1 t3.
Proof.
  intros n m t1 t2 t3 H1 H2. revert H1. induction H2; intros H1; cbn [plus]; [exact H1|].
  econstructor; eauto.
Qed.

Lemma run_seen : forall t t' s, t_mode _ _ t = MRun S s -> step t = Some t' ->
  turn S code (seen t) (seen t').
Proof.
  intros [m q bl [] d sh st en] t' s M H. cbn in M. subst m. cbn in H.
  unfold seen. destruct (code s) as [|n s'|c s'|s'|s'|i s'] eqn:C.
  - injection H as <-. cbn. now constructor.
  - injection H as <-. cbn. now constructor.
  - injection H as <-. cbn [t_mode t_queue t_blocked t_shown]. rewrite enqueue_waiting. now constructor.
  - injection H as <-. cbn [t_mode t_queue t_blocked t_shown]. rewrite enqueue_waiting. now constructor.
  - injection H as <-. cbn. now constructor.
  - pose proof (remove_at_spec S i bl) as R. destruct (remove_at S i bl) as [[w bl']|].
    + destruct R as (b1 & b2 & -> & -> & L). injection H as <-.
      cbn [t_mode t_queue t_blocked t_shown]. rewrite enqueue_waiting. eapply TWake; eauto.
    + injection H as <-. cbn. eapply TWakeNone; eauto.
Qed.

Lemma app_mid : forall A (b1 c1 : list A) x y b2 c2, b1 ++ x :: b2 = c1 ++ y :: c2 ->
  length b1 = length c1 -> b1 = c1 /\ x = y /\ b2 = c2.
Proof.
  induction b1 as [|z b1 IH]; intros [|w c1] x y b2 c2 H L; try discriminate; cbn in *.
  - injection H as -> ->. auto.
  - injection H as -> H. injection L as L. destruct (IH _ _ _ _ _ H L) as (-> & -> & ->). auto.
Qed.
Lemma turn_det : forall u u1 u2, turn S code u u1 -> turn S code u u2 -> u1 = u2.
Proof.
  intros u u1 u2 H1 H2. inversion H1; subst; inversion H2; subst; try congruence.
  - match goal with A : code s = _, B : code s = _ |- _ => rewrite A in B; injection B as E1 E2; subst end.
    match goal with A : _ ++ _ = _ ++ _ |- _ =>
      apply app_mid in A; [|congruence]; destruct A as (-> & -> & ->) end. reflexivity.
  - match goal with A : code s = _, B : code s = _ |- _ => rewrite A in B; injection B as E1 E2; subst end.
    rewrite app_length in *. cbn in *. lia.
  - match goal with A : code s = _, B : code s = _ |- _ => rewrite A in B; injection B as E1 E2; subst end.
    rewrite app_length in *. cbn in *. lia.
Qed.
Lemma seen_step : forall n main t u, steps n (entry S unit main tt) t -> turn S code (seen t) u ->
  exists k t', steps k t t' /\ seen t' = u.
Proof.
  intros n main t u H T.
  assert (FH : Forall (honest S unit) []) by constructor.
  assert (NW : t_mode _ _ t <> MWait S).
  { clear T. remember (entry S unit main tt) as t0 eqn:E0. induction H as [|n t0 t1 t2 H IH St]; subst; [discriminate|].
    specialize (IH eq_refl). destruct t1 as [m q bl [] d sh st en]. cbn in St, IH.
    destruct m; try discriminate; try congruence;
    repeat match type of St with
    | Some _ = Some _ => injection St as <-; discriminate
    | match ?x with _ => _ end = _ => destruct x; try discriminate
    end. }
  assert (R : (exists s, t_mode _ _ t = MRun S s) \/ (forall s, t_mode _ _ t <> MRun S s)).
  { destruct (t_mode _ _ t); try (right; intros; discriminate). left. eauto. }
  destruct R as [(s & M)|M].
  - destruct (step t) as [t'|] eqn:St.
    + exists 1, t'. split; [econstructor; [constructor|exact St]|].
      apply (turn_det (seen t)); [|exact T]. now apply (run_seen t t' s).
    + exfalso. destruct t as [m q bl [] d sh st en]. cbn in M. subst m. cbn in St.
      destruct (code s); try discriminate. destruct (remove_at S i bl) as [[]|]; discriminate.
  - assert (Wt : exists x r, waiting S (t_queue _ _ t) = x :: r).
    { unfold seen in T. destruct (t_mode _ _ t) as [| |s| | |]; try (exfalso; now apply (M s));
        inversion T; subst; eauto. }
    destruct Wt as (x & r & Wt).
    destruct (next_starts S unit code [] n main tt t x r FH (fun f e I => match I with end) H Wt M NW)
      as (k & t' & _ & K & M' & _).
    (* the first step that changes what is seen *)
    assert (G : forall k t', steps k t t' -> seen t' = seen t \/ exists j t1, steps j t t1 /\ turn S code (seen t) (seen t1)).
    { clear. intros k t' K. induction K as [|k t0 t1 t2 K IH St]; [now left|].
      destruct IH as [E|IH]; [|now right].
      destruct (step_seen t1 t2 St) as [E2|T2]; [left; congruence|].
      right. exists (Datatypes.S k), t2. split; [econstructor; eauto|]. now rewrite <- E. }
    destruct (G k t' K) as [E|(j & t1 & J & T1)].
    + exfalso. unfold seen in E. rewrite M' in E. destruct (t_mode _ _ t) as [| |s| | |]; try discriminate.
      now apply (M s).
    + exists j, t1. split; [exact J|]. now apply (turn_det (seen t)).
Qed.

Theorem shown_right : forall main,
  (forall n t, steps n (entry S unit main tt) t ->
     turnstar S code (mkU S None [main] [] []) (seen t)) /\
  (forall u, turnstar S code (mkU S None [main] [] []) u ->
     exists n t, steps n (entry S unit main tt) t /\ seen t = u) /\
  (forall u, turnstar S code (mkU S None [main] [] []) u -> over S u ->
     exists n t, steps n (entry S unit main tt) t /\ seen t = u /\ t_mode _ _ t = MExit S).
Proof.
  intros main.
  assert (P1 : forall n t, steps n (entry S unit main tt) t ->
     turnstar S code (mkU S None [main] [] []) (seen t)).
  { intros n t H. remember (entry S unit main tt) as t0 eqn:E0.
    induction H as [|n t0 t1 t2 H IH St]; subst; [constructor|]. specialize (IH eq_refl).
    destruct (step_seen t1 t2 St) as [->|T]; [exact IH|]. econstructor; eauto. }
  assert (P2 : forall u, turnstar S code (mkU S None [main] [] []) u ->
     exists n t, steps n (entry S unit main tt) t /\ seen t = u).
  { clear P1. intros u H. remember (mkU S None [main] [] []) as u0 eqn:E0.
    induction H as [|u1 u2 u3 H IH T]; subst.
    - exists 0, (entry S unit main tt). split; [constructor|reflexivity].
    - destruct (IH eq_refl) as (n1 & t & K & Et). rewrite <- Et in T.
      destruct (seen_step n1 main t u3 K T) as (k & t' & K' & E).
      exists (k + n1), t'. split; [now apply (steps_cat n1 k _ t)|exact E]. }
  split; [exact P1|]. split; [exact P2|]. intros u H [O1 O2]. destruct (P2 u H) as (n & t & K & <-).
  (* unwinding *)
  assert (U : forall d n t, steps n (entry S unit main tt) t -> t_mode _ _ t = MReturn S ->
            t_loops _ _ t = d -> waiting S (t_queue _ _ t) = [] ->
            exists n' t', steps n' (entry S unit main tt) t' /\ seen t' = seen t /\ t_mode _ _ t' = MExit S).
  { induction d as [|d IH]; intros n0 t0 K0 M D W.
    - destruct t0 as [m q bl [] d0 sh st en]. cbn in M, D, W. subst.
      exists (Datatypes.S n0), (mkT S unit (MExit S) q bl tt 0 sh st en).
      split; [econstructor; [exact K0|reflexivity]|]. split; reflexivity.
    - destruct t0 as [m q bl [] d0 sh st en]. cbn in M, D, W. subst.
      destruct (IH (Datatypes.S n0) (mkT S unit (MReturn S) q bl tt d sh st (en ++ []))) as (n' & t' & K' & E & M').
      + econstructor; [exact K0|]. cbn. apply empty_waiting in W. rewrite W. reflexivity.
      + reflexivity.
      + reflexivity.
      + exact W.
      + exists n', t'. auto. }
  assert (V : forall n t, steps n (entry S unit main tt) t -> t_mode _ _ t = MSchedule S ->
            waiting S (t_queue _ _ t) = [] ->
            exists n' t', steps n' (entry S unit main tt) t' /\ seen t' = seen t /\ t_mode _ _ t' = MExit S).
  { intros n0 t0 K0 M W. destruct t0 as [m q bl [] d0 sh st en]. cbn in M, W. subst.
    destruct (U d0 (Datatypes.S n0) (mkT S unit (MReturn S) q bl tt d0 sh st (en ++ []))) as (n' & t' & K' & E & M').
    - econstructor; [exact K0|]. cbn. apply empty_waiting in W. rewrite W. reflexivity.
    - reflexivity.
    - reflexivity.
    - exact W.
    - exists n', t'. auto. }
  destruct t as [m q bl [] d sh st en]. unfold seen in O1, O2. cbn in O1, O2.
  destruct m as [| |s| | |]; try discriminate.
  - destruct (V (Datatypes.S n) (mkT S unit (MSchedule S) q bl tt (Datatypes.S d) sh st en)) as (n' & t' & K' & E & M').
    + econstructor; [exact K|reflexivity].
    + reflexivity.
    + exact O2.
    + exists n', t'. auto.
  - now apply (V n).
  - now apply (U d n).
  - exists n, (mkT S unit (MExit S) q bl tt d sh st en). auto.
  - exfalso. remember (entry S unit main tt) as t0 eqn:E0. remember (mkT S unit (MWait S) q bl tt d sh st en) as t eqn:Et.
    clear -K E0 Et. destruct K as [|n t0 t1 t2 K St]; subst; [discriminate|].
    destruct t1 as [m q1 bl1 [] d1 sh1 st1 en1]. cbn in St. destruct m; try discriminate;
    repeat match type of St with
    | Some _ = Some _ => discriminate
    | match ?x with _ => _ end = _ => destruct x; try discriminate
    end.
Qed.
End Shown.

(** * Examples *)
(** Three tasks written as lists of commands. *)
Inductive prog := PEnd | PShow (n : nat) (p : prog) | PSpawn (c p : prog) | PYield (p : prog)
  | PBlock (p : prog) | PWake (i : nat) (p : prog) | PForever.
Definition pcode (p : prog) : cmd prog :=
  match p with
  | PEnd => CEnd _ | PShow n p => CShow _ n p | PSpawn c p => CSpawn _ c p | PYield p => CYield _ p
  | PBlock p => CBlock _ p | PWake i p => CWake _ i p | PForever => CYield _ PForever
  end.
Fixpoint run (E : Type) (ex : list (external prog E)) (n : nat) (t : thread prog E) : thread prog E :=
  match n with
  | O => t
  | S n' => match step prog E pcode ex t with Some t' => run E ex n' t' | None => t end
  end.
Lemma run_steps : forall E ex n t, exists k, k <= n /\ steps prog E pcode ex k t (run E ex n t).
Proof.
  intros E ex n. induction n as [|n IH]; intros t; cbn [run]; [exists 0; split; [lia|constructor]|].
  destruct (step prog E pcode ex t) as [t1|] eqn:St; [|exists 0; split; [lia|constructor]].
  destruct (IH t1) as (k & L & K). exists (S k). split; [lia|].
  clear -St K. induction K; [econstructor; [constructor|exact St]|]. econstructor; eauto.
Qed.

Definition ab : prog :=
  PSpawn (PShow 1 (PYield (PShow 2 PEnd))) (PSpawn (PShow 3 (PYield (PShow 4 PEnd))) (PShow 5 PEnd)).
Example ab_runs : let t := run unit [] 40 (entry prog unit ab tt) in
  t_mode _ _ t = MExit _ /\ t_shown _ _ t = [5; 1; 3; 2; 4] /\ length (t_started _ _ t) = 5.
Proof. vm_compute. auto. Qed.
Example blocked_runs :
  let t := run unit [] 40 (entry prog unit (PSpawn (PBlock (PShow 1 PEnd)) (PSpawn (PWake 0 (PShow 2 PEnd)) PEnd)) tt) in
  t_mode _ _ t = MExit _ /\ t_shown _ _ t = [2; 1] /\ t_loops _ _ t = 0.
Proof. vm_compute. auto. Qed.
(** An external scheduler that hands out one task when asked, and then has no more work. *)
Definition once : external prog bool := fun timeout e =>
  if e then Some (true, [PShow 9 PEnd], false) else Some (false, [], e).
Example once_honest : honest prog bool once /\ (forall e, once false e <> None).
Proof.
  split.
  - intros timeout [] new e' H; cbn in H; congruence.
  - intros []; discriminate.
Qed.
Example once_runs : let t := run bool [once] 40 (entry prog bool (PShow 8 PEnd) true) in
  t_mode _ _ t = MExit _ /\ t_shown _ _ t = [8; 9] /\ t_started _ _ t = t_enqueued _ _ t.
Proof. vm_compute. auto. Qed.

(** * Findings *)
(** Each yield leaves a call of schedule-loop on the stack: one task that does nothing but
    yield makes the stack grow without bound. *)
Theorem yield_stack_refuted : exists (p : prog), forall n, exists k t,
  steps prog unit pcode [] k (entry prog unit p tt) t /\ t_loops _ _ t = n /\
  length (waiting prog (t_queue _ _ t)) <= 1.
Proof.
  exists PForever.
  assert (G : forall n, exists k q st en,
    steps prog unit pcode [] k (entry prog unit PForever tt)
      (mkT prog unit (MLoop prog) q [] tt n [] st en) /\ waiting prog q = [PForever]).
  { induction n as [|n (k & q & st & en & K & W)].
    - exists 0, (enqueue prog (queue_make prog) PForever), [], [PForever]. split; [constructor|reflexivity].
    - destruct (dequeue_waiting prog q _ _ W) as (q2 & D & W2).
      exists (3 + k), (enqueue prog q2 PForever), (st ++ [PForever]), ((en ++ []) ++ [PForever]). split.
      + econstructor; [econstructor; [econstructor; [exact K|reflexivity]|]|].
        * cbn. destruct (queue_empty prog q) eqn:Q; [apply empty_waiting in Q; congruence|].
          rewrite D. reflexivity.
        * reflexivity.
      + rewrite enqueue_waiting, W2. reflexivity. }
  intros n. destruct (G n) as (k & q & st & en & K & W).
  exists k, (mkT prog unit (MLoop prog) q [] tt n [] st en). split; [exact K|]. split; [reflexivity|].
  cbn [t_queue]. rewrite W. cbn. lia.
Qed.

(** The scheduler ends although a task is still blocked: a deadlock looks like success. *)
Theorem deadlock_refuted : exists (p : prog) k t,
  steps prog unit pcode [] k (entry prog unit p tt) t /\ t_mode _ _ t = MExit _ /\ t_blocked _ _ t <> [].
Proof.
  exists (PBlock (PShow 1 PEnd)).
  destruct (run_steps unit [] 20 (entry prog unit (PBlock (PShow 1 PEnd)) tt)) as (k & _ & K).
  exists k, (run unit [] 20 (entry prog unit (PBlock (PShow 1 PEnd)) tt)).
  split; [exact K|]. split; vm_compute; [reflexivity|discriminate].
Qed.

(** With two external schedulers the thread waits for ever for the first, which waits for
    events that do not come, although the second has a task to hand out. *)
Definition silent : external prog nat := fun timeout e =>
  if timeout then None else Some (true, [], e).
Definition second : external prog nat := fun timeout e =>
  match e with
  | 0 => Some (true, [], 1)
  | 1 => Some (true, [], 2)
  | _ => Some (true, [PShow 9 PEnd], 3)
  end.
Theorem two_externals_refuted : exists (f g : external prog nat) p e k t,
  honest prog nat f /\ honest prog nat g /\ (forall e, f false e <> None /\ g false e <> None) /\
  steps prog nat pcode [f; g] k (entry prog nat p e) t /\ t_mode _ _ t = MWait _ /\
  exists x ts e', g true (t_world _ _ t) = Some (true, x :: ts, e').
Proof.
  destruct (run_steps nat [silent; second] 20 (entry prog nat (PBlock PEnd) 0)) as (k & _ & K).
  exists silent, second, (PBlock PEnd), 0, k, (run nat [silent; second] 20 (entry prog nat (PBlock PEnd) 0)).
  split; [intros [] e new e' H; cbn in H; congruence|].
  split; [intros timeout [|[|e]] new e' H; cbn in H; congruence|].
  split; [intros [|[|e]]; split; discriminate|].
  split; [exact K|]. split; [vm_compute; reflexivity|].
  exists (PShow 9 PEnd), [], 3. vm_compute. reflexivity.
Qed.

Print Assumptions externals_right.
Print Assumptions tasks_in_order.
Print Assumptions turns_come.
Print Assumptions end_is_complete.
Print Assumptions next_starts.
Print Assumptions depth_without_yield.
Print Assumptions shown_right.
Print Assumptions yield_stack_refuted.
Print Assumptions deadlock_refuted.
Print Assumptions two_externals_refuted.
