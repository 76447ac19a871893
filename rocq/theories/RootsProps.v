(** Theorems of record about what a collection finds on the stack (C79, C80). *)
From Coq Require Import List Arith Bool ZArith Lia.
From Verif Require Import Base VmModel VmSpec VmProofs VmSim VmExec VmProps RootsModel RootsSpec RootsProofs.
Import ListNotations.
Local Open Scope nat_scope.

(** * C79: what the program can still use is found *)

(** Whatever a program has done - calls to any depth across segments, returns,
    partial and over-applications, try, throw, resume - everything it can
    still use while a function runs is found by a collection starting at that
    moment, but possibly for what it can only get from arguments waiting to
    be passed to the result of a call. *)
Theorem usable_found_partial : forall t acts s S1, reached t acts s S1 -> s_cur S1 <> None ->
  forall o, usable S1 o -> found s o \/ parts S1 (in_args S1) o.
Proof.
  intros t acts s S1 R N. apply reached_rel in R as (R & _). destruct (s_cur S1) as [a|] eqn:E; [|congruence].
  eapply usable_found. eapply rel_running; eauto.
Qed.

(** In particular everything, when no arguments wait. *)
Theorem all_found_partial : forall t acts s S1, reached t acts s S1 -> s_cur S1 <> None ->
  args_of (s_pend S1) = [] -> forall o, usable S1 o -> found s o.
Proof.
  intros t acts s S1 R N A o U. destruct (usable_found_partial _ _ _ _ R N o U) as [H|H]; [exact H|exfalso].
  apply reached_rel in R as (R & _). destruct (s_cur S1) as [a|] eqn:E; [|congruence].
  pose proof (rel_running _ _ _ R E) as RU.
  clear U. induction H; auto. destruct H as [(l & Hl & _)|(l & Hl & _)].
  - revert Hl A. generalize (s_pend S1). intros p. induction p as [|i p IH]; [intros []|].
    intros [->|Hl]; cbn [args_of]; [discriminate|]. destruct i; [auto|discriminate].
  - pose proof (r_wait _ _ _ RU). congruence.
Qed.

(** The full property is false.  The pair below is passed as the second
    argument to a function of one; while that function runs nothing the
    collector looks at leads to the pair, and afterwards the program returns
    it. *)
Definition pair7 : obj := OCons (Int 7) ONil.
Definition late_acts : list action := [ACall 1 (U 1 10 1) [Int 1; pair7]; ACall 2 (U 3 10 0) []].
Definition late_rest : list action := [ARet (Int 0); ARet (U 2 10 1); ARet (Int 0); ARet pair7; ARet pair7].

Fixpoint bare (o : obj) : bool :=
  match o with
  | OImm _ | ONil => true
  | OCons _ _ | OCont _ => false
  | ONative _ _ _ d => (fix all (l : list obj) : bool := match l with [] => true | x :: r => bare x && all r end) d
  end.

Lemma bare_data : forall c nf rq d o, bare (ONative c nf rq d) = true -> In o d -> bare o = true.
Proof.
  intros c nf rq d o H. cbn [bare] in H. induction d as [|x d IH]; [intros []|].
  apply andb_true_iff in H as (H1 & H2). intros [->|Hi]; auto.
Qed.

Lemma found_bare : forall s l, coraGCFunc s = Ok l -> forallb bare l = true -> forall o, found s o -> bare o = true.
Proof.
  intros s l E F o H. induction H as [l' o E' Hi|a d H IH|a d H IH|c nf rq d o H IH Hi|id fs sg l' o H IH]; try discriminate.
  - rewrite E in E'. apply Ok_inj in E'. subst l'. rewrite forallb_forall in F. now apply F.
  - eapply bare_data; eauto.
Qed.

Ltac thunk := split; [cbn; repeat split; try lia; constructor | eexists; eexists; eexists; split; [reflexivity|discriminate]].
Ltac acts := repeat (apply Forall_cons; [cbn; repeat split; try lia; repeat constructor; try (eexists; reflexivity)|]); constructor.

Theorem waiting_argument_refuted : exists t acts s S1 o rest,
  reached t acts s S1 /\ s_cur S1 <> None /\ usable S1 o /\ ~ found s o /\
  match s_steps S1 rest with Some S2 => s_cur S2 = None /\ s_wait S2 = None /\ s_res S2 = o | None => False end.
Proof.
  destruct (start (U 0 20 0)) as [s0| |] eqn:A; try (vm_compute in A; discriminate).
  destruct (s_start (U 0 20 0)) as [S0|] eqn:B; try (vm_compute in B; discriminate).
  destruct (reach (U 0 20 0) late_acts s0 S0) as (s & S1 & R & E1 & E2); auto.
  - thunk.
  - acts.
  - vm_compute in A, B. apply Ok_inj in A. injection B as <-. subst s0. vm_compute. reflexivity.
  - vm_compute in B. injection B as <-. vm_compute. discriminate.
  - exists (U 0 20 0), late_acts, s, S1, pair7, late_rest. split; [exact R|].
    vm_compute in A, B. apply Ok_inj in A. injection B as <-. subst s0.
    vm_compute in E1, E2. injection E1 as <-. apply Ok_inj in E2. subst s. clear R.
    split; [discriminate|]. split; [|split].
    + apply p_here. right. left. exists [pair7]. split; [right; left; reflexivity|now left].
    + intros F. eapply found_bare in F; [discriminate F|vm_compute; reflexivity|vm_compute; reflexivity].
    + vm_compute. repeat split.
Qed.

(** * C80: the collector reads stack memory that is there *)

(** While a function runs, a collection reads no stack memory that has been
    freed or lies outside a segment: neither for the frames of the machine
    nor for a continuation that has not been used. *)
Theorem stack_read_partial : forall t acts s S1, reached t acts s S1 -> s_cur S1 <> None ->
  (exists l, coraGCFunc s = Ok l) /\
  (forall id up, s_k S1 id = Some up -> exists fs sg l, v_conts s id = Some (fs, sg) /\ continuationGCFunc s fs = Ok l).
Proof.
  intros t acts s S1 R N. apply reached_rel in R as (R & _). destruct (s_cur S1) as [a|] eqn:E; [|congruence].
  pose proof (rel_running _ _ _ R E) as RU. split.
  - destruct (roots_read _ _ _ RU) as (l & H & _). eauto.
  - intros id up Ek. destruct (cont_read _ _ _ _ _ RU Ek) as (fs & sg & l & H1 & H2 & _). eauto.
Qed.

(** The full property is false: a continuation used once, as it should be,
    and still held in a variable after what it continued has returned: its
    frames lie in a segment that has been freed, and the collector reads
    them. *)
Definition used_acts : list action :=
  [ACall 1 bTry [U 1 20 0; U 2 100 2]; ARet ONil; ACall 1 bThrow [Int 3]; ARet ONil;
   ACall 5 (kont 0) [Int 4]; ARet ONil; ARet (Int 6); ARet ONil].

Theorem used_continuation_refuted : exists t acts s S1 id fs sg,
  reached t acts s S1 /\ s_cur S1 <> None /\ found s (OCont id) /\ v_conts s id = Some (fs, sg) /\
  continuationGCFunc s fs = UB.
Proof.
  destruct (start (U 0 20 0)) as [s0| |] eqn:A; try (vm_compute in A; discriminate).
  destruct (s_start (U 0 20 0)) as [S0|] eqn:B; try (vm_compute in B; discriminate).
  destruct (reach (U 0 20 0) used_acts s0 S0) as (s & S1 & R & E1 & E2); auto.
  - thunk.
  - acts.
  - vm_compute in A, B. apply Ok_inj in A. injection B as <-. subst s0. vm_compute. reflexivity.
  - vm_compute in B. injection B as <-. vm_compute. discriminate.
  - exists (U 0 20 0), used_acts, s, S1, 0.
    vm_compute in A, B. apply Ok_inj in A. injection B as <-. subst s0.
    vm_compute in E1, E2. injection E1 as <-. apply Ok_inj in E2. subst s.
    eexists. eexists. split; [exact R|]. clear R.
    split; [discriminate|]. split; [|split; [reflexivity|vm_compute; reflexivity]].
    eapply fd_data with (c := CCont) (nf := 2) (rq := 1) (d := [OCont 0]); [|now left].
    eapply fd_root; [vm_compute; reflexivity|]. right. right. now left.
Qed.

(** A state the theorems speak of: a pair stored in the frame of a function
    that has thrown, only to be had through the continuation the handler
    holds. *)
Definition kept_acts : list action :=
  [ACall 1 bTry [U 1 20 0; U 2 100 2]; ARet ONil; AWrite 3 pair7; ACall 1 bThrow [Int 3]; ARet ONil].

Example found_example : exists s S1, reached (U 0 20 0) kept_acts s S1 /\ s_cur S1 <> None /\
  args_of (s_pend S1) = [] /\ usable S1 pair7 /\ ~ in_slots S1 pair7 /\ s_k S1 0 <> None.
Proof.
  destruct (start (U 0 20 0)) as [s0| |] eqn:A; try (vm_compute in A; discriminate).
  destruct (s_start (U 0 20 0)) as [S0|] eqn:B; try (vm_compute in B; discriminate).
  destruct (reach (U 0 20 0) kept_acts s0 S0) as (s & S1 & R & E1 & E2); auto.
  - thunk.
  - acts.
  - vm_compute in A, B. apply Ok_inj in A. injection B as <-. subst s0. vm_compute. reflexivity.
  - vm_compute in B. injection B as <-. vm_compute. discriminate.
  - exists s, S1. split; [exact R|]. vm_compute in B. injection B as <-. vm_compute in E1. injection E1 as <-. clear R E2.
    split; [discriminate|]. split; [reflexivity|]. split; [|split; [|discriminate]].
    + eapply p_cont with (id := 0); [|reflexivity|left; reflexivity|].
      * eapply p_data with (c := CCont) (nf := 2) (rq := 1) (d := [OCont 0]); [|now left].
        apply p_here. left. right. left. eexists. split; [reflexivity|]. right. right. now left.
      * right. right. right. now left.
    + intros [H|[(a & H & Hi)|(a & H & Hi)]]; [discriminate| |].
      * injection H as <-. cbn in Hi. repeat (destruct Hi as [Hi|Hi]; [discriminate|]). destruct Hi.
      * destruct H as [H|[]]. injection H as <-. cbn in Hi. repeat (destruct Hi as [Hi|Hi]; [discriminate|]). destruct Hi.
Qed.

Print Assumptions usable_found_partial.
Print Assumptions all_found_partial.
Print Assumptions waiting_argument_refuted.
Print Assumptions stack_read_partial.
Print Assumptions used_continuation_refuted.
