(** Theorems of record about the virtual machine (C21-C25). *)
From Coq Require Import List Arith Bool ZArith Lia.
From Verif Require Import Base VmModel VmSpec VmProofs VmSim VmExec.
Import ListNotations.
Local Open Scope nat_scope.

Definition U (n nf rq : nat) : obj := ONative (CUser n) nf rq [].
Definition bTry := ONative CTry 3 2 [].
Definition bThrow := ONative CThrow 2 1 [].
Definition bApply := ONative CApply 3 2 [].
Definition Int (z : Z) : obj := OImm z.

(** An initial thunk: takes no argument and is not the runtime's [try]. *)
Definition is_thunk (t : obj) : Prop :=
  ok_obj t /\ exists c nf d, t = ONative c nf 0 d /\ c <> CTry.

(** * C22 *)

(** In every execution of user functions calling each other - calls, tail
    calls, returns, partial applications, in any order, to any depth, with
    any frame sizes the compiler can produce - the machine neither traps nor
    does anything undefined, its frames lie in live segments and do not
    overlap, and each pending frame has exactly the contents its function
    left in it.  Missing for the full property: calls with too many
    arguments, for which see [stay_on_stack_refuted]. *)
Theorem stay_on_stack_partial : forall t S0 acts S',
  is_thunk t -> s_start t = Some S0 -> Forall ok_action acts -> s_steps S0 acts = Some S' ->
  (forall l1 l2 S1, acts = l1 ++ l2 -> s_steps S0 l1 = Some S1 -> plain S1) ->
  exists s0 s', start t = Ok s0 /\ steps s0 acts = Ok s' /\ represents s' S' /\
    (s_cur S' <> None -> layout s').
Proof.
  intros t S0 acts S' (O & c & nf & d & -> & NT) E0 Fa E P.
  destruct (start_sim c nf d O NT) as (s0 & S1 & A1 & A2 & R & OS).
  rewrite E0 in A2. injection A2 as <-.
  destruct (plain_run acts s0 S0 S' R OS Fa P E) as (s' & B1 & B2 & B3).
  exists s0, s'. split; [exact A1|]. split; [exact B1|]. split; [now apply rel_represents|].
  intros H. eapply rel_layout; eauto.
Qed.

(** A run with a deep recursion crossing segments. *)
Definition deep_acts : list action :=
  concat (repeat [AWrite 5 (Int 9); ACall 3 (U 1 100 2) [Int 1; Int 2]] 7) ++
  [ACall 2 (U 2 50 3) [Int 1]; ARet (Int 5); ARet (Int 6)].

Example stay_on_stack_example :
  is_thunk (U 0 200 0) /\ Forall ok_action deep_acts /\
  (exists S0 S', s_start (U 0 200 0) = Some S0 /\ s_steps S0 deep_acts = Some S' /\ length (s_pend S') = 5 /\ s_cur S' <> None) /\
  (match start (U 0 200 0) with
   | Ok s0 => match steps s0 (firstn 14 deep_acts) with Ok s => length (v_segs s) = 5 | _ => False end
   | _ => False end).
Proof.
  split; [|split; [|split]].
  - split; [cbn; repeat split; try lia; constructor|]. exists (CUser 0), 200, []. split; [reflexivity|discriminate].
  - unfold deep_acts. cbn. repeat (apply Forall_cons; [cbn; repeat split; try lia; repeat constructor|]). constructor.
  - eexists. eexists. split; [reflexivity|]. split; [vm_compute; reflexivity|]. split; [reflexivity|discriminate].
  - vm_compute. reflexivity.
Qed.

Lemma plain_b : forall S0,
  (match s_cur S0 with Some a => match a_code a with CUser _ | CCurry => true | _ => false end | None => true end)
  && (match args_of (s_pend S0) with [] => true | _ => false end) = true -> plain S0.
Proof.
  intros S0 H. apply andb_true_iff in H as (H1 & H2). split.
  - intros a Ea. rewrite Ea in H1. destruct (a_code a); try discriminate; eauto.
  - destruct (args_of (s_pend S0)); [reflexivity|discriminate].
Qed.

Fixpoint all_plain (S0 : sst) (l : list action) : bool :=
  (match s_cur S0 with Some a => match a_code a with CUser _ | CCurry => true | _ => false end | None => true end)
  && (match args_of (s_pend S0) with [] => true | _ => false end) &&
  match l with
  | [] => true
  | a :: l' => match s_step S0 a with Some S1 => all_plain S1 l' | None => true end
  end.

Lemma all_plain_ok : forall l S0, all_plain S0 l = true ->
  forall l1 l2 S1, l = l1 ++ l2 -> s_steps S0 l1 = Some S1 -> plain S1.
Proof.
  induction l as [|a l IH]; intros S0 H l1 l2 S1 E Q; cbn [all_plain] in H; apply andb_true_iff in H as (H1 & H2).
  - destruct l1; [|discriminate]. injection Q as <-. now apply plain_b.
  - destruct l1 as [|b l1].
    + injection Q as <-. now apply plain_b.
    + injection E as <- ->. cbn in Q. destruct (s_step S0 a) as [S2|] eqn:E2; [|discriminate].
      eapply IH; eauto.
Qed.

Example stay_on_stack_example_plain :
  match s_start (U 0 200 0) with Some S0 => all_plain S0 deep_acts | None => false end = true.
Proof. vm_compute. reflexivity. Qed.

(** The full property is false: a call with too many arguments made near the
    end of a segment, whose function returns a function with a large frame.
    The program is correct (the specification finishes with 7); the machine
    aborts in coraReturnSlowPath. *)
Definition over_main : obj := U 0 250 0.
Definition over_acts : list action :=
  [ACall 1 (U 1 10 1) [Int 1; Int 2]; ARet (U 2 250 1); ARet (Int 0); ARet (Int 7); ARet (Int 7)].

Theorem stay_on_stack_refuted : exists t acts,
  is_thunk t /\ Forall ok_action acts /\
  match s_start t with
  | Some S0 => match s_steps S0 acts with Some S' => s_cur S' = None /\ s_wait S' = None /\ s_res S' = Int 7 | None => False end
  | None => False
  end /\
  match start t with Ok s0 => steps s0 acts = Trap | _ => False end.
Proof.
  exists over_main, over_acts. split; [|split; [|split]].
  - split; [cbn; repeat split; try lia; constructor|]. exists (CUser 0), 250, []. split; [reflexivity|discriminate].
  - unfold over_acts. repeat (apply Forall_cons; [cbn; repeat split; try lia; repeat constructor|]). constructor.
  - vm_compute. repeat split.
  - vm_compute. reflexivity.
Qed.

(** * All of it: calls, returns, partial and over-application, apply, try,
    throw and resume, for the executions the stack layout allows
    ([permitted_along]: apply, try and a continuation are entered while the
    caller's frame is in the current segment, an over-application opens no
    segment, a throw does not cross an over-application). *)
Theorem machine_implements_spec_partial : forall t S0 acts S' s0,
  is_thunk t -> s_start t = Some S0 -> Forall ok_action acts -> s_steps S0 acts = Some S' ->
  start t = Ok s0 -> permitted_along s0 S0 acts ->
  exists s', steps s0 acts = Ok s' /\ represents s' S' /\
    (s_cur S' <> None \/ s_wait S' <> None -> layout s').
Proof.
  intros t S0 acts S' s0 (O & c & nf & d & -> & NT) E0 Fa E Es P.
  destruct (start_sim c nf d O NT) as (s1 & S1 & A1 & A2 & R & OS).
  rewrite E0 in A2. injection A2 as <-. rewrite Es in A1. apply Ok_inj in A1. subst s1.
  destruct (run_sim acts s0 S0 S' R OS Fa P E) as (s' & B1 & B2 & B3).
  exists s'. split; [exact B1|]. split; [now apply rel_represents|]. intros H. eapply rel_layout; eauto.
Qed.

(** The machine and the specification after the same actions, all of them
    permitted. *)
Definition reached (t : obj) (acts : list action) (s : vm) (S1 : sst) : Prop :=
  exists s0 S0, is_thunk t /\ start t = Ok s0 /\ s_start t = Some S0 /\ Forall ok_action acts /\
    permitted_along s0 S0 acts /\ steps s0 acts = Ok s /\ s_steps S0 acts = Some S1.

Lemma reached_rel : forall t acts s S1, reached t acts s S1 -> Rel s S1 /\ ok_sst S1.
Proof.
  intros t acts s S1 (s0 & S0 & (O & c & nf & d & -> & NT) & A1 & A2 & A3 & A4 & A5 & A6).
  destruct (start_sim c nf d O NT) as (s2 & S2 & B1 & B2 & R & OS).
  rewrite A2 in B2. injection B2 as <-. rewrite A1 in B1. apply Ok_inj in B1. subst s2.
  destruct (run_sim acts s0 S0 S1 R OS A3 A4 A6) as (s' & C1 & C2 & C3).
  rewrite A5 in C1. apply Ok_inj in C1. subst s'. auto.
Qed.

(** A correct program gets stuck only for reasons visible in the program:
    calling something that is not a function, a store outside the frame,
    apply with the wrong number of arguments, throw outside try, a
    continuation used twice. *)
Theorem spec_stuck_only_for_a_reason : forall t acts s S1 a,
  reached t acts s S1 -> s_step S1 a = None -> stuck_reason S1 a.
Proof. intros t acts s S1 a R E. apply reached_rel in R as (_ & O). now apply spec_progress. Qed.

(** * C21 *)

(** Applying [f] to fewer arguments than it takes, in any number of groups,
    gives at once a value, whatever the state of the machine ... *)
Theorem partial_application_returns_closure : forall s c nf rq d gs g,
  S rq <= nf -> length (concat gs ++ g) < rq ->
  coraCallN s (papp (ONative c nf rq d) gs) g = coraReturn s (papp (ONative c nf rq d) (gs ++ [g])).
Proof. exact partial_call. Qed.

(** ... and applying that value to the missing arguments brings the machine,
    one step per group later, to the very state of one full call. *)
Theorem grouping_is_irrelevant : forall s c nf rq d gs g acts s2,
  S rq <= nf -> length (concat gs ++ g) = rq -> g <> [] \/ concat gs = [] ->
  length acts = length (filter nonempty gs) ->
  coraCallN s (ONative c nf rq d) (concat gs ++ g) = Ok s2 ->
  exists s1 s2', coraCallN s (papp (ONative c nf rq d) gs) g = Ok s1 /\
    steps s1 acts = Ok s2' /\ same_state s2' s2.
Proof. exact grouping. Qed.

Example grouping_example :
  let f := U 1 20 6 in
  let gs := [[Int 1]; []; [Int 2; Int 3]; [Int 4]] in
  match start (U 0 100 0) with
  | Ok s => match coraCallN s f [Int 1; Int 2; Int 3; Int 4; Int 5; Int 6], coraCallN s (papp f gs) [Int 5; Int 6] with
            | Ok s2, Ok s1 => match steps s1 (repeat (ARet ONil) 3) with
                              | Ok s2' => v_ctx s2' = v_ctx s2 /\ mreads (v_mem s2') (f_bp (v_ctx s2)) 7 = Ok [f; Int 1; Int 2; Int 3; Int 4; Int 5; Int 6]
                              | _ => False end
            | _, _ => False end
  | _ => False end.
Proof. vm_compute. split; reflexivity. Qed.

(** Passing too many arguments is the same as passing the rest to the
    result: in every permitted execution, after a call [f args1 args2] with
    [f] taking [args1], the activation of [f] runs with [args1] and its
    result is called with [args2]. *)
Theorem over_application_partial : forall t acts s S1 fn args a n l sl c nf rq d,
  reached t acts s S1 -> s_cur S1 = Some (mkA (CUser n) l sl) ->
  fn = ONative c nf rq d -> ok_obj fn -> Forall ok_obj args -> rq < length args ->
  a = ATail fn args -> permitted s S1 a ->
  exists s', step s a = Ok s' /\
    represents s' (mkS (Some (mkA c 0 (fresh_slots fn (firstn rq args) nf)))
                       (IArgs (skipn rq args) :: s_pend S1) None (s_res S1) (s_k S1) (s_nextk S1)).
Proof.
  intros t acts s S1 fn args a n l sl c nf rq d R Ec -> Of Oa L -> P. apply reached_rel in R as (R & O).
  destruct (step_sim s S1 (ATail (ONative c nf rq d) args)
    (mkS (Some (mkA c 0 (fresh_slots (ONative c nf rq d) (firstn rq args) nf)))
                       (IArgs (skipn rq args) :: s_pend S1) None (s_res S1) (s_k S1) (s_nextk S1)) R O) as (s' & E & R').
  - now split.
  - exact P.
  - unfold s_step. rewrite Ec. unfold s_call. rewrite (proj2 (Nat.ltb_ge _ _)) by lia.
    destruct (skipn rq args) as [|x r] eqn:Es; [|reflexivity].
    exfalso. assert (Z : length (skipn rq args) = 0) by now rewrite Es. rewrite skipn_length in Z. lia.
  - exists s'. split; [exact E|now apply rel_represents].
Qed.

Example over_application_example :
  match start (U 0 20 0) with
  | Ok s0 => match steps s0 [ACall 1 (U 1 10 1) [Int 1; Int 2]; ARet (U 2 30 1); ARet ONil; ARet (Int 7)] with
             | Ok s => v_res s = Int 7 /\ f_fn (v_ctx s) = Some (CUser 0) /\ f_label (v_ctx s) = 1
             | _ => False end
  | _ => False end.
Proof. vm_compute. repeat split; reflexivity. Qed.

(** * C23 *)

(** A loop of tail calls, of any length, with any frame sizes: nothing is
    pushed, and in all at most one segment is allocated. *)
Theorem tail_calls_constant_space_partial : forall s l s', tail_run s l -> steps s l = Ok s' ->
  v_callstack s' = v_callstack s /\ v_cst s' = v_cst s /\ v_try s' = v_try s /\
  length (v_segs s') <= S (length (v_segs s)) /\ v_next s' <= S (v_next s).
Proof.
  intros s l s' R E.
  destruct (tight_run l s s s') as (A & B & C & D); auto.
  { unfold tight. repeat split. now left. }
  repeat split; auto; destruct D as [(Q1 & Q2)|(g & Q1 & Q2 & _)]; rewrite ?Q1, ?Q2; cbn; lia.
Qed.

Fixpoint loop_acts (n : nat) : list action :=
  match n with
  | O => []
  | S n' => [AWrite 3 (Int 1); ATail (U 1 100 2) [Int 0; Int 2]; ATail (ONative CCurry 150 1 [U 2 150 2; Int 1]) [Int 3]; ARet ONil;
             ATail (U 3 200 0) []] ++ loop_acts n'
  end.

Fixpoint all_tail (s : vm) (l : list action) : bool :=
  match l with
  | [] => true
  | a :: l' =>
      (match f_fn (v_ctx s) with
       | Some (CUser _) =>
           match a with
           | AWrite _ _ => true
           | ATail (ONative c nf rq d) args => (length args =? rq) && (rq <? nf)
           | _ => false
           end
       | Some CCurry => true
       | _ => false
       end) && match step s a with Ok s1 => all_tail s1 l' | _ => true end
  end.

Lemma all_tail_ok : forall l s, all_tail s l = true -> tail_run s l.
Proof.
  induction l as [|a l IH]; intros s H l1 b l2 s1 E Q; [destruct l1; discriminate|].
  cbn [all_tail] in H. apply andb_true_iff in H as (H1 & H2). destruct l1 as [|x l1].
  - injection E as <- <-. cbn in Q. apply Ok_inj in Q. subst s1. unfold tail_step.
    destruct (f_fn (v_ctx s)) as [[]|]; try discriminate; auto.
    destruct a as [| |[| | |? nf rq ?|] args|]; try discriminate; auto.
    apply andb_true_iff in H1 as (H1 & H3). apply Nat.eqb_eq in H1. apply Nat.ltb_lt in H3. lia.
  - injection E as <- ->. cbn in Q. destruct (step s a) as [s2| |]; try discriminate. cbn in Q. eapply IH; eauto.
Qed.

Example tail_calls_example :
  match start (U 0 100 0) with
  | Ok s => all_tail s (loop_acts 60) = true /\
            match steps s (loop_acts 60) with Ok s' => length (v_segs s') <= 2 | _ => False end
  | _ => False end.
Proof. vm_compute. split; [reflexivity|lia]. Qed.

(** With [apply] as the tail call the property is false: each turn of the
    loop leaves apply's frame behind, and segments pile up. *)
Theorem tail_apply_constant_space_refuted : exists s l s',
  l = concat (repeat [ATail bApply [U 1 2 0; ONil]; ARet ONil] 200) /\
  start (U 0 10 0) = Ok s /\ steps s l = Ok s' /\
  v_callstack s' = v_callstack s /\ length (v_segs s') = 2 + length (v_segs s).
Proof.
  assert (X : match start (U 0 10 0) with
              | Ok s => match steps s (concat (repeat [ATail bApply [U 1 2 0; ONil]; ARet ONil] 200)) with
                        | Ok s' => v_callstack s' = v_callstack s /\ length (v_segs s') = 2 + length (v_segs s)
                        | _ => False end
              | _ => False end) by (vm_compute; split; reflexivity).
  destruct (start (U 0 10 0)) as [s| |]; try contradiction. exists s. eexists.
  destruct (steps s _) as [s'| |] eqn:E; try contradiction. exists s'. split; [reflexivity|]. tauto.
Qed.

(** ... and the return of such a loop traps. *)
Theorem tail_apply_return_refuted : exists t acts,
  match s_start t with
  | Some S0 => match s_steps S0 acts with Some S' => s_cur S' = None /\ s_res S' = Int 7 | None => False end
  | None => False
  end /\
  match start t with Ok s0 => steps s0 acts = Trap | _ => False end.
Proof.
  exists (U 0 10 0), (ACall 1 (U 2 5 0) [] :: concat (repeat [ATail bApply [U 1 2 0; ONil]; ARet ONil] 200) ++ [ARet (Int 7); ARet (Int 7)]).
  vm_compute. repeat split.
Qed.

(** * C24 *)

(** Throwing [v] anywhere below a try (no try in between): the handler of
    that try is entered with [v] and a continuation; what is pending is what
    was pending when the try was called, outer tries included; nothing else
    is changed.  The continuation stands for what lay between. *)
Theorem throw_reaches_innermost_handler_partial : forall t acts s S1 a l x v up sf th h c nf d below,
  reached t acts s S1 -> s_cur S1 = Some (mkA CThrow l [x; Some v]) ->
  s_pend S1 = up ++ IAct (mkA CTry 1 [sf; th; Some h]) :: below ->
  (forall i, In i up -> is_try i = false) ->
  (forall r, ~ In (IArgs r) up) ->
  h = ONative c nf 2 d ->
  exists s' k, k = s_nextk S1 /\ step s a = Ok s' /\ layout s' /\
    represents s' (mkS (Some (mkA c 0 (fresh_slots h [v; ONative CCont 2 1 [OCont k]] nf))) below None (s_res S1)
      (fun j => if j =? k then Some (up ++ [IAct (mkA CTry 1 [sf; th; Some h])]) else s_k S1 j) (S k)).
Proof.
  intros t acts s S1 a l x v up sf th h c nf d below R Ec Ep Nt Na Eh. apply reached_rel in R as (R & O).
  assert (C : cut (s_pend S1) = Some (up ++ [IAct (mkA CTry 1 [sf; th; Some h])], h, below)).
  { rewrite Ep. clear - Nt. induction up as [|i up IH]; [reflexivity|]. cbn [app cut]. rewrite (Nt i) by now left.
    rewrite IH; [reflexivity|]. intros j Hj. apply Nt. now right. }
  assert (A0 : args_of (up ++ [IAct (mkA CTry 1 [sf; th; Some h])]) = []).
  { clear - Na. induction up as [|[i|r] up IH]; cbn; [reflexivity| |].
    - apply IH. intros r H. apply (Na r). now right.
    - exfalso. apply (Na r). now left. }
  set (S' := mkS (Some (mkA c 0 (fresh_slots h [v; ONative CCont 2 1 [OCont (s_nextk S1)]] nf))) below None (s_res S1)
      (fun j => if j =? s_nextk S1 then Some (up ++ [IAct (mkA CTry 1 [sf; th; Some h])]) else s_k S1 j) (S (s_nextk S1))).
  assert (Fc : f_fn (v_ctx s) = Some CThrow).
  { destruct (rel_represents _ _ R) as (_ & Q & _). rewrite Ec in Q. apply Q. }
  assert (Es : forall b, s_step S1 b = Some S').
  { intros b. unfold s_step. rewrite Ec, C. subst h. reflexivity. }
  destruct (step_sim s S1 (ARet ONil) S' R O) as (s' & E & R').
  - exact I.
  - constructor.
    + intros c0 Hc Q. rewrite Fc in Hc. injection Hc as <-. destruct Q as [Q|[Q|(Q & _)]]; discriminate.
    + intros s' S2 _ E2 W. rewrite Es in E2. injection E2 as <-. unfold more_args, S' in W. cbn in W. exfalso.
      rewrite Ep in W. replace (up ++ IAct (mkA CTry 1 [sf; th; Some h]) :: below)
        with ((up ++ [IAct (mkA CTry 1 [sf; th; Some h])]) ++ below) in W by (rewrite <- app_assoc; reflexivity).
      rewrite args_of_app, A0 in W. cbn in W. lia.
    + intros u h' b' _ Q. rewrite C in Q. injection Q as <- _ _. exact A0.
  - apply Es.
  - exists s', (s_nextk S1). split; [reflexivity|]. split.
    { unfold step in *. rewrite Fc in *. exact E. }
    split; [|now apply rel_represents]. eapply rel_layout; [exact R'|]. left. discriminate.
Qed.

(** * C25 *)

(** Calling a continuation with [v], while the frame of its caller is in the
    current segment: the innermost activation that was captured runs again
    with [v] as the value of its throw; below it the rest of what was
    captured, the try included; below that the caller of the continuation. *)
Theorem resume_continues_partial : forall t acts s S1 a l nf rq id v a0 up,
  reached t acts s S1 ->
  s_cur S1 = Some (mkA CCont l [Some (ONative CCont nf rq [OCont id]); Some v]) ->
  s_k S1 id = Some (IAct a0 :: up) -> top_here s ->
  exists s', step s a = Ok s' /\ layout s' /\
    represents s' (mkS (Some a0) (up ++ s_pend S1) None v (fun j => if j =? id then None else s_k S1 j) (s_nextk S1)).
Proof.
  intros t acts s S1 a l nf rq id v a0 up R Ec Ek TH. apply reached_rel in R as (R & O).
  set (S' := mkS (Some a0) (up ++ s_pend S1) None v (fun j => if j =? id then None else s_k S1 j) (s_nextk S1)).
  assert (Fc : f_fn (v_ctx s) = Some CCont).
  { destruct (rel_represents _ _ R) as (_ & Q & _). rewrite Ec in Q. apply Q. }
  assert (Es : forall b, s_step S1 b = Some S').
  { intros b. unfold s_step. rewrite Ec, Ek. reflexivity. }
  destruct (step_sim s S1 (ARet ONil) S' R O) as (s' & E & R').
  - exact I.
  - constructor.
    + auto.
    + intros s' S2 E1 E2 W. rewrite Es in E2. injection E2 as <-.
      (* a continuation holds no over-application *)
      exfalso. destruct R as [x b e Ec' Ew NP Eb Ee L F K RS NK|x b e Ec' Ew NP Eb Ee L F K RS NK|ar e Ec' Ew Ef Ee L TH' Cs K RS NK|Ec' Ew Ef Cs RS]; try congruence.
      * pose proof (resume_args s b (s_pend S1) (s_k S1) id (IAct a0 :: up) K Ek) as Na.
        unfold more_args, S' in W. cbn [s_pend] in W. rewrite args_of_app in W. cbn [args_of] in Na. rewrite Na in W. cbn in W. lia.
      * rewrite Ec in Ec'. injection Ec' as <-. destruct NP as (Q & _). discriminate.
    + intros u h' b' Q. congruence.
  - apply Es.
  - exists s'. split.
    { unfold step in *. rewrite Fc in *. exact E. }
    split; [|now apply rel_represents]. eapply rel_layout; [exact R'|]. left. discriminate.
Qed.

(** A try, three calls deep a throw, the handler resumes with 5: the throw
    returns 5 to its caller on the original frame, whose result goes back to
    the handler. *)
Definition kont (n : nat) : obj := ONative CCont 2 1 [OCont n].
Definition resume_acts : list action :=
  [ACall 1 bTry [U 1 20 0; U 2 30 2]; ARet ONil;             (* try runs *)
   ACall 4 (U 3 40 1) [Int 8]; AWrite 2 (Int 33); ACall 6 bThrow [Int 4]; ARet ONil;  (* throw 4 *)
   ACall 9 (kont 0) [Int 5]; ARet ONil].

Example resume_example :
  match start (U 0 20 0) with
  | Ok s0 =>
      match steps s0 (firstn 6 resume_acts), steps s0 resume_acts with
      | Ok h, Ok s =>
          f_fn (v_ctx h) = Some (CUser 2) /\
          mreads (v_mem h) (f_bp (v_ctx h)) 3 = Ok [U 2 30 2; Int 4; kont 0] /\
          f_fn (v_ctx s) = Some (CUser 3) /\ f_label (v_ctx s) = 6 /\ v_res s = Int 5 /\
          mread (v_mem s) (fst (f_bp (v_ctx s)), snd (f_bp (v_ctx s)) + 2) = Ok (Int 33) /\
          match steps s [ARet (Int 50); ARet (Int 60); ARet ONil] with
          | Ok s2 => f_fn (v_ctx s2) = Some (CUser 2) /\ f_label (v_ctx s2) = 9 /\ v_res s2 = Int 60
          | _ => False
          end
      | _, _ => False
      end
  | _ => False end.
Proof. vm_compute. repeat split; reflexivity. Qed.

Lemma reach : forall t acts s0 S0, is_thunk t -> start t = Ok s0 -> s_start t = Some S0 -> Forall ok_action acts ->
  permitted_all s0 S0 acts = true -> s_steps S0 acts <> None ->
  exists s S1, reached t acts s S1 /\ s_steps S0 acts = Some S1 /\ steps s0 acts = Ok s.
Proof.
  intros t acts s0 S0 T A B F P N. apply permitted_all_ok in P.
  destruct (s_steps S0 acts) as [S1|] eqn:E; [|congruence].
  destruct (machine_implements_spec_partial t S0 acts S1 s0 T B F E A P) as (s & Es & _).
  exists s, S1. split; [|auto]. exists s0, S0. split; [exact T|]. split; [exact A|]. split; [exact B|]. split; [exact F|].
  split; [exact P|]. split; [exact Es|exact E].
Qed.

(** The hypotheses of the two theorems above are met in this run: at its
    sixth action (the throw), and at its eighth (the resume). *)
Example reached_example :
  (exists s S1, reached (U 0 20 0) (firstn 5 resume_acts) s S1 /\
     (exists l x, s_cur S1 = Some (mkA CThrow l [x; Some (Int 4)])) /\
     exists up below sf th, s_pend S1 = up ++ IAct (mkA CTry 1 [sf; th; Some (U 2 30 2)]) :: below /\
       length up = 2 /\ (forall i, In i up -> is_try i = false) /\ (forall r, ~ In (IArgs r) up)) /\
  (exists s S1 l nf rq a0 up, reached (U 0 20 0) (firstn 7 resume_acts) s S1 /\ top_here s /\
     s_cur S1 = Some (mkA CCont l [Some (ONative CCont nf rq [OCont 0]); Some (Int 5)]) /\
     s_k S1 0 = Some (IAct a0 :: up)).
Proof.
  split.
  - destruct (start (U 0 20 0)) as [s0| |] eqn:A; try (vm_compute in A; discriminate).
    destruct (s_start (U 0 20 0)) as [S0|] eqn:B; try (vm_compute in B; discriminate).
    destruct (reach (U 0 20 0) (firstn 5 resume_acts) s0 S0) as (s & S1 & R & E1 & E2); auto.
    + split; [cbn; repeat split; try lia; constructor | eexists; eexists; eexists; split; [reflexivity|discriminate]].
    + repeat (apply Forall_cons; [cbn; repeat split; try lia; repeat constructor; try (eexists; reflexivity)|]). constructor.
    + vm_compute in A, B. apply Ok_inj in A. injection B as <-. subst s0. vm_compute. reflexivity.
    + vm_compute in B. injection B as <-. vm_compute. discriminate.
    + exists s, S1. split; [exact R|]. vm_compute in B. injection B as <-. vm_compute in E1. injection E1 as <-. cbn [s_cur s_pend].
      split; [eexists; eexists; reflexivity|].
      eexists [_; _]. eexists. eexists. eexists. split; [reflexivity|]. split; [reflexivity|].
      split; [intros i [<-|[<-|[]]]; reflexivity|]. intros r [Q|[Q|[]]]; discriminate.
  - destruct (start (U 0 20 0)) as [s0| |] eqn:A; try (vm_compute in A; discriminate).
    destruct (s_start (U 0 20 0)) as [S0|] eqn:B; try (vm_compute in B; discriminate).
    destruct (reach (U 0 20 0) (firstn 7 resume_acts) s0 S0) as (s & S1 & R & E1 & E2); auto.
    + split; [cbn; repeat split; try lia; constructor | eexists; eexists; eexists; split; [reflexivity|discriminate]].
    + repeat (apply Forall_cons; [cbn; repeat split; try lia; repeat constructor; try (eexists; reflexivity)|]). constructor.
    + vm_compute in A, B. apply Ok_inj in A. injection B as <-. subst s0. vm_compute. reflexivity.
    + vm_compute in B. injection B as <-. vm_compute. discriminate.
    + exists s, S1. vm_compute in B. injection B as <-. vm_compute in E1. injection E1 as <-.
      do 5 eexists. split; [exact R|]. split.
      { vm_compute in A. apply Ok_inj in A. subst s0. vm_compute in E2. apply Ok_inj in E2. subst s. reflexivity. }
      split; reflexivity.
Qed.

(** ** where try, throw and resume fail *)

(** A correct program that the machine does not run: its result according to
    the specification is [r], the machine ends in [o]. *)
Definition fails (t : obj) (acts : list action) (r : obj) (o : outcome vm) : Prop :=
  is_thunk t /\ Forall ok_action acts /\
  match s_start t with
  | Some S0 => match s_steps S0 acts with Some S' => s_cur S' = None /\ s_wait S' = None /\ s_res S' = r | None => False end
  | None => False
  end /\
  match start t with Ok s0 => steps s0 acts = o | _ => False end.

Ltac show_fails :=
  split; [split; [cbn; repeat split; try lia; constructor | eexists; eexists; eexists; split; [reflexivity|discriminate]]|];
  split; [repeat (apply Forall_cons; [cbn; repeat split; try lia; repeat constructor; try (eexists; reflexivity)|]); constructor|];
  split; vm_compute; repeat split.

(** A try called when there is room for fewer than three more cells: nothing
    is thrown, and yet the return from the try aborts. *)
Theorem try_at_segment_end_refuted : exists t acts r, fails t acts r Trap.
Proof.
  exists (U 0 253 0), [ACall 1 bTry [U 1 20 0; U 2 30 2]; ARet ONil; ARet (Int 7); ARet ONil; ARet (Int 7)], (Int 7).
  show_fails.
Qed.

(** The same with a throw: undefined (pointers into different segments). *)
Theorem throw_at_segment_end_refuted : exists t acts r, fails t acts r UB.
Proof.
  exists (U 0 253 0), [ACall 1 bTry [U 1 20 0; U 2 30 2]; ARet ONil; ACall 1 bThrow [Int 3]; ARet ONil; ARet (Int 7); ARet (Int 7)], (Int 7).
  show_fails.
Qed.

(** A throw from inside a call with too many arguments. *)
Theorem throw_across_over_application_refuted : exists t acts r, fails t acts r Trap.
Proof.
  exists (U 0 20 0), [ACall 1 bTry [U 1 20 0; U 2 30 2]; ARet ONil; ACall 2 (U 3 10 1) [Int 1; Int 2]; 
                      ACall 1 bThrow [Int 3]; ARet ONil; ARet (Int 7); ARet (Int 7); ARet ONil], (Int 7).
  show_fails.
Qed.

(** A continuation called when the handler's frame ends at the end of a segment. *)
Theorem resume_at_segment_end_refuted : exists t acts r, fails t acts r Trap.
Proof.
  exists (U 0 154 0), [ACall 1 bTry [U 1 20 0; U 2 100 2]; ARet ONil; ACall 1 bThrow [Int 3]; ARet ONil;
                       ACall 5 (kont 0) [Int 4]; ARet ONil; ARet (Int 6); ARet ONil; ARet (Int 7); ARet (Int 7)], (Int 7).
  show_fails.
Qed.

(** A throw with no try around it is undefined behaviour, not an error. *)
Theorem throw_without_try_refuted : exists t acts,
  is_thunk t /\ Forall ok_action acts /\ match start t with Ok s0 => steps s0 acts = UB | _ => False end.
Proof.
  exists (U 0 20 0), [ACall 1 bThrow [Int 1]; ARet ONil]. split; [|split].
  - split; [cbn; repeat split; try lia; constructor | eexists; eexists; eexists; split; [reflexivity|discriminate]].
  - repeat (apply Forall_cons; [cbn; repeat split; try lia; repeat constructor|]). constructor.
  - vm_compute. reflexivity.
Qed.

(** Calling a continuation a second time runs on freed memory. *)
Theorem resume_twice_refuted : exists t acts,
  is_thunk t /\ Forall ok_action acts /\ match start t with Ok s0 => steps s0 acts = UB | _ => False end.
Proof.
  exists (U 0 20 0), [ACall 1 bTry [U 1 20 0; U 2 100 2]; ARet ONil; ACall 1 bThrow [Int 3]; ARet ONil;
                      ACall 5 (kont 0) [Int 4]; ARet ONil; ARet (Int 6); ARet ONil;
                      ACall 5 (kont 0) [Int 4]; ARet ONil; AWrite 1 (Int 6)]. split; [|split].
  - split; [cbn; repeat split; try lia; constructor | eexists; eexists; eexists; split; [reflexivity|discriminate]].
  - repeat (apply Forall_cons; [cbn; repeat split; try lia; repeat constructor; try (eexists; reflexivity)|]). constructor.
  - vm_compute. reflexivity.
Qed.

Print Assumptions stay_on_stack_partial.
Print Assumptions stay_on_stack_refuted.
Print Assumptions machine_implements_spec_partial.
Print Assumptions spec_stuck_only_for_a_reason.
Print Assumptions partial_application_returns_closure.
Print Assumptions grouping_is_irrelevant.
Print Assumptions over_application_partial.
Print Assumptions tail_calls_constant_space_partial.
Print Assumptions tail_apply_constant_space_refuted.
Print Assumptions tail_apply_return_refuted.
Print Assumptions throw_reaches_innermost_handler_partial.
Print Assumptions resume_continues_partial.
Print Assumptions try_at_segment_end_refuted.
Print Assumptions throw_at_segment_end_refuted.
Print Assumptions throw_across_over_application_refuted.
Print Assumptions resume_at_segment_end_refuted.
Print Assumptions throw_without_try_refuted.
Print Assumptions resume_twice_refuted.
