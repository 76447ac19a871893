(** Theorems of record about the compiler (C34-C36). *)
From Coq Require Import List ZArith Bool String Arith Lia.
From Verif Require Import Base CoreSpec TocModel TocSem CoreProofs TocClosure TocTail TocLive TocParse TocParseSim
  TocMach TocCollect TocErase TocGood TocScope TocWhole TocFrames TocFrameRun.
From Verif Require VmModel VmSpec VmProofs VmExec VmProps.
Import ListNotations.
Local Open Scope list_scope.
Local Open Scope nat_scope.

(** * C34 *)

(** A program that is [legal] - every primitive gets all its arguments, no
    local is named like a primitive, no let rebinds a visible local or a name
    of another let of its function, no quoted list - and that terminates with
    value [v] and global variables [G] without setting a global between its
    being read as an operand and the use of that operand (the [true]): its
    compiled functions, run from a frame with room for the top level, end
    with the same value and the same globals. *)
Theorem compile_correct_partial : forall ar n0 ks fuel e fs gl B n g v G nf,
  legal n0 ks e = true -> compile fuel n0 e = Some (fs, gl) ->
  program ar true n e (init B g) = Some (v, G) -> top_frame fs <= nf ->
  exists M0 k M1, m_start fs nf (init B g) = Some M0 /\ msteps ar fs k M0 = Some M1 /\ finished M1 = true /\
    looks s_arity l_nargs v (m_res M1) /\ same_globals s_arity l_nargs G (m_G M1).
Proof. intros. eapply whole_run; eauto. Qed.

(** The same on the virtual machine of VmModel.v, for runs without
    over-application and frames the runtime can describe. *)
Theorem compile_on_vm_partial : forall sym str ar n0 ks fuel e fs gl B n g v G nf,
  legal n0 ks e = true -> compile fuel n0 e = Some (fs, gl) ->
  program ar true n e (init B g) = Some (v, G) -> top_frame fs <= nf <= 255 -> forallb small fs = true ->
  exists M0 k M1, m_start fs nf (init B g) = Some M0 /\ msteps ar fs k M0 = Some M1 /\ finished M1 = true /\
    looks s_arity l_nargs v (m_res M1) /\ same_globals s_arity l_nargs G (m_G M1) /\
    (all_direct ar fs k M0 = true ->
     exists s0 s1, VmModel.start (emb sym str (VClo (mkL (List.length fs - 1) 0 nf) [])) = Ok s0 /\
       VmModel.steps s0 (trace sym str ar fs k M0) = Ok s1 /\
       VmModel.v_res s1 = emb sym str (m_res M1) /\ VmModel.f_fn (VmModel.v_ctx s1) = None).
Proof.
  intros sym str ar n0 ks fuel e fs gl B n g v G nf HL HC EV (HT & HN) HS.
  destruct (whole_run ar n0 ks fuel e fs gl HL HC B n g v G nf EV HT) as (M0 & k & M1 & A1 & A2 & A3 & A4 & A5).
  exists M0, k, M1. split; [exact A1|]. split; [exact A2|]. split; [exact A3|]. split; [exact A4|]. split; [exact A5|].
  intro D. destruct (whole n0 ks fuel e fs gl HL HC) as (e1 & st & t & m' & _ & _ & _ & _ & _ & _ & _ & _ & _ & FN & EF).
  assert (LF : forallb labs_f fs = true).
  { subst fs. unfold collect_lambda_pass in *. destruct (cl_stm [] (live_stm t)) as (t1, w) eqn:ECl. unfold append_result in *.
    destruct (cl_labs (w ++ [rewrite_lambda_final [] t1]) HS _ FN _ _ _ ECl) as (Q1 & Q2); [now eexists|reflexivity|].
    rewrite forallb_app, Q2. cbn. now rewrite final_labs. }
  assert (N1 : 1 <= nf).
  { unfold top_frame in HT. pose proof (frame_params (last fs (mkF [] (TRet (SmVar (NG 0))) []))). lia. }
  destruct (vm_run sym str ar fs nf B g M0 k M1 LF (conj N1 HN) A1 A2 D) as (s0 & s1 & B1 & B2 & B3 & B4 & _).
  exists s0, s1. split; [exact B1|]. split; [exact B2|]. split; [exact B3|].
  unfold finished in A3. destruct M1 as [[c|] [|] [|] r G1]; try discriminate. exact B4.
Qed.

(** A program with recursion through a global, a closure that captures, a
    partial application and names used twice in different functions. *)
Definition std : arith := fun p x y =>
  Some match p with
       | PAdd => x + y | PSub => x - y | PMul => x * y | PDiv => Z.quot x y
       | PGt => if Z.gtb x y then 1 else 0 | PLt => if Z.ltb x y then 1 else 0 | _ => 0
       end%Z.
Local Notation Y s := (SSym (NS s)).
Local Notation N z := (SNum z%Z).
Local Notation "'L' l" := (of_list l) (at level 9, l at level 0).
Local Notation Q s := (of_list [SSym (NS "quote"); s]).
Definition no_globals : base := fun _ => None.
Local Open Scope string_scope.

Definition demo : sexp :=
  L [Y "do";
     L [Y "set"; Q (Y "fact");
        L [Y "lambda"; L [Y "n"]; L [Y "if"; L [Y "="; Y "n"; N 0]; N 1; L [Y "*"; Y "n"; L [Y "fact"; L [Y "-"; Y "n"; N 1]]]]]];
     L [L [Y "lambda"; L [Y "mk"; Y "n"];
           L [Y "let"; Y "add"; L [Y "mk"; Y "n"]; L [Y "cons"; L [Y "add"; L [Y "fact"; N 5]]; L [Y "cons"; L [L [Y "lambda"; L [Y "z"]; L [Y "+"; Y "z"; Y "n"]]; N 1]; SNil]]]];
        L [Y "lambda"; L [Y "n"; Y "b"]; L [Y "+"; Y "n"; Y "b"]]; N 3]].

Example compile_correct_example :
  legal 0 20 demo = true /\
  (match program std true 30 demo (init no_globals 0) with
   | Some (v, G) => v = VCons (VNum 123) (VCons (VNum 4) VNil) /\ g_val G (NS "fact") <> None
   | None => False
   end) /\
  (match compile 30 0 demo with
   | Some (fs, gl) => top_frame fs = 1 /\ List.length fs = 5 /\ forallb small fs = true /\
       match m_start fs 3 (init no_globals 0) with
       | Some M0 => match msteps std fs 20 M0 with
                    | Some M1 => finished M1 = true /\ m_res M1 = VCons (VNum 123) (VCons (VNum 4) VNil) /\ all_direct std fs 20 M0 = true
                    | None => False
                    end
       | None => False
       end
   | None => False
   end).
Proof. vm_compute. repeat split; discriminate. Qed.

Print Assumptions compile_correct_partial.
Print Assumptions compile_on_vm_partial.

(** Without the conditions the statement is false.  [miscompiled B e v w]: the
    source program gives [v] and the compiled one gives [w]. *)
Definition miscompiled (B : base) (e : sexp) (v : val scode) (w : lval) : Prop :=
  exists n fs gl k M0 M1 G, program std false n e (init B 0) = Some (v, G) /\ compile 50 0 e = Some (fs, gl) /\
    m_start fs (top_frame fs) (init B 0) = Some M0 /\ msteps std fs k M0 = Some M1 /\ finished M1 = true /\ m_res M1 = w.
Ltac miscompiles n k :=
  exists n; do 2 eexists; exists k; do 3 eexists;
  split; [vm_compute; reflexivity|]; split; [vm_compute; reflexivity|]; split; [vm_compute; reflexivity|];
  split; [vm_compute; reflexivity|]; split; [reflexivity|reflexivity].
Definition glob (x : string) (z : Z) : base := fun y => if name_eqb y (NS x) then Some (inl (SNum z)) else None.

(** a global operand is read when the call happens, not when its turn comes:
    ((lambda (a b) a) x (set 'x 2)) with x = 1 *)
Definition late_global := L [L [Y "lambda"; L [Y "a"; Y "b"]; Y "a"]; Y "x"; L [Y "set"; Q (Y "x"); N 2]].
Theorem late_global_refuted : legal 0 20 late_global = true /\ miscompiled (glob "x" 1) late_global (VNum 1) (VNum 2).
Proof. split; [reflexivity|]. miscompiles 20 2. Qed.

(** a local variable named like a primitive is not the function that is
    called: (let + (lambda (x y) 7) (+ 1 2)) *)
Definition named_plus := L [Y "let"; Y "+"; L [Y "lambda"; L [Y "x"; Y "y"]; N 7]; L [Y "+"; N 1; N 2]].
Theorem primitive_name_refuted : miscompiled no_globals named_plus (VNum 7) (VNum 3).
Proof. miscompiles 20 1. Qed.

(** the arguments of a partial application of a primitive are evaluated when
    the rest is given, not when it is made, and not at all if it never is:
    (let f (+ (set 'c 5)) c) with c = 1 *)
Definition partial_plus := L [Y "let"; Y "f"; L [Y "+"; L [Y "set"; Q (Y "c"); N 5]]; Y "c"].
Theorem partial_primitive_refuted : miscompiled (glob "c" 1) partial_plus (VNum 5) (VNum 1).
Proof. miscompiles 20 1. Qed.

(** a let inside a function that rebinds a captured variable:
    (let x 1 ((lambda (y) (do x (let x y x))) 5)) *)
Definition rebound := L [Y "let"; Y "x"; N 1; L [L [Y "lambda"; L [Y "y"]; L [Y "do"; Y "x"; L [Y "let"; Y "x"; Y "y"; Y "x"]]]; N 5]].
Theorem rebound_capture_refuted : miscompiled no_globals rebound (VNum 5) (VNum 1).
Proof. miscompiles 20 2. Qed.

(** a let in an operand leaks into the operands after it:
    ((lambda (x) (cons (if true (let x 2 x) 3) x)) 1) *)
Definition leaking := L [L [Y "lambda"; L [Y "x"]; L [Y "cons"; L [Y "if"; STrue; L [Y "let"; Y "x"; N 2; Y "x"]; N 3]; Y "x"]]; N 1].
Theorem leaking_let_refuted : miscompiled no_globals leaking (VCons (VNum 2) (VNum 1)) (VCons (VNum 2) (VNum 2)).
Proof. miscompiles 20 2. Qed.

(** The top level runs in load-so's frame, which has three slots
    (src/runtime.c:1082, 341-350).  A legal program that keeps three variables
    across a top-level call does not fit: it never finishes.
    (let a (id 1) (let b (id 2) (let c (id 3) (let d (id 4) (cons a (cons b (cons c d))))))) *)
Definition wide :=
  L [Y "do"; L [Y "set"; Q (Y "id"); L [Y "lambda"; L [Y "x"]; Y "x"]];
     L [Y "let"; Y "a"; L [Y "id"; N 1]; L [Y "let"; Y "b"; L [Y "id"; N 2]; L [Y "let"; Y "c"; L [Y "id"; N 3];
       L [Y "let"; Y "d"; L [Y "id"; N 4]; L [Y "cons"; Y "a"; L [Y "cons"; Y "b"; L [Y "cons"; Y "c"; Y "d"]]]]]]]].
Fixpoint never (fs : list func) (k : nat) (M : mst) : bool :=
  match k with
  | O => false
  | S k' => negb (finished M) && match mstep std fs M with None => true | Some M1 => never fs k' M1 end
  end.
Lemma never_finishes : forall fs k M, never fs k M = true -> forall j M1, msteps std fs j M = Some M1 -> finished M1 = false.
Proof.
  intros fs. induction k as [|k IH]; intros M H j M1 E; [discriminate|]. cbn in H. apply andb_true_iff in H as (H1 & H2).
  destruct j as [|j]; cbn in E.
  - injection E as <-. now destruct (finished M).
  - destruct (mstep std fs M) as [M2|]; [eauto|discriminate].
Qed.
Theorem top_frame_refuted : legal 0 20 wide = true /\
  (exists n v G, program std true n wide (init no_globals 0) = Some (v, G)) /\
  exists fs gl M0, compile 50 0 wide = Some (fs, gl) /\ m_start fs 3 (init no_globals 0) = Some M0 /\
    forall k M1, msteps std fs k M0 = Some M1 -> finished M1 = false.
Proof.
  split; [reflexivity|]. split; [exists 20; do 2 eexists; vm_compute; reflexivity|].
  do 3 eexists. split; [vm_compute; reflexivity|]. split; [vm_compute; reflexivity|].
  apply (never_finishes _ 20). vm_compute. reflexivity.
Qed.

(** * C35 *)

(** Replacing the free variables of every function by references into its
    closure keeps the meaning of a closed expression, if no let inside a
    function rebinds a variable the function captures. *)
Theorem closure_convert_partial : forall ar n e B g v G, plain e = true -> free_vars e = [] -> cc_ok [] e = true ->
  forced (ev1 ar n [] [] e (init B g)) = Some (v, G) ->
  exists m v' G', forced (ev1 ar m [] [] (closure_convert [] e) (init B g)) = Some (v', G') /\
    looks e_arity e_arity v v' /\ same_globals e_arity e_arity G G'.
Proof.
  intros ar n e B g v G HP HF HC E. destruct (ev1 ar n [] [] e (init B g)) as [r|] eqn:E1; [|discriminate].
  destruct (closure_convert_sim ar n [] [] e _ _ E1 [] [] [] (init B g) HP HC) as (r2 & m & OK & E2).
  { rewrite HF. intros x []. }
  { apply init_rel. }
  destruct (forced_rel _ _ _ _ _ _ OK E) as ((v', G') & E3 & (R1 & R2)).
  exists m, v', G'. specialize (E2 m (le_n _)). cbv beta in E2. rewrite E2. split; [exact E3|].
  split; [eapply (vrel_looks _ _ _ _ crelC_arity); exact R1|eapply (grel_looks _ _ _ _ crelC_arity); exact R2].
Qed.
Print Assumptions closure_convert_partial.

(** (let x 1 ((lambda (y) (+ x ((lambda (z) (let w z (+ w (+ x y)))) 10))) 5)): captured
    at two levels *)
Definition nested : exp :=
  ELet (NS "x") (EConst (SNum 1))
    (EApp (ELam [NS "y"] (EPrim PAdd [EVar (NS "x");
       EApp (ELam [NS "z"] (ELet (NS "w") (EVar (NS "z")) (EPrim PAdd [EVar (NS "w"); EPrim PAdd [EVar (NS "x"); EVar (NS "y")]]))) [EConst (SNum 10)]]))
     [EConst (SNum 5)]).
Example closure_convert_example : plain nested = true /\ free_vars nested = [] /\ cc_ok [] nested = true /\
  match forced (ev1 std 20 [] [] nested (init no_globals 0)), forced (ev1 std 20 [] [] (closure_convert [] nested) (init no_globals 0)) with
  | Some (v, _), Some (w, _) => v = VNum 17 /\ w = VNum 17
  | _, _ => False
  end.
Proof. vm_compute. repeat split. Qed.

(** with such a let the inner variable is the captured one *)
Theorem closure_convert_refuted : exists e v G w G', plain e = true /\ free_vars e = [] /\
  forced (ev1 std 20 [] [] e (init no_globals 0)) = Some (v, G) /\
  forced (ev1 std 20 [] [] (closure_convert [] e) (init no_globals 0)) = Some (w, G') /\ v = VNum 5 /\ w = VNum 1.
Proof.
  exists (ELet (NS "x") (EConst (SNum 1)) (EApp (ELam [NS "y"] (EDo (EVar (NS "x")) (ELet (NS "x") (EVar (NS "y")) (EVar (NS "x"))))) [EConst (SNum 5)])).
  do 4 eexists. repeat (split; [vm_compute; reflexivity|]). reflexivity.
Qed.

(** * C36 *)

(** For every program that compiles (legal or not): each generated function
    only reads variables that are defined - its parameters at the start, in a
    continuation the result and what was saved - saves different variables in
    different slots, and its frame has room for them; and closures are made
    with that frame. *)
Theorem saved_frames : forall fuel n e fs gl, compile fuel n e = Some (fs, gl) ->
  forall F, In F fs -> safe_func F /\ forall s, In s (f_operands F) -> sized fs s.
Proof.
  intros fuel n e fs gl E F HF. destruct (compile_shape _ _ _ _ _ E) as (t & H1 & H2 & ->). split.
  - pose proof (pass_safe t H1 H2) as H. rewrite Forall_forall in H. auto.
  - intros s Hs. eapply pass_sized; eauto. now apply raw_live.
Qed.
Print Assumptions saved_frames.

(** In every run from a top level with a large enough frame, at every moment a
    generated function is about to continue: its variables can be loaded
    ([sg]), and if it then makes a call, the store of the live variables stays
    in the frame and, whatever the result, the rest of the function starts
    with it and with every variable it may read as it was at the call. *)
Theorem saved_in_run : forall ar fuel n e fs gl nf B g M0 j M lab label R,
  compile fuel n e = Some (fs, gl) -> top_frame fs <= nf -> m_start fs nf (init B g) = Some M0 -> msteps ar fs j M0 = Some M ->
  m_cur M = Some (mkMA (MUser lab) label R) ->
  exists F sg t, nth_error fs lab = Some F /\ enter_case F label R (m_res M) = Some (sg, t) /\ safe (f_conts F) (map fst sg) t /\
    forall saved l f args G, block ar sg R t (m_G M) = Some (XCall saved l f args, G) ->
    exists k R1 new, nth_error (f_conts F) (l - 1) = Some k /\ save 1 saved R = Some R1 /\ List.length R1 = List.length R /\ hd None R1 = hd None R /\
      safe (f_conts F) (k_var k :: k_live k) (k_body k) /\
      forall res, exists sg1, enter_case F l R1 res = Some (sg1, k_body k) /\ lookup (k_var k) sg1 = Some res /\
        forall x, In x (k_live k) -> lookup x sg1 = lookup x (new ++ sg) /\ lookup x (new ++ sg) <> None.
Proof.
  intros ar fuel n e fs gl nf B g M0 j M lab label R EC HT E0 EJ EM.
  assert (HS : Forall safe_func fs) by (apply Forall_forall; intros F HF; eapply saved_frames; eauto).
  assert (HZ : forall F s, In F fs -> In s (f_operands F) -> sized fs s) by (intros F s HF; eapply saved_frames; eauto).
  assert (NE : fs <> []).
  { destruct (compile_shape _ _ _ _ _ EC) as (t & _ & _ & ->). unfold collect_lambda_pass. destruct (cl_stm [] (live_stm t)) as (t1, v).
    unfold append_result. destruct v; discriminate. }
  assert (EL : nth_error fs (List.length fs - 1) = Some (last fs (mkF [] (TRet (SmVar (NG 0))) []))).
  { destruct (exists_last NE) as (l & F & ->). rewrite app_length, last_last. cbn [List.length].
    rewrite nth_error_app2 by lia. now replace (List.length l + 1 - 1 - List.length l) with 0 by lia. }
  assert (EP : f_ps (last fs (mkF [] (TRet (SmVar (NG 0))) [])) = []).
  { destruct (compile_shape _ _ _ _ _ EC) as (t & _ & _ & ->). unfold collect_lambda_pass. destruct (cl_stm [] (live_stm t)) as (t1, v).
    unfold append_result. rewrite last_last. apply final_params. }
  assert (FG : fit_G fs (init B g)).
  { intros x v. cbn. destruct (B x) as [[s|p]|]; intro Q; try discriminate; injection Q as <-; [apply fit_quoted|exact I]. }
  assert (F0 : fit_st fs M0).
  { unfold m_start in E0. eapply fit_call; [| | |exact E0].
    - constructor; cbn; auto.
    - cbn. split; [|exact I]. eexists. split; [exact EL|]. rewrite EP. split; [reflexivity|exact HT].
    - constructor. }
  pose proof (fit_steps ar fs HZ HS j M0 M F0 EJ) as FM.
  pose proof (ft_cur _ _ FM) as FC. rewrite EM in FC. destruct FC as (FR & F & EF & LR & HE). cbn [ma_slots ma_label] in *.
  destruct (enter_case F label R (m_res M)) as [(sg, t)|] eqn:EE; [|destruct (HE _ EE)].
  destruct (fit_case fs HZ HS _ _ _ _ _ _ _ FM EM EF EE) as (_ & _ & SF).
  exists F, sg, t. split; [exact EF|]. split; [exact EE|]. split; [exact SF|].
  intros saved l f args G EB.
  destruct (block_jump ar _ _ _ _ _ _ _ _ _ _ SF EB) as (new & f0 & args0 & live & G2 & J1 & J2).
  assert (SFF : safe_func F) by (rewrite Forall_forall in HS; apply HS; eapply nth_error_In; eauto).
  destruct (saved_and_restored _ _ _ _ _ _ _ _ _ _ _ _ _ _ _ SFF J1 LR J2) as (k & R1 & Q1 & Q2 & Q3 & Q4 & Q5 & Q6).
  exists k, R1, new. auto 10.
Qed.
Print Assumptions saved_in_run.

(** the program [wide] keeps one, two, then three variables *)
Example saved_in_run_example :
  match compile 50 0 wide with
  | Some (fs, _) => top_frame fs = 4 /\
      match m_start fs 4 (init no_globals 0) with
      | Some M0 => match msteps std fs 8 M0 with
                   | Some M => match m_cur M with
                               | Some a => ma_code a = MUser 1 /\ ma_label a = 1 /\ tl (ma_slots a) = map (fun z => Some (VNum z)) [3; 2; 1]%Z /\ m_res M = VNum 4
                               | None => False
                               end
                   | None => False
                   end
      | None => False
      end
  | None => False
  end.
Proof. vm_compute. repeat split. Qed.
