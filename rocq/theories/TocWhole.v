(** The passes put together. *)
From Coq Require Import List ZArith Bool String Arith Lia.
From Verif Require Import Base CoreSpec TocModel TocSem CoreProofs TocClosure TocTail TocLive TocParse TocParseSim
  TocMach TocCollect TocErase TocGood TocScope.
From Verif Require VmModel VmSpec VmProofs VmExec VmProps.
Import ListNotations.
Local Open Scope list_scope.
Local Open Scope nat_scope.

(** * What is observed *)

(** The same data; functions are only compared by how many arguments they
    take and by what they have been given. *)
Inductive looks {C1 C2} (a1 : C1 -> nat) (a2 : C2 -> nat) : val C1 -> val C2 -> Prop :=
| l_num z : looks a1 a2 (VNum z) (VNum z)
| l_sym x : looks a1 a2 (VSym x) (VSym x)
| l_str s : looks a1 a2 (VStr s) (VStr s)
| l_true : looks a1 a2 VTrue VTrue
| l_false : looks a1 a2 VFalse VFalse
| l_nil : looks a1 a2 VNil VNil
| l_cons x1 x2 y1 y2 : looks a1 a2 x1 x2 -> looks a1 a2 y1 y2 -> looks a1 a2 (VCons x1 y1) (VCons x2 y2)
| l_clo c1 c2 vs1 vs2 : a1 c1 = a2 c2 -> looks a1 a2 (VClo c1 vs1) (VClo c2 vs2)
| l_pap f1 f2 l1 l2 : looks a1 a2 f1 f2 -> Forall2 (looks a1 a2) l1 l2 -> looks a1 a2 (VPap f1 l1) (VPap f2 l2)
| l_prim p : looks a1 a2 (VPrim p) (VPrim p).

(** the same global variables *)
Definition same_globals {C1 C2} (a1 : C1 -> nat) (a2 : C2 -> nat) (G1 : store C1) (G2 : store C2) : Prop :=
  g_next G1 = g_next G2 /\
  forall x, match g_val G1 x, g_val G2 x with
            | Some v1, Some v2 => looks a1 a2 v1 v2
            | None, None => True
            | _, _ => False
            end.

(** the global variables before the program runs: constants and primitives *)
Definition base := name -> option (sexp + prim).
Definition init {C} (B : base) (n : nat) : store C :=
  mkG (fun x => match B x with Some (inl s) => Some (quoted s) | Some (inr p) => Some (VPrim p) | None => None end)
      (fun _ => 0) n.

Section Vlooks.
  Context {C1 C2 : Type} (crel : C1 -> C2 -> Prop) (sel : C1 -> C2 -> nat -> nat -> nat -> Prop) (a1 : C1 -> nat) (a2 : C2 -> nat).
  Hypothesis HA : forall c1 c2, crel c1 c2 -> a1 c1 = a2 c2.

  Lemma vrel_looks : forall v1 v2, vrel crel sel a1 v1 v2 -> looks a1 a2 v1 v2.
  Proof.
    fix IH 3. intros v1 v2 H. destruct H; constructor; auto.
    - clear - IH H0. induction H0; constructor; auto.
  Qed.
  Lemma grel_looks : forall G1 G2, grel crel sel a1 G1 G2 -> same_globals a1 a2 G1 G2.
  Proof.
    intros G1 G2 ((H1 & _) & H2). split; [exact H1|]. intro x. specialize (H2 x).
    destruct (g_val G1 x), (g_val G2 x); auto. now apply vrel_looks.
  Qed.
  Lemma init_rel : forall B n, grel crel sel a1 (init B n) (init B n).
  Proof.
    intros B n. split; [split; reflexivity|]. intro x. cbn. destruct (B x) as [[s|p]|]; [apply quoted_rel|constructor|exact I].
  Qed.
End Vlooks.

Lemma looks_trans : forall {C1 C2 C3} (a1 : C1 -> nat) (a2 : C2 -> nat) (a3 : C3 -> nat) v1 v2 v3,
  looks a1 a2 v1 v2 -> looks a2 a3 v2 v3 -> looks a1 a3 v1 v3.
Proof.
  intros C1 C2 C3 a1 a2 a3. fix IH 4. intros v1 v2 v3 H1 H2. destruct H1; inversion H2; subst; constructor; eauto; try congruence.
  match goal with A : Forall2 (looks a1 a2) ?x ?y, B : Forall2 (looks a2 a3) ?y ?z |- Forall2 _ ?x ?z =>
    clear - IH A B; revert z B; induction A; intros z B; inversion B; subst; constructor; eauto end.
Qed.
Lemma same_globals_trans : forall {C1 C2 C3} (a1 : C1 -> nat) (a2 : C2 -> nat) (a3 : C3 -> nat) G1 G2 G3,
  same_globals a1 a2 G1 G2 -> same_globals a2 a3 G2 G3 -> same_globals a1 a3 G1 G3.
Proof.
  intros C1 C2 C3 a1 a2 a3 G1 G2 G3 (H1 & H2) (K1 & K2). split; [congruence|]. intro x. specialize (H2 x). specialize (K2 x).
  destruct (g_val G1 x), (g_val G2 x), (g_val G3 x); auto; try contradiction. eapply looks_trans; eauto.
Qed.

(** * The start of the run *)
Definition top_frame (fs : list func) : nat := lambda_frame_size (last fs (mkF [] (TRet (SmVar (NG 0))) [])).

Section Top.
  Context (ar : arith).

  Theorem collected_run : forall n t G r nf G2,
    exec ar n [] [] t G = Some r -> fin_stm t = true ->
    let fs := collect_lambda_pass t in
    grel (crelM fs) selM t_arity G G2 -> top_frame fs <= nf ->
    exists M0 k M1, m_start fs nf G2 = Some M0 /\ msteps ar fs k M0 = Some M1 /\ finished M1 = true /\
      rres (crelM fs) selM t_arity r (m_res M1, m_G M1).
  Proof.
    intros n t G r nf G2 E HF fs HG HT. unfold fs in *. unfold collect_lambda_pass in *.
    destruct (cl_stm [] t) as (t1, v) eqn:ECl. unfold append_result in *.
    set (F := rewrite_lambda_final [] t1) in *.
    set (fs1 := v ++ [F]) in *.
    assert (EF : nth_error fs1 (List.length fs1 - 1) = Some F).
    { unfold fs1. rewrite app_length. cbn. rewrite nth_error_app2 by lia. now replace (List.length v + 1 - 1 - List.length v) with 0 by lia. }
    assert (ETop : top_frame fs1 = lambda_frame_size F) by (unfold top_frame, fs1; now rewrite last_last).
    destruct (collect_cont t1 []) as (t2, cs') eqn:ECo.
    assert (EFirst : f_first F = t2 /\ f_ps F = [] /\ rev (f_conts F) = cs').
    { unfold F, rewrite_lambda_final. rewrite ECo. cbn. rewrite rev_involutive. auto. }
    destruct EFirst as (EF1 & EF2 & EF3).
    set (thunk := VClo (mkL (List.length fs1 - 1) 0 nf) [] : lval).
    set (R := m_fresh thunk [] nf).
    set (M0 := mkM (Some (mkMA (MUser (List.length fs1 - 1)) 0 R)) [] None (VNum 0) G2).
    assert (ES : m_start fs1 nf G2 = Some M0) by reflexivity.
    assert (LR : lambda_frame_size F <= List.length R).
    { unfold R, m_fresh. rewrite app_length, map_length, repeat_length. cbn [List.length]. pose proof (frame_params F). lia. }
    destruct (collect_sim ar fs1 n [] [] t G r E M0 (List.length fs1 - 1) F R [] t1 v [] t2 cs' [] [] G2)
      as (x & G3 & M1 & B1 & B2 & v2 & G4 & (k & Hk) & RR); auto.
    - now exists [F].
    - constructor.
    - intros i w Hw. destruct i; discriminate.
    - exists M0, (S k), (done [] v2 G4). split; [exact ES|]. split; [|split; [reflexivity|exact RR]].
      cbn [msteps]. unfold mstep. cbn [m_cur M0]. rewrite EF. unfold enter_case. rewrite EF2. cbn [recover]. rewrite EF1.
      cbn [m_G M0]. rewrite B1, B2. exact Hk.
  Qed.
End Top.

(** * Programs the theorem is about

    [ks] only has to be large enough to look through the whole program. *)
Definition legal (n0 ks : nat) (e : sexp) : bool :=
  src_ok n0 ks e && scope_ok ks [] e && texts ks e.

Section Whole.
  Context (ar : arith) (n0 ks fuel : nat) (e : sexp) (fs : list func) (gl : list sexp).
  Hypothesis HL : legal n0 ks e = true.
  Hypothesis HC : compile fuel n0 e = Some (fs, gl).

  Lemma whole : exists e1 st t m', parse fuel [] (mkP n0 []) e = Some (e1, st) /\
    plain e1 = true /\ free_vars e1 = [] /\ cc_ok [] e1 = true /\
    tailify (closure_convert [] e1) KId (p_gen st) = Some (t, m') /\
    tl_ok (closure_convert [] e1) = true /\ old (p_gen st) (closure_convert [] e1) = true /\
    sok_stm t = true /\ fv_stm t = [] /\ fin_stm (live_stm t) = true /\ fs = collect_lambda_pass (live_stm t).
  Proof.
    unfold legal in HL. rewrite !andb_true_iff in HL. destruct HL as ((H1 & H2) & H3).
    unfold compile in HC. destruct (parse fuel [] (mkP n0 []) e) as [(e1, st)|] eqn:EP; [|discriminate].
    destruct (tailify (closure_convert [] e1) KId (p_gen st)) as [(t, m')|] eqn:ET; [|discriminate]. injection HC as <- _.
    exists e1, st, t, m'.
    pose proof (parse_plain _ _ _ _ _ _ EP) as PP.
    destruct (parse_scope n0 ks fuel [] (mkP n0 []) e e1 st EP H1 (le_n _)) as (S1 & (S2 & S3) & S4).
    assert (FV : free_vars e1 = []).
    { destruct (free_vars e1) as [|x l]; [reflexivity|]. destruct (S1 x (or_introl eq_refl)). }
    destruct (parse_esc n0 ks fuel [] [] (mkP n0 []) e e1 st EP H1 (le_n _) ltac:(intros y []) H2) as (U & _).
    pose proof (parse_mono _ _ _ _ _ _ EP) as L. cbn in L.
    assert (O : old (p_gen st) e1 = true).
    { apply old_intro; [exact PP|rewrite FV; intros x []|]. intros x Hx. destruct (S2 x Hx) as [HI|(i & -> & Hi)].
      - apply (older_mono n0); [exact L|]. exact (locals_old n0 ks e H1 x HI).
      - cbn. apply Nat.ltb_lt. lia. }
    assert (FV2 : free_vars (closure_convert [] e1) = []).
    { destruct (free_vars (closure_convert [] e1)) as [|x l] eqn:Q; [reflexivity|].
      destruct (convert_free e1 [] PP x) as (Hx & _); [rewrite Q; now left|]. rewrite FV in Hx. destruct Hx. }
    destruct (tailify_closed _ _ _ _ (convert_closed e1 [] PP) FV2 ET) as (T1 & T2).
    repeat split; auto.
    - apply (esc_cc_ok e1 []); [exact U|rewrite FV; intros x []|intros x []].
    - apply (esc_tl_ok e1 [] []); auto.
    - now apply old_convert.
    - eapply tailify_fin; [|exact kfin_id|exact ET]. rewrite etexts_convert. auto.
  Qed.

  Theorem whole_run : forall B n g v G nf,
    program ar true n e (init B g) = Some (v, G) -> top_frame fs <= nf ->
    exists M0 k M1, m_start fs nf (init B g) = Some M0 /\ msteps ar fs k M0 = Some M1 /\ finished M1 = true /\
      looks s_arity l_nargs v (m_res M1) /\ same_globals s_arity l_nargs G (m_G M1).
  Proof.
    intros B n g v G nf EV HT.
    destruct whole as (e1 & st & t & m' & EP & PP & FV & CC & ET & TL & OL & SO & FT & FN & EF).
    unfold legal in HL. rewrite !andb_true_iff in HL. destruct HL as ((H1 & H2) & H3).
    unfold program in EV. destruct (eval ar true n [] e (init B g)) as [(a, G1)|] eqn:E0; [|discriminate].
    assert (EV' := EV). cbn in EV'. injection EV' as <- <-.
    (* parse *)
    destruct (parse_sim ar n0 n [] e (init B g) (a, G1) E0 fuel [] (mkP n0 []) e1 st ks [] [] (init B g) EP (le_n _) H1) as
      ((a2, G2) & m1 & OK & E1).
    { split; [reflexivity|]. intros x _. right. split; [intros []|reflexivity]. }
    { apply init_rel. }
    destruct (eval_props _ _ _ _ _ _ _ _ E0) as (_ & FR).
    destruct (result_ok n0 _ _ _ _ OK FR EV) as ((v2, G2') & EF2 & (RV1 & RG1)). cbn [fst snd] in RV1, RG1.
    specialize (E1 m1 (le_n _)). cbv beta in E1.
    (* closure conversion *)
    destruct (closure_convert_sim ar m1 [] [] e1 (init B g) _ E1 [] [] [] (init B g) PP CC) as (r3 & m2 & OK2 & E2).
    { rewrite FV. intros x []. }
    { apply init_rel. }
    destruct (forced_rel _ _ _ _ _ _ OK2 EF2) as ((v3, G3) & EF3 & (RV2 & RG2)). cbn [fst snd] in RV2, RG2.
    specialize (E2 m2 (le_n _)). cbv beta in E2.
    (* tailify *)
    assert (EF3' : forced (ev1 ar m2 [] [] (closure_convert [] e1) (init B g)) = Some (v3, G3)) by (now rewrite E2).
    destruct (tailify_correct ar m2 _ _ _ _ EF3' _ _ _ (init B g) TL OL (init_rel _ _ _ _ _) ET) as ((v4, G4) & m3 & (RV3 & RG3) & E3).
    cbn [fst snd] in RV3, RG3. specialize (E3 m3 (le_n _)). cbv beta in E3.
    (* liveness *)
    destruct (live_sim ar m3 [] [] t (init B g) _ E3 [] [] (init B g) SO) as ((v5, G5) & m4 & (RV4 & RG4) & E4).
    { rewrite FT. intros x []. }
    { intros i w Hw. destruct i; discriminate. }
    { apply init_rel. }
    cbn [fst snd] in RV4, RG4. specialize (E4 m4 (le_n _)). cbv beta in E4.
    (* collection *)
    subst fs.
    destruct (collected_run ar m4 _ _ _ nf (init B g) E4 FN (init_rel _ _ _ _ _) HT) as (M0 & k & M1 & A1 & A2 & A3 & (RV5 & RG5)).
    cbn [fst snd] in RV5, RG5.
    exists M0, k, M1. split; [exact A1|]. split; [exact A2|]. split; [exact A3|].
    assert (AM : forall c1 c2, crelM (collect_lambda_pass (live_stm t)) c1 c2 -> t_arity c1 = l_nargs c2).
    { intros c1 c2 (Q & _). unfold t_arity. congruence. }
    split.
    - eapply looks_trans; [eapply (vrel_looks _ _ _ _ (crelP_arity n0)); exact RV1|].
      eapply looks_trans; [eapply (vrel_looks _ _ _ _ crelC_arity); exact RV2|].
      eapply looks_trans; [eapply (vrel_looks _ _ _ _ crelT_arity); exact RV3|].
      eapply looks_trans; [eapply (vrel_looks _ _ _ _ crelL_arity); exact RV4|].
      eapply (vrel_looks _ _ _ _ AM); exact RV5.
    - eapply same_globals_trans; [eapply (grel_looks _ _ _ _ (crelP_arity n0)); exact RG1|].
      eapply same_globals_trans; [eapply (grel_looks _ _ _ _ crelC_arity); exact RG2|].
      eapply same_globals_trans; [eapply (grel_looks _ _ _ _ crelT_arity); exact RG3|].
      eapply same_globals_trans; [eapply (grel_looks _ _ _ _ crelL_arity); exact RG4|].
      eapply (grel_looks _ _ _ _ AM); exact RG5.
  Qed.
End Whole.

(** * On the virtual machine *)

(** a run in which no call has too many arguments (see
    [VmProps.stay_on_stack_refuted] for what those can do) *)
Definition direct (M : mst) : bool :=
  forallb (fun i => match i with MAct _ => true | MArgs _ => false end) (m_pend M).
Fixpoint all_direct (ar : arith) (fs : list func) (k : nat) (M : mst) : bool :=
  direct M &&
  match k with
  | O => true
  | S k' => match mstep ar fs M with Some M1 => all_direct ar fs k' M1 | None => true end
  end.

Section OnVm.
  Context (sym : name -> Z) (str : string -> Z) (ar : arith) (fs : list func).

  Definition plainb (S0 : VmSpec.sst) : bool :=
    (match VmSpec.s_cur S0 with
     | Some a => match VmSpec.a_code a with VmModel.CUser _ | VmModel.CCurry => true | _ => false end
     | None => true
     end) && (match VmProofs.args_of (VmSpec.s_pend S0) with [] => true | _ => false end).
  Lemma all_plain_eq : forall S0 l, VmProps.all_plain S0 l =
    plainb S0 && match l with [] => true | a :: l' => match VmSpec.s_step S0 a with Some S1 => VmProps.all_plain S1 l' | None => true end end.
  Proof. intros S0 []; reflexivity. Qed.

  Lemma all_plain_app : forall l1 l2 S0 S1, VmSpec.s_steps S0 l1 = Some S1 ->
    VmProps.all_plain S0 l1 = true -> VmProps.all_plain S1 l2 = true -> VmProps.all_plain S0 (l1 ++ l2) = true.
  Proof.
    induction l1 as [|a l1 IH]; intros l2 S0 S1 E H1 H2.
    - cbn in E. injection E as <-. exact H2.
    - cbn [app]. rewrite all_plain_eq in H1 |- *. apply andb_true_iff in H1 as (A & B). rewrite A.
      cbn [VmSpec.s_steps] in E. destruct (VmSpec.s_step S0 a) as [S2|]; [|discriminate]. cbn. eauto.
  Qed.

  Lemma direct_plain : forall M, direct M = true -> plainb (erase sym str M) = true.
  Proof.
    intros [c p w r G] H. unfold direct in H. cbn [m_pend] in H. unfold plainb, erase. cbn [m_cur m_pend VmSpec.s_cur VmSpec.s_pend].
    apply andb_true_iff. split.
    - destruct c as [[[] l R]|]; reflexivity.
    - assert (Q : VmProofs.args_of (map (e_item sym str) p) = []); [|now rewrite Q].
      induction p as [|[a|l] p IH]; cbn in *; [reflexivity|auto|discriminate].
  Qed.

  Lemma writes_plain : forall l n lab sl p r k nk, VmProofs.args_of p = [] ->
    VmProps.all_plain (VmSpec.mkS (Some (VmSpec.mkA (VmModel.CUser n) lab sl)) p None r k nk)
      (map (fun q : nat * lval => VmModel.AWrite (fst q) (emb sym str (snd q))) l) = true.
  Proof.
    induction l as [|q l IH]; intros n lab sl p r k nk H; rewrite all_plain_eq; unfold plainb; cbn [VmSpec.s_cur VmSpec.s_pend VmSpec.a_code map];
      rewrite H; cbn [andb]; [reflexivity|].
    cbn [VmSpec.s_step VmSpec.s_cur]. destruct (fst q <? _); [|reflexivity]. apply IH. exact H.
  Qed.

  Lemma one_plain : forall M a M1, direct M = true -> VmSpec.s_step (erase sym str M) a = Some (erase sym str M1) -> direct M1 = true ->
    VmProps.all_plain (erase sym str M) [a] = true.
  Proof.
    intros M a M1 H E H1. rewrite all_plain_eq, E, (direct_plain _ H). rewrite all_plain_eq, (direct_plain _ H1). reflexivity.
  Qed.

  Lemma turn_plain : forall M M1, tidy M -> mstep ar fs M = Some M1 -> direct M = true -> direct M1 = true ->
    VmProps.all_plain (erase sym str M) (turn_acts sym str ar fs M) = true.
  Proof.
    intros M M1 HT E D D1. pose proof (erase_step sym str ar fs M M1 HT E) as Q.
    assert (One : forall a, turn_acts sym str ar fs M = [a] -> VmProps.all_plain (erase sym str M) (turn_acts sym str ar fs M) = true).
    { intros a Ea. rewrite Ea in *. cbn [VmSpec.s_steps] in Q. destruct (VmSpec.s_step (erase sym str M) a) as [S1|] eqn:E1; [|discriminate].
      injection Q as ->. eapply one_plain; eauto. }
    destruct M as [cur pend wait res G]. unfold turn_acts in *. cbn [m_cur m_G m_res] in *.
    destruct cur as [[[lab|p|] label R]|]; [| |now apply (One _ eq_refl)|now apply (One _ eq_refl)].
    2:{ cbn [mstep m_cur m_G m_res m_pend] in E. destruct (present (tl R) (prim_arity p)) as [args|]; [|discriminate].
        destruct (prim_sem ar p args G) as [(v, G1)|]; [|discriminate]. now apply (One _ eq_refl). }
    cbn [mstep m_cur m_G m_res] in E.
    destruct (nth_error fs lab) as [F|]; [|discriminate].
    destruct (enter_case F label R res) as [(sg, t)|]; [|discriminate].
    destruct (block ar sg R t G) as [([v|f args|saved l f args], G1)|]; [| | |discriminate]; try now apply (One _ eq_refl).
    cbn [m_finish m_cur m_pend m_res] in E. destruct (save 1 saved R) as [R1|] eqn:ES; [|discriminate].
    cbn [x_acts] in *. unfold tidy in HT. cbn [m_cur m_wait] in HT. rewrite (HT ltac:(discriminate)) in *.
    pose proof (erase_writes sym str saved 1 R R1 (2 * lab) label (map (e_item sym str) pend) (emb sym str res) (fun _ => None) 0 ES) as W.
    assert (AP : VmProofs.args_of (map (e_item sym str) pend) = []).
    { pose proof (direct_plain _ D) as K. unfold plainb in K. apply andb_true_iff in K as (_ & K). cbn in K.
      destruct (VmProofs.args_of _); [reflexivity|discriminate]. }
    eapply all_plain_app; [exact W|now apply writes_plain|].
    rewrite (s_steps_app _ _ _ _ W) in Q. cbn [VmSpec.s_steps] in Q.
    rewrite all_plain_eq. unfold plainb. cbn [VmSpec.s_cur VmSpec.s_pend VmSpec.a_code]. rewrite AP. cbn [andb].
    destruct (VmSpec.s_step _ _) as [S1|]; [|reflexivity]. injection Q as ->. rewrite all_plain_eq, (direct_plain _ D1). reflexivity.
  Qed.

  Lemma trace_plain : forall k M M1, tidy M -> msteps ar fs k M = Some M1 -> all_direct ar fs k M = true ->
    VmProps.all_plain (erase sym str M) (trace sym str ar fs k M) = true.
  Proof.
    induction k as [|k IH]; intros M M1 HT E D.
    - cbn [trace]. rewrite all_plain_eq. cbn in D. rewrite direct_plain; [reflexivity|]. now rewrite andb_true_r in D.
    - cbn [msteps all_direct trace] in *. apply andb_true_iff in D as (D1 & D2).
      destruct (mstep ar fs M) as [M2|] eqn:E1; [|discriminate].
      assert (D3 : direct M2 = true) by (destruct k; cbn [all_direct] in D2; apply andb_true_iff in D2; apply D2).
      eapply all_plain_app; [exact (erase_step sym str ar fs M M2 HT E1)|now apply (turn_plain M M2)|].
      eapply IH; eauto. eapply tidy_step; eauto.
  Qed.

  Lemma init_good : forall B n, good_G sym str (init B n).
  Proof.
    intros B n x v H. unfold init in H. cbn in H. destruct (B x) as [[s|p]|]; [| |discriminate]; injection H as <-; [apply good_quoted|].
    unfold good. cbn. destruct p; cbn; repeat split; lia.
  Qed.

  Theorem vm_run : forall nf B g M0 k M1, forallb labs_f fs = true -> 1 <= nf <= 255 ->
    m_start fs nf (init B g) = Some M0 -> msteps ar fs k M0 = Some M1 -> all_direct ar fs k M0 = true ->
    exists s0 s1, VmModel.start (emb sym str (VClo (mkL (List.length fs - 1) 0 nf) [])) = Ok s0 /\
      VmModel.steps s0 (trace sym str ar fs k M0) = Ok s1 /\
      VmExec.represents s1 (erase sym str M1).
  Proof.
    intros nf B g M0 k M1 HL HN E0 E D.
    destruct (erase_start sym str fs nf (init B g) M0 E0) as (A & T).
    assert (GM : good_st sym str M0).
    { unfold m_start in E0. cbn in E0. injection E0 as <-. constructor; cbn; auto using init_good.
      intros i v Hi. destruct i as [|i]; cbn in Hi.
      - injection Hi as <-. unfold good. cbn. repeat split; lia.
      - apply nth_error_In, repeat_spec in Hi. discriminate. }
    assert (TK : VmProps.is_thunk (emb sym str (VClo (mkL (List.length fs - 1) 0 nf) []))).
    { split; [cbn; repeat split; lia|]. do 3 eexists. split; [reflexivity|discriminate]. }
    destruct (good_steps sym str ar fs HL k M0 M1 GM E) as (_ & FA).
    destruct (VmProps.stay_on_stack_partial _ _ _ _ TK A FA
      (erase_steps sym str ar fs k M0 M1 T E) (VmProps.all_plain_ok _ _ (trace_plain _ _ _ T E D))) as (s0 & s1 & B1 & B2 & B3 & _).
    exists s0, s1. auto.
  Qed.
End OnVm.
