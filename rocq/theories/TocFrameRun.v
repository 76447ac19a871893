(** C36 in runs: no frame of a compiled program is ever too small, and every
    continuation finds what was saved for it. *)
From Coq Require Import List ZArith Bool String Arith Lia.
From Verif Require Import CoreSpec CoreProofs TocModel TocSem TocClosure TocTail TocLive TocParse TocMach TocCollect TocFrames.
Import ListNotations.
Local Open Scope list_scope.
Local Open Scope nat_scope.

Section Fit.
  Context (ar : arith) (fs : list func).

  (** closures have frames for their functions; partial applications are partial *)
  Fixpoint fit (v : lval) : Prop :=
    match v with
    | VClo c vs =>
        (exists F, nth_error fs (l_lab c) = Some F /\ l_nargs c = List.length (f_ps F) /\ lambda_frame_size F <= l_nframe c) /\
        fold_right (fun x P => fit x /\ P) True vs
    | VPap f a =>
        fit f /\ fold_right (fun x P => fit x /\ P) True a /\
        exists c nf rq, fn_of f = Some (c, nf, rq) /\ List.length a < rq /\ rq < nf
    | VCons a b => fit a /\ fit b
    | _ => True
    end.
  Lemma fits : forall l, fold_right (fun x P => fit x /\ P) True l <-> Forall fit l.
  Proof.
    induction l as [|x l IH]; cbn; [split; constructor|]. rewrite IH. split; [intros (A & B); now constructor|].
    intro H. inversion H. auto.
  Qed.

  Definition fit_slots (R : slots) : Prop := forall v, In (Some v) R -> fit v.
  Definition fit_sg (sg : list (name * lval)) : Prop := forall x v, lookup x sg = Some v -> fit v.
  Definition fit_G (G : store lcode) : Prop := forall x v, g_val G x = Some v -> fit v.

  Definition fit_act (a : mact) : Prop :=
    fit_slots (ma_slots a) /\
    match ma_code a with
    | MUser lab => exists F, nth_error fs lab = Some F /\ lambda_frame_size F <= List.length (ma_slots a) /\
        forall res, enter_case F (ma_label a) (ma_slots a) res <> None
    | MPrim p => present (tl (ma_slots a)) (prim_arity p) <> None
    | MCurry => exists f xs R c nf rq, ma_slots a = Some (VPap f xs) :: R /\ fn_of f = Some (c, nf, rq) /\
        List.length xs < rq /\ rq < nf /\ present R (rq - List.length xs) <> None
    end.
  Definition fit_item (i : mitem) : Prop := match i with MAct a => fit_act a | MArgs l => Forall fit l end.
  Record fit_st (M : mst) : Prop := {
    ft_cur : match m_cur M with Some a => fit_act a | None => True end;
    ft_pend : Forall fit_item (m_pend M);
    ft_wait : match m_wait M with Some l => Forall fit l | None => True end;
    ft_res : fit (m_res M);
    ft_G : fit_G (m_G M) }.

  Lemma fit_quoted : forall s, fit (quoted s).
  Proof. induction s; cbn; auto. Qed.

  Lemma fit_captured : forall R i v, fit_slots R -> captured R i = Some v -> fit v.
  Proof.
    intros R i v H E. destruct R as [|[[]|] R]; try discriminate. cbn in E.
    pose proof (H _ (or_introl eq_refl)) as (_ & F). apply fits in F. rewrite Forall_forall in F. apply F. eapply nth_error_In; eauto.
  Qed.
  Lemma fit_free : forall sg R frees vs, fit_sg sg -> fit_slots R -> opts (free_x sg R) frees = Some vs -> Forall fit vs.
  Proof.
    intros sg R frees. induction frees as [|s l IH]; intros vs HS HR E; cbn in E; [injection E as <-; constructor|].
    destruct (free_x sg R s) as [v|] eqn:E1; [|discriminate]. destruct (opts (free_x sg R) l); [|discriminate]. injection E as <-.
    constructor; [|auto]. destruct s; cbn in E1; try discriminate; [eapply HS; eauto|eapply fit_captured; eauto].
  Qed.
  Lemma fit_simple : forall sg R s G v, fit_sg sg -> fit_slots R -> fit_G G -> sized fs s -> x_simple sg R s G = Some v -> fit v.
  Proof.
    intros sg R s G v HS HR HG HL E. destruct s; cbn in E.
    - eapply HS; eauto.
    - destruct (has_text s); [|discriminate]. injection E as <-. apply fit_quoted.
    - eapply HG; eauto.
    - eapply fit_captured; eauto.
    - discriminate.
    - destruct (opts (free_x sg R) frees) as [vs|] eqn:E1; [|discriminate]. injection E as <-.
      destruct HL as (F & H1 & H2 & H3). cbn. split; [exists F; repeat split; auto; lia|]. apply fits. eapply fit_free; eauto.
  Qed.
  Lemma fit_simples : forall sg R l G vs, fit_sg sg -> fit_slots R -> fit_G G -> (forall s, In s l -> sized fs s) ->
    opts (fun s => x_simple sg R s G) l = Some vs -> Forall fit vs.
  Proof.
    intros sg R l. induction l as [|s l IH]; intros G vs HS HR HG HL E; cbn in E; [injection E as <-; constructor|].
    destruct (x_simple sg R s G) as [v|] eqn:E1; [|discriminate]. destruct (opts _ l) eqn:E2; [|discriminate]. injection E as <-.
    constructor; [eapply fit_simple; eauto; apply HL; now left|]. eapply IH; eauto. intros s' Hs. apply HL. now right.
  Qed.
  Lemma fit_prim : forall p args G v G1, Forall fit args -> fit_G G -> prim_sem ar p args G = Some (v, G1) -> fit v /\ fit_G G1.
  Proof.
    intros p args G v G1 HA HG E.
    assert (OB : forall b, fit (of_bool b)) by (intros []; exact I).
    destruct p; destruct args as [|a [|b [|c l]]]; cbn in E; try discriminate;
      repeat match type of E with match ?X with _ => _ end = _ => destruct X; try discriminate end;
      try (injection E as <- <-);
      repeat match goal with H : Forall fit (_ :: _) |- _ => inversion H; clear H; subst end; auto;
      try (split; [exact I|exact HG]).
    - split; [assumption|]. intros y w. cbn. destruct (name_eqb y x); [intro Q; injection Q as <-; assumption|apply HG].
    - cbn in *. tauto.
    - cbn in *. tauto.
    - cbn in *. tauto.
  Qed.

  Definition fit_x (x : xfer) : Prop :=
    match x with
    | XRet v => fit v
    | XTail f args => fit f /\ Forall fit args
    | XCall saved _ f args => Forall fit saved /\ fit f /\ Forall fit args
    end.

  Definition fB (t : stm) : Prop := forall sg R G x G1, fit_sg sg -> fit_slots R -> fit_G G -> (forall s, In s (operands t) -> sized fs s) ->
    block ar sg R t G = Some (x, G1) -> fit_x x /\ fit_G G1.
  Lemma fit_block : forall t, fB t.
  Proof.
    apply (stm_ind' (fun _ => True) fB); auto; unfold fB.
    - intros s _ sg R G x G1 HS HR HG HL E. cbn in E. destruct (x_simple sg R s G) eqn:E1; [|discriminate]. injection E as <- <-.
      split; [eapply fit_simple; eauto; apply HL; now left|exact HG].
    - intros f args _ _ sg R G x G1 HS HR HG HL E. cbn in E.
      destruct (x_simple sg R f G) eqn:E1; [|discriminate]. destruct (opts _ args) eqn:E2; [|discriminate]. injection E as <- <-.
      split; [|exact HG]. split; [eapply fit_simple; eauto; apply HL; now left|eapply (fit_simples _ _ _ _ _ HS HR HG); [|eassumption]; intros s0 Hs; apply HL; now right].
    - intros. discriminate.
    - intros f args l live sg R G x G1 HS HR HG HL E. cbn in E.
      destruct (opts (fun x => lookup x sg) live) as [sv|] eqn:E0; [|discriminate].
      destruct (x_simple sg R f G) eqn:E1; [|discriminate]. destruct (opts _ args) eqn:E2; [|discriminate]. injection E as <- <-.
      split; [|exact HG]. split; [|split; [eapply fit_simple; eauto; apply HL; now left|eapply (fit_simples _ _ _ _ _ HS HR HG); [|eassumption]; intros s0 Hs; apply HL; now right]].
      clear - HS E0. revert sv E0. induction live as [|y live IH]; intros sv E; cbn in E; [injection E as <-; constructor|].
      destruct (lookup y sg) eqn:Ey; [|discriminate]. destruct (opts _ live); [|discriminate]. injection E as <-.
      constructor; [eapply HS; eauto|auto].
    - intros y s k _ IH sg R G x G1 HS HR HG HL E. cbn in E.
      destruct (x_simple sg R s G) eqn:E1; [|discriminate].
      eapply IH; [|exact HR|exact HG|intros s' Hs; apply HL; now right|exact E].
      intros z w. cbn. destruct (name_eqb z y); [intro Q; injection Q as <-; eapply fit_simple; eauto; apply HL; now left|apply HS].
    - intros y p args k _ IH sg R G x G1 HS HR HG HL E. cbn in E, HL.
      destruct (opts _ args) eqn:E1; [|discriminate]. destruct (prim_sem ar p l G) as [(v, G2)|] eqn:E2; [|discriminate].
      assert (FA : Forall fit l) by (eapply (fit_simples _ _ _ _ _ HS HR HG); [|eassumption]; intros s Hs; apply HL, in_or_app; now left).
      destruct (fit_prim _ _ _ _ _ FA HG E2) as (A & B).
      eapply IH; [|exact HR|exact B|intros s Hs; apply HL, in_or_app; now right|exact E].
      intros z w. cbn. destruct (name_eqb z y); [intro Q; injection Q as <-; exact A|apply HS].
    - intros s a b _ IHa IHb sg R G x G1 HS HR HG HL E. cbn in E, HL.
      assert (LA : forall s0, In s0 (operands a) -> sized fs s0) by (intros s0 Hs; apply HL; right; apply in_or_app; now left).
      assert (LB : forall s0, In s0 (operands b) -> sized fs s0) by (intros s0 Hs; apply HL; right; apply in_or_app; now right).
      destruct (x_simple sg R s G) as [[]|]; eauto. discriminate.
    - intros s k _ IH sg R G x G1 HS HR HG HL E. cbn in E.
      destruct (x_simple sg R s G); [|discriminate]. eapply IH; eauto. intros s0 Hs. apply HL. now right.
  Qed.

  Lemma fit_recover : forall xs R sg, fit_slots R -> recover xs R = Some sg -> fit_sg sg.
  Proof.
    induction xs as [|x xs IH]; intros R sg HR E; cbn in E; [injection E as <-; intros y v; discriminate|].
    destruct R as [|[v|] R]; try discriminate. destruct (recover xs R) as [l|] eqn:E1; [|discriminate]. injection E as <-.
    assert (G1 : fit_slots R) by (intros w Hw; apply HR; now right).
    intros y w. cbn. destruct (name_eqb y x); [|now apply (IH R)]. intro Q. injection Q as <-. apply HR. now left.
  Qed.
  Lemma fit_present : forall n R l, fit_slots R -> present R n = Some l -> Forall fit l.
  Proof.
    induction n as [|n IH]; intros R l HR E; cbn in E; [injection E as <-; constructor|].
    destruct R as [|[v|] R]; try discriminate. destruct (present R n) eqn:E1; [|discriminate]. injection E as <-.
    constructor; [apply HR; now left|]. apply (IH R); [|exact E1]. intros w Hw. apply HR. now right.
  Qed.
  Lemma fit_tl : forall R, fit_slots R -> fit_slots (tl R).
  Proof. intros [|x R] H; [exact H|]. intros v Hv. apply H. now right. Qed.
  Lemma fit_app : forall R1 R2, fit_slots R1 -> fit_slots R2 -> fit_slots (R1 ++ R2).
  Proof. intros R1 R2 H1 H2 v Hv. apply in_app_or in Hv. destruct Hv; auto. Qed.
  Lemma fit_somes : forall l, Forall fit l -> fit_slots (map Some l).
  Proof.
    intros l H v Hv. apply in_map_iff in Hv. destruct Hv as (w & Q & Hw). injection Q as ->. rewrite Forall_forall in H. auto.
  Qed.
  Lemma fit_nones : forall n, fit_slots (repeat None n).
  Proof. intros n v Hv. apply repeat_spec in Hv. discriminate. Qed.
  Lemma fit_save : forall saved i R R1, Forall fit saved -> fit_slots R -> save i saved R = Some R1 -> fit_slots R1.
  Proof.
    induction saved as [|v saved IH]; intros i R R1 HV HR E; cbn [save] in E; [injection E as <-; exact HR|].
    destruct (i <? List.length R); [|discriminate]. inversion HV; subst. eapply IH; [assumption| |exact E].
    intros w Hw. apply in_app_or in Hw. destruct Hw as [Hw|[Q|Hw]].
    - apply HR. rewrite <- (firstn_skipn i R). apply in_or_app. now left.
    - injection Q as <-. assumption.
    - apply HR. rewrite <- (firstn_skipn (S i) R). apply in_or_app. now right.
  Qed.

  (** slots filled from the front *)
  Lemma recover_somes : forall xs l R, List.length xs <= List.length l -> recover xs (map Some l ++ R) <> None.
  Proof.
    induction xs as [|x xs IH]; intros [|v l] R H; cbn in *; try discriminate; try lia.
    destruct (recover xs (map Some l ++ R)) eqn:E; [discriminate|]. exfalso. apply (IH l R); [lia|exact E].
  Qed.
  Lemma present_somes : forall n l R, n <= List.length l -> present (map Some l ++ R) n <> None.
  Proof.
    induction n as [|n IH]; intros [|v l] R H; cbn in *; try discriminate; try lia.
    destruct (present (map Some l ++ R) n) eqn:E; [discriminate|]. exfalso. apply (IH l R); [lia|exact E].
  Qed.
  Lemma present_firstn : forall n R, present R n <> None -> exists l, firstn n R = map Some l /\ List.length l = n.
  Proof.
    induction n as [|n IH]; intros R H; cbn; [now exists []|].
    destruct R as [|[v|] R]; cbn in H; try congruence. destruct (present R n) eqn:E; [|congruence].
    destruct (IH R) as (l' & -> & L); [congruence|]. exists (v :: l'). cbn. auto.
  Qed.

  (** a call with all its arguments starts an activation that fits *)
  Lemma fn_of_fit : forall f c nf rq, fit f -> fn_of f = Some (c, nf, rq) -> rq < nf.
  Proof.
    fix IH 1. intros f c nf rq Hf E. destruct f; cbn in E; try discriminate.
    - injection E as <- <- <-. destruct Hf as ((F & _ & E1 & L) & _). pose proof (frame_params F). lia.
    - destruct (fn_of f) as [((c0, nf0), rq0)|] eqn:E0; [|discriminate]. injection E as <- <- <-. destruct Hf as (_ & _ & c1 & nf1 & rq1 & Q & _ & L).
      rewrite E0 in Q. injection Q as <- <- <-. lia.
    - injection E as <- <- <-. lia.
  Qed.
  Lemma fit_start : forall f c nf rq now R, fit f -> Forall fit now -> fn_of f = Some (c, nf, rq) -> List.length now = rq ->
    fit_slots R -> nf <= S rq + List.length R -> fit_act (mkMA c 0 (map Some (f :: now) ++ R)).
  Proof.
    intros f c nf rq now R Hf Ha E L HR LR. split; [apply fit_app; [apply fit_somes; auto|exact HR]|].
    cbn [ma_code ma_slots ma_label]. destruct f; cbn in E; try discriminate.
    - injection E as <- <- <-. destruct Hf as ((F & EF & EA & LF) & _). exists F. split; [exact EF|]. split.
      + rewrite app_length, map_length. cbn [List.length]. lia.
      + intros res Q. unfold enter_case in Q. cbn [map app tl] in Q.
        destruct (recover (f_ps F) (map Some now ++ R)) eqn:ER; [discriminate|]. apply (recover_somes (f_ps F) now R); [lia|exact ER].
    - destruct (fn_of f) as [((c0, nf0), rq0)|] eqn:E0; [|discriminate]. injection E as <- <- <-.
      destruct Hf as (Hf & Hx & c1 & nf1 & rq1 & Q & L1 & L2). rewrite E0 in Q. injection Q as <- <- <-.
      exists f, args, (map Some now ++ R), c0, nf0, rq0. repeat split; auto. apply present_somes. lia.
    - injection E as <- <- <-. apply present_somes. lia.
  Qed.

  Lemma fit_return : forall M v, fit_st M -> fit v -> fit_st (m_return M v).
  Proof.
    intros [c [|[a|l] p] w r G] v [H1 H2 H3 H4 H5] HV; cbn in *; constructor; cbn; auto; inversion H2; auto.
  Qed.
  Lemma fit_call : forall M f args M1, fit_st M -> fit f -> Forall fit args -> m_call M f args = Some M1 -> fit_st M1.
  Proof.
    intros M f args M1 HM Hf Ha E. unfold m_call in E. destruct (fn_of f) as [((c, nf), rq)|] eqn:EF; [|discriminate].
    pose proof (fn_of_fit _ _ _ _ Hf EF) as LN.
    destruct (Nat.ltb_spec (List.length args) rq) as [L|L].
    - injection E as <-. apply fit_return; [exact HM|]. destruct args as [|a l]; [exact Hf|].
      change (fit f /\ fold_right (fun x P => fit x /\ P) True (a :: l) /\ exists c nf rq, fn_of f = Some (c, nf, rq) /\ List.length (a :: l) < rq /\ rq < nf).
      split; [exact Hf|]. split; [now apply fits|]. eauto 8.
    - injection E as <-. destruct HM as [H1 H2 H3 H4 H5].
      assert (Hb : Forall fit (firstn rq args) /\ Forall fit (skipn rq args)).
      { rewrite <- (firstn_skipn rq args) in Ha. now apply Forall_app in Ha. }
      destruct Hb as (Hb1 & Hb2). constructor; cbn [m_cur m_pend m_wait m_res m_G]; auto.
      + unfold m_fresh. eapply fit_start; eauto; [rewrite firstn_length; lia|apply fit_nones|].
        rewrite repeat_length, firstn_length. lia.
      + destruct (skipn rq args) eqn:Q; [exact H2|]. constructor; [exact Hb2|exact H2].
  Qed.

  Context (HZ : forall F s, In F fs -> In s (f_operands F) -> sized fs s) (HS : Forall safe_func fs).

  Lemma recover_names : forall xs R sg, recover xs R = Some sg -> map fst sg = xs.
  Proof.
    induction xs as [|x xs IH]; intros R sg E; cbn in E; [injection E as <-; reflexivity|].
    destruct R as [|[v|] R]; try discriminate. destruct (recover xs R) as [l|] eqn:E1; [|discriminate]. injection E as <-.
    cbn. now rewrite (IH _ _ E1).
  Qed.

  Lemma fit_case : forall M lab F label R sg t, fit_st M -> m_cur M = Some (mkMA (MUser lab) label R) ->
    nth_error fs lab = Some F -> enter_case F label R (m_res M) = Some (sg, t) ->
    fit_sg sg /\ (forall s, In s (operands t) -> sized fs s) /\ safe (f_conts F) (map fst sg) t.
  Proof.
    intros M lab F label R sg t [H1 H2 H3 H4 H5] EC EF E. rewrite EC in H1. destruct H1 as (H1 & _). cbn in H1.
    pose proof (nth_error_In _ _ EF) as IF. rewrite Forall_forall in HS. destruct (HS F IF) as (S1 & _ & S2).
    unfold enter_case in E. destruct label as [|i].
    - destruct (recover (f_ps F) (tl R)) eqn:ER; [|discriminate]. injection E as <- <-. split; [|split].
      + eapply fit_recover; [|exact ER]. now apply fit_tl.
      + intros s Hs. apply (HZ F); [exact IF|]. unfold f_operands. apply in_or_app. now left.
      + rewrite (recover_names _ _ _ ER). exact S1.
    - destruct (nth_error (f_conts F) i) as [k|] eqn:EK; [|discriminate]. destruct (recover (k_live k) (tl R)) eqn:ER; [|discriminate].
      injection E as <- <-. pose proof (nth_error_In _ _ EK) as IK. split; [|split].
      + intros y w. cbn. destruct (name_eqb y (k_var k)); [intro Q; injection Q as <-; exact H4|].
        eapply fit_recover; [|exact ER]. now apply fit_tl.
      + intros s Hs. apply (HZ F); [exact IF|]. unfold f_operands. apply in_or_app. right. apply in_flat_map. eauto.
      + cbn. rewrite (recover_names _ _ _ ER). now apply S2.
  Qed.

  (** the jump a block ends with is one of its statements *)
  Definition jB (t : stm) : Prop := forall cs sg R G saved l f args G1, safe cs (map fst sg) t ->
    block ar sg R t G = Some (XCall saved l f args, G1) ->
    exists new f0 args0 live G2, let sg2 := new ++ sg in safe cs (map fst sg2) (TJump f0 args0 l live) /\
      block ar sg2 R (TJump f0 args0 l live) G2 = Some (XCall saved l f args, G1).
  Lemma block_jump : forall t, jB t.
  Proof.
    apply (stm_ind' (fun _ => True) jB); auto; unfold jB.
    - intros s _ cs sg R G saved l f args G1 HS' E. cbn in E. destruct (x_simple sg R s G); discriminate.
    - intros f0 args0 _ _ cs sg R G saved l f args G1 HS' E. cbn in E. destruct (x_simple sg R f0 G); [|discriminate]. destruct (opts _ args0); discriminate.
    - intros. discriminate.
    - intros f0 args0 l0 live cs sg R G saved l f args G1 HS' E. assert (l0 = l).
      { cbn in E. destruct (opts (fun x => lookup x sg) live); [|discriminate]. destruct (x_simple sg R f0 G); [|discriminate].
        destruct (opts _ args0); [|discriminate]. now injection E. }
      subst l0. exists [], f0, args0, live, G. auto.
    - intros x s k _ IH cs sg R G saved l f args G1 HS' E. cbn in E, HS'. destruct (x_simple sg R s G) as [v|]; [|discriminate].
      destruct (IH cs ((x, v) :: sg) _ _ _ _ _ _ _ ltac:(apply HS') E) as (nw & f0 & a0 & lv & G2 & Q).
      exists (nw ++ [(x, v)]), f0, a0, lv, G2. rewrite <- app_assoc. exact Q.
    - intros x p a k _ IH cs sg R G saved l f args G1 HS' E. cbn in E, HS'. destruct (opts _ a) as [vs|]; [|discriminate].
      destruct (prim_sem ar p vs G) as [(v, G2)|]; [|discriminate].
      destruct (IH cs ((x, v) :: sg) _ _ _ _ _ _ _ ltac:(apply HS') E) as (nw & f0 & a0 & lv & G3 & Q).
      exists (nw ++ [(x, v)]), f0, a0, lv, G3. rewrite <- app_assoc. exact Q.
    - intros s a b _ IHa IHb cs sg R G saved l f args G1 HS' E. cbn in E, HS'. destruct HS' as (_ & Sa & Sb).
      destruct (x_simple sg R s G) as [[]|]; eauto; discriminate.
    - intros s k _ IH cs sg R G saved l f args G1 HS' E. cbn in E, HS'. destruct (x_simple sg R s G); [|discriminate]. eapply IH; [apply HS'|exact E].
  Qed.

  Lemma fit_step : forall M M1, fit_st M -> mstep ar fs M = Some M1 -> fit_st M1.
  Proof.
    intros M M1 HM E. pose proof HM as [H1 H2 H3 H4 H5]. unfold mstep in E.
    destruct (m_cur M) as [[[lab|p|] label R]|] eqn:EC.
    - destruct (nth_error fs lab) as [F|] eqn:EF; [|discriminate].
      destruct (enter_case F label R (m_res M)) as [(sg, t)|] eqn:EE; [|discriminate].
      destruct (fit_case _ _ _ _ _ _ _ HM EC EF EE) as (A1 & A2 & A3).
      destruct H1 as (R1 & F' & EF' & LR & _). cbn [ma_slots ma_code ma_label] in *. rewrite EF in EF'. injection EF' as <-.
      destruct (block ar sg R t (m_G M)) as [(x, G)|] eqn:EB; [|discriminate].
      destruct (fit_block _ _ _ _ _ _ A1 R1 H5 A2 EB) as (B1 & B2).
      assert (HC : fit_act (mkMA (MUser lab) label R)) by (pose proof (ft_cur _ HM) as Q; rewrite EC in Q; exact Q).
      assert (HM1 : fit_st (mkM (m_cur M) (m_pend M) None (m_res M) G)) by (constructor; cbn; rewrite ?EC; auto).
      destruct x as [v|f args|saved l f args]; cbn [m_finish] in E; cbn [fit_x] in B1.
      + injection E as <-. now apply fit_return.
      + destruct B1 as (B1 & B3). eapply fit_call; eauto.
      + destruct B1 as (B0 & B1 & B3). destruct (save 1 saved R) as [R2|] eqn:ES; [|discriminate].
        eapply fit_call; [|exact B1|exact B3|exact E]. constructor; cbn [m_cur m_pend m_wait m_res m_G]; rewrite ?EC; auto.
        constructor; [|exact H2]. split; [exact (fit_save saved 1 R R2 B0 R1 ES)|]. cbn [ma_code ma_slots ma_label].
        destruct (block_jump _ _ _ _ _ _ _ _ _ _ A3 EB) as (nw & f0 & args0 & live & G2 & J1 & J2).
        assert (SF : safe_func F) by (rewrite Forall_forall in HS; apply HS; eapply nth_error_In; eauto).
        destruct (saved_and_restored _ _ _ _ _ _ _ _ _ _ _ _ _ _ _ SF J1 LR J2) as (k & R3 & _ & Q2 & Q3 & _ & _ & Q6).
        rewrite ES in Q2. injection Q2 as <-. exists F. split; [exact EF|]. split; [lia|]. intros res Q.
        destruct (Q6 res) as (sg1 & Q7 & _). congruence.
    - destruct (present (tl R) (prim_arity p)) as [args|] eqn:EP; [|discriminate].
      destruct (prim_sem ar p args (m_G M)) as [(v, G)|] eqn:ES; [|discriminate]. injection E as <-.
      pose proof H1 as (R1 & _). cbn in R1.
      destruct (fit_prim _ _ _ _ _ (fit_present _ _ _ (fit_tl _ R1) EP) H5 ES) as (A & B).
      apply fit_return; [|exact A]. constructor; cbn [m_cur m_pend m_wait m_res m_G]; auto.
    - destruct R as [|[[]|] R]; try discriminate. destruct (fn_of (VPap f args)) as [((c0, nf), rq)|] eqn:E1; [|discriminate].
      destruct (fn_of f) as [((c, nf1), rq1)|] eqn:E2; [|discriminate]. injection E as <-.
      destruct H1 as (R1 & f' & xs' & R' & c' & nf' & rq' & Q1 & Q2 & Q3 & Q4 & Q5). cbn [ma_slots] in *. injection Q1 as <- <- <-.
      rewrite E2 in Q2. injection Q2 as <- <- <-. cbn [fn_of] in E1. rewrite E2 in E1. injection E1 as <- <- <-.
      destruct (R1 _ (or_introl eq_refl)) as (Hf & Hx & _). apply fits in Hx.
      destruct (present_firstn _ _ Q5) as (l & EL & LL).
      constructor; cbn [m_cur m_pend m_wait m_res m_G]; auto.
      rewrite EL. rewrite app_assoc. rewrite <- map_app. change ((f :: args) ++ l) with (f :: (args ++ l)).
      eapply fit_start; eauto.
      + apply Forall_app. split; [exact Hx|]. apply Forall_forall. intros w Hw. apply R1. right.
        rewrite <- (firstn_skipn (rq1 - List.length args) R), EL. apply in_or_app. left. now apply in_map.
      + rewrite app_length. lia.
      + apply fit_nones.
      + rewrite repeat_length. lia.
    - destruct (m_wait M) as [l|] eqn:EW; [|discriminate].
      eapply fit_call; [|exact H4|exact H3|exact E]. constructor; cbn; auto.
  Qed.

  Theorem fit_steps : forall k M M1, fit_st M -> msteps ar fs k M = Some M1 -> fit_st M1.
  Proof.
    induction k as [|k IH]; intros M M1 HM E; cbn in *; [injection E as <-; auto|].
    destruct (mstep ar fs M) as [M2|] eqn:E2; [|discriminate]. eauto using fit_step.
  Qed.
End Fit.
