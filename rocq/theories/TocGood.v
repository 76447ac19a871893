(** Everything a compiled program passes to the virtual machine is a
    well-formed runtime object: frame sizes fit, partial applications are
    partial. *)
From Coq Require Import List ZArith Bool String Arith Lia.
From Verif Require Import CoreSpec TocModel TocSem TocTail TocMach TocCollect TocErase.
From Verif Require VmModel VmSpec VmProofs VmExec.
Import ListNotations.
Local Open Scope list_scope.
Local Open Scope nat_scope.

(** * The labels in the code *)
Definition lab_fits (a n : nat) : bool := (a <? n) && (n <=? 255).
Definition labs_s (s : simple) : bool :=
  match s with
  | SmLab _ a n _ => lab_fits a n
  | SmClo _ _ _ => false
  | _ => true
  end.
Fixpoint labs_t (t : stm) : bool :=
  match t with
  | TRet s => labs_s s
  | TTail f args => labs_s f && forallb labs_s args
  | TCall f args _ k _ => labs_s f && forallb labs_s args && labs_t k
  | TJump f args _ _ => labs_s f && forallb labs_s args
  | TLet _ s k => labs_s s && labs_t k
  | TPrim _ _ args k => forallb labs_s args && labs_t k
  | TIf s a b => labs_s s && labs_t a && labs_t b
  | TDo s k => labs_s s && labs_t k
  end.
Definition labs_k (k : cont) : bool := labs_t (k_body k).
Definition labs_f (F : func) : bool := labs_t (f_first F) && forallb labs_k (f_conts F).

Lemma forallb_app' : forall {A} (p : A -> bool) l1 l2, forallb p (l1 ++ l2) = forallb p l1 && forallb p l2.
Proof. intros. apply forallb_app. Qed.
Lemma forallb_rev : forall {A} (p : A -> bool) l, forallb p (rev l) = forallb p l.
Proof. intros A p l. induction l as [|x l IH]; cbn; [reflexivity|]. rewrite forallb_app, IH. cbn. now destruct (p x), (forallb p l). Qed.

Lemma collect_labs : forall t cs t1 cs1, collect_cont t cs = (t1, cs1) -> labs_t t = true -> forallb labs_k cs = true ->
  labs_t t1 = true /\ forallb labs_k cs1 = true.
Proof.
  assert (Z : forall t, (fun t => forall cs t1 cs1, collect_cont t cs = (t1, cs1) -> labs_t t = true -> forallb labs_k cs = true ->
    labs_t t1 = true /\ forallb labs_k cs1 = true) t).
  { apply (stm_ind' (fun _ => True) (fun t => forall cs t1 cs1, collect_cont t cs = (t1, cs1) -> labs_t t = true -> forallb labs_k cs = true ->
    labs_t t1 = true /\ forallb labs_k cs1 = true)); auto.
  - intros s _ cs t1 cs1 E H1 H2. injection E as <- <-. auto.
  - intros f args _ _ cs t1 cs1 E H1 H2. injection E as <- <-. auto.
  - intros f args v k live _ _ IH cs t1 cs1 E H1 H2. cbn in E. destruct (collect_cont k cs) as (k1, c1) eqn:E1. injection E as <- <-.
    cbn [labs_t] in H1. apply andb_true_iff in H1 as [H1 H3]. destruct (IH _ _ _ E1 H3 H2) as (A & B). cbn [labs_t forallb]. unfold labs_k at 1. cbn [k_body].
    rewrite A, B. auto.
  - intros f args l live cs t1 cs1 E H1 H2. injection E as <- <-. auto.
  - intros x s k _ IH cs t1 cs1 E H1 H2. cbn in E. destruct (collect_cont k cs) as (k1, c1) eqn:E1. injection E as <- <-.
    cbn [labs_t] in *. apply andb_true_iff in H1 as [H1 H3]. destruct (IH _ _ _ E1 H3 H2) as (A & B). rewrite H1, A. auto.
  - intros x p args k _ IH cs t1 cs1 E H1 H2. cbn in E. destruct (collect_cont k cs) as (k1, c1) eqn:E1. injection E as <- <-.
    cbn [labs_t] in *. apply andb_true_iff in H1 as [H1 H3]. destruct (IH _ _ _ E1 H3 H2) as (A & B). rewrite H1, A. auto.
  - intros s a b _ IHa IHb cs t1 cs1 E H1 H2. cbn in E. destruct (collect_cont a cs) as (a1, c1) eqn:E1.
    destruct (collect_cont b c1) as (b1, c2) eqn:E2. injection E as <- <-.
    cbn [labs_t] in *. apply andb_true_iff in H1 as [H1 H4]. apply andb_true_iff in H1 as [H1 H3].
    destruct (IHa _ _ _ E1 H3 H2) as (A & B). destruct (IHb _ _ _ E2 H4 B) as (A' & B'). rewrite H1, A, A'. auto.
  - intros s k _ IH cs t1 cs1 E H1 H2. cbn in E. destruct (collect_cont k cs) as (k1, c1) eqn:E1. injection E as <- <-.
    cbn [labs_t] in *. apply andb_true_iff in H1 as [H1 H3]. destruct (IH _ _ _ E1 H3 H2) as (A & B). rewrite H1, A. auto. }
  exact Z.
Qed.

Lemma final_labs : forall ps t, labs_t t = true -> labs_f (rewrite_lambda_final ps t) = true.
Proof.
  intros ps t H. unfold rewrite_lambda_final. destruct (collect_cont t []) as (b, cs) eqn:E.
  destruct (collect_labs _ _ _ _ E H eq_refl) as (A & B). unfold labs_f. cbn. now rewrite A, forallb_rev.
Qed.

Definition small (F : func) : bool := lambda_frame_size F <=? 255.

Section Cl.
  Context (fs : list func) (HF : forallb small fs = true).
  Definition CS (s : simple) : Prop := fin_simple s = true -> forall v s1 v1, cl_simple v s = (s1, v1) -> extends v1 fs ->
    forallb labs_f v = true -> labs_s s1 = true /\ forallb labs_f v1 = true.
  Definition CT (t : stm) : Prop := fin_stm t = true -> forall v t1 v1, cl_stm v t = (t1, v1) -> extends v1 fs ->
    forallb labs_f v = true -> labs_t t1 = true /\ forallb labs_f v1 = true.

  Lemma cl_labs_list : forall l, Forall CS l -> forallb fin_simple l = true -> forall v l1 v1, cl_list v l = (l1, v1) -> extends v1 fs ->
    forallb labs_f v = true -> forallb labs_s l1 = true /\ forallb labs_f v1 = true.
  Proof.
    intros l H. induction H as [|s l Hs H IH]; intros HFin v l1 v1 E HX HV; cbn in E.
    - injection E as <- <-. auto.
    - cbn in HFin. apply andb_true_iff in HFin as [F1 F2].
      destruct (cl_simple v s) as (s1, v2) eqn:E1. destruct (cl_list v2 l) as (l2, v3) eqn:E2. injection E as <- <-.
      destruct (Hs F1 _ _ _ E1 (extends_trans _ _ _ (cl_list_ext _ _ _ _ E2) HX) HV) as (A & B).
      destruct (IH F2 _ _ _ E2 HX B) as (C & D). cbn. rewrite A, C. auto.
  Qed.

  Lemma cl_labs : forall t, CT t.
  Proof.
    apply (stm_ind' CS CT); unfold CS, CT.
    1-4,6,10: intros; cbn in *; try discriminate;
      match goal with H : (_, _) = (_, _) |- _ => injection H as <- <- end; auto.
    - intros ps b frees H F v s1 v1 E HX HV. cbn in E, F. destruct (cl_stm v b) as (b1, v2) eqn:E1. injection E as <- <-.
      assert (X2 : extends v2 fs).
      { eapply extends_trans; [|exact HX]. unfold append_result. now eexists. }
      destruct (H F _ _ _ E1 X2 HV) as (A & B). split.
      + cbn. unfold lab_fits. apply andb_true_iff. split.
        * apply Nat.ltb_lt. pose proof (frame_params (rewrite_lambda_final ps b1)) as L.
          unfold rewrite_lambda_final in L |- *. destruct (collect_cont b1 []) as (q1, q2). cbn [f_ps] in L. lia.
        * destruct HX as (u & Hu). rewrite Hu in HF. unfold append_result in HF. rewrite !forallb_app in HF. cbn in HF.
          rewrite !andb_true_iff in HF. exact (proj1 (proj2 (proj1 HF))).
      + unfold append_result. rewrite forallb_app, B. cbn. now rewrite final_labs.
    - intros s H F v t1 v1 E HX HV. cbn in E. destruct (cl_simple v s) eqn:E1. injection E as <- <-. cbn. eapply H; eauto.
    - intros f args Hf Ha F v t1 v1 E HX HV. rewrite cl_stm_tail in E. destruct (cl_simple v f) as (f1, w1) eqn:E1. destruct (cl_list w1 args) as (a1, w2) eqn:E2.
      injection E as <- <-. cbn [fin_stm] in F. apply andb_true_iff in F as [F1 F2].
      destruct (Hf F1 _ _ _ E1 (extends_trans _ _ _ (cl_list_ext _ _ _ _ E2) HX) HV) as (A & B).
      destruct (cl_labs_list _ Ha F2 _ _ _ E2 HX B) as (C & D). cbn. rewrite A, C. auto.
    - intros f args x k live Hf Ha Hk F v t1 v1 E HX HV. rewrite cl_stm_call in E. destruct (cl_simple v f) as (f1, w1) eqn:E1.
      destruct (cl_list w1 args) as (a1, w2) eqn:E2. destruct (cl_stm w2 k) as (k1, w3) eqn:E3.
      injection E as <- <-. cbn [fin_stm] in F. rewrite !andb_true_iff in F. destruct F as (((F1 & F2) & F3) & _).
      pose proof (extends_trans _ _ _ (cl_stm_ext _ _ _ _ E3) HX) as HX2.
      destruct (Hf F1 _ _ _ E1 (extends_trans _ _ _ (cl_list_ext _ _ _ _ E2) HX2) HV) as (A & B).
      destruct (cl_labs_list _ Ha F2 _ _ _ E2 HX2 B) as (C & D). destruct (Hk F3 _ _ _ E3 HX D) as (G & I). cbn. rewrite A, C, G. auto.
    - intros x s k Hs Hk F v t1 v1 E HX HV. cbn in E. destruct (cl_simple v s) as (s1, w1) eqn:E1. destruct (cl_stm w1 k) as (k1, w2) eqn:E2.
      injection E as <- <-. cbn [fin_stm] in F. apply andb_true_iff in F as [F1 F2].
      destruct (Hs F1 _ _ _ E1 (extends_trans _ _ _ (cl_stm_ext _ _ _ _ E2) HX) HV) as (A & B).
      destruct (Hk F2 _ _ _ E2 HX B) as (C & D). cbn. rewrite A, C. auto.
    - intros x p args k Ha Hk F v t1 v1 E HX HV. rewrite cl_stm_prim in E. destruct (cl_list v args) as (a1, w1) eqn:E1. destruct (cl_stm w1 k) as (k1, w2) eqn:E2.
      injection E as <- <-. cbn [fin_stm] in F. apply andb_true_iff in F as [F1 F2].
      destruct (cl_labs_list _ Ha F1 _ _ _ E1 (extends_trans _ _ _ (cl_stm_ext _ _ _ _ E2) HX) HV) as (A & B).
      destruct (Hk F2 _ _ _ E2 HX B) as (C & D). cbn. rewrite A, C. auto.
    - intros s a b Hs Ha Hb F v t1 v1 E HX HV. cbn in E. destruct (cl_simple v s) as (s1, w1) eqn:E1. destruct (cl_stm w1 a) as (a1, w2) eqn:E2. destruct (cl_stm w2 b) as (b1, w3) eqn:E3.
      injection E as <- <-. cbn [fin_stm] in F. rewrite !andb_true_iff in F. destruct F as ((F1 & F2) & F3).
      pose proof (extends_trans _ _ _ (cl_stm_ext _ _ _ _ E3) HX) as HX2.
      destruct (Hs F1 _ _ _ E1 (extends_trans _ _ _ (cl_stm_ext _ _ _ _ E2) HX2) HV) as (A & B).
      destruct (Ha F2 _ _ _ E2 HX2 B) as (C & D). destruct (Hb F3 _ _ _ E3 HX D) as (G & I). cbn. rewrite A, C, G. auto.
    - intros s k Hs Hk F v t1 v1 E HX HV. cbn in E. destruct (cl_simple v s) as (s1, w1) eqn:E1. destruct (cl_stm w1 k) as (k1, w2) eqn:E2.
      injection E as <- <-. cbn [fin_stm] in F. apply andb_true_iff in F as [F1 F2].
      destruct (Hs F1 _ _ _ E1 (extends_trans _ _ _ (cl_stm_ext _ _ _ _ E2) HX) HV) as (A & B).
      destruct (Hk F2 _ _ _ E2 HX B) as (C & D). cbn. rewrite A, C. auto.
  Qed.
End Cl.

(** * Values *)
Section Good.
  Context (sym : name -> Z) (str : string -> Z) (ar : arith) (fs : list func).
  Notation emb := (emb sym str).
  Definition good (v : lval) : Prop := VmProofs.ok_obj (emb v).
  Definition good_slots (R : slots) : Prop := forall i v, nth_error R i = Some (Some v) -> good v.
  Definition good_sg (sg : list (name * lval)) : Prop := forall x v, lookup x sg = Some v -> good v.
  Definition good_G (G : store lcode) : Prop := forall x v, g_val G x = Some v -> good v.
  Definition good_item (i : mitem) : Prop := match i with MAct a => good_slots (ma_slots a) | MArgs l => Forall good l end.
  Record good_st (M : mst) : Prop := {
    gd_cur : match m_cur M with Some a => good_slots (ma_slots a) | None => True end;
    gd_pend : Forall good_item (m_pend M);
    gd_wait : match m_wait M with Some l => Forall good l | None => True end;
    gd_res : good (m_res M);
    gd_G : good_G (m_G M) }.

  Lemma good_quoted : forall s, good (quoted s).
  Proof. induction s; cbn; try exact I. split; auto. Qed.

  Lemma good_clo : forall c vs, good (VClo c vs) -> Forall good vs.
  Proof.
    intros c vs H. unfold good in H. cbn [emb] in H. apply VmProofs.ok_native in H as (_ & _ & H).
    rewrite Forall_map in H. exact H.
  Qed.

  Lemma good_captured : forall R i v, good_slots R -> captured R i = Some v -> good v.
  Proof.
    intros R i v H E. destruct R as [|[[]|] R]; try discriminate. cbn in E.
    pose proof (good_clo _ _ (H 0 _ eq_refl)) as F. rewrite Forall_forall in F. apply F. eapply nth_error_In; eauto.
  Qed.

  Lemma good_free : forall sg R frees vs, good_sg sg -> good_slots R -> opts (free_x sg R) frees = Some vs -> Forall good vs.
  Proof.
    intros sg R frees. induction frees as [|s l IH]; intros vs HS HR E; cbn in E; [injection E as <-; constructor|].
    destruct (free_x sg R s) as [v|] eqn:E1; [|discriminate]. destruct (opts (free_x sg R) l); [|discriminate]. injection E as <-.
    constructor; [|auto]. destruct s; cbn in E1; try discriminate; [eapply HS; eauto|eapply good_captured; eauto].
  Qed.

  Lemma good_simple : forall sg R s G v, good_sg sg -> good_slots R -> good_G G -> labs_s s = true ->
    x_simple sg R s G = Some v -> good v.
  Proof.
    intros sg R s G v HS HR HG HL E. destruct s; cbn in E.
    - eapply HS; eauto.
    - destruct (has_text s); [|discriminate]. injection E as <-. apply good_quoted.
    - eapply HG; eauto.
    - eapply good_captured; eauto.
    - discriminate.
    - destruct (opts (free_x sg R) frees) as [vs|] eqn:E1; [|discriminate]. injection E as <-.
      cbn in HL. unfold lab_fits in HL. apply andb_true_iff in HL as [L1 L2]. apply Nat.ltb_lt in L1. apply Nat.leb_le in L2.
      unfold good. cbn [TocErase.emb l_lab l_nargs l_nframe]. apply VmProofs.ok_native. split; [lia|]. split; [exact I|].
      rewrite Forall_map. eapply good_free; eauto.
  Qed.
  Lemma good_simples : forall sg R l G vs, good_sg sg -> good_slots R -> good_G G -> forallb labs_s l = true ->
    opts (fun s => x_simple sg R s G) l = Some vs -> Forall good vs.
  Proof.
    intros sg R l. induction l as [|s l IH]; intros G vs HS HR HG HL E; cbn in E; [injection E as <-; constructor|].
    destruct (x_simple sg R s G) as [v|] eqn:E1; [|discriminate]. destruct (opts _ l) eqn:E2; [|discriminate]. injection E as <-.
    cbn in HL. apply andb_true_iff in HL as [L1 L2]. constructor; [eapply good_simple; eauto|eauto].
  Qed.

  Lemma good_prim : forall p args G v G1, Forall good args -> good_G G -> prim_sem ar p args G = Some (v, G1) ->
    good v /\ good_G G1.
  Proof.
    intros p args G v G1 HA HG E.
    assert (OB : forall b, good (of_bool b)) by (intros []; exact I).
    destruct p; destruct args as [|a [|b [|c l]]]; cbn in E; try discriminate;
      repeat match type of E with match ?X with _ => _ end = _ => destruct X; try discriminate end;
      try (injection E as <- <-);
      repeat match goal with H : Forall good (_ :: _) |- _ => inversion H; clear H; subst end; auto;
      try (split; [exact I|exact HG]).
    - split; [assumption|]. intros y w. cbn. destruct (name_eqb y x); [intro Q; injection Q as <-; assumption|apply HG].
    - unfold good in *. cbn in *. split; [tauto|exact HG].
    - unfold good in *. cbn in *. split; [tauto|exact HG].
    - split; [|exact HG]. unfold good in *. cbn. auto.
  Qed.

  Definition good_x (x : xfer) : Prop :=
    match x with
    | XRet v => good v
    | XTail f args => good f /\ Forall good args
    | XCall saved _ f args => Forall good saved /\ good f /\ Forall good args
    end.

  Lemma good_block : forall t sg R G x G1, good_sg sg -> good_slots R -> good_G G -> labs_t t = true ->
    block ar sg R t G = Some (x, G1) -> good_x x /\ good_G G1.
  Proof.
    assert (Z : forall t, (fun t => forall sg R G x G1, good_sg sg -> good_slots R -> good_G G -> labs_t t = true ->
      block ar sg R t G = Some (x, G1) -> good_x x /\ good_G G1) t).
    { apply (stm_ind' (fun _ => True) (fun t => forall sg R G x G1, good_sg sg -> good_slots R -> good_G G -> labs_t t = true ->
        block ar sg R t G = Some (x, G1) -> good_x x /\ good_G G1)); auto.
      - intros s _ sg R G x G1 HS HR HG HL E. cbn in E, HL. destruct (x_simple sg R s G) eqn:E1; [|discriminate]. injection E as <- <-.
        split; [eapply good_simple; eauto|exact HG].
      - intros f args _ _ sg R G x G1 HS HR HG HL E. cbn in E, HL. apply andb_true_iff in HL as [L1 L2].
        destruct (x_simple sg R f G) eqn:E1; [|discriminate]. destruct (opts _ args) eqn:E2; [|discriminate]. injection E as <- <-.
        split; [|exact HG]. split; [eapply good_simple; eauto|eapply good_simples; eauto].
      - intros. discriminate.
      - intros f args l live sg R G x G1 HS HR HG HL E. cbn in E, HL. apply andb_true_iff in HL as [L1 L2].
        destruct (opts (fun x => lookup x sg) live) as [sv|] eqn:E0; [|discriminate].
        destruct (x_simple sg R f G) eqn:E1; [|discriminate]. destruct (opts _ args) eqn:E2; [|discriminate]. injection E as <- <-.
        split; [|exact HG]. split; [|split; [eapply good_simple; eauto|eapply good_simples; eauto]].
        clear - HS E0. revert sv E0. induction live as [|y live IH]; intros sv E; cbn in E; [injection E as <-; constructor|].
        destruct (lookup y sg) eqn:Ey; [|discriminate]. destruct (opts _ live); [|discriminate]. injection E as <-.
        constructor; [eapply HS; eauto|auto].
      - intros y s k _ IH sg R G x G1 HS HR HG HL E. cbn in E, HL. apply andb_true_iff in HL as [L1 L2].
        destruct (x_simple sg R s G) eqn:E1; [|discriminate]. eapply IH; [|exact HR|exact HG|exact L2|exact E].
        intros z w. cbn. destruct (name_eqb z y); [intro Q; injection Q as <-; eapply good_simple; eauto|apply HS].
      - intros y p args k _ IH sg R G x G1 HS HR HG HL E. cbn in E, HL. apply andb_true_iff in HL as [L1 L2].
        destruct (opts _ args) eqn:E1; [|discriminate]. destruct (prim_sem ar p l G) as [(v, G2)|] eqn:E2; [|discriminate].
        destruct (good_prim _ _ _ _ _ (good_simples _ _ _ _ _ HS HR HG L1 E1) HG E2) as (A & B).
        eapply IH; [|exact HR|exact B|exact L2|exact E].
        intros z w. cbn. destruct (name_eqb z y); [intro Q; injection Q as <-; exact A|apply HS].
      - intros s a b _ IHa IHb sg R G x G1 HS HR HG HL E. cbn in E, HL. rewrite !andb_true_iff in HL. destruct HL as ((L1 & L2) & L3).
        destruct (x_simple sg R s G) as [[]|]; eauto. discriminate.
      - intros s k _ IH sg R G x G1 HS HR HG HL E. cbn in E, HL. apply andb_true_iff in HL as [L1 L2].
        destruct (x_simple sg R s G); [|discriminate]. eauto. }
    exact Z.
  Qed.

  Lemma good_recover : forall xs R sg, good_slots R -> recover xs R = Some sg -> good_sg sg.
  Proof.
    induction xs as [|x xs IH]; intros R sg HR E; cbn in E; [injection E as <-; intros y v; discriminate|].
    destruct R as [|[v|] R]; try discriminate. destruct (recover xs R) as [l|] eqn:E1; [|discriminate]. injection E as <-.
    assert (G1 : good_slots R) by (intros i w Hw; exact (HR (S i) w Hw)).
    intros y w. cbn. destruct (name_eqb y x); [|now apply (IH R)]. intro Q. injection Q as <-. exact (HR 0 _ eq_refl).
  Qed.
  Lemma good_present : forall n R l, good_slots R -> present R n = Some l -> Forall good l.
  Proof.
    induction n as [|n IH]; intros R l HR E; cbn in E; [injection E as <-; constructor|].
    destruct R as [|[v|] R]; try discriminate. destruct (present R n) eqn:E1; [|discriminate]. injection E as <-.
    constructor; [exact (HR 0 _ eq_refl)|]. apply (IH R); [|exact E1]. intros i w Hw. exact (HR (S i) w Hw).
  Qed.
  Lemma good_tl : forall R, good_slots R -> good_slots (tl R).
  Proof. intros [|x R] H; [exact H|]. intros i v Hi. exact (H (S i) v Hi). Qed.
  Lemma good_slots_app : forall R1 R2, good_slots R1 -> good_slots R2 -> good_slots (R1 ++ R2).
  Proof.
    intros R1 R2 H1 H2 i v Hi. destruct (Nat.lt_ge_cases i (List.length R1)).
    - rewrite nth_error_app1 in Hi by assumption. eauto.
    - rewrite nth_error_app2 in Hi by assumption. eauto.
  Qed.
  Lemma good_slots_in : forall R, good_slots R <-> forall v, In (Some v) R -> good v.
  Proof.
    intro R. split.
    - intros H v Hv. apply In_nth_error in Hv. destruct Hv as (i & Hi). eauto.
    - intros H i v Hi. apply H. eapply nth_error_In; eauto.
  Qed.
  Lemma good_somes : forall l, Forall good l -> good_slots (map Some l).
  Proof.
    intros l H. apply good_slots_in. intros v Hv. apply in_map_iff in Hv. destruct Hv as (w & Q & Hw). injection Q as ->.
    rewrite Forall_forall in H. auto.
  Qed.
  Lemma good_nones : forall n, good_slots (repeat None n).
  Proof. intros n. apply good_slots_in. intros v Hv. apply repeat_spec in Hv. discriminate. Qed.
  Lemma good_save : forall saved i R R1, Forall good saved -> good_slots R -> save i saved R = Some R1 -> good_slots R1.
  Proof.
    induction saved as [|v saved IH]; intros i R R1 HV HR E; cbn [save] in E; [injection E as <-; exact HR|].
    destruct (i <? List.length R); [|discriminate]. inversion HV; subst. eapply IH; [assumption| |exact E].
    apply good_slots_in. intros w Hw. rewrite good_slots_in in HR. apply in_app_or in Hw. destruct Hw as [Hw|[Q|Hw]].
    - apply HR. rewrite <- (firstn_skipn i R). apply in_or_app. now left.
    - injection Q as <-. assumption.
    - apply HR. rewrite <- (firstn_skipn (S i) R). apply in_or_app. now right.
  Qed.

  Lemma good_return : forall M v, good_st M -> good v -> good_st (m_return M v).
  Proof.
    intros [c [|[a|l] p] w r G] v [H1 H2 H3 H4 H5] HV; cbn in *; constructor; cbn; auto; inversion H2; auto.
  Qed.
  Lemma good_pap : forall f args nf rq c, good f -> Forall good args -> fn_of f = Some (c, nf, rq) -> List.length args < rq ->
    good (VPap f args).
  Proof.
    intros f args nf rq c Hf Ha EF L. unfold good in *. cbn [TocErase.emb]. destruct (emb_fn sym str _ _ _ _ EF) as (d & Ed). rewrite Ed in *.
    rewrite <- (map_length emb args). apply VmProofs.curry_obj_ok; [exact Hf| |rewrite map_length; exact L].
    rewrite Forall_map. exact Ha.
  Qed.
  Lemma good_call : forall M f args M1, good_st M -> good f -> Forall good args -> m_call M f args = Some M1 -> good_st M1.
  Proof.
    intros M f args M1 HM Hf Ha E. unfold m_call in E. destruct (fn_of f) as [((c, nf), rq)|] eqn:EF; [|discriminate].
    destruct (Nat.ltb_spec (List.length args) rq) as [L|L].
    - injection E as <-. apply good_return; [exact HM|]. destruct args as [|a l]; [exact Hf|]. eapply good_pap; eauto.
    - injection E as <-. destruct HM as [H1 H2 H3 H4 H5]. constructor; cbn; auto.
      + apply (good_slots_app (map Some (f :: firstn rq args))); [|apply good_nones]. apply good_somes. constructor; [exact Hf|].
        rewrite <- (firstn_skipn rq args) in Ha. now apply Forall_app in Ha.
      + destruct (skipn rq args) eqn:Q; [exact H2|]. constructor; [|exact H2]. cbn. rewrite <- Q.
        rewrite <- (firstn_skipn rq args) in Ha. now apply Forall_app in Ha.
  Qed.

  Context (HL : forallb labs_f fs = true).

  Lemma good_case : forall M lab F label R sg t, good_st M -> m_cur M = Some (mkMA (MUser lab) label R) ->
    nth_error fs lab = Some F -> enter_case F label R (m_res M) = Some (sg, t) -> good_sg sg /\ labs_t t = true.
  Proof.
    intros M lab F label R sg t [H1 H2 H3 H4 H5] EC EF E. rewrite EC in H1. cbn in H1.
    assert (LF : labs_f F = true) by (rewrite forallb_forall in HL; apply HL; eapply nth_error_In; eauto).
    unfold labs_f in LF. apply andb_true_iff in LF as [L1 L2]. unfold enter_case in E. destruct label as [|i].
    - destruct (recover (f_ps F) (tl R)) eqn:ER; [|discriminate]. injection E as <- <-. split; [|exact L1].
      eapply good_recover; [|exact ER]. now apply good_tl.
    - destruct (nth_error (f_conts F) i) as [k|] eqn:EK; [|discriminate]. destruct (recover (k_live k) (tl R)) eqn:ER; [|discriminate].
      injection E as <- <-. split.
      + intros y w. cbn. destruct (name_eqb y (k_var k)); [intro Q; injection Q as <-; exact H4|].
        eapply good_recover; [|exact ER]. now apply good_tl.
      + rewrite forallb_forall in L2. apply (L2 k). eapply nth_error_In; eauto.
  Qed.

  Lemma good_step : forall M M1, good_st M -> mstep ar fs M = Some M1 ->
    good_st M1 /\ Forall VmProofs.ok_action (turn_acts sym str ar fs M).
  Proof.
    intros M M1 HM E. pose proof HM as [H1 H2 H3 H4 H5]. unfold mstep in E. unfold turn_acts.
    destruct (m_cur M) as [[[lab|p|] label R]|] eqn:EC; cbn [ma_slots] in H1.
    - destruct (nth_error fs lab) as [F|] eqn:EF; [|discriminate].
      destruct (enter_case F label R (m_res M)) as [(sg, t)|] eqn:EE; [|discriminate].
      destruct (good_case _ _ _ _ _ _ _ HM EC EF EE) as (A1 & A2).
      destruct (block ar sg R t (m_G M)) as [(x, G)|] eqn:EB; [|discriminate].
      destruct (good_block _ _ _ _ _ _ A1 H1 H5 A2 EB) as (B1 & B2).
      assert (HM1 : good_st (mkM (m_cur M) (m_pend M) None (m_res M) G)) by (constructor; cbn; rewrite ?EC; auto).
      destruct x as [v|f args|saved l f args]; cbn [m_finish] in E; cbn [good_x] in B1; cbn [x_acts].
      + injection E as <-. split; [now apply good_return|]. constructor; [exact B1|constructor].
      + destruct B1 as (B1 & B3). split; [eapply good_call; eauto|]. constructor; [|constructor]. cbn. split; [exact B1|].
        rewrite Forall_map. exact B3.
      + destruct B1 as (B0 & B1 & B3). destruct (save 1 saved R) as [R1|] eqn:ES; [|discriminate].
        split.
        * eapply good_call; [|exact B1|exact B3|exact E]. constructor; cbn [m_cur m_pend m_wait m_res m_G]; rewrite ?EC; [exact H1| |exact I|exact H4|exact B2]. constructor; [|exact H2].
          cbn. apply (good_save saved 1 R R1 B0 H1 ES).
        * apply Forall_app. split; [|constructor; [|constructor]; cbn; split; [exact B1|rewrite Forall_map; exact B3]].
          rewrite Forall_map. apply Forall_forall. intros (i, v) Hq. cbn. rewrite Forall_forall in B0. apply B0.
          eapply in_combine_r; eauto.
    - destruct (present (tl R) (prim_arity p)) as [args|] eqn:EP; [|discriminate].
      destruct (prim_sem ar p args (m_G M)) as [(v, G)|] eqn:ES; [|discriminate]. injection E as <-.
      destruct (good_prim _ _ _ _ _ (good_present _ _ _ (good_tl _ H1) EP) H5 ES) as (A & B).
      split; [|constructor; [exact A|constructor]].
      apply good_return; [|exact A]. constructor; cbn; auto.
    - destruct R as [|[[]|] R]; try discriminate. destruct (fn_of (VPap f args)) as [((c0, nf), rq)|] eqn:E1; [|discriminate].
      destruct (fn_of f) as [((c, nf1), rq1)|] eqn:E2; [|discriminate]. injection E as <-.
      assert (QP : good f /\ Forall good args).
      { pose proof (H1 0 _ eq_refl) as Q. unfold good in Q. cbn [TocErase.emb] in Q. destruct (emb_fn sym str _ _ _ _ E2) as (d & Ed).
        rewrite Ed in Q. apply VmProofs.ok_native in Q as (_ & _ & Q). inversion Q; subst. rewrite Forall_map in H7. split; [|exact H7].
        unfold good. now rewrite Ed. }
      destruct QP as (Q1 & Q2). split; [|repeat constructor].
      constructor; cbn; auto. apply (good_slots_app (map Some (f :: args))); [apply good_somes; auto|].
      apply good_slots_app; [|apply good_nones]. apply good_slots_in. intros w Hw.
      assert (In (Some w) R) by (rewrite <- (firstn_skipn rq R); apply in_or_app; now left).
      apply In_nth_error in H. destruct H as (i & Hi). exact (H1 (S i) w Hi).
    - destruct (m_wait M) as [l|] eqn:EW; [|discriminate]. split; [|repeat constructor].
      eapply good_call; [|exact H4|exact H3|exact E]. constructor; cbn; auto.
  Qed.

  Theorem good_steps : forall k M M1, good_st M -> msteps ar fs k M = Some M1 ->
    good_st M1 /\ Forall VmProofs.ok_action (trace sym str ar fs k M).
  Proof.
    induction k as [|k IH]; intros M M1 HM E; cbn in *; [injection E as <-; auto|].
    destruct (mstep ar fs M) as [M2|] eqn:E2; [|discriminate]. destruct (good_step _ _ HM E2) as (A & B).
    destruct (IH _ _ A E) as (C & D). split; [exact C|]. now apply Forall_app.
  Qed.
End Good.
