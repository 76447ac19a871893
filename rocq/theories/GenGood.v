(** From conditions on the source program to the condition [writable] on the
    compiled functions. *)
From Coq Require Import List ZArith Bool String Ascii Arith Lia.
From Verif Require Import Base CoreSpec CoreProofs TocModel TocSem TocMach TocClosure TocTail TocLive TocParse TocCollect TocScope TocFrames
  EmitModel EmitProps CSpec GenModel GenCond.
Import ListNotations.
Local Open Scope list_scope.
Local Open Scope nat_scope.

Lemma memP : forall x l, GenCond.mem x l = true <-> In x l.
Proof.
  intros x l. unfold GenCond.mem. rewrite existsb_exists. split.
  - intros (y & H & E). destruct (name_eqb_spec x y); [now subst|discriminate].
  - intro H. exists x. split; [exact H|]. now destruct (name_eqb_spec x x).
Qed.
Lemma memF : forall x l, negb (GenCond.mem x l) = true <-> ~ In x l.
Proof. intros x l. rewrite <- memP. destruct (GenCond.mem x l); cbn; split; congruence || (intro H; now elim H) || easy. Qed.
Lemma all_in : forall (l m : list name), forallb (fun x => GenCond.mem x m) l = true <-> incl l m.
Proof. intros l m. rewrite forallb_forall. split; intros H x Hx; [apply memP|apply memP]; auto. Qed.
Lemma disjP : forall a b, disj a b = true <-> (forall x, In x a -> ~ In x b).
Proof. intros a b. split; [intros H x Ha Hb; eapply disj_spec; eauto|apply disj_intro]. Qed.
Lemma nodup_distinct : forall l, NoDup l -> GenCond.distinct l = true.
Proof.
  induction 1 as [|x l N _ IH]; [reflexivity|]. cbn [GenCond.distinct]. rewrite IH, andb_true_r. now apply memF.
Qed.

Lemma forallb_map : forall (A B : Type) (f : A -> B) p l, forallb p (map f l) = forallb (fun x => p (f x)) l.
Proof. induction l; cbn; congruence. Qed.

Section Good.
  Variable globals : list sexp.
  Variable nfuns : nat.
  Variable U : list name.
  Notation inU := (fun x => GenCond.mem x U).

  (** * Parsed expressions *)
  Fixpoint pe (e : exp) : bool :=
    match e with
    | EConst c => const_ok globals c
    | EGlob x => global_ok globals x
    | EVar _ | ERef _ => true
    | ELam _ b => pe b
    | EClo _ _ _ => false
    | EIf a b c => pe a && pe b && pe c
    | EDo a b | ELet _ a b => pe a && pe b
    | EPrim p args => forallb pe args && (List.length args =? prim_arity p)
    | EApp f args => pe f && forallb pe args
    end.

  (** * Converted expressions; [env] are the local variables at hand *)
  Definition ecap (env : list name) (e : exp) : bool :=
    match e with EVar x => GenCond.mem x env | ERef _ => true | _ => false end.
  Fixpoint oe (env : list name) (e : exp) : bool :=
    match e with
    | EConst c => const_ok globals c
    | EGlob x => global_ok globals x
    | EVar x => GenCond.mem x env
    | ERef _ => true
    | ELam _ _ => false
    | EClo ps b frees => forallb inU ps && GenCond.distinct ps && oe ps b && forallb (ecap env) frees
    | EIf a b c => oe env a && oe env b && oe env c && disj (binders a) (binders b ++ binders c)
    | EDo a b => oe env a && oe env b && disj (binders a) (binders b)
    | ELet x b c =>
        GenCond.mem x U && negb (GenCond.mem x env) && oe env b && oe (x :: env) c &&
        negb (GenCond.mem x (binders b)) && disj (binders b) (binders c)
    | EPrim p args => forallb (oe env) args && apart (map binders args) && (List.length args =? prim_arity p)
    | EApp f args => forallb (oe env) (f :: args) && apart (map binders (f :: args))
    end.

  Lemma convert_ecap : forall fvs lenv x, In x fvs \/ In x lenv -> ecap lenv (convert_var fvs x) = true.
  Proof.
    intros fvs lenv x H. unfold convert_var. destruct (index x fvs) eqn:E; [reflexivity|]. apply index_none in E. cbn. apply memP. tauto.
  Qed.

  Lemma convert_oe : forall e fvs env lenv, esc env e = true -> pe e = true -> plain e = true -> incl (allb e) U -> incl lenv env ->
    (forall x, In x (free_vars e) -> In x fvs \/ In x lenv) -> oe lenv (closure_convert fvs e) = true.
  Proof.
    assert (AP : forall fvs l, map binders (map (closure_convert fvs) l) = map binders l).
    { intros fvs l. rewrite map_map. apply map_ext. intro e. apply binders_convert. }
    induction e using exp_ind'; intros fvs env lenv HE HP HL HA HI HF; cbn -[free_vars unions] in HE, HP, HL, HA |- *; try discriminate; auto;
      rewrite ?andb_true_iff in HE; rewrite ?andb_true_iff in HP; rewrite ?andb_true_iff in HL.
    - specialize (HF x (or_introl eq_refl)). pose proof (convert_ecap fvs lenv x HF) as Q. unfold convert_var in *. now destruct (index x fvs).
    - destruct HE as (D & HE). rewrite !andb_true_iff. repeat split.
      + apply all_in. intros y Hy. apply HA, in_or_app. now left.
      + apply nodup_distinct, distinct_spec, D.
      + apply (IHe _ (ps ++ env)); auto; try (intros y Hy; apply HA, in_or_app; now right); try (intros y Hy; apply in_or_app; now left).
        intros y Hy. cbn [free_vars]. destruct (mem_spec y ps) as [|N]; [now right|]. left. apply in_diff. auto.
      + rewrite forallb_map. apply forallb_forall. intros y Hy. apply convert_ecap, HF, Hy.
    - destruct HE as (((E1 & E2) & E3) & E4). destruct HP as ((P1 & P2) & P3). destruct HL as ((L1 & L2) & L3).
      rewrite (IHe1 fvs env), (IHe2 fvs env), (IHe3 fvs env), !binders_convert, E4; auto;
        try (intros y Hy; apply HA; rewrite !in_app_iff; tauto); intros y Hy; apply HF; cbn [free_vars]; apply in_unions; cbn; eauto 7.
    - destruct HE as ((E1 & E2) & E4). destruct HP as (P1 & P2). destruct HL as (L1 & L2).
      rewrite (IHe1 fvs env), (IHe2 fvs env), !binders_convert, E4; auto;
        try (intros y Hy; apply HA; rewrite !in_app_iff; tauto); intros y Hy; apply HF; cbn [free_vars]; apply in_unions; cbn; eauto 7.
    - destruct HE as ((((E0 & E1) & E2) & E3) & E4). destruct HP as (P1 & P2). destruct HL as (L1 & L2). apply notmem_inv in E0, E3.
      rewrite (IHe1 fvs env), (IHe2 fvs (x :: env)), !binders_convert, E4; auto.
      + rewrite !andb_true_iff. repeat split; auto; [apply memP, HA; now left| |]; apply memF; auto.
      + intros y Hy. apply HA. right. apply in_or_app. now right.
      + intros y [<-|Hy]; [now left|right; auto].
      + intros y Hy. destruct (name_eqb_spec y x) as [->|N]; [right; now left|].
        destruct (HF y) as [|]; [|now left|right; now right]. cbn [free_vars]. apply in_union. right. apply in_diff. split; [exact Hy|]. intros [<-|[]]; congruence.
      + intros y Hy. apply HA. right. apply in_or_app. now left.
      + intros y Hy. apply HF. cbn [free_vars]. apply in_union. now left.
    - destruct HE as (E1 & E2). destruct HP as (P1 & P2). rewrite AP, E2, map_length, P2, !andb_true_r, forallb_map.
      apply forallb_forall. intros e He. rewrite Forall_forall in H. rewrite forallb_forall in *. apply (H e He fvs env); auto.
      + intros y Hy. apply HA. apply in_flat_map. eauto.
      + intros y Hy. apply HF. cbn [free_vars]. apply in_unions_map'. eauto.
    - destruct HE as (E1 & E2). destruct HP as (P1 & P2). destruct HL as (L1 & L2). destruct E1 as (E0 & E1).
      cbn [map]. rewrite AP, binders_convert. apply andb_true_iff in E2. rewrite E2, andb_true_r, (IHe fvs env); auto; [cbn [andb]| |].
      + rewrite forallb_map. apply forallb_forall. intros a Ha. rewrite Forall_forall in H. rewrite forallb_forall in *. apply (H a Ha fvs env); auto.
        * intros y Hy. apply HA. apply in_or_app. right. apply in_flat_map. eauto.
        * intros y Hy. apply HF. cbn [free_vars]. apply in_unions_app. eauto.
      + intros y Hy. apply HA. apply in_or_app. now left.
      + intros y Hy. apply HF. cbn [free_vars]. apply in_unions_app. now left.
  Qed.

  Lemma oe_binders : forall e env, oe env e = true -> forall x, In x (binders e) -> ~ In x env.
  Proof.
    induction e using exp_ind'; intros env HO x0 Hx; cbn in HO, Hx; try contradiction; rewrite ?andb_true_iff in HO.
    - rewrite !in_app_iff in Hx. destruct Hx as [|[|]]; [eapply IHe1|eapply IHe2|eapply IHe3]; try apply HO; auto.
    - rewrite !in_app_iff in Hx. destruct Hx as [|]; [eapply IHe1|eapply IHe2]; try apply HO; auto.
    - destruct HO as (((((_ & N) & O1) & O2) & _) & _). apply memF in N. destruct Hx as [<-|Hx]; [exact N|]. apply in_app_or in Hx as [Hx|Hx].
      + eapply IHe1; eauto.
      + intro I. eapply (IHe2 _ O2 x0 Hx). now right.
    - destruct HO as ((O1 & _) & _). apply in_flat_map in Hx as (e & He & Hx). rewrite Forall_forall in H. rewrite forallb_forall in O1. eapply H; eauto.
    - destruct HO as ((O0 & O1) & _). apply in_app_or in Hx as [Hx|Hx]; [eapply IHe; eauto|].
      apply in_flat_map in Hx as (e1 & He & Hx). rewrite Forall_forall in H. rewrite forallb_forall in O1. eapply H; eauto.
  Qed.
  Lemma oe_weak : forall e env env', oe env e = true -> incl env env' -> (forall x, In x (binders e) -> ~ In x env') -> oe env' e = true.
  Proof.
    induction e using exp_ind'; intros env env' HO HI HB; cbn in HO, HB |- *; auto; rewrite ?andb_true_iff in HO.
    - apply memP. apply HI. now apply memP.
    - destruct HO as (((O1 & O2) & O3) & O4). rewrite O1, O2, O3. cbn [andb]. rewrite forallb_forall in O4 |- *. intros f Hf. specialize (O4 f Hf).
      unfold ecap in *. destruct f; auto. apply memP. apply HI. now apply memP.
    - destruct HO as (((O1 & O2) & O3) & O4). rewrite (IHe1 env), (IHe2 env), (IHe3 env); auto; intros y Hy; apply HB; rewrite !in_app_iff; tauto.
    - destruct HO as ((O1 & O2) & O4). rewrite (IHe1 env), (IHe2 env); auto; intros y Hy; apply HB; rewrite !in_app_iff; tauto.
    - destruct HO as (((((O0 & O1) & O2) & O3) & O4) & O5). rewrite O0, O4, O5, (IHe1 env), (IHe2 (x :: env)); auto.
      + rewrite !andb_true_r. cbn [andb]. apply memF. apply HB. now left.
      + intros y [<-|Hy]; [now left|right; auto].
      + intros y Hy [<-|I]; [apply (oe_binders _ _ O3 x Hy); now left|]. eapply HB; [|exact I]. right. apply in_or_app. now right.
      + intros y Hy. apply HB. right. apply in_or_app. now left.
    - destruct HO as ((O1 & O2) & O3). rewrite O2, O3, !andb_true_r. rewrite forallb_forall in *. intros e He. rewrite Forall_forall in H.
      apply (H e He env); auto. intros y Hy. apply HB. apply in_flat_map. eauto.
    - destruct HO as ((O0 & O1) & O2). apply andb_true_iff in O2. rewrite O2, andb_true_r, (IHe env); auto; [cbn [andb]|intros y Hy; apply HB; apply in_or_app; now left].
      rewrite forallb_forall in *. intros a Ha. rewrite Forall_forall in H.
      apply (H a Ha env); auto. intros y Hy. apply HB. apply in_or_app. right. apply in_flat_map. eauto.
  Qed.

  (** * Statements *)
  Definition cap (env : list name) (s : simple) : bool := match s with SmVar x => GenCond.mem x env | SmRef _ => true | _ => false end.

  (** [clo]: functions may still stand inside *)
  Fixpoint ws (clo : bool) (env : list name) (s : simple) : bool :=
    match s with
    | SmVar x => GenCond.mem x env
    | SmConst c => const_ok globals c
    | SmGlob x => global_ok globals x
    | SmRef _ => true
    | SmClo ps b frees => clo && (forallb inU ps && GenCond.distinct ps && wt clo ps b && forallb (cap env) frees)
    | SmLab label _ _ frees => (label <? nfuns) && forallb (cap env) frees
    end
  with wt (clo : bool) (env : list name) (t : stm) : bool :=
    match t with
    | TRet s => ws clo env s
    | TTail f args => ws clo env f && forallb (ws clo env) args
    | TCall f args v k live =>
        ws clo env f && forallb (ws clo env) args && GenCond.mem v U && negb (GenCond.mem v env) && wt clo (v :: env) k &&
        match live with Some l => forallb (fun x => GenCond.mem x env) l && GenCond.distinct l | None => true end
    | TJump _ _ _ _ => false
    | TLet x s k => GenCond.mem x U && negb (GenCond.mem x env) && ws clo env s && wt clo (x :: env) k
    | TPrim x p args k =>
        GenCond.mem x U && negb (GenCond.mem x env) && forallb (ws clo env) args && (List.length args =? prim_arity p) && wt clo (x :: env) k
    | TIf s a b => ws clo env s && wt clo env a && wt clo env b
    | TDo s k => ws clo env s && wt clo env k
    end.

  Lemma cap_weak : forall env env' l, incl env env' -> forallb (cap env) l = true -> forallb (cap env') l = true.
  Proof.
    intros env env' l HI H. rewrite forallb_forall in *. intros s Hs. specialize (H s Hs). destruct s; auto. cbn in *. apply memP, HI, memP, H.
  Qed.
  Lemma ws_weak : forall clo s env env', incl env env' -> ws clo env s = true -> ws clo env' s = true.
  Proof.
    intros clo s env env' HI H. destruct s; cbn in *; auto.
    - apply memP, HI, memP, H.
    - rewrite !andb_true_iff in *. decompose [and] H. repeat split; auto. eapply cap_weak; eauto.
    - rewrite !andb_true_iff in *. decompose [and] H. repeat split; auto. eapply cap_weak; eauto.
  Qed.
  Lemma wsl_weak : forall clo l env env', incl env env' -> forallb (ws clo env) l = true -> forallb (ws clo env') l = true.
  Proof. intros clo l env env' HI H. rewrite forallb_forall in *. intros s Hs. eapply ws_weak; eauto. Qed.

  (** * Into continuation form *)
  Variable n0 hi : nat.
  Hypothesis GU : forall i, n0 <= i < hi -> In (NG i) U.

  Definition near (env B : list name) (m k : nat) (env' : list name) : Prop :=
    incl env env' /\ forall x, In x env' -> In x env \/ In x B \/ gen m k x.
  Definition kw (next : kont) (env B : list name) (m : nat) : Prop :=
    forall env' s k t k', near env B m k env' -> m <= k -> ws true env' s = true -> apply_k next s k = Some (t, k') -> k' <= hi ->
      wt true env' t = true.
  Definition fw (fin : list simple -> nat -> option (stm * nat)) (env B : list name) (m : nat) (len : nat) : Prop :=
    forall env' ss k t k', near env B m k env' -> m <= k -> List.length ss = len -> forallb (ws true env') ss = true -> fin ss k = Some (t, k') -> k' <= hi ->
      wt true env' t = true.

  Lemma near_refl : forall env B m k, near env B m k env.
  Proof. split; [apply incl_refl|auto]. Qed.
  Lemma near_trans : forall env B B1 B2 m k k' env1 env2, near env B1 m k env1 -> near env1 B2 k k' env2 -> m <= k -> k <= k' ->
    incl B1 B -> incl B2 B -> near env B m k' env2.
  Proof.
    intros env B B1 B2 m k k' env1 env2 (I1 & N1) (I2 & N2) L1 L2 S1 S2. split; [eapply incl_tran; eauto|].
    intros x Hx. destruct (N2 x Hx) as [H|[H|(i & -> & Hi)]]; [|auto|right; right; exists i; split; [reflexivity|lia]].
    destruct (N1 x H) as [H1|[H1|(i & -> & Hi)]]; [auto|auto|right; right; exists i; split; [reflexivity|lia]].
  Qed.
  Lemma near_cons : forall env B m k k' env' x, near env B m k env' -> k <= k' -> In x B \/ gen m k' x -> near env B m k' (x :: env').
  Proof.
    intros env B m k k' env' x (I & N) L H. split; [intros y Hy; right; auto|].
    intros y [<-|Hy]; [auto|]. destruct (N y Hy) as [|[|(i & -> & Hi)]]; auto. right; right; exists i; split; [reflexivity|lia].
  Qed.
  Definition olders (m : nat) (l : list name) : Prop := forall x, In x l -> older m x = true.
  Lemma near_old : forall env B m k env', near env B m k env' -> m <= k -> olders m env -> olders m B -> olders k env'.
  Proof.
    intros env B m k env' (_ & N) L OE OB x Hx. destruct (N x Hx) as [H|[H|(i & -> & Hi)]]; [eapply older_mono; eauto..|].
    cbn. apply Nat.ltb_lt. lia.
  Qed.
  Lemma fresh_in : forall k l, olders k l -> ~ In (NG k) l.
  Proof. intros k l H I. specialize (H _ I). cbn in H. apply Nat.ltb_lt in H. lia. Qed.
  Lemma binders_allb : forall e, incl (binders e) (allb e).
  Proof.
    induction e using exp_ind'; intros y Hy; cbn in Hy |- *; try contradiction; rewrite ?in_app_iff in *.
    - destruct Hy as [|[|]]; auto.
    - destruct Hy as [|]; auto.
    - destruct Hy as [|Hy]; [auto|]. destruct Hy as [|]; auto.
    - apply in_flat_map in Hy as (e & He & Hy). apply in_flat_map. exists e. rewrite Forall_forall in H. split; [exact He|]. now apply H.
    - destruct Hy as [|Hy]; [auto|]. right. apply in_flat_map in Hy as (a & He & Hy). apply in_flat_map. exists a. rewrite Forall_forall in H. split; [exact He|]. now apply H.
  Qed.
  Lemma allb_convert : forall e fvs, allb (closure_convert fvs e) = allb e.
  Proof.
    induction e using exp_ind'; intros fvs; cbn -[free_vars]; auto.
    - unfold convert_var. destruct (index x fvs); reflexivity.
    - now rewrite IHe.
    - now rewrite IHe1, IHe2, IHe3.
    - now rewrite IHe1, IHe2.
    - now rewrite IHe1, IHe2.
    - induction H as [|a l Ha H IH]; cbn; [reflexivity|]. now rewrite Ha, IH.
    - rewrite IHe. f_equal. induction H as [|a l Ha H IH]; cbn; [reflexivity|]. now rewrite Ha, IH.
  Qed.
  Lemma olders_sub : forall m k l l', m <= k -> incl l' l -> olders m l -> olders k l'.
  Proof. intros m k l l' L I H x Hx. eapply older_mono; [exact L|]. auto. Qed.

  Lemma simples_cap : forall env l ss, simples l = Some ss -> forallb (ecap env) l = true -> forallb (cap env) ss = true.
  Proof.
    induction l as [|e l IH]; intros ss E H; cbn in E; [injection E as <-; reflexivity|].
    cbn in H. apply andb_true_iff in H as (H1 & H2).
    destruct e; try discriminate; (destruct (simples l) as [ss'|] eqn:E1; [|discriminate]); injection E as <-; cbn; rewrite (IH _ eq_refl H2), ?andb_true_r; exact H1 || reflexivity.
  Qed.

  (** what is left to convert stays in scope when names are added on the way *)
  Lemma oe_near : forall e env B m k env', oe env e = true -> near env B m k env' -> m <= k -> olders m (binders e) ->
    disj B (binders e) = true -> oe env' e = true.
  Proof.
    intros e env B m k env' HO (I & N) L HB HD. apply (oe_weak e env); auto. intros x Hx Hi.
    destruct (N x Hi) as [H|[H|(i & -> & Hi')]].
    - exact (oe_binders _ _ HO x Hx H).
    - exact (disj_spec _ _ HD x H Hx).
    - specialize (HB _ Hx). cbn in HB. apply Nat.ltb_lt in HB. lia.
  Qed.
  Lemma kw_near : forall next env B B1 B2 m k env', kw next env B m -> near env B1 m k env' -> m <= k -> incl B1 B -> incl B2 B ->
    kw next env' B2 k.
  Proof.
    intros next env B B1 B2 m k env' HK N L S1 S2 env2 s k2 t k2' N2 L2 HS E LH. eapply (HK env2 s k2 t k2'); [|lia|exact HS|exact E|exact LH].
    eapply near_trans; eauto.
  Qed.

  Definition tail_goal (e : exp) : Prop := forall env next m t m', oe env e = true -> kmono next -> olders m env -> olders m (allb e) ->
    kw next env (binders e) m -> n0 <= m -> tailify e next m = Some (t, m') -> m' <= hi -> wt true env t = true.

  Lemma tail_list : forall l, Forall tail_goal l -> forall acc fin env m t m', forallb (oe env) l = true -> apart (map binders l) = true ->
    fmono fin -> olders m env -> olders m (flat_map allb l) -> forallb (ws true env) acc = true -> fw fin env (flat_map binders l) m (List.length acc + List.length l) -> n0 <= m ->
    tailify_l l acc fin m = Some (t, m') -> m' <= hi -> wt true env t = true.
  Proof.
    induction 1 as [|e l He _ IH]; intros acc fin env m t m' HO HA HM OE OB HC HF LN E LH; cbn in E.
    - eapply HF; [apply near_refl|apply Nat.le_refl| | |exact E|exact LH]; [rewrite rev_length; cbn; lia|]. rewrite forallb_forall in *. intros s Hs. apply HC. now apply in_rev.
    - cbn in HO, HA, OB. apply andb_true_iff in HO as (O1 & O2). apply andb_true_iff in HA as (A1 & A2).
      eapply He; [exact O1| |exact OE| | |exact LN|exact E|exact LH].
      + intros s k t' k' E'. cbn in E'. eapply tailify_l_mono; eauto.
      + eapply olders_sub; [apply Nat.le_refl| |exact OB]. apply incl_appl, incl_refl.
      + intros env' s k t' k' N L HS E' LH'. cbn in E'.
        assert (OBl : olders m (flat_map allb l)) by (eapply olders_sub; [apply Nat.le_refl| |exact OB]; apply incl_appr, incl_refl).
        assert (OBe : olders m (binders e)).
        { eapply olders_sub; [apply Nat.le_refl| |exact OB]. eapply incl_tran; [apply binders_allb|]. apply incl_appl, incl_refl. }
        eapply IH; [|exact A2|exact HM| | | | | |exact E'|exact LH'].
        * rewrite forallb_forall in *. intros a Ha. eapply oe_near; [apply O2, Ha|exact N|exact L| |].
          -- intros x Hx. apply OBl. apply in_flat_map. exists a. split; [exact Ha|now apply binders_allb].
          -- apply A1. now apply in_map.
        * eapply near_old; eauto.
        * eapply olders_sub; [exact L|apply incl_refl|exact OBl].
        * cbn. rewrite HS. eapply wsl_weak; [apply N|exact HC].
        * intros env2 ss k2 t2 k2' N2 L2 LL HS2 E2 LH2. eapply (HF env2 ss k2 t2 k2'); [|lia| |exact HS2|exact E2|exact LH2]; [|cbn in LL |- *; lia].
          eapply near_trans; [exact N|exact N2|exact L|exact L2| |]; cbn; [apply incl_appl|apply incl_appr]; apply incl_refl.
        * lia.
  Qed.

  Lemma tail_ok : forall e, tail_goal e.
  Proof.
    induction e using exp_ind'; intros env next m t m' HO HM OE OB HK LN E LH; cbn in HO; try discriminate;
      try (cbn in E; eapply HK; [apply near_refl|apply Nat.le_refl| |exact E|exact LH]; cbn; auto; fail).
    - (* closure *)
      rewrite !andb_true_iff in HO. destruct HO as (((H1 & H2) & H3) & H4). cbn in E.
      destruct (tailify e TocModel.KId m) as [(sb, n1)|] eqn:E1; [|discriminate]. destruct (simples frees) as [ss|] eqn:E2; [|discriminate].
      pose proof (tailify_mono _ _ _ _ _ kmono_id E1) as L1. pose proof (HM _ _ _ _ E) as L2.
      eapply HK; [apply near_refl|exact L1| |exact E|exact LH]. cbn [ws]. rewrite H1, H2, (simples_cap _ _ _ E2 H4). cbn [andb]. rewrite andb_true_r.
      cbn [allb] in OB. eapply IHe; [exact H3|exact kmono_id| | | |exact LN|exact E1|lia].
      + intros x Hx. apply OB, in_or_app. now left.
      + intros x Hx. apply OB, in_or_app. now right.
      + intros env' s k t' k' N L HS E' _. cbn in E'. injection E' as <- <-. exact HS.
    - (* if *)
      rewrite !andb_true_iff in HO. destruct HO as (((O1 & O2) & O3) & O4). cbn [allb binders] in OB, HK. cbn [tailify] in E.
      assert (B1 : olders m (allb e1)) by (intros x Hx; apply OB; rewrite !in_app_iff; auto).
      assert (B2 : olders m (allb e2)) by (intros x Hx; apply OB; rewrite !in_app_iff; auto).
      assert (B3 : olders m (allb e3)) by (intros x Hx; apply OB; rewrite !in_app_iff; auto).
      eapply IHe1; [exact O1| |exact OE|exact B1| |exact LN|exact E|exact LH].
      + intros s k t' k' E'. cbn in E'. destruct (tailify e2 next k) as [(sb, n1)|] eqn:E1; [|discriminate].
        destruct (tailify e3 next n1) as [(sc, n2)|] eqn:E2; [|discriminate]. injection E' as _ <-.
        pose proof (tailify_mono _ _ _ _ _ HM E1). pose proof (tailify_mono _ _ _ _ _ HM E2). lia.
      + intros env' s k t' k' N L HS E' LH'. cbn in E'. destruct (tailify e2 next k) as [(sb, n1)|] eqn:E1; [|discriminate].
        destruct (tailify e3 next n1) as [(sc, n2)|] eqn:E2; [|discriminate]. injection E' as <- <-.
        pose proof (tailify_mono _ _ _ _ _ HM E1) as L1. pose proof (tailify_mono _ _ _ _ _ HM E2) as L2.
        assert (ON : olders k env') by (eapply near_old; [exact N|exact L|exact OE|]; eapply olders_sub; [apply Nat.le_refl|apply binders_allb|exact B1]).
        assert (D : forall y, In y (binders e1) -> ~ In y (binders e2) /\ ~ In y (binders e3)).
        { intros y Hy. split; intro Hz; apply (disj_spec _ _ O4 y Hy); apply in_or_app; auto. }
        cbn. rewrite HS. cbn [andb]. apply andb_true_iff. split.
        * eapply IHe2; [|exact HM|exact ON| | | |exact E1|lia].
          -- eapply oe_near; [exact O2|exact N|exact L| |apply disjP; intros y Hy; apply (D y Hy)].
             eapply olders_sub; [apply Nat.le_refl|apply binders_allb|exact B2].
          -- eapply olders_sub; [exact L|apply incl_refl|exact B2].
          -- eapply kw_near; [exact HK|exact N|exact L| |]; intros y Hy; rewrite !in_app_iff; auto.
          -- lia.
        * eapply IHe3; [|exact HM| | | | |exact E2|exact LH'].
          -- eapply oe_near; [exact O3|exact N|exact L| |apply disjP; intros y Hy; apply (D y Hy)].
             eapply olders_sub; [apply Nat.le_refl|apply binders_allb|exact B3].
          -- eapply olders_sub; [exact L1|apply incl_refl|exact ON].
          -- eapply olders_sub; [|apply incl_refl|exact B3]. lia.
          -- intros env2 s2 k2 t2 k2' N2 L3 HS2 E3 LH2. eapply (HK env2 s2 k2 t2 k2'); [|lia|exact HS2|exact E3|exact LH2].
             eapply near_trans with (k := n1) (B1 := binders e1) (B2 := binders e3); [|exact N2|lia|exact L3| |]; [|intros y Hy; rewrite !in_app_iff; eauto..].
             split; [apply N|]. intros y Hy. destruct (proj2 N y Hy) as [|[|(i & -> & Hi)]]; [auto|auto|right; right; exists i; split; [reflexivity|lia]].
          -- lia.
    - (* do *)
      rewrite !andb_true_iff in HO. destruct HO as ((O1 & O2) & O4). cbn [allb binders] in OB, HK. cbn [tailify] in E.
      assert (B1 : olders m (allb e1)) by (intros x Hx; apply OB; rewrite !in_app_iff; auto).
      assert (B2 : olders m (allb e2)) by (intros x Hx; apply OB; rewrite !in_app_iff; auto).
      assert (X : forall s k t' k', apply_k (KFun (fun ra n => match ra with SmVar _ => tailify e2 next n | _ => with_stm (TDo ra) (tailify e2 next n) end)) s k = Some (t', k') ->
        exists t'', tailify e2 next k = Some (t'', k') /\ (t' = t'' \/ t' = TDo s t'')).
      { intros s k t' k' E'. cbn in E'. destruct s; unfold with_stm in E';
          try (destruct (tailify e2 next k) as [(t2, k2)|]; [|discriminate]; injection E' as <- <-); eauto. }
      eapply IHe1; [exact O1| |exact OE|exact B1| |exact LN|exact E|exact LH].
      + intros s k t' k' E'. destruct (X _ _ _ _ E') as (t'' & E'' & _). eapply tailify_mono; eauto.
      + intros env' s k t' k' N L HS E' LH'. destruct (X _ _ _ _ E') as (t'' & E'' & TT).
        assert (W : wt true env' t'' = true).
        { eapply IHe2; [|exact HM| | | | |exact E''|exact LH'].
          - eapply oe_near; [exact O2|exact N|exact L| |exact O4]. eapply olders_sub; [apply Nat.le_refl|apply binders_allb|exact B2].
          - eapply near_old; [exact N|exact L|exact OE|]; eapply olders_sub; [apply Nat.le_refl|apply binders_allb|exact B1].
          - eapply olders_sub; [exact L|apply incl_refl|exact B2].
          - eapply kw_near; [exact HK|exact N|exact L| |]; intros y Hy; rewrite !in_app_iff; auto.
          - lia. }
        destruct TT as [->| ->]; [exact W|]. cbn. now rewrite HS.
    - (* let *)
      rewrite !andb_true_iff in HO. destruct HO as (((((O0 & O1) & O2) & O3) & O4) & O5). cbn [allb binders] in OB, HK. cbn [tailify] in E.
      apply memF in O1, O4.
      assert (B0 : older m x = true) by (apply OB; now left).
      assert (B1 : olders m (allb e1)) by (intros y Hy; apply OB; right; rewrite !in_app_iff; auto).
      assert (B2 : olders m (allb e2)) by (intros y Hy; apply OB; right; rewrite !in_app_iff; auto).
      eapply IHe1; [exact O2| |exact OE|exact B1| |exact LN|exact E|exact LH].
      + intros s k t' k' E'. cbn in E'. unfold with_stm in E'. destruct (tailify e2 next k) as [(t2, k2)|] eqn:E2; [|discriminate]. injection E' as _ <-.
        eapply tailify_mono; eauto.
      + intros env' s k t' k' N L HS E' LH'. cbn in E'. unfold with_stm in E'. destruct (tailify e2 next k) as [(t2, k2)|] eqn:E2; [|discriminate]. injection E' as <- <-.
        assert (XN : ~ In x env').
        { intro I. destruct (proj2 N x I) as [|[|(i & -> & Hi)]]; [auto|auto|]. cbn in B0. apply Nat.ltb_lt in B0. lia. }
        assert (ON : olders k env') by (eapply near_old; [exact N|exact L|exact OE|]; eapply olders_sub; [apply Nat.le_refl|apply binders_allb|exact B1]).
        cbn. rewrite O0, HS. cbn [andb]. rewrite andb_true_r. apply andb_true_iff. split; [now apply memF|].
        eapply IHe2; [|exact HM| | | | |exact E2|exact LH'].
        * apply (oe_near e2 (x :: env) (binders e1) m k); [exact O3| |exact L| |exact O5].
          -- split; [intros y [<-|Hy]; [now left|right; now apply N]|]. intros y [<-|Hy]; [left; now left|].
             destruct (proj2 N y Hy) as [|[|]]; [left; now right|auto|auto].
          -- eapply olders_sub; [apply Nat.le_refl|apply binders_allb|exact B2].
        * intros y [<-|Hy]; [eapply older_mono; eauto|auto].
        * eapply olders_sub; [exact L|apply incl_refl|exact B2].
        * intros env2 s2 k4 t3 k3 N2 L3 HS2 E3 LH2. eapply (HK env2 s2 k4 t3 k3); [|lia|exact HS2|exact E3|exact LH2].
          split; [intros y Hy; apply N2; right; now apply N|]. intros y Hy. cbn.
          destruct (proj2 N2 y Hy) as [[<-|Hz]|[Hz|(i & -> & Hi)]].
          -- right; left; now left.
          -- destruct (proj2 N y Hz) as [|[|(i & -> & Hi)]]; [auto|right; left; right; apply in_or_app; auto|right; right; exists i; split; [reflexivity|lia]].
          -- right; left; right; apply in_or_app; auto.
          -- right; right; exists i; split; [reflexivity|lia].
        * lia.
    - (* primitive *)
      rewrite !andb_true_iff in HO. destruct HO as ((O1 & O2) & O3). apply Nat.eqb_eq in O3. rewrite tailify_prim in E.
      eapply tail_list with (acc := []); [exact H|exact O1|exact O2| |exact OE|exact OB|reflexivity| |exact LN|exact E|exact LH].
      + intros ss k t' k' E'. unfold with_stm in E'. destruct (apply_k next (SmVar (NG k)) (S k)) as [(t2, k2)|] eqn:E1; [|discriminate]. injection E' as _ <-.
        apply HM in E1. lia.
      + intros env' ss k t' k' N L LL HS E' LH'. unfold with_stm in E'. destruct (apply_k next (SmVar (NG k)) (S k)) as [(t2, k2)|] eqn:E1; [|discriminate]. injection E' as <- <-.
        pose proof (HM _ _ _ _ E1) as L1.
        assert (ON : olders k env').
        { eapply near_old; [exact N|exact L|exact OE|]. intros y Hy. apply OB. apply in_flat_map in Hy as (a & Ha & Hy). apply in_flat_map. exists a. split; [exact Ha|now apply binders_allb]. }
        cbn [wt]. rewrite HS, LL, O3. cbn [List.length Nat.add]. rewrite Nat.eqb_refl. rewrite !andb_true_iff. repeat split.
        * apply memP, GU. lia.
        * apply memF. now apply fresh_in.
        * eapply HK; [| | |exact E1|exact LH']; [|lia|apply (proj2 (memP _ _)); now left].
          apply (near_cons _ _ _ k); [exact N|lia|]. right. exists k. split; [reflexivity|lia].
    - (* application *)
      rewrite !andb_true_iff in HO. destruct HO as ((O0 & O1) & O2). apply andb_true_iff in O2. change (apart (map binders (e :: args)) = true) in O2.
      destruct (proj1 (andb_true_iff _ _) O2) as (D & A). cbn [allb binders] in OB, HK. rewrite tailify_app in E.
      assert (B1 : olders m (allb e)) by (intros y Hy; apply OB; rewrite !in_app_iff; auto).
      assert (B2 : olders m (flat_map allb args)) by (intros y Hy; apply OB; rewrite !in_app_iff; auto).
      assert (M1 : forall f1, fmono (fun ss n => match next with
         | TocModel.KId => Some (TTail f1 ss, n)
         | KFun g => with_stm (fun k => TCall f1 ss (NG n) k None) (g (SmVar (NG n)) (S n)) end)).
      { intros f1 ss k t' k' E'. destruct next as [|g]; [injection E' as _ <-; lia|]. unfold with_stm in E'.
        destruct (g (SmVar (NG k)) (S k)) as [(t2, k2)|] eqn:E1; [|discriminate]. injection E' as _ <-. apply (HM (SmVar (NG k)) (S k)) in E1. lia. }
      eapply IHe; [exact O0| |exact OE|exact B1| |exact LN|exact E|exact LH].
      + intros s k t' k' E'. cbn in E'. eapply tailify_l_mono; [apply (M1 s)|exact E'].
      + intros env' s k t' k' N L HS E' LH'. cbn in E'.
        assert (ON : olders k env') by (eapply near_old; [exact N|exact L|exact OE|]; eapply olders_sub; [apply Nat.le_refl|apply binders_allb|exact B1]).
        eapply tail_list with (acc := []); [exact H| |exact A|apply (M1 s)|exact ON| |reflexivity| | |exact E'|exact LH'].
        * rewrite forallb_forall in *. intros a Ha. eapply oe_near; [apply O1, Ha|exact N|exact L| |].
          -- intros x Hx. apply B2. apply in_flat_map. exists a. split; [exact Ha|now apply binders_allb].
          -- apply D. now apply in_map.
        * eapply olders_sub; [exact L|apply incl_refl|exact B2].
        * intros env2 ss k2 t2 k2' N2 L2 LL HS2 E2 LH2.
          assert (ON2 : olders k2 env2).
          { eapply near_old; [exact N2|exact L2|exact ON|]. intros y Hy. eapply older_mono; [exact L|]. apply B2.
            apply in_flat_map in Hy as (a & Ha & Hy). apply in_flat_map. exists a. split; [exact Ha|now apply binders_allb]. }
          pose proof (ws_weak _ _ _ _ (proj1 N2) HS) as HS3.
          destruct next as [|g]; [injection E2 as <- <-; cbn; now rewrite HS3, HS2|]. unfold with_stm in E2.
          destruct (g (SmVar (NG k2)) (S k2)) as [(t3, k3)|] eqn:E1; [|discriminate]. injection E2 as <- <-.
          pose proof (HM (SmVar (NG k2)) (S k2) _ _ E1) as L3.
          cbn [wt]. rewrite HS3, HS2, andb_true_r. rewrite !andb_true_iff. repeat split.
          -- apply memP, GU. lia.
          -- apply memF. now apply fresh_in.
          -- eapply (HK _ (SmVar (NG k2))); [| | |exact E1|exact LH2]; [|lia|apply (proj2 (memP _ _)); now left].
             apply (near_cons _ _ _ k2); [|lia|right; exists k2; split; [reflexivity|lia]].
             eapply near_trans; [exact N|exact N2|exact L|exact L2| |]; [apply incl_appl|apply incl_appr]; apply incl_refl.
        * lia.
  Qed.
End Good.
