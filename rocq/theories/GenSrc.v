(** From conditions on the source program to the condition [writable] on the
    compiled functions: liveness, functions, continuations, parsing. *)
From Coq Require Import List ZArith Bool String Ascii Arith Lia.
From Verif Require Import Base CoreSpec CoreProofs TocModel TocSem TocMach TocClosure TocTail TocLive TocParse TocCollect TocScope TocFrames TocGood TocWhole
  EmitModel EmitProps CSpec GenModel GenCond GenGood.
Import ListNotations.
Local Open Scope list_scope.
Local Open Scope nat_scope.

Section Src.
  Variable globals : list sexp.
  Variable nfuns : nat.
  Variable U : list name.
  Notation wss := (ws globals nfuns U).
  Notation wtt := (wt globals nfuns U).

  Lemma wt_tail : forall clo env f args, wtt clo env (TTail f args) = wss clo env f && forallb (wss clo env) args.
  Proof. reflexivity. Qed.
  Lemma wt_call : forall clo env f args v k live, wtt clo env (TCall f args v k live) =
    wss clo env f && forallb (wss clo env) args && GenCond.mem v U && negb (GenCond.mem v env) && wtt clo (v :: env) k &&
    match live with Some l => forallb (fun x => GenCond.mem x env) l && GenCond.distinct l | None => true end.
  Proof. reflexivity. Qed.
  Lemma wt_let : forall clo env x s k, wtt clo env (TLet x s k) = GenCond.mem x U && negb (GenCond.mem x env) && wss clo env s && wtt clo (x :: env) k.
  Proof. reflexivity. Qed.
  Lemma wt_prim : forall clo env x p args k, wtt clo env (TPrim x p args k) =
    GenCond.mem x U && negb (GenCond.mem x env) && forallb (wss clo env) args && (List.length args =? prim_arity p) && wtt clo (x :: env) k.
  Proof. reflexivity. Qed.
  Lemma wt_if : forall clo env s a b, wtt clo env (TIf s a b) = wss clo env s && wtt clo env a && wtt clo env b.
  Proof. reflexivity. Qed.
  Lemma wt_do : forall clo env s k, wtt clo env (TDo s k) = wss clo env s && wtt clo env k.
  Proof. reflexivity. Qed.

  (** * Liveness *)
  Lemma cap_fv : forall env frees, forallb (cap env) frees = true -> forall s x, In s frees -> In x (fv_simple s) -> In x env.
  Proof.
    intros env frees H s x Hs Hx. rewrite forallb_forall in H. specialize (H s Hs). destruct s; cbn in H, Hx; try contradiction; try discriminate.
    destruct Hx as [<-|[]]. now apply memP.
  Qed.
  Lemma wt_fv : forall t, forall env, wtt true env t = true -> incl (fv_stm t) env.
  Proof.
    assert (AR : forall env args, Forall (fun s => forall env, wss true env s = true -> incl (fv_simple s) env) args ->
      forallb (wss true env) args = true -> forall s x, In s args -> In x (fv_simple s) -> In x env).
    { intros env args HF HW s x Hs Hx. rewrite Forall_forall in HF. rewrite forallb_forall in HW. eapply HF; eauto. }
    apply (stm_ind' (fun s => forall env, wss true env s = true -> incl (fv_simple s) env)
      (fun t => forall env, wtt true env t = true -> incl (fv_stm t) env)); cbn -[unions ws wt];
      try (intros; intros ? []; fail).
    - intros x env H y [<-|[]]. cbn in H. now apply memP.
    - intros ps b frees Hb env H x Hx. cbn in H. rewrite !andb_true_iff in H. destruct H as (((H1 & H2) & H3) & H4).
      apply in_unions_simples in Hx as [Hx|(s & Hs & Hx)].
      + apply in_diff in Hx as (Hx & N). elim N. eapply Hb; eauto.
      + eapply cap_fv; eauto.
    - auto.
    - intros f args Hf Ha env H x Hx. cbn in H. apply andb_true_iff in H as (H1 & H2).
      apply in_unions_simples in Hx as [Hx|(s & Hs & Hx)]; [eapply Hf; eauto|eapply AR; eauto].
    - intros f args v k live Hf Ha Hk env H x Hx. cbn in H. rewrite !andb_true_iff in H. destruct H as (((((H1 & H2) & H3) & H4) & H5) & _).
      apply in_unions in Hx as (s0 & [<-|[<-|[]]] & Hx).
      + apply in_unions_simples in Hx as [Hx|(s & Hs & Hx)]; [eapply Hf; eauto|eapply AR; eauto].
      + apply in_diff in Hx as (Hx & N). destruct (Hk _ H5 x Hx) as [<-|]; [elim N; now left|assumption].
    - intros f args l live env H. discriminate.
    - intros y s k Hs Hk env H x Hx. cbn in H. rewrite !andb_true_iff in H. destruct H as (((H1 & H2) & H3) & H4).
      apply in_union in Hx as [Hx|Hx]; [eapply Hs; eauto|]. apply in_diff in Hx as (Hx & N). destruct (Hk _ H4 x Hx) as [<-|]; [elim N; now left|assumption].
    - intros y p args k Ha Hk env H x Hx. cbn in H. rewrite !andb_true_iff in H. destruct H as ((((H1 & H2) & H3) & _) & H4).
      apply in_union in Hx as [Hx|Hx].
      + apply in_unions_simples in Hx as [[]|(s & Hs & Hx)]. eapply AR; eauto.
      + apply in_diff in Hx as (Hx & N). destruct (Hk _ H4 x Hx) as [<-|]; [elim N; now left|assumption].
    - intros s a b Hs Ha Hb env H x Hx. cbn in H. rewrite !andb_true_iff in H. destruct H as ((H1 & H2) & H3).
      apply in_unions in Hx as (s0 & [<-|[<-|[<-|[]]]] & Hx); [eapply Hs|eapply Ha|eapply Hb]; eauto.
    - intros s k Hs Hk env H x Hx. cbn in H. rewrite !andb_true_iff in H. destruct H as (H1 & H2).
      apply in_unions in Hx as (s0 & [<-|[<-|[]]] & Hx); [eapply Hs|eapply Hk]; eauto.
  Qed.

  Lemma live_cap : forall env frees, forallb (cap env) frees = true -> map live_simple frees = frees.
  Proof.
    induction frees as [|s l IH]; intro H; cbn in *; [reflexivity|]. apply andb_true_iff in H as (H1 & H2). rewrite (IH H2). f_equal. destruct s; discriminate || reflexivity.
  Qed.
  Lemma wt_live : forall t, forall env, sok_stm t = true -> wtt true env t = true -> wtt true env (live_stm t) = true.
  Proof.
    assert (AR : forall env args, Forall (fun s => forall env, sok_simple s = true -> wss true env s = true -> wss true env (live_simple s) = true) args ->
      forallb sok_simple args = true -> forallb (wss true env) args = true -> forallb (wss true env) (map live_simple args) = true).
    { intros env args HF HS HW. rewrite forallb_map. rewrite Forall_forall in HF. rewrite forallb_forall in *. intros s Hs. apply HF; auto. }
    apply (stm_ind' (fun s => forall env, sok_simple s = true -> wss true env s = true -> wss true env (live_simple s) = true)
      (fun t => forall env, sok_stm t = true -> wtt true env t = true -> wtt true env (live_stm t) = true)); cbn -[unions]; auto.
    - intros ps b frees Hb env HS H. rewrite ?andb_true_iff in HS; rewrite ?andb_true_iff in H; rewrite ?andb_true_iff. destruct H as (((H1 & H2) & H3) & H4). rewrite (live_cap _ _ H4).
      repeat split; auto. apply Hb; auto. apply HS.
    - intros f args Hf Ha env HS H. rewrite ?andb_true_iff in HS; rewrite ?andb_true_iff in H; rewrite ?andb_true_iff. destruct H, HS. auto.
    - intros f args v k live Hf Ha Hk env HS H. rewrite ?andb_true_iff in HS; rewrite ?andb_true_iff in H; rewrite ?andb_true_iff. destruct H as (((((H1 & H2) & H3) & H4) & H5) & _).
      destruct HS as (((S1 & S2) & S3) & _). repeat split; auto.
      + apply all_in. intros x Hx. apply in_diff in Hx as (Hx & N). destruct (wt_fv _ _ H5 x Hx) as [<-|]; [elim N; now left|assumption].
      + apply nodup_distinct. apply nodup_diff. now apply nodup_fv.
    - intros x s k Hs Hk env HS H. rewrite ?andb_true_iff in HS; rewrite ?andb_true_iff in H; rewrite ?andb_true_iff. destruct H as (((H1 & H2) & H3) & H4). destruct HS. repeat split; auto.
    - intros x p args k Ha Hk env HS H. rewrite ?andb_true_iff in HS; rewrite ?andb_true_iff in H; rewrite ?andb_true_iff. destruct H as ((((H1 & H2) & H3) & H5) & H4). destruct HS. rewrite map_length. repeat split; auto.
    - intros s a b Hs Ha Hb env HS H. rewrite ?andb_true_iff in HS; rewrite ?andb_true_iff in H; rewrite ?andb_true_iff. destruct H as ((H1 & H2) & H3). destruct HS as ((S1 & S2) & S3). repeat split; auto.
    - intros s k Hs Hk env HS H. rewrite ?andb_true_iff in HS; rewrite ?andb_true_iff in H; rewrite ?andb_true_iff. destruct H as (H1 & H2). destruct HS as (S1 & S2). repeat split; auto.
  Qed.

  (** * Continuations *)
  Definition cont_ok (k : cont) : bool :=
    forallb (fun x => GenCond.mem x U) (k_var k :: k_live k) && GenCond.distinct (k_var k :: k_live k) &&
    stm_ok globals nfuns U (k_var k :: k_live k) (k_body k).

  Lemma cap_ok : forall env frees, incl env U -> forallb (cap env) frees = true -> forallb (capture_ok U) frees = true.
  Proof.
    intros env frees HI H. rewrite forallb_forall in *. intros s Hs. specialize (H s Hs). destruct s; cbn in *; auto. apply memP, HI, memP, H.
  Qed.
  Lemma ws_ok : forall env s, incl env U -> wss false env s = true -> simple_ok globals nfuns U s = true.
  Proof.
    intros env s HI H. destruct s; cbn in *; auto; try discriminate.
    - apply memP, HI, memP, H.
    - rewrite andb_true_iff in *. destruct H. split; [assumption|]. eapply cap_ok; eauto.
  Qed.
  Lemma wsl_ok : forall env l, incl env U -> forallb (wss false env) l = true -> forallb (simple_ok globals nfuns U) l = true.
  Proof. intros env l HI H. rewrite forallb_forall in *. intros s Hs. eapply ws_ok; eauto. Qed.
  Lemma ws_mentions : forall x env s, ~ In x env -> wss false env s = true -> mentions x s = false.
  Proof.
    intros x env s N H. assert (V : forall y, In y env -> name_eqb x y = false) by (intros y Hy; destruct (name_eqb_spec x y); congruence).
    destruct s; cbn in *; auto; try discriminate.
    - apply V, memP, H.
    - apply andb_true_iff in H as (_ & H). rewrite forallb_forall in H. apply not_true_is_false. intro Q. apply existsb_exists in Q as (y & Hy & Q).
      specialize (H y Hy). destruct y; try discriminate. cbn in H. apply memP in H. rewrite (V _ H) in Q. discriminate.
  Qed.
  Lemma wsl_mentions : forall x env l, ~ In x env -> forallb (wss false env) l = true -> existsb (mentions x) l = false.
  Proof.
    intros x env l N H. apply not_true_is_false. intro Q. apply existsb_exists in Q as (s & Hs & Q). rewrite forallb_forall in H.
    rewrite (ws_mentions x env s N (H s Hs)) in Q. discriminate.
  Qed.

  Lemma collect_ok : forall t env seen cs t1 cs1, wtt false env t = true -> incl env U -> incl seen env -> collect_cont t cs = (t1, cs1) ->
    forallb cont_ok cs = true -> stm_ok globals nfuns U seen t1 = true /\ forallb cont_ok cs1 = true.
  Proof.
    assert (SUB : forall x env, GenCond.mem x U = true -> incl env U -> incl (x :: env) U) by (intros x env M I y [<-|Hy]; [now apply memP|auto]).
    assert (NS : forall x (env sn : list name), ~ In x env -> incl sn env -> negb (GenCond.mem x sn) = true) by (intros x env sn N I; apply memF; auto).
    induction t; intros env sn cs r1 cs1 H HI HS E HC; cbn in H, E; try discriminate.
    - injection E as <- <-. split; [eapply ws_ok; eauto|exact HC].
    - injection E as <- <-. apply andb_true_iff in H as (H1 & H2). split; [|exact HC]. cbn. now rewrite (ws_ok _ _ HI H1), (wsl_ok _ _ HI H2).
    - rewrite !andb_true_iff in H. destruct H as (((((H1 & H2) & H3) & H4) & H5) & H6). apply memF in H4.
      destruct (collect_cont t cs) as (k1, c1) eqn:E1. injection E as <- <-.
      set (l := match live with Some l => l | None => [] end).
      assert (LS : incl l env /\ GenCond.distinct l = true).
      { unfold l. destruct live as [l0|]; [|split; [intros y []|reflexivity]]. apply andb_true_iff in H6 as (A & B). split; [now apply all_in|exact B]. }
      destruct LS as (LI & LD).
      destruct (IHt (v :: env) (v :: l) cs k1 c1 H5 (SUB _ _ H3 HI)) with (2 := E1) as (A & B); [intros y [<-|Hy]; [now left|right; auto]|exact HC|].
      split.
      + cbn. rewrite (ws_ok _ _ HI H1), (wsl_ok _ _ HI H2). cbn. apply all_in. eapply incl_tran; eauto.
      + cbn [forallb]. rewrite B, andb_true_r. unfold cont_ok. cbn [k_var k_live k_body]. fold l. rewrite A, andb_true_r. cbn [forallb GenCond.distinct].
        rewrite H3, LD. cbn. rewrite andb_true_r. apply andb_true_iff. split; [apply all_in; eapply incl_tran; eauto|]. apply memF. auto.
    - rewrite !andb_true_iff in H. destruct H as (((H1 & H2) & H3) & H4). apply memF in H2. destruct (collect_cont t cs) as (k1, c1) eqn:E1. injection E as <- <-.
      destruct (IHt (x :: env) (x :: sn) cs k1 c1 H4 (SUB _ _ H1 HI)) with (2 := E1) as (A & B); [intros y [<-|Hy]; [now left|right; auto]|exact HC|].
      split; [|exact B]. cbn [stm_ok]. rewrite H1, (NS _ _ _ H2 HS), (ws_ok _ _ HI H3), (ws_mentions _ _ _ H2 H3), A. reflexivity.
    - rewrite !andb_true_iff in H. destruct H as ((((H1 & H2) & H3) & H5) & H4). apply memF in H2. destruct (collect_cont t cs) as (k1, c1) eqn:E1. injection E as <- <-.
      destruct (IHt (x :: env) (x :: sn) cs k1 c1 H4 (SUB _ _ H1 HI)) with (2 := E1) as (A & B); [intros y [<-|Hy]; [now left|right; auto]|exact HC|].
      split; [|exact B]. cbn [stm_ok]. rewrite H1, (NS _ _ _ H2 HS), (wsl_ok _ _ HI H3), (wsl_mentions _ _ _ H2 H3), H5, A. reflexivity.
    - rewrite !andb_true_iff in H. destruct H as ((H1 & H2) & H3).
      destruct (collect_cont t1 cs) as (a1, c1) eqn:E1. destruct (collect_cont t2 c1) as (b1, c2) eqn:E2. injection E as <- <-.
      destruct (IHt1 env [] cs a1 c1 H2 HI ltac:(intros y []) E1 HC) as (A & B). destruct (IHt2 env [] c1 b1 c2 H3 HI ltac:(intros y []) E2 B) as (A2 & B2).
      split; [|exact B2]. cbn. now rewrite (ws_ok _ _ HI H1), A, A2.
    - rewrite !andb_true_iff in H. destruct H as (H1 & H2).
      destruct (collect_cont t cs) as (k1, c1) eqn:E1. injection E as <- <-.
      destruct (IHt env sn cs k1 c1 H2 HI HS E1 HC) as (A & B). split; [|exact B]. cbn. now rewrite (ws_ok _ _ HI H1), A.
  Qed.

  Lemma final_ok : forall ps b, wtt false ps b = true -> forallb (fun x => GenCond.mem x U) ps = true -> GenCond.distinct ps = true ->
    func_ok globals nfuns U (rewrite_lambda_final ps b) = true.
  Proof.
    intros ps b H HU HD. unfold rewrite_lambda_final. destruct (collect_cont b []) as (b1, cs) eqn:E.
    destruct (collect_ok b ps ps [] b1 cs H (proj1 (all_in _ _) HU) (incl_refl _) E eq_refl) as (A & B).
    unfold func_ok. cbn [f_ps f_first f_conts]. rewrite HU, HD, A. cbn [andb]. change (forallb cont_ok (rev cs) = true). now rewrite forallb_rev.
  Qed.

  (** * Functions *)
  Variable fs : list func.
  Hypothesis NF : nfuns = List.length fs.
  Notation fok := (forallb (func_ok globals nfuns U)).
  Definition cS (s : simple) : Prop := forall env v s1 v1, wss true env s = true -> cl_simple v s = (s1, v1) -> extends v1 fs -> fok v = true ->
    wss false env s1 = true /\ fok v1 = true.
  Definition cT (t : stm) : Prop := forall env v t1 v1, wtt true env t = true -> cl_stm v t = (t1, v1) -> extends v1 fs -> fok v = true ->
    wtt false env t1 = true /\ fok v1 = true.

  Lemma cl_ok_list : forall l, Forall cS l -> forall env v l1 v1, forallb (wss true env) l = true -> cl_list v l = (l1, v1) -> extends v1 fs -> fok v = true ->
    forallb (wss false env) l1 = true /\ fok v1 = true /\ List.length l1 = List.length l.
  Proof.
    induction 1 as [|s l Hs _ IH]; intros env v l1 v1 HW E HX HV; cbn in E.
    - injection E as <- <-. auto.
    - cbn in HW. apply andb_true_iff in HW as (W1 & W2). destruct (cl_simple v s) as (y, v2) eqn:E1. destruct (cl_list v2 l) as (ys, v3) eqn:E2. injection E as <- <-.
      destruct (Hs env v y v2 W1 E1 (extends_trans _ _ _ (cl_list_ext _ _ _ _ E2) HX) HV) as (A & B).
      destruct (IH env v2 ys v3 W2 E2 HX B) as (C & D & L). cbn. now rewrite A, C, L.
  Qed.
  Lemma cl_ok : forall t, cT t.
  Proof.
    apply (stm_ind' cS cT); unfold cS, cT;
      try (intros; cbn in *; match goal with H : (_, _) = (_, _) |- _ => injection H as <- <- end; auto; fail).
    - intros ps b frees Hb env v s1 v1 H E HX HV. cbn in H, E. rewrite !andb_true_iff in H. destruct H as (((H1 & H2) & H3) & H4).
      destruct (cl_stm v b) as (b1, v2) eqn:E1. injection E as <- <-. unfold append_result in *.
      assert (X2 : extends v2 fs) by (eapply extends_trans; [|exact HX]; now eexists).
      destruct (Hb ps v b1 v2 H3 E1 X2 HV) as (A & B). split.
      + cbn. rewrite H4, andb_true_r. apply Nat.ltb_lt. rewrite NF. destruct HX as (u & ->). rewrite !app_length. cbn. lia.
      + rewrite forallb_app'. rewrite B. cbn. rewrite andb_true_r. now apply final_ok.
    - intros s Hs env v t1 v1 H E HX HV. cbn in H, E. destruct (cl_simple v s) as (s1, v2) eqn:E1. injection E as <- <-. cbn. eapply Hs; eauto.
    - intros f args Hf Ha env v t1 v1 H E HX HV. cbn in H. apply andb_true_iff in H as (H1 & H2). rewrite cl_stm_tail in E.
      destruct (cl_simple v f) as (f1, v2) eqn:E1. destruct (cl_list v2 args) as (a1, v3) eqn:E2. injection E as <- <-.
      destruct (Hf env v f1 v2 H1 E1 (extends_trans _ _ _ (cl_list_ext _ _ _ _ E2) HX) HV) as (A & B).
      destruct (cl_ok_list _ Ha env _ _ _ H2 E2 HX B) as (C & D & _). rewrite ?wt_tail, ?wt_call, ?wt_let, ?wt_prim, ?wt_if, ?wt_do. now rewrite A, C.
    - intros f args x k live Hf Ha Hk env v t1 v1 H E HX HV. cbn in H. rewrite !andb_true_iff in H. destruct H as (((((H1 & H2) & H3) & H4) & H5) & H6). rewrite cl_stm_call in E.
      destruct (cl_simple v f) as (f1, v2) eqn:E1. destruct (cl_list v2 args) as (a1, v3) eqn:E2. destruct (cl_stm v3 k) as (k1, v4) eqn:E3. injection E as <- <-.
      pose proof (extends_trans _ _ _ (cl_stm_ext _ _ _ _ E3) HX) as X3.
      destruct (Hf env v f1 v2 H1 E1 (extends_trans _ _ _ (cl_list_ext _ _ _ _ E2) X3) HV) as (A & B).
      destruct (cl_ok_list _ Ha env _ _ _ H2 E2 X3 B) as (C & D & _).
      destruct (Hk (x :: env) _ _ _ H5 E3 HX D) as (F & G). rewrite ?wt_tail, ?wt_call, ?wt_let, ?wt_prim, ?wt_if, ?wt_do. now rewrite A, C, H3, H4, F, H6.
    - intros x s k Hs Hk env v t1 v1 H E HX HV. cbn in H, E. rewrite !andb_true_iff in H. destruct H as (((H1 & H2) & H3) & H4).
      destruct (cl_simple v s) as (s1, v2) eqn:E1. destruct (cl_stm v2 k) as (k1, v3) eqn:E2. injection E as <- <-.
      destruct (Hs env v s1 v2 H3 E1 (extends_trans _ _ _ (cl_stm_ext _ _ _ _ E2) HX) HV) as (A & B).
      destruct (Hk (x :: env) _ _ _ H4 E2 HX B) as (F & G). rewrite ?wt_tail, ?wt_call, ?wt_let, ?wt_prim, ?wt_if, ?wt_do. now rewrite A, H1, H2, F.
    - intros x p args k Ha Hk env v t1 v1 H E HX HV. cbn in H. rewrite !andb_true_iff in H. destruct H as ((((H1 & H2) & H3) & H5) & H4). rewrite cl_stm_prim in E.
      destruct (cl_list v args) as (a1, v2) eqn:E1. destruct (cl_stm v2 k) as (k1, v3) eqn:E2. injection E as <- <-.
      destruct (cl_ok_list _ Ha env _ _ _ H3 E1 (extends_trans _ _ _ (cl_stm_ext _ _ _ _ E2) HX) HV) as (A & B & L).
      destruct (Hk (x :: env) _ _ _ H4 E2 HX B) as (F & G). rewrite ?wt_tail, ?wt_call, ?wt_let, ?wt_prim, ?wt_if, ?wt_do. now rewrite A, L, H1, H2, H5, F.
    - intros s a b Hs Ha Hb env v t1 v1 H E HX HV. cbn in H, E. rewrite !andb_true_iff in H. destruct H as ((H1 & H2) & H3).
      destruct (cl_simple v s) as (s1, v2) eqn:E1. destruct (cl_stm v2 a) as (a1, v3) eqn:E2. destruct (cl_stm v3 b) as (b1, v4) eqn:E3. injection E as <- <-.
      pose proof (extends_trans _ _ _ (cl_stm_ext _ _ _ _ E3) HX) as X3.
      destruct (Hs env v s1 v2 H1 E1 (extends_trans _ _ _ (cl_stm_ext _ _ _ _ E2) X3) HV) as (A & B).
      destruct (Ha env _ _ _ H2 E2 X3 B) as (F & G). destruct (Hb env _ _ _ H3 E3 HX G) as (F2 & G2). rewrite ?wt_tail, ?wt_call, ?wt_let, ?wt_prim, ?wt_if, ?wt_do. now rewrite A, F, F2.
    - intros s k Hs Hk env v t1 v1 H E HX HV. cbn in H, E. rewrite !andb_true_iff in H. destruct H as (H1 & H2).
      destruct (cl_simple v s) as (s1, v2) eqn:E1. destruct (cl_stm v2 k) as (k1, v3) eqn:E2. injection E as <- <-.
      destruct (Hs env v s1 v2 H1 E1 (extends_trans _ _ _ (cl_stm_ext _ _ _ _ E2) HX) HV) as (A & B).
      destruct (Hk env _ _ _ H2 E2 HX B) as (F & G). rewrite ?wt_tail, ?wt_call, ?wt_let, ?wt_prim, ?wt_if, ?wt_do. now rewrite A, F.
  Qed.

  Lemma pass_ok : forall t, fs = collect_lambda_pass (live_stm t) -> sok_stm t = true -> wtt true [] t = true -> fok fs = true.
  Proof.
    intros t EF HS HW. unfold collect_lambda_pass in EF. destruct (cl_stm [] (live_stm t)) as (e1, v) eqn:E.
    assert (X : extends v fs) by (rewrite EF; now eexists).
    destruct (cl_ok (live_stm t) [] [] e1 v (wt_live t [] HS HW) E X eq_refl) as (A & B).
    rewrite EF. unfold append_result. rewrite forallb_app', B. cbn. rewrite andb_true_r. now apply final_ok.
  Qed.
End Src.
