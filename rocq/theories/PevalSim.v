(** A simplification step preserves the meaning of an expression. *)
From Coq Require Import List ZArith Bool String Arith Lia.
From Verif Require Import CoreSpec TocModel CoreProofs TocParseSim TocWhole PevalModel PevalSpec PevalRel.
Import ListNotations.
Local Open Scope list_scope.
Local Open Scope nat_scope.

Section Sim.
  Context (ar : arith).

  Definition agree (V : list name) (r1 r2 : senv) : Prop := forall x, In x V -> lookup x r1 = lookup x r2.
  Definition scope (D : list name) (rho : senv) : Prop := forall x, In x D <-> lookup x rho <> None.
  (** an expression without effect, and its value *)
  Definition pure_at (rho : senv) (e : cx) (w : sval) : Prop :=
    forall G, evt (fun m => eval ar false m rho (show e) G) (eq (value w, G)).

  (** An expression and what it has become, either by a substitution or by a
      step.  [U] are the variables whose values matter. *)
  Inductive rel1 : csub -> cx -> cx -> list name -> senv -> Prop :=
  | t_sub s e rho : no_capture s e = true -> rel1 s e (subst s e) (fv e) rho
  | t_step D e e' rho : step ar D e e' -> scope D rho -> rel1 [] e e' (fv e') rho.

  Inductive pv : sval -> sval -> Prop :=
  | r_num z : pv (VNum z) (VNum z)
  | r_sym x : pv (VSym x) (VSym x)
  | r_str s : pv (VStr s) (VStr s)
  | r_true : pv VTrue VTrue
  | r_false : pv VFalse VFalse
  | r_nil : pv VNil VNil
  | r_cons a1 a2 d1 d2 : pv a1 a2 -> pv d1 d2 -> pv (VCons a1 d1) (VCons a2 d2)
  | r_clo ps b b' rho rho' s U :
      rel1 s (KL ps b) (KL ps b') U rho -> wf b = true -> wf b' = true ->
      (forall x, In x U -> lookup x s = None -> lookup x rho = None -> lookup x rho' = None) ->
      (forall x v, In x U -> lookup x s = None -> lookup x rho = Some v -> exists w, lookup x rho' = Some w /\ pv v w) ->
      (forall x r, In x U -> lookup x s = Some r -> exists v, lookup x rho = Some v /\
         forall rho2, agree (fv r) rho' rho2 -> exists w, pure_at rho2 r w /\ pv v w) ->
      pv (VClo (mkSC ps (show b) (map fst rho)) (map snd rho)) (VClo (mkSC ps (show b') (map fst rho')) (map snd rho'))
  | r_pap f1 f2 l1 l2 k : pv f1 f2 -> Forall2 pv l1 l2 ->
      need s_arity f1 = Some k -> List.length l1 < k -> pv (VPap f1 l1) (VPap f2 l2)
  | r_prim p : pv (VPrim p) (VPrim p).

  Definition grel (G1 : store scode) (G2 : store scode) : Prop :=
    (g_next G1 = g_next G2 /\ forall x, g_ver G1 x = g_ver G2 x) /\
    forall x, match g_val G1 x, g_val G2 x with
              | Some v1, Some v2 => pv v1 v2
              | None, None => True
              | _, _ => False
              end.

  Definition rres (r1 : val scode * store scode) (r2 : val scode * store scode) : Prop :=
    pv (fst r1) (fst r2) /\ grel (snd r1) (snd r2).

  Lemma quoted_rel : forall s, pv (quoted s) (quoted s).
  Proof. induction s; cbn; constructor; auto. Qed.

  Lemma veq_rel : forall a1 a2, pv a1 a2 -> forall b1 b2, pv b1 b2 -> veq a1 b1 = veq a2 b2.
  Proof.
    induction a1; intros w H b1 b2 Hb; inversion H; subst; inversion Hb; subst; cbn; try reflexivity.
    match goal with
    | A : pv a1_1 ?x, B : pv ?y ?z |- match veq a1_1 ?y with _ => _ end = _ =>
        rewrite (IHa1_1 _ A _ _ B); destruct (veq x z) as [[]|]; auto
    end.
  Qed.

  Lemma g_set_rel : forall G1 G2 x v1 v2, grel G1 G2 -> pv v1 v2 -> grel (g_set G1 x v1) (g_set G2 x v2).
  Proof.
    intros G1 G2 x v1 v2 ((HN & HT) & HG) HV. split; [split; [exact HN|intro y; cbn; now rewrite HT]|]. intro y. cbn.
    destruct (name_eqb y x); [exact HV|apply HG].
  Qed.

  Lemma prim_rel : forall p l1 l2 G1 G2 v G1', Forall2 pv l1 l2 -> grel G1 G2 ->
    prim_sem ar p l1 G1 = Some (v, G1') ->
    exists r2, prim_sem ar p l2 G2 = Some r2 /\ rres (v, G1') r2.
  Proof.
    intros p l1 l2 G1 G2 v G1' F HG E.
    assert (OB : forall b, pv (of_bool b) (of_bool b)) by (intros []; constructor).
    destruct F as [|a1 a2 r1 r2 Ha F]; [|destruct F as [|b1 b2 r1 r2 Hb F]; [|destruct F as [|c1 c2 r1 r2 Hc F]]].
    - destruct p; cbn in E; try discriminate. injection E as <- <-.
      eexists. split; [reflexivity|]. destruct HG as ((HN & HT) & HG). cbn. rewrite HN.
      split; [constructor|]. split; [split; [cbn; congruence|exact HT]|exact HG].
    - destruct p; cbn in E; try discriminate;
        try (destruct Ha; cbn in E; try discriminate; injection E as <- <-;
             eexists; (split; [reflexivity|]); split; cbn; auto; try constructor; fail).
    - destruct p; cbn [prim_sem] in E |- *; try (destruct Ha; discriminate).
      + destruct Ha; try discriminate. cbn in E. injection E as <- <-.
        eexists. split; [reflexivity|]. split; [exact Hb|now apply g_set_rel].
      + injection E as <- <-. eexists. split; [reflexivity|]. split; [now constructor|exact HG].
      + destruct Ha; try discriminate. destruct Hb; try discriminate. destruct (ar PAdd z z0); [|discriminate].
        injection E as <- <-. eexists. split; [reflexivity|]. split; [constructor|exact HG].
      + destruct Ha; try discriminate. destruct Hb; try discriminate. destruct (ar PSub z z0); [|discriminate].
        injection E as <- <-. eexists. split; [reflexivity|]. split; [constructor|exact HG].
      + destruct Ha; try discriminate. destruct Hb; try discriminate. destruct (ar PMul z z0); [|discriminate].
        injection E as <- <-. eexists. split; [reflexivity|]. split; [constructor|exact HG].
      + destruct Ha; try discriminate. destruct Hb; try discriminate. destruct (ar PDiv z z0); [|discriminate].
        injection E as <- <-. eexists. split; [reflexivity|]. split; [constructor|exact HG].
      + rewrite <- (veq_rel _ _ Ha _ _ Hb). destruct (veq a1 b1); [|discriminate].
        injection E as <- <-. eexists. split; [reflexivity|]. split; [apply OB|exact HG].
      + destruct Ha; try discriminate. destruct Hb; try discriminate. destruct (ar PGt z z0); [|discriminate].
        injection E as <- <-. eexists. split; [reflexivity|]. split; [apply OB|exact HG].
      + destruct Ha; try discriminate. destruct Hb; try discriminate. destruct (ar PLt z z0); [|discriminate].
        injection E as <- <-. eexists. split; [reflexivity|]. split; [apply OB|exact HG].
    - exfalso. destruct p; cbn in E; try discriminate; destruct Ha; try discriminate; destruct Hb; discriminate.
  Qed.

  Lemma need_rel : forall f1 f2, pv f1 f2 -> need s_arity f1 = need s_arity f2.
  Proof.
    induction f1; intros f2 H; inversion H; subst; cbn; try reflexivity.
    match goal with A : pv f1 ?g |- _ => rewrite <- (IHf1 _ A) end.
      destruct (need s_arity f1); [|reflexivity]. do 2 f_equal. eapply Forall2_len; eauto.
  Qed.

  Section Run.
  Context (run1 : scode -> list (val scode) -> list (val scode) -> store scode -> option (val scode * store scode)).
  Context (run2 : nat -> scode -> list (val scode) -> list (val scode) -> store scode -> option (val scode * store scode)).
  Hypothesis run_rel : forall c1 c2 vs1 vs2 l1 l2 G1 G2 r,
    pv (VClo c1 vs1) (VClo c2 vs2) -> Forall2 pv l1 l2 -> List.length l1 = s_arity c1 -> grel G1 G2 ->
    run1 c1 vs1 l1 G1 = Some r -> evt (fun m => run2 m c2 vs2 l2 G2) (rres r).

  Lemma exact_rel : forall f1 f2 l1 l2 G1 G2 r, pv f1 f2 -> Forall2 pv l1 l2 ->
    need s_arity f1 = Some (List.length l1) ->
    grel G1 G2 -> exact ar run1 f1 l1 G1 = Some r ->
    evt (fun m => exact ar (run2 m) f2 l2 G2) (rres r).
  Proof.
    induction f1; intros f2 l1 l2 G1 G2 r HF HL HN HG E; inversion HF; subst; cbn in E; try discriminate.
    - cbn. eapply run_rel; eauto. cbn in HN. now injection HN as <-.
    - cbn. cbn [need] in HN. match goal with A : need s_arity f1 = Some _ |- _ => rewrite A in HN end.
      injection HN as HN.
      eapply IHf1; eauto; [now apply Forall2_app|].
      match goal with A : need s_arity f1 = Some _ |- _ => rewrite A end. f_equal. rewrite app_length. lia.
    - cbn. destruct r as (v, G'). destruct (prim_rel _ _ _ _ _ _ _ HL HG E) as (r2 & -> & R).
      now apply evt_const.
  Qed.

  Lemma apply_rel2 : forall n f1 f2 l1 l2 G1 G2 r, pv f1 f2 -> Forall2 pv l1 l2 -> grel G1 G2 ->
      apply ar s_arity run1 n f1 l1 G1 = Some r ->
      exists r2 m0, rres r r2 /\ forall m m1, m0 <= m -> m0 <= m1 -> apply ar s_arity (run2 m) m1 f2 l2 G2 = Some r2.
  Proof.
    induction n as [|n IH]; intros f1 f2 l1 l2 G1 G2 r HF HL HG E; [discriminate|]. cbn [apply] in E.
      rewrite (need_rel _ _ HF) in E.
      destruct (need s_arity f2) as [rq|] eqn:En; [|discriminate].
      pose proof (Forall2_len _ _ _ HL) as HLen.
      destruct (Nat.ltb_spec (List.length l1) rq) as [L|L].
      - injection E as <-. exists (match l2 with [] => f2 | _ => VPap f2 l2 end, G2), 1.
        split.
        + split; [|exact HG]. cbn. destruct HL; [exact HF|].
          econstructor; eauto. rewrite (need_rel _ _ HF). exact En.
        + intros m [|m1] _ L1; [lia|]. cbn [apply]. rewrite En, <- HLen.
          destruct (Nat.ltb_spec (List.length l1) rq); [reflexivity|lia].
      - destruct (exact ar run1 f1 (firstn rq l1) G1) as [(v, G3)|] eqn:Ex; [|discriminate].
        assert (HN : need s_arity f1 = Some (List.length (firstn rq l1))).
        { rewrite (need_rel _ _ HF), En. f_equal. rewrite firstn_length. lia. }
        destruct (exact_rel _ _ _ _ _ _ _ HF (Forall2_firstn _ rq _ _ HL) HN HG Ex) as ((v2, G4) & m1 & (HV & HG4) & Em).
        cbn in HV, HG4.
        pose proof (Forall2_skipn _ rq _ _ HL) as HS.
        destruct (skipn rq l1) as [|x xs] eqn:Es1.
        + injection E as <-. exists (v2, G4), (S m1). split; [split; auto|].
          intros m [|m2] L1 L2; [lia|]. cbn [apply]. rewrite En, <- HLen.
          destruct (Nat.ltb_spec (List.length l1) rq); [lia|]. rewrite Em by lia.
          inversion HS. reflexivity.
        + destruct (IH v v2 (x :: xs) (skipn rq l2) G3 G4 r HV HS HG4 E) as (r2 & m2 & R & Em2).
          exists r2, (S (max m1 m2)). split; [exact R|].
          intros m [|m3] L1 L2; [lia|]. cbn [apply]. rewrite En, <- HLen.
          destruct (Nat.ltb_spec (List.length l1) rq); [lia|]. rewrite Em by lia.
          inversion HS as [|y z ys zs A1 A2 A3 A4]; subst. rewrite <- A4 in Em2. apply Em2; lia.
  Qed.
  Lemma apply_rel : forall n f1 f2 l1 l2 G1 G2 r, pv f1 f2 -> Forall2 pv l1 l2 -> grel G1 G2 ->
    apply ar s_arity run1 n f1 l1 G1 = Some r ->
    evt (fun m => apply ar s_arity (run2 m) m f2 l2 G2) (rres r).
  Proof.
    intros n f1 f2 l1 l2 G1 G2 r HF HL HG E.
    destruct (apply_rel2 n f1 f2 l1 l2 G1 G2 r HF HL HG E) as (r2 & m0 & R & Em).
    exists r2, m0. split; [exact R|]. intros m L. apply Em; auto.
  Qed.
  End Run.

  (** * Environments *)
  Definition Env (s : csub) (U : list name) (rho rho' : senv) : Prop :=
    (forall x, In x U -> lookup x s = None -> lookup x rho = None -> lookup x rho' = None) /\
    (forall x v, In x U -> lookup x s = None -> lookup x rho = Some v -> exists w, lookup x rho' = Some w /\ pv v w) /\
    (forall x r, In x U -> lookup x s = Some r -> exists v, lookup x rho = Some v /\
       forall rho2, agree (fv r) rho' rho2 -> exists w, pure_at rho2 r w /\ pv v w).

  Lemma Env_mono : forall s U U' rho rho', incl U' U -> Env s U rho rho' -> Env s U' rho rho'.
  Proof. intros s U U' rho rho' I (A & B & C). repeat split; eauto. Qed.
  Lemma Env_agree : forall U rho rho1 rho2, agree U rho1 rho2 -> Env [] U rho rho1 -> Env [] U rho rho2.
  Proof.
    intros U rho rho1 rho2 H (A & B & C). repeat split.
    - intros x I L L2. rewrite <- (H x I). auto.
    - intros x v I L L2. rewrite <- (H x I). auto.
    - intros x r I L. discriminate.
  Qed.

  Lemma lookup_combine_none : forall {A} x ps (vs : list A), List.length vs = List.length ps ->
    (lookup x (combine ps vs) = None <-> ~ In x ps).
  Proof.
    intros A x. induction ps as [|p ps IH]; intros [|v vs] L; cbn in *; try lia; [tauto|].
    destruct (name_eqb_spec x p) as [->|N]; [split; [discriminate|tauto]|].
    rewrite (IH vs) by lia. split; [intros H [E|E]; [congruence|tauto]|tauto].
  Qed.
  Lemma lookup_combine_rel : forall x ps vs ws v, Forall2 pv vs ws -> lookup x (combine ps vs) = Some v ->
    exists w, lookup x (combine ps ws) = Some w /\ pv v w.
  Proof.
    intros x ps vs ws v F. revert ps. induction F as [|a b vs ws H F IH]; intros [|p ps] E; cbn in *; try discriminate.
    destruct (name_eqb x p); [injection E as <-; eauto|auto].
  Qed.
  Lemma scope_bind : forall D rho ps vs, List.length vs = List.length ps -> scope D rho ->
    scope (ps ++ D) (combine ps vs ++ rho).
  Proof.
    intros D rho ps vs L H x. rewrite in_app_iff, lookup_app. specialize (H x).
    pose proof (lookup_combine_none x ps vs L) as K.
    destruct (lookup x (combine ps vs)) eqn:E.
    - split; [congruence|]. intros _. left. destruct (mem x ps) eqn:M; [now apply mem_in|].
      apply mem_notin in M. apply K in M. discriminate.
    - rewrite <- H. assert (~ In x ps) by (now apply K). tauto.
  Qed.

  Lemma Env_bind : forall s U rho rho' ps vs ws U', Forall2 pv vs ws -> List.length vs = List.length ps ->
    (forall x, In x U' -> ~ In x ps -> In x U) ->
    (forall x r p, In x U' -> ~ In x ps -> lookup x s = Some r -> In p ps -> ~ In p (fv r)) ->
    Env s U rho rho' -> Env (minus ps s) U' (combine ps vs ++ rho) (combine ps ws ++ rho').
  Proof.
    intros s U rho rho' ps vs ws U' F L HU HC (A & B & C).
    assert (L2 : List.length ws = List.length ps) by (rewrite <- L; symmetry; eapply Forall2_len; eauto).
    assert (NB : forall x, lookup x (combine ps vs) = None -> ~ In x ps /\ lookup x (combine ps ws) = None).
    { intros x E. apply (lookup_combine_none x ps vs L) in E. split; [exact E|]. now apply (lookup_combine_none x ps ws L2). }
    assert (NM : forall x, ~ In x ps -> lookup x (minus ps s) = lookup x s).
    { intros x N. rewrite lookup_minus. apply mem_notin in N. now rewrite N. }
    repeat split.
    - intros x I H1 H2. rewrite lookup_app in *. destruct (lookup x (combine ps vs)) eqn:E; [discriminate|].
      destruct (NB x E) as (N & ->). rewrite NM in H1 by exact N. apply A; auto.
    - intros x v I H1 H2. rewrite lookup_app in *. destruct (lookup x (combine ps vs)) eqn:E.
      + injection H2 as ->. destruct (lookup_combine_rel _ _ _ _ _ F E) as (w & -> & R). eauto.
      + destruct (NB x E) as (N & ->). rewrite NM in H1 by exact N. apply B; auto.
    - intros x r I H1. assert (N : ~ In x ps).
      { intro J. rewrite lookup_minus in H1. apply mem_in in J. rewrite J in H1. discriminate. }
      rewrite NM in H1 by exact N. destruct (C x r (HU x I N) H1) as (v & E & K). exists v. split.
      + rewrite lookup_app. apply (lookup_combine_none x ps vs L) in N. now rewrite N.
      + intros rho2 AG. apply K. intros z Z. rewrite <- (AG z Z), lookup_app.
        assert (Nz : ~ In z ps) by (intro J; exact (HC x r z I N H1 J Z)).
        apply (lookup_combine_none z ps ws L2) in Nz. now rewrite Nz.
  Qed.

  Lemma pv_lam : forall s ps b b' U rho rho', rel1 s (KL ps b) (KL ps b') U rho -> wf b = true -> wf b' = true ->
    Env s U rho rho' ->
    pv (VClo (mkSC ps (show b) (map fst rho)) (map snd rho)) (VClo (mkSC ps (show b') (map fst rho')) (map snd rho')).
  Proof. intros s ps b b' U rho rho' H W W' (A & B & C). econstructor; eauto. Qed.

  Lemma rel1_body : forall s ps b b' U rho rho' vs ws, rel1 s (KL ps b) (KL ps b') U rho -> Env s U rho rho' ->
    Forall2 pv vs ws -> List.length vs = List.length ps ->
    exists s' U', rel1 s' b b' U' (combine ps vs ++ rho) /\ Env s' U' (combine ps vs ++ rho) (combine ps ws ++ rho').
  Proof.
    intros s ps b b' U rho rho' vs ws R E F L. inversion R as [s0 e0 rho0 NC|D e0 e1 rho0 H SC]; subst.
    - cbn in NC. apply andb_true_iff in NC. destruct NC as (H1 & H2). exists (minus ps s), (fv b). split; [now constructor|].
      apply (Env_bind _ (fv (KL ps b))); auto.
      + intros x I N. cbn. apply in_remove_all. auto.
      + intros x r p I N E1 P. eapply fresh_binders_spec; eauto.
    - assert (ST : step ar (ps ++ D) b b') by (inversion H; subst; [constructor|assumption]).
      exists [], (fv b'). split.
      + econstructor; [exact ST|]. now apply scope_bind.
      + rewrite <- (minus_nil ps). apply (Env_bind _ (fv (KL ps b'))); auto.
        * intros x I N. cbn. apply in_remove_all. auto.
        * intros x r p _ _ E1. discriminate.
  Qed.

  (** * Evaluation of expressions *)
  Definition run (n : nat) (c : scode) (vs args : list sval) (G : store scode) : option (sval * store scode) :=
    result (eval ar false n (combine (sc_ps c) args ++ combine (sc_env c) vs) (sc_body c) G).
  Definition call (n : nat) (f : sval) (args : list sval) (G : store scode) : option (operand * store scode) :=
    match apply ar s_arity (run n) n f args G with Some (v, G1) => Some (value v, G1) | None => None end.

  Lemma use_false : forall (a : operand) G, use false a G = Some (a_val a).
  Proof. intros a G. unfold use. destruct (a_from a) as [(x, k)|]; reflexivity. Qed.
  Lemma use_all_false : forall (l : list operand) G, use_all false l G = Some (map a_val l).
  Proof. induction l as [|a l IH]; intro G; cbn; [reflexivity|]. now rewrite use_false, IH. Qed.

  Lemma slist_of : forall l, slist (of_list l) = Some l.
  Proof. induction l as [|a l IH]; cbn; [reflexivity|now rewrite IH]. Qed.
  Lemma symbols_map : forall ps, symbols (map SSym ps) = Some ps.
  Proof. induction ps as [|p ps IH]; cbn; [reflexivity|now rewrite IH]. Qed.
  Lemma head_not_keyword : forall f k, wf f = true -> headok f = true ->
    In (NS k) [NS "quote"; NS "lambda"; NS "if"; NS "do"; NS "let"] -> is_sym k (show f) = false.
  Proof.
    intros f k W H I. destruct f; try reflexivity.
    - cbn in W. destruct s; try discriminate; reflexivity.
    - cbn [show is_sym headok] in *. unfold keyword in H. destruct (name_eqb_spec x (NS k)) as [->|]; [|reflexivity]. exfalso.
      apply negb_true_iff in H. rewrite <- not_true_iff_false in H. apply H. apply existsb_exists. exists (NS k).
      split; [exact I|]. destruct (name_eqb_spec (NS k) (NS k)); congruence.
  Qed.
  Lemma view_app : forall f args, wf (KA f args) = true -> view (show (KA f args)) = FApp (show f) (map show args).
  Proof.
    intros f args W. cbn in W. rewrite !andb_true_iff in W. destruct W as ((H & W) & _). cbn [show].
    unfold view. cbn [slist]. rewrite slist_of.
    rewrite !(head_not_keyword f) by (auto; cbn; auto 10). reflexivity.
  Qed.
  Lemma view_const : forall c, wf (KC c) = true -> view c = FConst c.
  Proof. intros c W. destruct c; try reflexivity; discriminate. Qed.

  Lemma eval_app : forall n rho f args G, wf (KA f args) = true ->
    eval ar false (S n) rho (show (KA f args)) G =
    match op_prim rho (show f) with
    | Some p => match ev_args (eval ar false n rho) (map show args) G with
                | Some (l, G1) => call n (VPrim p) (map a_val l) G1
                | None => None
                end
    | None => match eval ar false n rho (show f) G with
              | Some (a, G1) => match ev_args (eval ar false n rho) (map show args) G1 with
                                | Some (l, G2) => call n (a_val a) (map a_val l) G2
                                | None => None
                                end
              | None => None
              end
    end.
  Proof.
    intros n rho f args G W. cbn [eval]. rewrite (view_app _ _ W). unfold call, run.
    destruct (op_prim rho (show f)).
    - destruct (ev_args _ _ _) as [(l, G1)|]; [|reflexivity]. rewrite use_false, use_all_false. reflexivity.
    - destruct (eval ar false n rho (show f) G) as [(a, G1)|]; [|reflexivity].
      destruct (ev_args _ _ _) as [(l, G2)|]; [|reflexivity]. rewrite use_false, use_all_false. reflexivity.
  Qed.
  Lemma eval_const : forall n rho c G, wf (KC c) = true ->
    eval ar false (S n) rho (show (KC c)) G = Some (value (quoted c), G).
  Proof. intros n rho c G W. cbn [eval show]. now rewrite (view_const _ W). Qed.
  Lemma eval_lam : forall n rho ps b G, eval ar false (S n) rho (show (KL ps b)) G =
    Some (value (VClo (mkSC ps (show b) (map fst rho)) (map snd rho)), G).
  Proof.
    intros. cbn [eval show]. unfold view, ssym. cbn [of_list slist is_sym name_eqb String.eqb Ascii.eqb Bool.eqb].
    rewrite slist_of, symbols_map. reflexivity.
  Qed.

  Definition rop (r1 r2 : operand * store scode) : Prop := pv (a_val (fst r1)) (a_val (fst r2)) /\ grel (snd r1) (snd r2).

  (** * Expressions without effect *)
  Lemma as_prim_op : forall D rho f p, scope D rho -> as_prim D f = Some p -> op_prim rho (show f) = Some p.
  Proof.
    intros D rho f p S E. destruct f; try discriminate. cbn in *. destruct (mem x D) eqn:M; [discriminate|].
    specialize (S x). apply mem_notin in M. destruct (lookup x rho); [|exact E]. exfalso. apply M, S. discriminate.
  Qed.

  Lemma rel1_refl : forall e rho, rel1 [] e e (fv e) rho.
  Proof. intros e rho. rewrite <- (subst_nil e) at 2. constructor. apply no_capture_nil. Qed.

  Lemma evt_args2 : forall rho a b wa wb, pure_at rho a wa -> pure_at rho b wb ->
    forall G, evt (fun m => ev_args (eval ar false m rho) (map show [a; b]) G) (eq ([value wa; value wb], G)).
  Proof.
    intros rho a b wa wb Ha Hb G. destruct (Ha G) as (r1 & m1 & <- & E1). destruct (Hb G) as (r2 & m2 & <- & E2).
    exists ([value wa; value wb], G), (max m1 m2). split; [reflexivity|]. intros m L. cbn.
    rewrite E1, E2 by lia. reflexivity.
  Qed.
  Lemma pure_cons_at : forall rho x a b wa wb, wf (KA (KV x) [a; b]) = true -> op_prim rho (SSym x) = Some PCons ->
    pure_at rho a wa -> pure_at rho b wb -> pure_at rho (KA (KV x) [a; b]) (VCons wa wb).
  Proof.
    intros rho x a b wa wb W O Ha Hb G. apply evt_S.
    destruct (evt_args2 _ _ _ _ _ Ha Hb G) as (r & m & <- & E).
    exists (value (VCons wa wb), G), (S m). split; [reflexivity|]. intros m' L. rewrite (eval_app _ _ _ _ _ W).
    cbn [show]. rewrite O, E by lia. destruct m' as [|m']; [lia|]. reflexivity.
  Qed.

  Lemma pure_eval : forall D rho, scope D rho -> forall e, wf e = true -> pure D e = true ->
    exists w, pure_at rho e w /\ (forall n G r, eval ar false n rho (show e) G = Some r -> r = (value w, G)) /\
      (forall rho', Env [] (fv e) rho rho' -> exists w', pure_at rho' e w' /\ pv w w').
  Proof.
    intros D rho SC e.
    induction e as [c|c|x|ps b _|a b c _ _ _|a b _ _|x b c _ _|f args IHf IHa] using cx_ind'; intros W P; try discriminate P.
    - exists (quoted c). split; [|split].
      + intro G. eapply evt_now; [reflexivity|]. intro m. now apply eval_const.
      + intros [|n] G r E; [discriminate|]. rewrite eval_const in E by exact W. now injection E as <-.
      + intros rho' _. exists (quoted c). split; [|apply quoted_rel]. intro G. eapply evt_now; [reflexivity|].
        intro m. now apply eval_const.
    - exists (quoted c). split; [|split].
      + intro G. eapply evt_now; [reflexivity|]. intro m. reflexivity.
      + intros [|n] G r E; [discriminate|]. cbn in E. now injection E as <-.
      + intros rho' _. exists (quoted c). split; [|apply quoted_rel]. intro G. eapply evt_now; [reflexivity|].
        intro m. reflexivity.
    - cbn in P. apply mem_in in P. apply SC in P. destruct (lookup x rho) as [v|] eqn:E; [|congruence].
      exists v. split; [|split].
      + intro G. eapply evt_now; [reflexivity|]. intro m. cbn. now rewrite E.
      + intros [|n] G r E1; [discriminate|]. cbn in E1. rewrite E in E1. now injection E1 as <-.
      + intros rho' (_ & B & _). destruct (B x v (or_introl eq_refl) eq_refl E) as (w & E2 & R). exists w.
        split; [|exact R]. intro G. eapply evt_now; [reflexivity|]. intro m. cbn. now rewrite E2.
    - eexists. split; [|split].
      + intro G. eapply evt_now; [reflexivity|]. intro m. apply eval_lam.
      + intros [|n] G r E; [discriminate|]. rewrite eval_lam in E. now injection E as <-.
      + intros rho' EN. eexists. split; [intro G; eapply evt_now; [reflexivity|]; intro m; apply eval_lam|].
        eapply (pv_lam [] ps b b (fv (KL ps b))); [apply rel1_refl|exact W|exact W|exact EN].
    - destruct f as [| |x| | | | |]; try discriminate P. destruct args as [|a [|d [|]]]; try discriminate P.
      cbn in P. rewrite !andb_true_iff in P. destruct P as (((E & M) & P1) & P2).
      destruct (name_eqb_spec x (NS "cons")) as [->|]; [|discriminate]. clear E.
      inversion IHa as [|? ? I1 IHa2]; subst. inversion IHa2 as [|? ? I2 _]; subst. clear IHa IHa2 IHf.
      pose proof W as W0. cbn [wf forallb] in W. rewrite !andb_true_iff in W. destruct W as (_ & W1 & W2 & _).
      destruct (I1 W1 P1) as (w1 & A1 & B1 & C1). destruct (I2 W2 P2) as (w2 & A2 & B2 & C2).
      assert (O : op_prim rho (SSym (NS "cons")) = Some PCons).
      { apply (as_prim_op D rho (KV (NS "cons"))); [exact SC|]. cbn. apply negb_true_iff in M. now rewrite M. }
      exists (VCons w1 w2). split; [|split].
      + now apply pure_cons_at.
      + intros [|n] G r E; [discriminate|]. rewrite (eval_app _ _ _ _ _ W0) in E. cbn [show] in E. rewrite O in E.
        cbn [map ev_args] in E.
        destruct (eval ar false n rho (show a) G) as [r1|] eqn:E1; [|discriminate]. apply B1 in E1. subst r1.
        destruct (eval ar false n rho (show d) G) as [r1|] eqn:E2; [|discriminate]. apply B2 in E2. subst r1.
        destruct n; [discriminate|]. cbn in E. now injection E as <-.
      + intros rho' EN.
        destruct (C1 rho') as (v1 & D1 & R1); [eapply Env_mono; [|exact EN]; cbn; auto with datatypes|].
        destruct (C2 rho') as (v2 & D2 & R2); [eapply Env_mono; [|exact EN]; cbn; rewrite app_nil_r; auto with datatypes|].
        exists (VCons v1 v2). split; [|now constructor]. apply pure_cons_at; auto.
        cbn in O |- *. destruct EN as (A & _). rewrite A; [reflexivity|now left|reflexivity|].
        destruct (lookup (NS "cons") rho); [discriminate|reflexivity].
  Qed.


  (** * The simulation *)
  Definition SIM (n : nat) : Prop := forall s e e' U rho rho' G G' r,
    rel1 s e e' U rho -> wf e = true -> wf e' = true -> Env s U rho rho' -> grel G G' ->
    eval ar false n rho (show e) G = Some r -> evt (fun m => eval ar false m rho' (show e') G') (rop r).
  Definition ok (rho rho' : senv) (e e' : cx) : Prop :=
    wf e = true /\ wf e' = true /\ exists s U, rel1 s e e' U rho /\ Env s U rho rho'.

  Lemma ok_refl : forall rho rho' e, wf e = true -> Env [] (fv e) rho rho' -> ok rho rho' e e.
  Proof. intros rho rho' e W E. repeat split; auto. exists [], (fv e). split; [apply rel1_refl|exact E]. Qed.

  Section Level.
    Context (n : nat) (IH : SIM n).

    Lemma ok_eval : forall rho rho' e e' G G' r, ok rho rho' e e' -> grel G G' ->
      eval ar false n rho (show e) G = Some r -> evt (fun m => eval ar false m rho' (show e') G') (rop r).
    Proof. intros rho rho' e e' G G' r (W & W' & s & U & R & E) HG H. eapply IH; eauto. Qed.
    Lemma ok_result : forall rho rho' e e' G G' r, ok rho rho' e e' -> grel G G' ->
      result (eval ar false n rho (show e) G) = Some r ->
      evt (fun m => result (eval ar false m rho' (show e') G')) (rres r).
    Proof.
      intros rho rho' e e' G G' r K HG H. destruct (eval ar false n rho (show e) G) as [(a, G1)|] eqn:E; [|discriminate].
      cbn in H. injection H as <-. destruct (ok_eval _ _ _ _ _ _ _ K HG E) as ((a2, G2) & m & (HV & HG2) & EM).
      cbn in HV, HG2. exists (a_val a2, G2), m. split; [split; auto|]. intros m' L. now rewrite (EM m' L).
    Qed.

    Lemma run_ok : forall c1 c2 vs1 vs2 l1 l2 G1 G2 r,
      pv (VClo c1 vs1) (VClo c2 vs2) -> Forall2 pv l1 l2 -> List.length l1 = s_arity c1 -> grel G1 G2 ->
      run n c1 vs1 l1 G1 = Some r -> evt (fun m => run m c2 vs2 l2 G2) (rres r).
    Proof.
      intros c1 c2 vs1 vs2 l1 l2 G1 G2 r HV HL HN HG E. inversion HV; subst. unfold run in *. cbn [sc_ps sc_env sc_body] in *.
      rewrite combine_fst_snd in E.
      destruct (rel1_body s ps b b' U rho rho' l1 l2) as (s' & U' & R & EN); auto.
      { split; [|split]; eauto. }
      eapply evt_ext; [intro m; rewrite combine_fst_snd; reflexivity|].
      eapply ok_result; eauto. repeat split; auto. eauto.
    Qed.
    Lemma apply_ok : forall k f f' l l' G G' r, pv f f' -> Forall2 pv l l' -> grel G G' ->
      apply ar s_arity (run n) k f l G = Some r -> evt (fun m => apply ar s_arity (run m) m f' l' G') (rres r).
    Proof. intros. eapply (apply_rel (run n) run run_ok); eauto. Qed.
    Lemma apply_ok2 : forall k f f' l l' G G' r, pv f f' -> Forall2 pv l l' -> grel G G' ->
      apply ar s_arity (run n) k f l G = Some r ->
      exists r2 m0, rres r r2 /\ forall m m1, m0 <= m -> m0 <= m1 -> apply ar s_arity (run m) m1 f' l' G' = Some r2.
    Proof. intros. eapply (apply_rel2 (run n) run run_ok); eauto. Qed.
    Lemma call_ok : forall f f' l l' G G' r, pv f f' -> Forall2 pv l l' -> grel G G' ->
      call n f l G = Some r -> evt (fun m => call m f' l' G') (rop r).
    Proof.
      intros f f' l l' G G' r HF HL HG E. unfold call in *.
      destruct (apply ar s_arity (run n) n f l G) as [(v, G1)|] eqn:E1; [|discriminate]. injection E as <-.
      destruct (apply_ok _ _ _ _ _ _ _ _ HF HL HG E1) as ((v2, G2) & m & (HV & HG2) & EM).
      exists (value v2, G2), m. split; [split; auto|]. intros m' L. now rewrite (EM m' L).
    Qed.

    Definition rops (r1 r2 : list operand * store scode) : Prop :=
      Forall2 pv (map a_val (fst r1)) (map a_val (fst r2)) /\ grel (snd r1) (snd r2).
    Lemma args_ok : forall rho rho' es es' G G' r, Forall2 (ok rho rho') es es' -> grel G G' ->
      ev_args (eval ar false n rho) (map show es) G = Some r ->
      evt (fun m => ev_args (eval ar false m rho') (map show es') G') (rops r).
    Proof.
      intros rho rho' es es' G G' r F. revert G G' r. induction F as [|e e' es es' H F IHF]; intros G G' r HG E; cbn in E.
      - injection E as <-. apply evt_const. split; [constructor|exact HG].
      - destruct (eval ar false n rho (show e) G) as [(a1, G3)|] eqn:E1; [|discriminate].
        destruct (ev_args _ (map show es) G3) as [(r1, G4)|] eqn:E2; [|discriminate]. injection E as <-.
        cbn [map ev_args].
        eapply evt_bind with (g := fun m '(a, G) => match ev_args (eval ar false m rho') (map show es') G with Some (la, G2') => Some (a :: la, G2') | None => None end);
          [eapply ok_eval; eauto|].
        intros (a2, G5) (HA & HG5). cbn in HA, HG5.
        eapply evt_bind with (g := fun m '(la, G2') => Some (a2 :: la, G2')); [eapply IHF; eauto|].
        intros (la, G6) (HL & HG6). apply evt_const. split; [cbn; constructor; auto|exact HG6].
    Qed.

    Lemma if_ok : forall rho rho' a a' b b' c c' G G' r, ok rho rho' a a' -> ok rho rho' b b' -> ok rho rho' c c' -> grel G G' ->
      eval ar false (S n) rho (show (KI a b c)) G = Some r -> evt (fun m => eval ar false m rho' (show (KI a' b' c')) G') (rop r).
    Proof.
      intros rho rho' a a' b b' c c' G G' r Ha Hb Hc HG E. apply evt_S.
      change (match result (eval ar false n rho (show a) G) with
              | Some (VTrue, G1) => eval ar false n rho (show b) G1
              | Some (_, G1) => eval ar false n rho (show c) G1
              | None => None end = Some r) in E.
      destruct (result (eval ar false n rho (show a) G)) as [(v, G1)|] eqn:E1; [|discriminate].
      apply evt_ext with (f := fun m => match result (eval ar false m rho' (show a') G') with
              | Some p => match p with (VTrue, G1) => eval ar false m rho' (show b') G1
                                | (_, G1) => eval ar false m rho' (show c') G1 end
              | None => None end).
      { intro m. change (show (KI a' b' c')) with (of_list [ssym "if"; show a'; show b'; show c']). cbn.
        destruct (result _) as [([], ?)|]; reflexivity. }
      eapply evt_bind; [eapply ok_result; eauto|]. intros (v2, G2) (HV & HG2). cbn in HV, HG2.
      destruct HV; eapply ok_eval; eauto.
    Qed.
    Lemma do_ok : forall rho rho' a a' b b' G G' r, ok rho rho' a a' -> ok rho rho' b b' -> grel G G' ->
      eval ar false (S n) rho (show (KD a b)) G = Some r -> evt (fun m => eval ar false m rho' (show (KD a' b')) G') (rop r).
    Proof.
      intros rho rho' a a' b b' G G' r Ha Hb HG E. apply evt_S.
      change (match result (eval ar false n rho (show a) G) with
              | Some (_, G1) => eval ar false n rho (show b) G1
              | None => None end = Some r) in E.
      destruct (result (eval ar false n rho (show a) G)) as [(v, G1)|] eqn:E1; [|discriminate].
      apply evt_ext with (f := fun m => match result (eval ar false m rho' (show a') G') with
              | Some p => match p with (_, G1) => eval ar false m rho' (show b') G1 end
              | None => None end); [reflexivity|].
      eapply evt_bind; [eapply ok_result; eauto|]. intros (v2, G2) (HV & HG2). cbn in HV, HG2.
      eapply ok_eval; eauto.
    Qed.
    Lemma let_ok : forall rho rho' x b b' c c' G G' r, ok rho rho' b b' ->
      (forall v w, pv v w -> ok ((x, v) :: rho) ((x, w) :: rho') c c') -> grel G G' ->
      eval ar false (S n) rho (show (KT x b c)) G = Some r -> evt (fun m => eval ar false m rho' (show (KT x b' c')) G') (rop r).
    Proof.
      intros rho rho' x b b' c c' G G' r Hb Hc HG E. apply evt_S.
      change (match result (eval ar false n rho (show b) G) with
              | Some (v, G1) => eval ar false n ((x, v) :: rho) (show c) G1
              | None => None end = Some r) in E.
      destruct (result (eval ar false n rho (show b) G)) as [(v, G1)|] eqn:E1; [|discriminate].
      apply evt_ext with (f := fun m => match result (eval ar false m rho' (show b') G') with
              | Some p => match p with (v, G1) => eval ar false m ((x, v) :: rho') (show c') G1 end
              | None => None end); [reflexivity|].
      eapply evt_bind; [eapply ok_result; eauto|]. intros (v2, G2) (HV & HG2). cbn in HV, HG2.
      eapply ok_eval; eauto.
    Qed.
    Lemma app_ok : forall rho rho' f f' args args' G G' r, wf (KA f args) = true -> wf (KA f' args') = true ->
      ok rho rho' f f' -> Forall2 (ok rho rho') args args' ->
      (forall o, op_prim rho (show f) = o -> op_prim rho' (show f') = o) -> grel G G' ->
      eval ar false (S n) rho (show (KA f args)) G = Some r -> evt (fun m => eval ar false m rho' (show (KA f' args')) G') (rop r).
    Proof.
      intros rho rho' f f' args args' G G' r W W' Hf Ha HO HG E. apply evt_S.
      eapply evt_ext; [intro m; symmetry; apply (eval_app m rho' f' args' G' W')|].
      rewrite (eval_app _ _ _ _ _ W) in E. rewrite (HO _ eq_refl).
      destruct (op_prim rho (show f)) as [p|].
      - destruct (ev_args _ _ G) as [(l, G1)|] eqn:E1; [|discriminate].
        eapply evt_bind with (g := fun m '(l, G1) => call m (VPrim p) (map a_val l) G1); [eapply args_ok; eauto|].
        intros (l2, G2) (HL & HG2). cbn in HL, HG2. eapply call_ok; eauto. constructor.
      - destruct (eval ar false n rho (show f) G) as [(a, G1)|] eqn:E1; [|discriminate].
        destruct (ev_args _ _ G1) as [(l, G2)|] eqn:E2; [|discriminate].
        eapply evt_bind with (g := fun m '(a, G1) => match ev_args (eval ar false m rho') (map show args') G1 with
              Some (l, G2) => call m (a_val a) (map a_val l) G2 | None => None end); [eapply ok_eval; eauto|].
        intros (a2, G3) (HA & HG3). cbn in HA, HG3.
        eapply evt_bind with (g := fun m '(l, G2) => call m (a_val a2) (map a_val l) G2); [eapply args_ok; eauto|].
        intros (l2, G4) (HL & HG4). cbn in HL, HG4. eapply call_ok; eauto.
    Qed.
  End Level.


  Lemma evt_rop : forall (f : nat -> option (operand * store scode)) v w G G', evt f (eq (value w, G')) -> pv v w -> grel G G' ->
    evt f (rop (value v, G)).
  Proof. intros f v w G G' H HV HG. eapply evt_weaken; [|exact H]. intros r <-. split; auto. Qed.

  (** the operator of a call after a substitution *)
  Lemma pure_var : forall rho y w, pure_at rho (KV y) w -> exists v, lookup y rho = Some v.
  Proof.
    intros rho y w H. destruct (H (mkG (fun _ => None) (fun _ => 0) 0)) as (r & m & <- & E).
    specialize (E (S m) (Nat.le_succ_diag_r m)). cbn in E. destruct (lookup y rho); [eauto|discriminate].
  Qed.
  Lemma op_none : forall (rho : senv) f, wf f = true -> (forall x, f <> KV x) -> op_prim rho (show f) = None.
  Proof.
    intros rho f W H. destruct f; try reflexivity; [|now destruct (H x)]. cbn in W. destruct s; try discriminate; reflexivity.
  Qed.
  Lemma op_var : forall s U rho rho' x, Env s U rho rho' -> In x U -> lookup x s = None ->
    op_prim rho' (SSym x) = op_prim rho (SSym x).
  Proof.
    intros s U rho rho' x (A & B & _) I L. cbn. destruct (lookup x rho) as [v|] eqn:E.
    - destruct (B x v I L E) as (w & -> & _). reflexivity.
    - now rewrite (A x I L E).
  Qed.
  Lemma op_sub : forall s rho rho' f U, wf f = true -> wf (subst s f) = true -> Env s U rho rho' -> incl (fv f) U ->
    op_prim rho' (show (subst s f)) = op_prim rho (show f).
  Proof.
    intros s rho rho' f U W W' EN I.
    destruct f as [c|c|x|ps b|a b c|a b|x b c|f args];
      try (rewrite (op_none rho _ W) by discriminate; apply op_none; [exact W'|discriminate]).
    assert (Ix : In x U) by (apply I; now left). cbn [subst] in *. destruct (lookup x s) as [r|] eqn:L.
    - destruct EN as (A & B & C). destruct (C x r Ix L) as (v & E & K). destruct (K rho') as (w & P & _); [intros z _; reflexivity|].
      cbn [show op_prim]. rewrite E. destruct r as [c|c|y|ps b|a b c|a b|y b c|f args]; try (apply op_none; [exact W'|discriminate]).
      cbn. destruct (pure_var _ _ _ P) as (v0 & ->). reflexivity.
    - apply (op_var s U); auto.
  Qed.

  (** a substitution for a variable of the source only *)
  Lemma Env_sub1 : forall D rho rho' x a w b, scope D rho -> wf a = true -> pure D a = true -> pure_at rho a w ->
    (forall rho', Env [] (fv a) rho rho' -> exists w', pure_at rho' a w' /\ pv w w') ->
    no_capture [(x, a)] b = true -> Env [] (fv (subst [(x, a)] b)) rho rho' ->
    Env [(x, a)] (fv b) ((x, w) :: rho) rho'.
  Proof.
    intros D rho rho' x a w b SC W P PA K NC EN. pose proof EN as (A & B & _). split; [|split].
    - intros z I L E. cbn in *. destruct (name_eqb_spec z x) as [->|N]; [discriminate|].
      apply A; auto. apply fv_subst_keep; [exact I|]. cbn. destruct (name_eqb_spec z x); [congruence|reflexivity].
    - intros z v I L E. cbn in *. destruct (name_eqb_spec z x) as [->|N]; [discriminate|].
      apply B; auto. apply fv_subst_keep; [exact I|]. cbn. destruct (name_eqb_spec z x); [congruence|reflexivity].
    - intros z r I L. cbn [lookup] in *. destruct (name_eqb_spec z x) as [->|N]; [|discriminate]. injection L as <-.
      exists w. split; [reflexivity|]. intros rho2 AG. apply K. eapply Env_agree; [exact AG|].
      eapply Env_mono; [|exact EN]. apply (fv_subst_range b [(x, a)] x a NC I). cbn.
      destruct (name_eqb_spec x x); congruence.
  Qed.
  Lemma Env_unused : forall x v U rho rho', ~ In x U -> Env [] U rho rho' -> Env [] U ((x, v) :: rho) rho'.
  Proof.
    intros x v U rho rho' N (A & B & C). repeat split.
    - intros z I _ E. cbn in E. destruct (name_eqb_spec z x) as [->|]; [contradiction|]. auto.
    - intros z u I _ E. cbn in E. destruct (name_eqb_spec z x) as [->|]; [contradiction|]. auto.
    - discriminate.
  Qed.

  (** calls of primitives in the source *)
  Lemma call_prim1 : forall n p v G r, prim_arity p = 1 -> call n (VPrim p) [v] G = Some r ->
    exists x G1, prim_sem ar p [v] G = Some (x, G1) /\ r = (value x, G1).
  Proof.
    intros [|n] p v G r A E; [discriminate|]. unfold call in E. cbn [apply need] in E. rewrite A in E. cbn in E.
    destruct (prim_sem ar p [v] G) as [(x, G1)|]; [|discriminate]. injection E as <-. eauto.
  Qed.
  Lemma call_prim2 : forall n p v w G r, prim_arity p = 2 -> call n (VPrim p) [v; w] G = Some r ->
    exists x G1, prim_sem ar p [v; w] G = Some (x, G1) /\ r = (value x, G1).
  Proof.
    intros [|n] p v w G r A E; [discriminate|]. unfold call in E. cbn [apply need] in E. rewrite A in E. cbn in E.
    destruct (prim_sem ar p [v; w] G) as [(x, G1)|]; [|discriminate]. injection E as <-. eauto.
  Qed.
  Lemma prim1_eval : forall D n rho f e p G r, scope D rho -> wf (KA f [e]) = true -> as_prim D f = Some p -> prim_arity p = 1 ->
    eval ar false (S n) rho (show (KA f [e])) G = Some r ->
    exists a G1 x G2, eval ar false n rho (show e) G = Some (a, G1) /\ prim_sem ar p [a_val a] G1 = Some (x, G2) /\ r = (value x, G2).
  Proof.
    intros D n rho f e p G r SC W O A E. rewrite (eval_app _ _ _ _ _ W), (as_prim_op _ _ _ _ SC O) in E. cbn [map ev_args] in E.
    destruct (eval ar false n rho (show e) G) as [(a, G1)|]; [|discriminate]. cbn [map a_val] in E.
    destruct (call_prim1 _ _ _ _ _ A E) as (x & G2 & E1 & ->). eauto 10.
  Qed.
  Lemma prim2_eval : forall D n rho f e1 e2 p G r, scope D rho -> wf (KA f [e1; e2]) = true -> as_prim D f = Some p -> prim_arity p = 2 ->
    eval ar false (S n) rho (show (KA f [e1; e2])) G = Some r ->
    exists a b G1 G2 x G3, eval ar false n rho (show e1) G = Some (a, G1) /\ eval ar false n rho (show e2) G1 = Some (b, G2) /\
      prim_sem ar p [a_val a; a_val b] G2 = Some (x, G3) /\ r = (value x, G3).
  Proof.
    intros D n rho f e1 e2 p G r SC W O A E. rewrite (eval_app _ _ _ _ _ W), (as_prim_op _ _ _ _ SC O) in E. cbn [map ev_args] in E.
    destruct (eval ar false n rho (show e1) G) as [(a, G1)|]; [|discriminate].
    destruct (eval ar false n rho (show e2) G1) as [(b, G2)|] eqn:E2; [|discriminate]. cbn [map a_val] in E.
    destruct (call_prim2 _ _ _ _ _ _ A E) as (x & G3 & E1 & ->). exists a, b, G1, G2, x, G3. auto.
  Qed.
  (** a call of a one-argument primitive on a pair *)
  Lemma pair_eval : forall D n rho f e a d p G r, scope D rho -> wf (KA f [e]) = true -> as_prim D f = Some p -> prim_arity p = 1 ->
    as_pair D e = Some (a, d) -> eval ar false (S n) rho (show (KA f [e])) G = Some r ->
    exists n1 oa od G1 G2 x G3, n = S n1 /\ wf a = true /\ wf d = true /\
      eval ar false n1 rho (show a) G = Some (oa, G1) /\ eval ar false n1 rho (show d) G1 = Some (od, G2) /\
      prim_sem ar p [VCons (a_val oa) (a_val od)] G2 = Some (x, G3) /\ r = (value x, G3).
  Proof.
    intros D n rho f e a d p G r SC W O A PR E.
    destruct (prim1_eval _ _ _ _ _ _ _ _ SC W O A E) as (o & G1 & x & G2 & E1 & E2 & ->).
    assert (We : wf e = true) by (cbn [wf forallb] in W; rewrite !andb_true_iff in W; tauto).
    destruct e as [| | | | | | |g [|a0 [|d0 [|]]]]; try discriminate. cbn in PR.
    destruct (as_prim D g) as [[]|] eqn:Og; try discriminate. injection PR as -> ->.
    destruct n as [|n]; [discriminate|].
    destruct (prim2_eval _ _ _ _ _ _ _ _ _ SC We Og eq_refl E1) as (oa & od & G3 & G4 & y & G5 & F1 & F2 & F3 & F4).
    cbn in F3. injection F3 as <- <-. injection F4 as -> ->.
    cbn [wf forallb] in We. rewrite !andb_true_iff in We.
    exists n, oa, od, G3, G4, x, G2. repeat split; tauto || assumption.
  Qed.


  (** * Moving a constant into the body of a lambda expression *)
  Lemma ev_args_app : forall {E} (ev : E -> store scode -> option (operand * store scode)) l1 l2 G,
    ev_args ev (l1 ++ l2) G =
    match ev_args ev l1 G with
    | Some (a, G1) => match ev_args ev l2 G1 with Some (b, G2) => Some (a ++ b, G2) | None => None end
    | None => None
    end.
  Proof.
    intros E ev. induction l1 as [|e l1 IH]; intros l2 G; cbn.
    - destruct (ev_args ev l2 G) as [(b, G2)|]; reflexivity.
    - destruct (ev e G) as [(a, G1)|]; [|reflexivity]. rewrite IH.
      destruct (ev_args ev l1 G1) as [(c, G2)|]; [|reflexivity].
      destruct (ev_args ev l2 G2) as [(b, G3)|]; reflexivity.
  Qed.
  Lemma ev_args_length : forall {E} (ev : E -> store scode -> option (operand * store scode)) l G r G1,
    ev_args ev l G = Some (r, G1) -> List.length r = List.length l.
  Proof.
    intros E ev. induction l as [|e l IH]; intros G r G1 H; cbn in H; [now injection H as <- _|].
    destruct (ev e G) as [(a, G2)|]; [|discriminate]. destruct (ev_args ev l G2) as [(b, G3)|] eqn:E1; [|discriminate].
    injection H as <- _. cbn. f_equal. eauto.
  Qed.
  Lemma lookup_skip : forall {A} z p ps0 ps2 (v0 : list A) w u2, List.length v0 = List.length ps0 -> z <> p ->
    lookup z (combine (ps0 ++ p :: ps2) (v0 ++ w :: u2)) = lookup z (combine (ps0 ++ ps2) (v0 ++ u2)).
  Proof.
    intros A z p. induction ps0 as [|q ps0 IH]; intros ps2 [|a v0] w u2 L N; cbn in *; try lia.
    - destruct (name_eqb_spec z p); congruence.
    - destruct (name_eqb z q); [reflexivity|]. apply IH; [lia|exact N].
  Qed.
  Lemma lookup_at : forall {A} p ps0 ps2 (v0 : list A) w u2, List.length v0 = List.length ps0 -> ~ In p ps0 ->
    lookup p (combine (ps0 ++ p :: ps2) (v0 ++ w :: u2)) = Some w.
  Proof.
    intros A p. induction ps0 as [|q ps0 IH]; intros ps2 [|a v0] w u2 L N; cbn in *; try lia.
    - destruct (name_eqb_spec p p); congruence.
    - destruct (name_eqb_spec p q); [subst; tauto|]. apply IH; [lia|tauto].
  Qed.

  Lemma beta_ok : forall n, SIM n -> forall D rho rho' ps0 p ps2 b args0 a args2 G G' r,
    let e' := KA (KL (ps0 ++ ps2) (subst [(p, a)] b)) (args0 ++ args2) in
    scope D rho -> wf (KA (KL (ps0 ++ p :: ps2) b) (args0 ++ a :: args2)) = true -> wf e' = true ->
    pure D a = true -> ~ In p ps0 -> List.length args0 = List.length ps0 -> List.length ps2 <= List.length args2 ->
    (forall q, In q (ps0 ++ ps2) -> ~ In q (fv a)) -> no_capture [(p, a)] b = true ->
    Env [] (fv e') rho rho' -> grel G G' ->
    eval ar false (S n) rho (show (KA (KL (ps0 ++ p :: ps2) b) (args0 ++ a :: args2))) G = Some r ->
    evt (fun m => eval ar false m rho' (show e') G') (rop r).
  Proof.
    intros n IH D rho rho' ps0 p ps2 b args0 a args2 G G' r e' SC W W' P NP L0 L2 FA NC EN HG E.
    assert (WA : wf b = true /\ wf (subst [(p, a)] b) = true /\ wf a = true /\ forallb wf args0 = true /\ forallb wf args2 = true).
    { clear - W W'. cbn [wf] in W, W'. unfold e' in W'. cbn [wf] in W'. rewrite forallb_app in W, W'. cbn [forallb] in W.
      repeat rewrite andb_true_iff in W. repeat rewrite andb_true_iff in W'. tauto. }
    destruct WA as (Wb & Wb' & Wa & W0 & W2). rewrite forallb_forall in W0, W2.
    destruct (pure_eval D rho SC a Wa P) as (w & PA & PD & PK).
    rewrite (eval_app _ _ _ _ _ W) in E.
    change (op_prim rho (show (KL (ps0 ++ p :: ps2) b))) with (@None prim) in E. cbv iota in E.
    destruct n as [|n']; [discriminate|]. remember (S n') as n eqn:En.
    rewrite En in E at 1. rewrite eval_lam in E. rewrite map_app, ev_args_app in E. cbn [map ev_args] in E.
    destruct (ev_args _ (map show args0) G) as [(l0, G1)|] eqn:E0; [|discriminate].
    destruct (eval ar false n rho (show a) G1) as [q|] eqn:E1; [|discriminate]. apply PD in E1. subst q.
    destruct (ev_args _ (map show args2) G1) as [(l2, G2)|] eqn:E2; [|discriminate].
    rewrite map_app in E. cbn [map a_val value] in E.
    apply evt_S. eapply evt_ext; [intro m; symmetry; apply (eval_app m rho' _ _ G' W')|].
    change (op_prim rho' (show (KL (ps0 ++ ps2) (subst [(p, a)] b)))) with (@None prim). cbv iota.
    set (c' := VClo (mkSC (ps0 ++ ps2) (show (subst [(p, a)] b)) (map fst rho')) (map snd rho')).
    eapply evt_bind with (P := eq (value c', G')) (g := fun m '(a, G1) => match ev_args (eval ar false m rho') (map show (args0 ++ args2)) G1 with
              Some (l, G2) => call m (a_val a) (map a_val l) G2 | None => None end).
    { eapply evt_now; [reflexivity|]. intro m. apply eval_lam. }
    intros q <-. cbn [a_val value].
    assert (I0 : forall x, In x args0 -> incl (fv x) (fv e')).
    { intros x I z Z. unfold e'. cbn [fv]. apply in_app_iff. right. apply in_flat_map. exists x. rewrite in_app_iff. auto. }
    assert (I2 : forall x, In x args2 -> incl (fv x) (fv e')).
    { intros x I z Z. unfold e'. cbn [fv]. apply in_app_iff. right. apply in_flat_map. exists x. rewrite in_app_iff. auto. }
    assert (OK : forall l, (forall x, In x l -> wf x = true) -> (forall x, In x l -> incl (fv x) (fv e')) -> Forall2 (ok rho rho') l l).
    { clear - EN. induction l as [|x l IHl]; intros H1 H2; constructor.
      - apply ok_refl; [apply H1; now left|]. eapply Env_mono; [|exact EN]. apply H2. now left.
      - apply IHl; auto with datatypes. }
    apply evt_ext with (f := fun m => match ev_args (eval ar false m rho') (map show args0) G' with
              | Some (l0, G1) => match ev_args (eval ar false m rho') (map show args2) G1 with
                   | Some (l2, G2) => call m c' (map a_val l0 ++ map a_val l2) G2 | None => None end
              | None => None end).
    { intro m. rewrite map_app, ev_args_app. destruct (ev_args _ (map show args0) G') as [(x0, y0)|]; [|reflexivity].
      destruct (ev_args _ (map show args2) y0) as [(x2, y2)|]; [|reflexivity]. now rewrite map_app. }
    eapply evt_bind with (g := fun m '(l0, G1) => match ev_args (eval ar false m rho') (map show args2) G1 with
                   | Some (l2, G2) => call m c' (map a_val l0 ++ map a_val l2) G2 | None => None end);
      [eapply (args_ok n IH); [apply (OK args0 W0 I0)|exact HG|exact E0]|].
    intros (l0', G3) (HL0 & HG3). cbn [fst snd] in HL0, HG3.
    eapply evt_bind with (g := fun m '(l2, G2) => call m c' (map a_val l0' ++ map a_val l2) G2);
      [eapply (args_ok n IH); [apply (OK args2 W2 I2)|exact HG3|exact E2]|].
    intros (l2', G4) (HL2 & HG4). cbn [fst snd] in HL2, HG4.
    apply ev_args_length in E0, E2. rewrite map_length in E0, E2.
    assert (N0 : List.length (map a_val l0) = List.length ps0) by (rewrite map_length; congruence).
    assert (N2 : List.length ps2 <= List.length (map a_val l2)) by (rewrite map_length; lia).
    set (v0 := map a_val l0) in *. set (v2 := map a_val l2) in *. set (u0 := map a_val l0') in *. set (u2 := map a_val l2') in *.
    pose proof (Forall2_len _ _ _ HL0) as M0. pose proof (Forall2_len _ _ _ HL2) as M2.
    clearbody v0 v2 u0 u2. clear l0 l2 l0' l2' E0 E2 HG HG3 G1 G3.
    (* the call *)
    set (c := VClo (mkSC (ps0 ++ p :: ps2) (show b) (map fst rho)) (map snd rho)) in *.
    unfold call in E. destruct (apply ar s_arity (run n) n c (v0 ++ w :: v2) G2) as [(v, G5)|] eqn:EA; [|discriminate].
    injection E as <-. rewrite En in EA at 2. cbn [apply] in EA. unfold c in EA at 1. cbn [need] in EA.
    assert (AR : s_arity (mkSC (ps0 ++ p :: ps2) (show b) (map fst rho)) = List.length ps0 + S (List.length ps2))
      by (unfold s_arity; cbn [sc_ps]; rewrite app_length; reflexivity).
    rewrite !AR in EA. rewrite !app_length in EA. cbn [List.length] in EA.
    destruct (Nat.ltb_spec (List.length v0 + S (List.length v2)) (List.length ps0 + S (List.length ps2))) as [LT|_]; [lia|].
    assert (FN : firstn (List.length ps0 + S (List.length ps2)) (v0 ++ w :: v2) = v0 ++ w :: firstn (List.length ps2) v2).
    { rewrite firstn_app. rewrite firstn_all2 by lia. f_equal. rewrite N0.
      replace (List.length ps0 + S (List.length ps2) - List.length ps0) with (S (List.length ps2)) by lia. reflexivity. }
    assert (SK : skipn (List.length ps0 + S (List.length ps2)) (v0 ++ w :: v2) = skipn (List.length ps2) v2).
    { rewrite skipn_app. rewrite skipn_all2 by lia. rewrite N0.
      replace (List.length ps0 + S (List.length ps2) - List.length ps0) with (S (List.length ps2)) by lia. reflexivity. }
    rewrite FN, SK in EA. unfold c in EA at 1. cbn [exact] in EA.
    destruct (run n _ _ (v0 ++ w :: firstn (List.length ps2) v2) G2) as [(v1, G6)|] eqn:ER; [|discriminate].
    unfold run in ER. cbn [sc_ps sc_env sc_body] in ER. rewrite combine_fst_snd in ER.
    assert (FT : Forall2 pv (v0 ++ firstn (List.length ps2) v2) (u0 ++ firstn (List.length ps2) u2)).
    { apply Forall2_app; [exact HL0|]. now apply Forall2_firstn. }
    assert (LT : List.length (v0 ++ firstn (List.length ps2) v2) = List.length (ps0 ++ ps2)).
    { rewrite !app_length, firstn_length. lia. }
    assert (LT' : List.length (u0 ++ firstn (List.length ps2) u2) = List.length (ps0 ++ ps2)).
    { rewrite <- LT. symmetry. eapply Forall2_len. exact FT. }
    set (bs := subst [(p, a)] b) in *.
    assert (EB : Env [] (fv bs) (combine (ps0 ++ ps2) (v0 ++ firstn (List.length ps2) v2) ++ rho)
                   (combine (ps0 ++ ps2) (u0 ++ firstn (List.length ps2) u2) ++ rho')).
    { rewrite <- (minus_nil (ps0 ++ ps2)). apply (Env_bind [] (fv e')); [exact FT|exact LT| | |exact EN].
      - intros x I N. unfold e'. cbn [fv]. apply in_app_iff. left. apply in_remove_all. auto.
      - discriminate. }
    assert (EB2 : Env [(p, a)] (fv b) (combine (ps0 ++ p :: ps2) (v0 ++ w :: firstn (List.length ps2) v2) ++ rho)
                   (combine (ps0 ++ ps2) (u0 ++ firstn (List.length ps2) u2) ++ rho')).
    { destruct EB as (A & B & _). split; [|split].
      - intros z I L K. cbn in L. destruct (name_eqb_spec z p) as [->|N]; [discriminate|].
        rewrite lookup_app, lookup_skip, <- lookup_app in K by auto. apply A; auto.
        apply fv_subst_keep; [exact I|]. cbn. destruct (name_eqb_spec z p); [congruence|reflexivity].
      - intros z x I L K. cbn in L. destruct (name_eqb_spec z p) as [->|N]; [discriminate|].
        rewrite lookup_app, lookup_skip, <- lookup_app in K by auto. apply B; auto.
        apply fv_subst_keep; [exact I|]. cbn. destruct (name_eqb_spec z p); [congruence|reflexivity].
      - intros z x I L. cbn [lookup] in L. destruct (name_eqb_spec z p) as [->|N]; [|discriminate]. injection L as <-.
        exists w. split; [rewrite lookup_app, lookup_at by auto; reflexivity|]. intros rho2 AG. apply PK.
        apply (Env_agree _ _ rho').
        + intros z Z. rewrite <- (AG z Z), lookup_app.
          assert (Nz : ~ In z (ps0 ++ ps2)) by (intro J; exact (FA z J Z)).
          apply (lookup_combine_none z _ _ LT') in Nz. now rewrite Nz.
        + eapply Env_mono; [|exact EN]. intros z Z. unfold e'. cbn [fv]. apply in_app_iff. left. apply in_remove_all.
          split; [|intro J; exact (FA z J Z)].
          apply (fv_subst_range b [(p, a)] p a NC I); [|exact Z]. cbn. destruct (name_eqb_spec p p); congruence. }
    assert (OB : ok (combine (ps0 ++ p :: ps2) (v0 ++ w :: firstn (List.length ps2) v2) ++ rho)
                   (combine (ps0 ++ ps2) (u0 ++ firstn (List.length ps2) u2) ++ rho') b bs).
    { repeat split; auto. exists [(p, a)], (fv b). split; [now constructor|exact EB2]. }
    destruct (ok_result n IH _ _ _ _ _ _ _ OB HG4 ER) as ((v1', G6') & m1 & (HV1 & HG6) & EM1). cbn in HV1, HG6.
    assert (FN' : firstn (List.length ps0 + List.length ps2) (u0 ++ u2) = u0 ++ firstn (List.length ps2) u2).
    { rewrite firstn_app. rewrite firstn_all2 by lia. f_equal. f_equal. lia. }
    assert (SK' : skipn (List.length ps0 + List.length ps2) (u0 ++ u2) = skipn (List.length ps2) u2).
    { rewrite skipn_app. rewrite skipn_all2 by lia. cbn. f_equal. lia. }
    assert (AP : forall m k, m1 <= m -> apply ar s_arity (run m) (S k) c' (u0 ++ u2) G4 =
        match skipn (List.length ps2) u2 with [] => Some (v1', G6') | l => apply ar s_arity (run m) k v1' l G6' end).
    { intros m k LE. cbn [apply]. unfold c' at 1. cbn [need].
      assert (AR' : s_arity (mkSC (ps0 ++ ps2) (show bs) (map fst rho')) = List.length ps0 + List.length ps2)
        by (unfold s_arity; cbn [sc_ps]; apply app_length).
      rewrite !AR'. rewrite !app_length.
      destruct (Nat.ltb_spec (List.length u0 + List.length u2) (List.length ps0 + List.length ps2)) as [LT0|_]; [lia|].
      rewrite FN', SK'. unfold c' at 1. cbn [exact]. unfold run at 1. cbn [sc_ps sc_env sc_body]. rewrite combine_fst_snd.
      rewrite (EM1 m LE). reflexivity. }
    pose proof (Forall2_skipn _ (List.length ps2) _ _ HL2) as HS.
    destruct (skipn (List.length ps2) v2) as [|x xs] eqn:ES.
    - injection EA as <- <-. exists (value v1', G6'), (S m1). split; [split; auto|].
      intros [|m] LE; [lia|]. unfold call. rewrite AP by lia. inversion HS. reflexivity.
    - inversion HS as [|x1 y1 xs1 ys1 K1 K2 K3 K4]; subst x1 xs1. rewrite <- K4 in HS, AP.
      destruct (apply_ok2 n IH _ _ _ _ _ _ _ _ HV1 HS HG6 EA) as ((v3, G7) & m2 & (HV3 & HG7) & EM2). cbn in HV3, HG7.
      exists (value v3, G7), (S (max m1 m2)). split; [split; auto|].
      intros [|m] LE; [lia|]. unfold call. rewrite AP by lia.
      rewrite EM2 by lia. reflexivity.
  Qed.


  Lemma sub_ok : forall s e U rho rho', wf e = true -> wf (subst s e) = true -> no_capture s e = true -> Env s U rho rho' ->
    incl (fv e) U -> ok rho rho' e (subst s e).
  Proof.
    intros s e U rho rho' W W' NC E I. repeat split; auto. exists s, (fv e). split; [now constructor|]. eapply Env_mono; eauto.
  Qed.
  Lemma step_ok : forall D e e' U rho rho', wf e = true -> wf e' = true -> step ar D e e' -> scope D rho -> Env [] U rho rho' ->
    incl (fv e') U -> ok rho rho' e e'.
  Proof.
    intros D e e' U rho rho' W W' ST SC E I. repeat split; auto. exists [], (fv e'). split; [econstructor; eauto|].
    eapply Env_mono; eauto.
  Qed.

  Lemma sim_sub : forall n, SIM n -> forall s e rho rho' G G' r, no_capture s e = true -> wf e = true ->
    wf (subst s e) = true -> Env s (fv e) rho rho' -> grel G G' ->
    eval ar false (S n) rho (show e) G = Some r -> evt (fun m => eval ar false m rho' (show (subst s e)) G') (rop r).
  Proof.
    intros n IH s e rho rho' G G' r NC W W' EN HG E.
    destruct e as [c|c|x|ps b|a b c|a b|x b c|f args].
    - rewrite eval_const in E by exact W. injection E as <-. eapply evt_rop; [|apply quoted_rel|exact HG].
      eapply evt_now; [reflexivity|]. intro m. now apply eval_const.
    - cbn in E. injection E as <-. eapply evt_rop; [|apply quoted_rel|exact HG].
      eapply evt_now; [reflexivity|]. intro m. reflexivity.
    - cbn [subst]. destruct EN as (A & B & C). cbn in E. destruct (lookup x s) as [q|] eqn:L.
      + destruct (C x q (or_introl eq_refl) L) as (v & LV & K). rewrite LV in E. injection E as <-.
        destruct (K rho') as (w & P & R); [intros z _; reflexivity|]. eapply evt_rop; [apply P|exact R|exact HG].
      + destruct (lookup x rho) as [v|] eqn:LV.
        * injection E as <-. destruct (B x v (or_introl eq_refl) L LV) as (w & LW & R).
          eapply evt_rop; [|exact R|exact HG]. eapply evt_now; [reflexivity|]. intro m. cbn. now rewrite LW.
        * destruct (g_val G x) as [v|] eqn:GV; [|discriminate]. injection E as <-.
          pose proof HG as (_ & HG2). specialize (HG2 x). rewrite GV in HG2.
          destruct (g_val G' x) as [w|] eqn:GW; [|contradiction].
          exists (mkA w (Some (x, g_ver G' x)), G'), 1. split; [split; auto|]. intros [|m] Lm; [lia|]. cbn.
          rewrite (A x (or_introl eq_refl) L LV), GW. reflexivity.
    - rewrite eval_lam in E. injection E as <-. eapply evt_rop; [|eapply (pv_lam s ps b (subst (minus ps s) b) (fv (KL ps b)))|exact HG].
      + eapply evt_now; [reflexivity|]. intro m. apply eval_lam.
      + apply (t_sub s (KL ps b)). exact NC.
      + exact W.
      + exact W'.
      + exact EN.
    - cbn [subst wf no_capture] in *. rewrite !andb_true_iff in *. destruct NC as ((N1 & N2) & N3).
      destruct W as ((W1 & W2) & W3). destruct W' as ((V1 & V2) & V3).
      eapply (if_ok n IH); [| | |exact HG|exact E]; eapply sub_ok; eauto; cbn; auto with datatypes.
    - cbn [subst wf no_capture] in *. rewrite !andb_true_iff in *. destruct NC as (N1 & N2).
      destruct W as (W1 & W2). destruct W' as (V1 & V2).
      eapply (do_ok n IH); [| |exact HG|exact E]; eapply sub_ok; eauto; cbn; auto with datatypes.
    - cbn [subst wf no_capture] in *. rewrite !andb_true_iff in *. destruct NC as (N1 & N2 & N3).
      destruct W as (W1 & W2). destruct W' as (V1 & V2).
      eapply (let_ok n IH); [| |exact HG|exact E].
      + eapply sub_ok; eauto; cbn; auto with datatypes.
      + intros v w R. eapply sub_ok; eauto; [|apply incl_refl].
        apply (Env_bind s (fv (KT x b c)) rho rho' [x] [v] [w]); auto.
        * intros z I N. cbn [fv]. apply in_app_iff. right. apply in_remove_all. auto.
        * intros z q p I N L P. eapply fresh_binders_spec; eauto.
    - pose proof W as W0. pose proof W' as W0'. cbn [subst wf no_capture] in *. rewrite !andb_true_iff in *. destruct NC as (N1 & N2).
      destruct W as ((W1 & W2) & W3). destruct W' as ((V1 & V2) & V3).
      eapply (app_ok n IH); [| | | | |exact HG|exact E]; cbn [wf]; rewrite ?andb_true_iff; auto.
      + eapply sub_ok; eauto; cbn; auto with datatypes.
      + rewrite forallb_forall in *. 
        assert (X : forall l, incl l args -> Forall2 (ok rho rho') l (map (subst s) l)).
        { induction l as [|a l IHl]; intro I; cbn; constructor.
          - assert (Ia : In a args) by (apply I; now left).
            eapply sub_ok; eauto; [apply V3; now apply in_map|].
            cbn. intros z Z. apply in_app_iff. right. apply in_flat_map. eauto.
          - apply IHl. intros z Z. apply I. now right. }
        apply X, incl_refl.
      + intros o <-. eapply op_sub; eauto. cbn. auto with datatypes.
  Qed.

  Theorem sim : forall n, SIM n.
  Proof.
    intro n. induction n as [n IHn] using (well_founded_induction lt_wf).
    destruct n as [|n]; [intros s e e' U rho rho' G G' r _ _ _ _ _ E; discriminate|].
    assert (IH : SIM n) by (apply IHn; lia).
    intros s e e' U rho rho' G G' r R W W' EN HG E.
    destruct R as [s e rho NC|D e e' rho ST SC]; [eapply sim_sub; eauto|].
    assert (RF : forall e1 k, k <= n -> wf e1 = true -> incl (fv e1) (fv e') -> forall r1, eval ar false k rho (show e1) G = Some r1 ->
      evt (fun m => eval ar false m rho' (show e1) G') (rop r1)).
    { intros e1 k L W1 I r1 E1. assert (K : k < S n) by lia. eapply (ok_eval k (IHn k K)); [|exact HG|exact E1].
      apply ok_refl; [exact W1|]. eapply Env_mono; eauto. }
    destruct ST.
    - pose proof (sim_sub n IH [] e rho rho' G G' r (no_capture_nil e) W) as X. rewrite subst_nil in X. now apply X.
    - rewrite eval_lam in E. injection E as <-. eapply evt_rop; [|eapply (pv_lam [] ps b b' (fv (KL ps b')))|exact HG].
      + eapply evt_now; [reflexivity|]. intro m. apply eval_lam.
      + eapply t_step; [|exact SC]. now constructor.
      + exact W.
      + exact W'.
      + exact EN.
    - cbn [wf] in *. rewrite !andb_true_iff in *. destruct W as ((W1 & W2) & W3). destruct W' as ((V1 & V2) & V3).
      eapply (if_ok n IH); [| | |exact HG|exact E]; eapply step_ok; eauto; cbn; auto with datatypes.
    - cbn [wf] in *. rewrite !andb_true_iff in *. destruct W as (W1 & W2). destruct W' as (V1 & V2).
      eapply (do_ok n IH); [| |exact HG|exact E]; eapply step_ok; eauto; cbn; auto with datatypes.
    - cbn [wf] in *. rewrite !andb_true_iff in *. destruct W as (W1 & W2). destruct W' as (V1 & V2).
      eapply (let_ok n IH); [| |exact HG|exact E].
      + eapply step_ok; eauto; cbn; auto with datatypes.
      + intros v w R. eapply step_ok; [exact W2|exact V2|eassumption| | |apply incl_refl].
        * apply (scope_bind D rho [x] [v] eq_refl SC).
        * apply (Env_bind [] (fv (KT x b' c')) rho rho' [x] [v] [w]); auto; [|discriminate].
          intros z I N. cbn [fv]. apply in_app_iff. right. apply in_remove_all. auto.
    - pose proof W as W0. pose proof W' as W0'. cbn [wf] in W, W'. rewrite !andb_true_iff in W, W'.
      destruct W as ((W1 & W2) & W3). destruct W' as ((V1 & V2) & V3).
      eapply (app_ok n IH); [exact W0|exact W0'| | | |exact HG|exact E].
      + eapply step_ok; eauto; cbn; auto with datatypes.
      + assert (I : forall a, In a args' -> incl (fv a) (fv (KA f' args'))).
        { intros a Ia z Z. cbn. apply in_app_iff. right. apply in_flat_map. eauto. }
        clear - H W3 V3 I SC EN. revert I EN. generalize (fv (KA f' args')) as U. intros U I EN. induction H; [constructor|]. cbn [forallb] in *. rewrite andb_true_iff in *.
        destruct W3, V3. constructor; [|apply IHForall2; auto with datatypes]. eapply step_ok; eauto with datatypes.
      + intros o <-. destruct f' as [c|c|y|ps b|a b c|a b|z b c|g l];
          try (assert (X : forall y, f <> KV y) by (intros y ->; apply step_var in ST; discriminate);
               rewrite (op_none rho f W2 X); apply op_none; [exact V2|discriminate]).
        destruct (H1 y eq_refl) as [->|PN].
        * eapply op_var; [exact EN|now left|reflexivity].
        * cbn [show op_prim]. rewrite PN. destruct f as [c|c|z|ps b|a b c|a b|z b c|g l];
            try (rewrite op_none; [now destruct (lookup y rho')|exact W2|discriminate]).
          apply step_var in ST. injection ST as ->. cbn. rewrite PN.
          now destruct (lookup z rho), (lookup z rho').
    - destruct n as [|n']; [discriminate|]. change (eval ar false (S n') rho (show b) G = Some r) in E.
      cbn [wf] in W. eapply RF; eauto; apply incl_refl.
    - destruct n as [|n']; [discriminate|]. change (eval ar false (S n') rho (show c) G = Some r) in E.
      eapply RF; eauto; apply incl_refl.
    - change (match result (eval ar false n rho (show (KL ps b)) G) with Some (_, G1) => eval ar false n rho (show c) G1 | None => None end = Some r) in E.
      destruct n as [|n']; [discriminate|]. rewrite eval_lam in E. cbn [result a_val value] in E.
      eapply RF; eauto; apply incl_refl.
    - change (match result (eval ar false n rho (show b) G) with Some (v, G1) => eval ar false n ((x, v) :: rho) (show c) G1 | None => None end = Some r) in E.
      cbn [wf] in W. rewrite andb_true_iff in W. destruct W as (W1 & W2).
      destruct (pure_eval D rho SC b W1 H) as (w & PA & PD & PK).
      destruct (eval ar false n rho (show b) G) as [q|] eqn:E1; [|discriminate]. apply PD in E1. subst q. cbn [result a_val value] in E.
      eapply (ok_eval n IH); [|exact HG|exact E]. repeat split; auto. exists [(x, b)], (fv c). split; [now constructor|].
      eapply Env_sub1; eauto.
    - change (match result (eval ar false n rho (show b) G) with Some (v, G1) => eval ar false n ((x, v) :: rho) (show c) G1 | None => None end = Some r) in E.
      cbn [wf] in W. rewrite andb_true_iff in W. destruct W as (W1 & W2). apply evt_S.
      destruct (result (eval ar false n rho (show b) G)) as [(v, G1)|] eqn:E1; [|discriminate].
      apply evt_ext with (f := fun m => match result (eval ar false m rho' (show b) G') with
              | Some p => match p with (_, G1) => eval ar false m rho' (show c) G1 end
              | None => None end); [reflexivity|].
      eapply evt_bind; [eapply (ok_result n IH); [|exact HG|exact E1]; apply ok_refl; auto; eapply Env_mono; [|exact EN]; cbn; auto with datatypes|].
      intros (v2, G2) (HV & HG2). cbn in HV, HG2. eapply (ok_eval n IH); [|exact HG2|exact E]. apply ok_refl; [exact W2|].
      apply Env_unused; [assumption|]. eapply Env_mono; [|exact EN]. cbn. auto with datatypes.
    - destruct (pair_eval _ _ _ _ _ _ _ _ _ _ SC W H eq_refl H0 E) as (n1 & oa & od & G1 & G2 & y & G3 & -> & Wa & Wd & E1 & E2 & E3 & ->).
      destruct (pure_eval D rho SC a Wa H1) as (w1 & _ & PD1 & _). apply PD1 in E1. injection E1 as -> ->.
      destruct (pure_eval D rho SC d Wd H2) as (w2 & _ & PD2 & _). apply PD2 in E2. injection E2 as -> ->.
      cbn in E3. injection E3 as <- <-. eapply evt_rop; [|constructor|exact HG]. eapply evt_now; [reflexivity|]. reflexivity.
    - destruct (pair_eval _ _ _ _ _ _ _ _ _ _ SC W H eq_refl H0 E) as (n1 & oa & od & G1 & G2 & y & G3 & -> & Wa & Wd & E1 & E2 & E3 & ->).
      destruct (pure_eval D rho SC d Wd H1) as (w2 & _ & PD2 & _). apply PD2 in E2. injection E2 as -> ->.
      cbn in E3. injection E3 as <- <-. apply (RF a n1) in E1; [|lia|exact Wa|apply incl_refl].
      eapply evt_weaken; [|exact E1]. intros (q1, q2) (K1 & K2). split; auto.
    - destruct (pair_eval _ _ _ _ _ _ _ _ _ _ SC W H eq_refl H0 E) as (n1 & oa & od & G1 & G2 & y & G3 & -> & Wa & Wd & E1 & E2 & E3 & ->).
      destruct (pure_eval D rho SC a Wa H1) as (w2 & _ & PD2 & _). apply PD2 in E1. injection E1 as -> ->.
      cbn in E3. injection E3 as <- <-. apply (RF d n1) in E2; [|lia|exact Wd|apply incl_refl].
      eapply evt_weaken; [|exact E2]. intros (q1, q2) (K1 & K2). split; auto.
    - destruct (prim1_eval _ _ _ _ _ _ _ _ SC W H eq_refl E) as (a & G1 & y & G2 & E1 & E2 & ->).
      destruct n as [|n']; [discriminate|]. rewrite eval_const in E1 by reflexivity. injection E1 as <- <-. cbn in E2. injection E2 as <- <-.
      eapply evt_rop; [|constructor|exact HG]. eapply evt_now; [reflexivity|]. reflexivity.
    - destruct (prim1_eval _ _ _ _ _ _ _ _ SC W H eq_refl E) as (a & G1 & y & G2 & E1 & E2 & ->).
      destruct n as [|n']; [discriminate|]. rewrite eval_const in E1 by reflexivity. injection E1 as <- <-. cbn in E2. injection E2 as <- <-.
      eapply evt_rop; [|constructor|exact HG]. eapply evt_now; [reflexivity|]. reflexivity.
    - destruct (prim2_eval D n rho f (KC (SNum x)) (KC (SNum y)) p G r SC W H) as (a & b & G1 & G2 & q & G3 & E1 & E2 & E3 & ->);
        [now destruct H0; subst|exact E|].
      destruct n as [|n']; [discriminate|]. rewrite eval_const in E1, E2 by reflexivity. injection E1 as <- <-. injection E2 as <- <-.
      assert (EQ : (q, G3) = (VNum z, G)).
      { destruct H0 as [->| ->]; cbn in E3; rewrite H1 in E3; congruence. }
      injection EQ as -> ->. eapply evt_rop; [|constructor|exact HG]. eapply evt_now; [reflexivity|]. reflexivity.
    - eapply (beta_ok n IH D rho rho' ps0 p ps2 b args0 a args2); eauto.
    - rewrite (eval_app _ _ _ _ _ W) in E. change (op_prim rho (show (KL [] b))) with (@None prim) in E. cbv iota in E.
      destruct n as [|n']; [discriminate|]. rewrite eval_lam in E. cbn [map ev_args a_val value] in E.
      unfold call in E. cbn [apply need] in E. unfold s_arity in E. cbn [sc_ps List.length Nat.ltb Nat.leb firstn skipn exact] in E.
      unfold run in E. cbn [sc_ps sc_env sc_body combine app] in E. rewrite combine_fst_snd in E.
      destruct (eval ar false (S n') rho (show b) G) as [(a, G1)|] eqn:E1; [|discriminate].
      cbn [result] in E. injection E as <-. apply (RF b (S n')) in E1; [|lia|exact W'|apply incl_refl].
      eapply evt_weaken; [|exact E1]. intros (q1, q2) (K1 & K2). split; auto.
  Qed.

End Sim.
