(** Liveness: the variables saved across a call are enough, and they are all
    defined at that point. *)
From Coq Require Import List ZArith Bool String Arith Lia.
From Verif Require Import CoreSpec CoreProofs TocModel TocSem TocClosure TocTail.
Import ListNotations.
Local Open Scope list_scope.
Local Open Scope nat_scope.

(** * Functions are closed after closure conversion *)
Fixpoint closed_exp (e : exp) : bool :=
  match e with
  | EConst _ | EGlob _ | EVar _ | ERef _ => true
  | ELam _ _ => false
  | EClo ps b frees => closed_exp b && forallb (fun x => mem x ps) (free_vars b) && forallb closed_exp frees
  | EIf a b c => closed_exp a && closed_exp b && closed_exp c
  | EDo a b => closed_exp a && closed_exp b
  | ELet x b c => closed_exp b && closed_exp c
  | EPrim _ args => forallb closed_exp args
  | EApp f args => closed_exp f && forallb closed_exp args
  end.

Lemma convert_free : forall e fvs, plain e = true -> forall x, In x (free_vars (closure_convert fvs e)) ->
  In x (free_vars e) /\ ~ In x fvs.
Proof.
  assert (VAR : forall fvs x y, In x (free_vars (convert_var fvs y)) -> x = y /\ ~ In x fvs).
  { intros fvs x y H. unfold convert_var in H. destruct (index y fvs) eqn:E; cbn in H; [contradiction|].
    destruct H as [<-|[]]. split; [reflexivity|]. now apply index_none. }
  assert (L : forall l fvs, Forall (fun e => forall fvs, plain e = true -> forall x, In x (free_vars (closure_convert fvs e)) ->
       In x (free_vars e) /\ ~ In x fvs) l -> forallb plain l = true ->
     forall e x, In e (map (closure_convert fvs) l) -> In x (free_vars e) -> (exists e', In e' l /\ In x (free_vars e')) /\ ~ In x fvs).
  { intros l fvs H HP e x He Hx. apply in_map_iff in He. destruct He as (e' & <- & He').
    rewrite Forall_forall in H. rewrite forallb_forall in HP. destruct (H e' He' fvs (HP _ He') x Hx). eauto. }
  induction e using exp_ind'; intros fvs HP y Hy; cbn -[unions] in Hy, HP |- *; try discriminate; try contradiction.
  - apply VAR in Hy. destruct Hy as (-> & N). auto.
  - apply in_unions in Hy. destruct Hy as (s & [<-|Hs] & Hy).
    + apply in_diff in Hy. destruct Hy as (Hy & Nps). destruct (IHe _ HP _ Hy) as (A & B).
      exfalso. apply B. apply in_diff. auto.
    + rewrite map_map in Hs. apply in_map_iff in Hs. destruct Hs as (z & <- & Hz). apply VAR in Hy. destruct Hy as (-> & N). auto.
  - repeat (apply andb_true_iff in HP as [HP ?]). rewrite in_unions in Hy |- *.
    destruct Hy as (s & [<-|[<-|[<-|[]]]] & Hy);
      [destruct (IHe1 fvs HP _ Hy)|destruct (IHe2 fvs ltac:(assumption) _ Hy)|destruct (IHe3 fvs ltac:(assumption) _ Hy)];
      (split; [|assumption]); eexists; (split; [|eassumption]); cbn; auto.
  - repeat (apply andb_true_iff in HP as [HP ?]). rewrite in_unions in Hy |- *.
    destruct Hy as (s & [<-|[<-|[]]] & Hy);
      [destruct (IHe1 fvs HP _ Hy)|destruct (IHe2 fvs ltac:(assumption) _ Hy)];
      (split; [|assumption]); eexists; (split; [|eassumption]); cbn; auto.
  - repeat (apply andb_true_iff in HP as [HP ?]). rewrite in_union, in_diff in Hy |- *.
    destruct Hy as [Hy|[Hy N]]; [destruct (IHe1 fvs HP _ Hy); auto|destruct (IHe2 fvs ltac:(assumption) _ Hy); auto].
  - rewrite in_unions_map' in Hy |- *. destruct Hy as (e & He & Hx). eapply L; eauto.
  - apply andb_true_iff in HP as [HP1 HP2]. rewrite in_unions_app in Hy |- *.
    destruct Hy as [Hy|(e0 & He & Hx)]; [destruct (IHe fvs HP1 _ Hy); auto|].
    destruct (L _ fvs H HP2 _ _ He Hx). auto.
Qed.

Lemma convert_closed : forall e fvs, plain e = true -> closed_exp (closure_convert fvs e) = true.
Proof.
  assert (L : forall l fvs, Forall (fun e => forall fvs, plain e = true -> closed_exp (closure_convert fvs e) = true) l ->
     forallb plain l = true -> forallb closed_exp (map (closure_convert fvs) l) = true).
  { intros l fvs H HP. rewrite forallb_forall in HP |- *. rewrite Forall_forall in H. intros e He.
    apply in_map_iff in He. destruct He as (e' & <- & He). auto. }
  induction e using exp_ind'; intros fvs HP; cbn in HP |- *; try reflexivity; try discriminate; rewrite ?andb_true_iff in *; auto.
  - unfold convert_var. destruct (index x fvs); reflexivity.
  - split; [split; [auto|]|].
    + rewrite forallb_forall. intros x Hx. destruct (convert_free e _ HP _ Hx) as (A & B).
      destruct (mem_spec x ps) as [|N]; [reflexivity|]. exfalso. apply B. apply in_diff. auto.
    + rewrite forallb_forall. intros x Hx. apply in_map_iff in Hx. destruct Hx as (y & <- & _).
      unfold convert_var. destruct (index y fvs); reflexivity.
  - intuition.
  - intuition.
  - intuition.
  - intuition.
Qed.

(** * Scoping of statements *)
Fixpoint sok_simple (s : simple) : bool :=
  match s with
  | SmVar _ | SmConst _ | SmGlob _ | SmRef _ => true
  | SmClo ps b frees =>
      sok_stm b && forallb (fun x => mem x ps) (fv_stm b) &&
      forallb (fun s => match s with SmVar _ | SmRef _ => true | _ => false end) frees
  | SmLab _ _ _ _ => false
  end
with sok_stm (t : stm) : bool :=
  match t with
  | TRet s => sok_simple s
  | TTail f args => sok_simple f && forallb sok_simple args
  | TCall f args v k live => sok_simple f && forallb sok_simple args && sok_stm k && match live with None => true | _ => false end
  | TJump _ _ _ _ => false
  | TLet x s k => sok_simple s && sok_stm k
  | TPrim x p args k => forallb sok_simple args && sok_stm k
  | TIf s a b => sok_simple s && sok_stm a && sok_stm b
  | TDo s k => sok_simple s && sok_stm k
  end.

Lemma simples_fv : forall l ss, simples l = Some ss ->
  (forall s x, In s ss -> In x (fv_simple s) -> exists e, In e l /\ In x (free_vars e)) /\
  forallb (fun s => match s with SmVar _ | SmRef _ => true | _ => false end) ss = true.
Proof.
  induction l as [|e l IH]; intros ss E; cbn in E.
  - injection E as <-. split; [intros s x []|reflexivity].
  - destruct e; try discriminate; (destruct (simples l) as [ss'|] eqn:E1; [|discriminate]); injection E as <-;
      destruct (IH _ eq_refl) as (A & B); (split; [|exact B]).
    + intros s y [<-|Hs] Hy; [exists (EVar x); split; [now left|exact Hy]|].
      destruct (A s y Hs Hy) as (e & He & Hx). exists e. split; [now right|exact Hx].
    + intros s y [<-|Hs] Hy; [destruct Hy|].
      destruct (A s y Hs Hy) as (e & He & Hx). exists e. split; [now right|exact Hx].
Qed.

(** the continuation only adds uses of what it is given *)
Definition kscope (next : kont) (V : name -> Prop) : Prop :=
  forall V' : name -> Prop, (forall x, V x -> V' x) -> forall s m t m', sok_simple s = true -> (forall x, In x (fv_simple s) -> V' x) ->
    apply_k next s m = Some (t, m') -> sok_stm t = true /\ forall x, In x (fv_stm t) -> V' x.

Lemma kscope_weaken : forall next (V V' : name -> Prop), (forall x, V x -> V' x) -> kscope next V -> kscope next V'.
Proof. intros next V V' H K V2 H2. apply K. auto. Qed.

Lemma kscope_id : forall V, kscope KId V.
Proof. intros V V' HV s m t m' HS HX E. cbn in E. injection E as <- _. cbn. auto. Qed.

Lemma in_unions_simples : forall x s0 (l : list simple), In x (unions (s0 :: map fv_simple l)) <->
  In x s0 \/ exists s, In s l /\ In x (fv_simple s).
Proof.
  intros x s0 l. rewrite in_unions. split.
  - intros (s & [<-|H] & Hx); [auto|]. apply in_map_iff in H. destruct H as (e & <- & H). eauto.
  - intros [Hx|(e & H & Hx)]; [exists s0; split; [now left|exact Hx]|].
    exists (fv_simple e). split; [right; now apply in_map|exact Hx].
Qed.

Lemma tailify_scope : forall e, closed_exp e = true -> forall next (V : name -> Prop) m t m', kscope next V ->
  (forall x, In x (free_vars e) -> V x) -> tailify e next m = Some (t, m') ->
  sok_stm t = true /\ forall x, In x (fv_stm t) -> V x.
Proof.
  set (Q := fun e => closed_exp e = true -> forall next (V : name -> Prop) m t m', kscope next V ->
    (forall x, In x (free_vars e) -> V x) -> tailify e next m = Some (t, m') ->
    sok_stm t = true /\ forall x, In x (fv_stm t) -> V x).
  assert (L : forall l, Forall Q l -> forallb closed_exp l = true -> forall acc fin (V : name -> Prop) m t m',
     (forall e x, In e l -> In x (free_vars e) -> V x) ->
     forallb sok_simple acc = true -> (forall s x, In s acc -> In x (fv_simple s) -> V x) ->
     (forall V' : name -> Prop, (forall x, V x -> V' x) -> forall ss m t m', forallb sok_simple ss = true ->
        (forall s x, In s ss -> In x (fv_simple s) -> V' x) -> fin ss m = Some (t, m') ->
        sok_stm t = true /\ forall x, In x (fv_stm t) -> V' x) ->
     tailify_l l acc fin m = Some (t, m') -> sok_stm t = true /\ forall x, In x (fv_stm t) -> V x).
  { induction 1 as [|e l He _ IH]; intros HC acc fin V m t m' HV HA HAV HF E; cbn in E.
    - eapply HF; [| | |exact E]; auto.
      + rewrite forallb_forall in HA |- *. intros s Hs. apply HA. now apply in_rev.
      + intros s x Hs Hx. apply in_rev in Hs. eauto.
    - cbn in HC. apply andb_true_iff in HC as [HC1 HC2].
      eapply He; [exact HC1| | |exact E].
      + intros V' HV' s k t' k' HS HX E'. cbn in E'.
        eapply IH; [exact HC2| | | | |exact E'].
        * intros e' x He' Hx. apply HV'. eapply HV; [right; exact He'|exact Hx].
        * cbn. now rewrite HS.
        * intros s' x [<-|Hs'] Hx; [auto|]. apply HV'. eauto.
        * intros V2 HV2. apply HF. auto.
      + intros x Hx. eapply HV; [now left|exact Hx]. }
  assert (NG1 : forall next (V V' : name -> Prop) k t k', kscope next V -> (forall x, V x -> V' x) ->
     apply_k next (SmVar (NG k)) (S k) = Some (t, k') -> sok_stm t = true /\ forall x, In x (fv_stm t) -> V' x \/ x = NG k).
  { intros next V V' k t k' HK HV' E. apply (HK (fun x => V' x \/ x = NG k)) in E; auto.
    intros x [<-|[]]. auto. }
  induction e using exp_ind'; intros HC next V m t m' HK HV E; cbn -[unions] in HC, HV; try discriminate;
    try (cbn in E; eapply HK; [| | |exact E]; cbn; auto; fail).
  - (* closure *)
    apply andb_true_iff in HC as [HC HC3]. apply andb_true_iff in HC as [HC1 HC2].
    cbn in E. destruct (tailify e KId m) as [(sb, n1)|] eqn:Eb; [|discriminate].
    destruct (simples frees) as [ss|] eqn:Es; [|discriminate].
    destruct (simples_fv _ _ Es) as (A & B).
    destruct (IHe HC1 KId (fun x => In x ps) m sb n1 (kscope_id _)) with (2 := Eb) as (S1 & S2).
    { intros x Hx. rewrite forallb_forall in HC2. specialize (HC2 x Hx). destruct (mem_spec x ps); [assumption|discriminate]. }
    eapply HK; [| | |exact E].
    + auto.
    + cbn. rewrite S1, B, andb_true_r. cbn. rewrite forallb_forall. intros x Hx. destruct (mem_spec x ps) as [|N]; [reflexivity|].
      exfalso. auto.
    + intros x Hx. cbn -[unions] in Hx. apply in_unions_simples in Hx. destruct Hx as [Hx|(s & Hs & Hx)].
      * apply in_diff in Hx. destruct Hx as (Hx & N). exfalso. auto.
      * destruct (A s x Hs Hx) as (e0 & He0 & Hx0). apply HV. apply in_unions.
        exists (free_vars e0). split; [right; now apply in_map|exact Hx0].
  - (* if *)
    apply andb_true_iff in HC as [HC HC3]. apply andb_true_iff in HC as [HC1 HC2]. cbn [tailify] in E.
    assert (IN : forall e0 x, In e0 [e1; e2; e3] -> In x (free_vars e0) -> V x).
    { intros e0 x He Hx. apply HV. apply in_unions. exists (free_vars e0). split; [|exact Hx].
      cbn in He |- *. intuition (subst; auto). }
    eapply (IHe1 HC1); [| |exact E].
    + intros V' HV' s k t' k' HS HX E'. cbn in E'.
      destruct (tailify e2 next k) as [(sb, n1)|] eqn:Eb; [|discriminate].
      destruct (tailify e3 next n1) as [(sc, n2)|] eqn:Ec; [|discriminate]. injection E' as <- <-.
      destruct (IHe2 HC2 next V' k sb n1 (kscope_weaken _ _ _ HV' HK)) with (2 := Eb) as (A1 & A2).
      { intros x Hx. apply HV'. eapply IN; [|exact Hx]. cbn; auto. }
      destruct (IHe3 HC3 next V' n1 sc n2 (kscope_weaken _ _ _ HV' HK)) with (2 := Ec) as (B1 & B2).
      { intros x Hx. apply HV'. eapply IN; [|exact Hx]. cbn; auto. }
      cbn -[unions]. rewrite HS, A1, B1. split; [reflexivity|]. intros x Hx. apply in_unions in Hx.
      destruct Hx as (s0 & [<-|[<-|[<-|[]]]] & Hx); auto.
    + intros x Hx. eapply IN; [|exact Hx]. cbn; auto.
  - (* do *)
    apply andb_true_iff in HC as [HC1 HC2]. cbn [tailify] in E.
    assert (IN : forall e0 x, In e0 [e1; e2] -> In x (free_vars e0) -> V x).
    { intros e0 x He Hx. apply HV. apply in_unions. exists (free_vars e0). split; [|exact Hx].
      cbn in He |- *. intuition (subst; auto). }
    eapply (IHe1 HC1); [| |exact E].
    + intros V' HV' s k t' k' HS HX E'. cbn in E'.
      assert (X : exists t'', tailify e2 next k = Some (t'', k') /\ (t' = t'' \/ t' = TDo s t'')).
      { destruct s; unfold with_stm in E';
        try (destruct (tailify e2 next k) as [(t2, k2)|]; [|discriminate]; injection E' as <- <-); eauto. }
      destruct X as (t'' & E'' & TT).
      destruct (IHe2 HC2 next V' k t'' k' (kscope_weaken _ _ _ HV' HK)) with (2 := E'') as (A1 & A2).
      { intros x Hx. apply HV'. eapply IN; [|exact Hx]. cbn; auto. }
      destruct TT as [->| ->]; [auto|]. cbn -[unions]. rewrite HS, A1. split; [reflexivity|]. intros x Hx. apply in_unions in Hx.
      destruct Hx as (s0 & [<-|[<-|[]]] & Hx); auto.
    + intros x Hx. eapply IN; [|exact Hx]. cbn; auto.
  - (* let *)
    apply andb_true_iff in HC as [HC1 HC2]. cbn [tailify] in E.
    eapply (IHe1 HC1); [| |exact E].
    + intros V' HV' s k t' k' HS HX E'. cbn in E'. unfold with_stm in E'.
      destruct (tailify e2 next k) as [(t2, k2)|] eqn:Ec; [|discriminate]. injection E' as <- <-.
      destruct (IHe2 HC2 next (fun y => V' y \/ y = x) k t2 k2) as (A1 & A2); [|  |exact Ec|].
      * eapply kscope_weaken; [|exact HK]. auto.
      * intros y Hy. destruct (name_eqb_spec y x) as [->|N]; [auto|]. left. apply HV'. apply HV. apply in_union. right. apply in_diff.
        split; [exact Hy|cbn; intuition].
      * cbn. rewrite HS, A1. split; [reflexivity|]. intros y Hy. apply in_union in Hy. rewrite in_diff in Hy.
        destruct Hy as [Hy|[Hy N]]; [auto|]. destruct (A2 y Hy) as [|Hq]; [auto|subst]. exfalso. apply N. now left.
    + intros y Hy. apply HV. apply in_union. auto.
  - (* primitive *)
    rewrite tailify_prim in E. refine (L _ H HC [] _ V m t m' _ eq_refl _ _ E); [|intros s x []|].
    + intros e x He Hx. apply HV. apply in_unions_map'. eauto.
    + intros V' HV' ss k t' k' HS HX E'. unfold with_stm in E'.
      destruct (apply_k next (SmVar (NG k)) (S k)) as [(t2, k2)|] eqn:Ek; [|discriminate]. injection E' as <- <-.
      destruct (NG1 _ _ V' _ _ _ HK HV' Ek) as (A1 & A2).
      cbn -[unions]. rewrite HS, A1. split; [reflexivity|]. intros x Hx. apply in_union in Hx. rewrite in_diff in Hx.
      destruct Hx as [Hx|[Hx N]].
      * apply in_unions_simples in Hx. destruct Hx as [[]|(s & Hs & Hx)]. eauto.
      * destruct (A2 x Hx) as [|Hq]; [auto|subst]. exfalso. apply N. now left.
  - (* application *)
    apply andb_true_iff in HC as [HC1 HC2]. rewrite tailify_app in E.
    eapply (IHe HC1); [| |exact E].
    + intros V' HV' s k t' k' HS HX E'. cbn in E'.
      refine (L _ H HC2 [] _ V' k t' k' _ eq_refl _ _ E'); [|intros s' x []|].
      * intros e0 x He Hx. apply HV'. apply HV. apply in_unions_app. eauto.
      * intros V2 HV2 ss k2 t2 k2' HS2 HX2 E2. destruct next as [|g].
        -- injection E2 as <- <-. cbn -[unions]. rewrite HS, HS2. split; [reflexivity|]. intros x Hx.
           apply in_unions_simples in Hx. destruct Hx as [Hx|(s' & Hs & Hx)]; eauto.
        -- unfold with_stm in E2. destruct (g (SmVar (NG k2)) (S k2)) as [(t3, k3)|] eqn:Eg; [|discriminate].
           injection E2 as <- <-.
           destruct (NG1 _ _ V2 _ _ _ HK (fun x Hx => HV2 x (HV' x Hx)) Eg) as (A1 & A2).
           cbn -[unions]. rewrite HS, HS2, A1. split; [reflexivity|]. intros x Hx. apply in_unions in Hx.
           destruct Hx as (s0 & [<-|[<-|[]]] & Hx).
           ++ apply in_unions_simples in Hx. destruct Hx as [Hx|(s' & Hs & Hx)]; eauto.
           ++ apply in_diff in Hx. destruct Hx as (Hx & N). destruct (A2 x Hx) as [|Hq]; [auto|subst]. exfalso. apply N. now left.
    + intros x Hx. apply HV. apply in_unions_app. auto.
Qed.

Theorem tailify_closed : forall e m t m', closed_exp e = true -> free_vars e = [] -> tailify e KId m = Some (t, m') ->
  sok_stm t = true /\ fv_stm t = [].
Proof.
  intros e m t m' HC HF E.
  destruct (tailify_scope e HC KId (fun _ => False) m t m' (kscope_id _)) as (A & B); [|exact E|].
  - rewrite HF. intros x [].
  - split; [exact A|]. destruct (fv_stm t) as [|x l]; [reflexivity|]. destruct (B x (or_introl eq_refl)).
Qed.

(** * The simulation *)
Definition crelL (c1 c2 : tcode) : Prop :=
  t_ps c1 = t_ps c2 /\ t_body c2 = live_stm (t_body c1) /\ sok_stm (t_body c1) = true /\
  incl (fv_stm (t_body c1)) (t_ps c1).
Definition selL (c1 c2 : tcode) (k i j : nat) : Prop := i = j /\ i < k.

Notation vrelL := (vrel crelL selL t_arity).
Notation grelL := (grel crelL selL t_arity).
Notation arelL := (arel crelL selL t_arity).

Definition envL (sg sg2 : list (name * val tcode)) (x : name) : Prop :=
  exists v v2, lookup x sg = Some v /\ lookup x sg2 = Some v2 /\ vrelL v v2.
Definition phiL (phi phi' : list (val tcode)) : Prop :=
  forall i v, nth_error phi i = Some v -> exists v', nth_error phi' i = Some v' /\ vrelL v v'.

Lemma crelL_arity : forall c1 c2, crelL c1 c2 -> t_arity c1 = t_arity c2.
Proof. intros c1 c2 (H & _). unfold t_arity. congruence. Qed.

Lemma simple_live : forall sg sg2 phi phi2 s a, ev_simple sg phi s = Some a -> sok_simple s = true ->
  (forall x, In x (fv_simple s) -> envL sg sg2 x) -> phiL phi phi2 ->
  exists a2, ev_simple sg2 phi2 (live_simple s) = Some a2 /\ arelL a a2.
Proof.
  intros sg sg2 phi phi2 s a E HS HE HP. destruct s; cbn -[unions] in *; try discriminate.
  - destruct (HE x (or_introl eq_refl)) as (v & v2 & E1 & E2 & R). rewrite E1 in E. injection E as <-.
    rewrite E2. eexists. split; [reflexivity|]. exact R.
  - injection E as <-. eexists. split; [reflexivity|]. apply quoted_rel.
  - injection E as <-. eexists. split; [reflexivity|]. reflexivity.
  - destruct (nth_error phi i) as [v|] eqn:En; [|discriminate]. injection E as <-.
    destruct (HP _ _ En) as (v2 & E2 & R). rewrite E2. eexists. split; [reflexivity|]. exact R.
  - apply andb_true_iff in HS as [HS HS3]. apply andb_true_iff in HS as [HS1 HS2].
    destruct (opts (free_sval sg phi) frees) as [vs|] eqn:Ev; [|discriminate]. injection E as <-.
    assert (X : exists vs2, opts (free_sval sg2 phi2) (map live_simple frees) = Some vs2 /\ Forall2 vrelL vs vs2).
    { assert (HE' : forall s x, In s frees -> In x (fv_simple s) -> envL sg sg2 x)
        by (intros s x Hs Hx; apply HE; apply in_unions_simples; eauto).
      clear HE HS1 HS2. revert vs Ev. induction frees as [|s l IH]; intros vs Ev; cbn in Ev, HS3 |- *.
      - injection Ev as <-. exists []. auto.
      - apply andb_true_iff in HS3 as [HS3 HS4].
        destruct (free_sval sg phi s) as [v|] eqn:E1; [|discriminate].
        destruct (opts (free_sval sg phi) l) as [ws|] eqn:E2; [|discriminate]. injection Ev as <-.
        destruct (IH HS4 (fun s x Hs Hx => HE' s x (or_intror Hs) Hx) _ eq_refl) as (ws2 & E3 & R3).
        rewrite E3. destruct s; try discriminate; cbn in E1 |- *.
        + destruct (HE' _ x (or_introl eq_refl) (or_introl eq_refl)) as (v1 & v2 & L1 & L2 & R).
          rewrite L2. eexists. split; [reflexivity|]. constructor; [congruence|exact R3].
        + destruct (HP _ _ E1) as (v2 & L2 & R). rewrite L2. eexists. split; [reflexivity|]. constructor; auto. }
    destruct X as (vs2 & E2 & R). rewrite E2. eexists. split; [reflexivity|]. cbn. constructor.
    + repeat split; cbn; auto. intros x Hx. rewrite forallb_forall in HS2. specialize (HS2 x Hx).
      destruct (mem_spec x ps); [assumption|discriminate].
    + intros i j (<- & Li). destruct (nth_error vs i) as [v|] eqn:En; [|apply nth_error_None in En; lia].
      destruct (Forall2_nth _ _ _ R _ _ En) as (v' & En' & Rv). eauto.
Qed.

Lemma sval_live : forall sg sg2 phi phi2 s G G2 v, sval_of sg phi s G = Some v -> sok_simple s = true ->
  (forall x, In x (fv_simple s) -> envL sg sg2 x) -> phiL phi phi2 -> grelL G G2 ->
  exists v2, sval_of sg2 phi2 (live_simple s) G2 = Some v2 /\ vrelL v v2.
Proof.
  intros sg sg2 phi phi2 s G G2 v E HS HE HP HG. unfold sval_of in *.
  destruct (ev_simple sg phi s) as [a|] eqn:E1; [|discriminate].
  destruct (simple_live _ _ _ _ _ _ E1 HS HE HP) as (a2 & -> & R).
  eapply force_rel; eauto.
Qed.
Lemma svals_live : forall sg sg2 phi phi2 ss G G2 vs, opts (fun s => sval_of sg phi s G) ss = Some vs -> forallb sok_simple ss = true ->
  (forall s x, In s ss -> In x (fv_simple s) -> envL sg sg2 x) -> phiL phi phi2 -> grelL G G2 ->
  exists vs2, opts (fun s => sval_of sg2 phi2 s G2) (map live_simple ss) = Some vs2 /\ Forall2 vrelL vs vs2.
Proof.
  intros sg sg2 phi phi2 ss G G2. induction ss as [|s ss IH]; intros vs E HS HE HP HG; cbn in E, HS |- *.
  - injection E as <-. exists []. auto.
  - apply andb_true_iff in HS as [HS1 HS2].
    destruct (sval_of sg phi s G) as [v|] eqn:E1; [|discriminate].
    destruct (opts (fun s => sval_of sg phi s G) ss) as [ws|] eqn:E2; [|discriminate]. injection E as <-.
    destruct (sval_live _ _ _ _ _ _ _ _ E1 HS1 (fun x Hx => HE s x (or_introl eq_refl) Hx) HP HG) as (v2 & -> & R).
    destruct (IH _ eq_refl HS2 (fun s x Hs Hx => HE s x (or_intror Hs) Hx) HP HG) as (ws2 & -> & R2). eauto.
Qed.

Lemma keep_ok : forall sg sg2 l, (forall x, In x l -> envL sg sg2 x) ->
  exists sg3, keep (Some l) sg2 = Some sg3 /\ forall x, In x l -> lookup x sg3 = lookup x sg2.
Proof.
  intros sg sg2 l. induction l as [|x l IH]; intros H; cbn in *.
  - exists []. split; [reflexivity|]. intros x [].
  - destruct (H x (or_introl eq_refl)) as (v & v2 & _ & E2 & _). rewrite E2.
    destruct IH as (sg3 & -> & K); [auto|]. exists ((x, v2) :: sg3). split; [reflexivity|].
    intros y Hy. cbn. destruct (name_eqb_spec y x) as [->|N]; [congruence|]. destruct Hy as [->|Hy]; [congruence|auto].
Qed.

Theorem live_sim : forall ar n sg phi t G r, exec ar n sg phi t G = Some r ->
  forall sg2 phi2 G2, sok_stm t = true -> (forall x, In x (fv_stm t) -> envL sg sg2 x) -> phiL phi phi2 -> grelL G G2 ->
  evt (fun m => exec ar m sg2 phi2 (live_stm t) G2) (rres crelL selL t_arity r).
Proof.
  intros ar n. induction n as [|n IH]; intros sg phi t G r E sg2 phi2 G2 HS HE HP HG; [discriminate|].
  assert (RUN : forall c1 c2 vs1 vs2 l1 l2 G1 G2 r,
    vrelL (VClo c1 vs1) (VClo c2 vs2) -> Forall2 vrelL l1 l2 -> List.length l1 = t_arity c1 -> grelL G1 G2 ->
    exec ar n (combine (t_ps c1) l1) vs1 (t_body c1) G1 = Some r ->
    evt (fun m => exec ar m (combine (t_ps c2) l2) vs2 (t_body c2) G2) (rres crelL selL t_arity r)).
  { clear - IH. intros c1 c2 vs1 vs2 l1 l2 G1 G2 r HV HL HN HG E.
    inversion HV as [| | | | | | |? ? ? ? HCr HS| |]; subst.
    destruct HCr as (A1 & A2 & A3 & A4). rewrite A2. eapply IH; eauto.
    - intros x Hx. apply A4 in Hx. apply index_in in Hx. destruct Hx as (i & Hi).
      unfold envL. rewrite <- A1, !lookup_combine, Hi.
      destruct (nth_error l1 i) as [v|] eqn:En.
      + destruct (Forall2_nth _ _ _ HL _ _ En) as (v2 & En2 & R). eauto.
      + apply nth_error_None in En. apply index_some in Hi.
        assert (i < List.length (t_ps c1)) by (apply nth_error_Some; congruence). unfold t_arity in HN. lia.
    - intros i w Hw. destruct (HS i i) as (v1 & v2 & N1 & N2 & R).
      + split; [reflexivity|]. apply nth_error_Some. congruence.
      + exists v2. split; [exact N2|]. congruence. }
  apply evt_S. destruct t as [s|f args|f args v k live|f args l live|x s k|x p args k|s a b|s k];
    cbn -[unions] in E, HS, HE |- *; try discriminate.
  - destruct (sval_of sg phi s G) as [v|] eqn:E1; [|discriminate]. injection E as <-.
    destruct (sval_live _ _ _ _ _ _ _ _ E1 HS HE HP HG) as (v2 & -> & R). apply evt_const. split; auto.
  - apply andb_true_iff in HS as [HS1 HS2].
    destruct (sval_of sg phi f G) as [fv|] eqn:E1; [|discriminate].
    destruct (opts (fun s => sval_of sg phi s G) args) as [vs|] eqn:E2; [|discriminate].
    destruct (sval_live sg sg2 phi phi2 f G G2 fv E1 HS1) as (fv2 & -> & RF); auto.
    { intros x Hx. apply HE. apply in_unions_simples. auto. }
    destruct (svals_live sg sg2 phi phi2 args G G2 vs E2 HS2) as (vs2 & -> & RV); auto.
    { intros s x Hs Hx. apply HE. apply in_unions_simples. eauto. }
    eapply apply_rel with (run2 := fun k c vs args G => exec ar k (combine (t_ps c) args) vs (t_body c) G);
      [exact crelL_arity|exact RUN|exact RF|exact RV|exact HG|exact E].
  - apply andb_true_iff in HS as [HS HS4]. destruct live; [discriminate|].
    apply andb_true_iff in HS as [HS HS3]. apply andb_true_iff in HS as [HS1 HS2].
    destruct (sval_of sg phi f G) as [fv|] eqn:E1; [|discriminate].
    destruct (opts (fun s => sval_of sg phi s G) args) as [vs|] eqn:E2; [|discriminate].
    cbn in E.
    match type of E with match ?X with _ => _ end = _ => destruct X as [(rv, G1)|] eqn:E3; [|discriminate] end.
    assert (HE1 : forall x, In x (unions (fv_simple f :: map fv_simple args)) -> envL sg sg2 x).
    { intros x Hx. apply HE. apply in_unions. eexists. split; [now left|exact Hx]. }
    assert (HE2 : forall x, In x (diff (fv_stm k) [v]) -> envL sg sg2 x).
    { intros x Hx. apply HE. apply in_unions. eexists. split; [right; now left|exact Hx]. }
    destruct (sval_live sg sg2 phi phi2 f G G2 fv E1 HS1) as (fv2 & -> & RF); auto.
    { intros x Hx. apply HE1. apply in_unions_simples. auto. }
    destruct (svals_live sg sg2 phi phi2 args G G2 vs E2 HS2) as (vs2 & -> & RV); auto.
    { intros s x Hs Hx. apply HE1. apply in_unions_simples. eauto. }
    destruct (keep_ok sg sg2 (diff (fv_stm k) [v]) HE2) as (sg3 & K1 & K2). cbn [keep] in K1. rewrite K1.
    eapply evt_bind with (g := fun m '(r, G1) => exec ar m ((v, r) :: sg3) phi2 (live_stm k) G1).
    { eapply apply_rel with (run2 := fun k c vs args G => exec ar k (combine (t_ps c) args) vs (t_body c) G);
        [exact crelL_arity|exact RUN|exact RF|exact RV|exact HG|exact E3]. }
    intros (rv2, G3) (R1 & R2). cbn in R1, R2.
    eapply IH; [exact E|exact HS3| |exact HP|exact R2].
    intros x Hx. unfold envL. cbn [lookup]. destruct (name_eqb_spec x v) as [->|N]; [eauto|].
    assert (Hx' : In x (diff (fv_stm k) [v])) by (apply in_diff; split; [exact Hx|cbn; intuition]).
    rewrite K2 by exact Hx'. apply HE2. exact Hx'.
  - apply andb_true_iff in HS as [HS1 HS2].
    destruct (sval_of sg phi s G) as [v|] eqn:E1; [|discriminate].
    destruct (sval_live sg sg2 phi phi2 s G G2 v E1 HS1) as (v2 & -> & RV); auto.
    { intros y Hy. apply HE. apply in_union. auto. }
    eapply IH; [exact E|exact HS2| |exact HP|exact HG].
    intros y Hy. unfold envL. cbn [lookup]. destruct (name_eqb_spec y x) as [->|N]; [eauto|].
    apply HE. apply in_union. right. apply in_diff. split; [exact Hy|cbn; intuition].
  - apply andb_true_iff in HS as [HS1 HS2].
    destruct (opts (fun s => sval_of sg phi s G) args) as [vs|] eqn:E2; [|discriminate].
    destruct (prim_sem ar p vs G) as [(v, G1)|] eqn:E3; [|discriminate].
    destruct (svals_live sg sg2 phi phi2 args G G2 vs E2 HS1) as (vs2 & -> & RV); auto.
    { intros s y Hs Hy. apply HE. apply in_union. left. apply in_unions_simples. eauto. }
    destruct (prim_rel _ _ _ _ _ _ _ _ _ _ _ RV HG E3) as ((v2, G5) & -> & (R1 & R2)). cbn in R1, R2.
    eapply IH; [exact E|exact HS2| |exact HP|exact R2].
    intros y Hy. unfold envL. cbn [lookup]. destruct (name_eqb_spec y x) as [->|N]; [eauto|].
    apply HE. apply in_union. right. apply in_diff. split; [exact Hy|cbn; intuition].
  - apply andb_true_iff in HS as [HS HS3]. apply andb_true_iff in HS as [HS1 HS2].
    destruct (sval_of sg phi s G) as [v|] eqn:E1; [|discriminate].
    assert (IN : forall l x, In l [fv_simple s; fv_stm a; fv_stm b] -> In x l -> envL sg sg2 x).
    { intros l x Hl Hx. apply HE. apply in_unions. eauto. }
    destruct (sval_live sg sg2 phi phi2 s G G2 v E1 HS1) as (v2 & -> & RV); auto.
    { intros y Hy. eapply IN; [|exact Hy]. cbn; auto. }
    assert (A : In (fv_stm a) [fv_simple s; fv_stm a; fv_stm b]) by (cbn; auto).
    assert (B : In (fv_stm b) [fv_simple s; fv_stm a; fv_stm b]) by (cbn; auto).
    destruct RV; (eapply IH; [exact E|assumption| |exact HP|exact HG]); intros y Hy; (eapply IN; [|exact Hy]); assumption.
  - apply andb_true_iff in HS as [HS1 HS2].
    destruct (sval_of sg phi s G) as [v|] eqn:E1; [|discriminate].
    destruct (sval_live sg sg2 phi phi2 s G G2 v E1 HS1) as (v2 & -> & RV); auto.
    { intros y Hy. apply HE. apply in_unions. exists (fv_simple s). split; [now left|exact Hy]. }
    eapply IH; [exact E|exact HS2| |exact HP|exact HG].
    intros y Hy. apply HE. apply in_unions. exists (fv_stm k). split; [right; now left|exact Hy].
Qed.
