(** tailify preserves meaning when no let clobbers a name still in use. *)
From Coq Require Import List ZArith Bool String Arith Lia.
From Verif Require Import CoreSpec CoreProofs TocModel TocSem.
Import ListNotations.
Local Open Scope list_scope.
Local Open Scope nat_scope.

(** Induction on expressions. *)
Section ExpInd.
  Variable P : exp -> Prop.
  Hypothesis H_const : forall s, P (EConst s).
  Hypothesis H_glob : forall x, P (EGlob x).
  Hypothesis H_var : forall x, P (EVar x).
  Hypothesis H_ref : forall i, P (ERef i).
  Hypothesis H_lam : forall ps b, P b -> P (ELam ps b).
  Hypothesis H_clo : forall ps b frees, P b -> Forall P frees -> P (EClo ps b frees).
  Hypothesis H_if : forall a b c, P a -> P b -> P c -> P (EIf a b c).
  Hypothesis H_do : forall a b, P a -> P b -> P (EDo a b).
  Hypothesis H_let : forall x b c, P b -> P c -> P (ELet x b c).
  Hypothesis H_prim : forall p args, Forall P args -> P (EPrim p args).
  Hypothesis H_app : forall f args, P f -> Forall P args -> P (EApp f args).
  Fixpoint exp_ind' (e : exp) : P e :=
    let all := fix all (l : list exp) : Forall P l :=
      match l with [] => Forall_nil P | x :: r => Forall_cons x (exp_ind' x) (all r) end in
    match e with
    | EConst s => H_const s | EGlob x => H_glob x | EVar x => H_var x | ERef i => H_ref i
    | ELam ps b => H_lam ps b (exp_ind' b)
    | EClo ps b frees => H_clo ps b frees (exp_ind' b) (all frees)
    | EIf a b c => H_if a b c (exp_ind' a) (exp_ind' b) (exp_ind' c)
    | EDo a b => H_do a b (exp_ind' a) (exp_ind' b)
    | ELet x b c => H_let x b c (exp_ind' b) (exp_ind' c)
    | EPrim p args => H_prim p args (all args)
    | EApp f args => H_app f args (exp_ind' f) (all args)
    end.
End ExpInd.

(** The names a let binds in an expression, functions inside it aside. *)
Fixpoint binders (e : exp) : list name :=
  match e with
  | EConst _ | EGlob _ | EVar _ | ERef _ | ELam _ _ | EClo _ _ _ => []
  | EIf a b c => binders a ++ binders b ++ binders c
  | EDo a b => binders a ++ binders b
  | ELet x b c => x :: binders b ++ binders c
  | EPrim _ args => flat_map binders args
  | EApp f args => binders f ++ flat_map binders args
  end.

Definition disj (a b : list name) : bool := forallb (fun x => negb (mem x b)) a.

(** evaluated in this order, none of the expressions clobbers what a later one
    reads or what an earlier one has left in a variable *)
Fixpoint seq_ok (l : list exp) : bool :=
  match l with
  | [] => true
  | e :: r =>
      disj (flat_map binders r) (free_vars e ++ binders e) &&
      disj (binders e) (flat_map free_vars r) && seq_ok r
  end.

Fixpoint tl_ok (e : exp) : bool :=
  match e with
  | EConst _ | EGlob _ | EVar _ | ERef _ | ELam _ _ => true
  | EClo _ b _ => tl_ok b
  | EIf a b c => tl_ok a && tl_ok b && tl_ok c && disj (binders a) (free_vars b) && disj (binders a) (free_vars c)
  | EDo a b => tl_ok a && tl_ok b && disj (binders a) (free_vars b)
  | ELet x b c => tl_ok b && tl_ok c && disj (binders b) (diff (free_vars c) [x])
  | EPrim _ args => forallb tl_ok args && seq_ok args
  | EApp f args => tl_ok f && forallb tl_ok args && seq_ok (f :: args)
  end.

(** every generated name in the expression is older than the counter *)
Definition older (m : nat) (x : name) : bool := match x with NS _ => true | NG k => k <? m end.
Fixpoint old (m : nat) (e : exp) : bool :=
  match e with
  | EConst _ | EGlob _ | ERef _ => true
  | EVar x => older m x
  | ELam ps b => old m b
  | EClo ps b frees => old m b && forallb (old m) frees
  | EIf a b c => old m a && old m b && old m c
  | EDo a b => old m a && old m b
  | ELet x b c => older m x && old m b && old m c
  | EPrim _ args => forallb (old m) args
  | EApp f args => old m f && forallb (old m) args
  end.

(** * Facts about these checks *)
Lemma disj_spec : forall a b, disj a b = true -> forall x, In x a -> In x b -> False.
Proof.
  intros a b H x Ha Hb. unfold disj in H. rewrite forallb_forall in H. specialize (H x Ha).
  destruct (mem_spec x b); [discriminate|contradiction].
Qed.

Lemma older_mono : forall m m' x, m <= m' -> older m x = true -> older m' x = true.
Proof. intros m m' [s|k] L H; cbn in *; auto. apply Nat.ltb_lt in H. apply Nat.ltb_lt. lia. Qed.

Lemma forallb_impl : forall {A} (p q : A -> bool) l, Forall (fun x => p x = true -> q x = true) l ->
  forallb p l = true -> forallb q l = true.
Proof.
  intros A p q l H. induction H; cbn; auto. rewrite !andb_true_iff. tauto.
Qed.

Lemma old_mono : forall m m' e, m <= m' -> old m e = true -> old m' e = true.
Proof.
  intros m m' e L. induction e using exp_ind'; cbn; rewrite ?andb_true_iff; auto.
  - now apply older_mono.
  - intros (H1 & H2). split; [auto|]. eapply forallb_impl; eauto.
  - tauto.
  - tauto.
  - intros ((H1 & H2) & H3). pose proof (older_mono m m' x L). tauto.
  - intro H1. eapply forallb_impl; eauto.
  - intros (H1 & H2). split; [auto|]. eapply forallb_impl; eauto.
Qed.

Lemma old_binders : forall m e, old m e = true -> forall x, In x (binders e) -> older m x = true.
Proof.
  intros m e. induction e using exp_ind'; cbn; intros Ho y Hy; rewrite ?andb_true_iff in Ho; try contradiction.
  - rewrite !in_app_iff in Hy. firstorder.
  - rewrite !in_app_iff in Hy. firstorder.
  - rewrite !in_app_iff in Hy. destruct Hy as [<-|Hy]; firstorder.
  - apply in_flat_map in Hy. destruct Hy as (a & Ha & Hy). rewrite forallb_forall in Ho.
    rewrite Forall_forall in H. eauto.
  - destruct Ho as (H1 & H2). rewrite in_app_iff in Hy. destruct Hy as [Hy|Hy]; auto.
    apply in_flat_map in Hy. destruct Hy as (a & Ha & Hy). rewrite forallb_forall in H2.
    rewrite Forall_forall in H. eauto.
Qed.

Lemma in_unions_map' : forall x l, In x (unions ([] :: map free_vars l)) <-> exists e, In e l /\ In x (free_vars e).
Proof.
  intros x l. rewrite in_unions. split.
  - intros (s & [<-|H] & Hx); [contradiction|]. apply in_map_iff in H. destruct H as (e & <- & H). eauto.
  - intros (e & H & Hx). exists (free_vars e). split; [right; now apply in_map|exact Hx].
Qed.
Lemma in_unions_app : forall x f l, In x (unions (free_vars f :: map free_vars l)) <->
  In x (free_vars f) \/ exists e, In e l /\ In x (free_vars e).
Proof.
  intros x f l. rewrite in_unions. split.
  - intros (s & [<-|H] & Hx); [auto|]. apply in_map_iff in H. destruct H as (e & <- & H). eauto.
  - intros [Hx|(e & H & Hx)]; [exists (free_vars f); split; [now left|exact Hx]|].
    exists (free_vars e). split; [right; now apply in_map|exact Hx].
Qed.

Lemma old_free : forall m e, old m e = true -> forall x, In x (free_vars e) -> older m x = true.
Proof.
  intros m e. induction e using exp_ind'; cbn -[unions]; intros Ho y Hy; rewrite ?andb_true_iff in Ho; try contradiction.
  - destruct Hy as [<-|[]]; auto.
  - apply in_diff in Hy. destruct Hy; auto.
  - apply in_unions in Hy. destruct Hy as (s & [<-|Hs] & Hy).
    + apply in_diff in Hy. destruct Hy. destruct Ho. auto.
    + apply in_map_iff in Hs. destruct Hs as (e' & <- & Hs). destruct Ho as (_ & Ho).
      rewrite forallb_forall in Ho. rewrite Forall_forall in H. eauto.
  - apply in_unions in Hy. destruct Hy as (s & [<-|[<-|[<-|[]]]] & Hy); firstorder.
  - apply in_unions in Hy. destruct Hy as (s & [<-|[<-|[]]] & Hy); firstorder.
  - apply in_union in Hy. rewrite in_diff in Hy. destruct Hy as [Hy|[Hy _]]; firstorder.
  - apply in_unions_map' in Hy. destruct Hy as (a & Ha & Hy). rewrite forallb_forall in Ho.
    rewrite Forall_forall in H. eauto.
  - destruct Ho as (H1 & H2). apply in_unions_app in Hy. destruct Hy as [Hy|(a & Ha & Hy)]; auto.
    rewrite forallb_forall in H2. rewrite Forall_forall in H. eauto.
Qed.

(** * The list version, made a definition of its own *)
Fixpoint tailify_l (l : list exp) (acc : list simple) (fin : list simple -> nat -> option (stm * nat)) (n : nat)
  : option (stm * nat) :=
  match l with
  | [] => fin (rev acc) n
  | hd :: tl => tailify hd (KFun (fun hd1 n => tailify_l tl (hd1 :: acc) fin n)) n
  end.

Lemma tailify_prim : forall p args next n, tailify (EPrim p args) next n =
  tailify_l args [] (fun ss n => with_stm (TPrim (NG n) p ss) (apply_k next (SmVar (NG n)) (S n))) n.
Proof. reflexivity. Qed.
Lemma tailify_app : forall f args next n, tailify (EApp f args) next n =
  tailify f (KFun (fun f1 n =>
    tailify_l args [] (fun ss n =>
      match next with
      | KId => Some (TTail f1 ss, n)
      | KFun g => with_stm (fun k => TCall f1 ss (NG n) k None) (g (SmVar (NG n)) (S n))
      end) n)) n.
Proof. reflexivity. Qed.

Definition kmono (k : kont) : Prop :=
  forall s n t n', apply_k k s n = Some (t, n') -> n <= n'.
Definition fmono (f : list simple -> nat -> option (stm * nat)) : Prop :=
  forall s n t n', f s n = Some (t, n') -> n <= n'.

Lemma kmono_id : kmono KId.
Proof. intros s n t n' E. cbn in E. injection E as _ <-. lia. Qed.

Lemma tailify_mono : forall e next n t n', kmono next -> tailify e next n = Some (t, n') -> n <= n'.
Proof.
  assert (L : forall l, Forall (fun e => forall next n t n', kmono next -> tailify e next n = Some (t, n') -> n <= n') l ->
     forall acc fin n t n', fmono fin -> tailify_l l acc fin n = Some (t, n') -> n <= n').
  { induction 1 as [|e l He _ IH]; intros acc fin n t n' HF E; cbn in E; [eapply HF; eauto|].
    eapply He; [|exact E]. intros s k t' k' E'. cbn in E'. eapply IH; eauto. }
  induction e using exp_ind'; intros next n t n' HK E;
    try (cbn in E; eapply HK; exact E); try discriminate.
  - cbn in E. destruct (tailify e KId n) as [(sb, n1)|] eqn:E1; [|discriminate].
    destruct (simples frees); [|discriminate]. apply HK in E.
    pose proof (IHe _ _ _ _ kmono_id E1). lia.
  - cbn in E. eapply IHe1; [|exact E]. intros s k t' k' E'. cbn in E'.
    destruct (tailify e2 next k) as [(sb, n1)|] eqn:E1; [|discriminate].
    destruct (tailify e3 next n1) as [(sc, n2)|] eqn:E2; [|discriminate]. injection E' as _ <-.
    pose proof (IHe2 _ _ _ _ HK E1). pose proof (IHe3 _ _ _ _ HK E2). lia.
  - cbn in E. eapply IHe1; [|exact E]. intros s k t' k' E'. cbn in E'.
    assert (X : exists t'', tailify e2 next k = Some (t'', k')).
    { destruct s; unfold with_stm in E'; try (destruct (tailify e2 next k) as [(?, ?)|]; [|discriminate]; injection E' as _ <-); eauto. }
    destruct X as (t'' & X). eauto.
  - cbn in E. eapply IHe1; [|exact E]. intros s k t' k' E'. cbn in E'. unfold with_stm in E'.
    destruct (tailify e2 next k) as [(t2, ?)|] eqn:E1; [|discriminate]. injection E' as _ <-. eauto.
  - rewrite tailify_prim in E. eapply L; [exact H| |exact E]. intros ss k t' k' E'. unfold with_stm in E'.
    destruct (apply_k next (SmVar (NG k)) (S k)) as [(t2, ?)|] eqn:E1; [|discriminate]. injection E' as _ <-.
    apply HK in E1. lia.
  - rewrite tailify_app in E. eapply IHe; [|exact E]. intros s k t' k' E'. cbn in E'.
    eapply L; [exact H| |exact E']. intros ss k2 t2 k2' E2.
    destruct next as [|g].
    + injection E2 as _ <-. lia.
    + unfold with_stm in E2. destruct (g (SmVar (NG k2)) (S k2)) as [(t3, ?)|] eqn:E1; [|discriminate].
      injection E2 as _ <-. apply (HK (SmVar (NG k2)) (S k2)) in E1. lia.
Qed.

Lemma tailify_l_mono : forall l acc fin n t n', fmono fin -> tailify_l l acc fin n = Some (t, n') -> n <= n'.
Proof.
  induction l as [|e l IH]; intros acc fin n t n' HF E; cbn in E; [eapply HF; eauto|].
  eapply tailify_mono; [|exact E]. intros s k t' k' E'. cbn in E'. eapply IH; eauto.
Qed.

(** * The simulation *)
Definition crelT (c1 : ecode) (c2 : tcode) : Prop :=
  e_ps c1 = t_ps c2 /\ e_env c1 = [] /\ tl_ok (e_body c1) = true /\
  exists m m', old m (e_body c1) = true /\ tailify (e_body c1) KId m = Some (t_body c2, m').
Definition selT (c1 : ecode) (c2 : tcode) (k i j : nat) : Prop := i = j /\ i < k.

Notation vrelT := (vrel crelT selT e_arity).
Notation grelT := (grel crelT selT e_arity).
Notation arelT := (arel crelT selT e_arity).

Definition envT (rho : list (name * val ecode)) (sg : list (name * val tcode)) (x : name) : Prop :=
  forall v, lookup x rho = Some v -> exists v', lookup x sg = Some v' /\ vrelT v v'.
Definition phiT (phi : list (val ecode)) (phi' : list (val tcode)) : Prop :=
  forall i v, nth_error phi i = Some v -> exists v', nth_error phi' i = Some v' /\ vrelT v v'.

(** [x] may have been written by code that binds [D] and the generated names
    from [m] to [m1] *)
Definition touched (D : list name) (m m1 : nat) (x : name) : Prop :=
  In x D \/ exists k, x = NG k /\ m <= k < m1.
Definition agree (D : list name) (m m1 : nat) (sg sg' : list (name * val tcode)) : Prop :=
  forall x, ~ touched D m m1 x -> lookup x sg' = lookup x sg.

(** the variables an operand reads *)
Definition sv1 (s : simple) : list name := match s with SmVar x => [x] | _ => [] end.
Definition sv (s : simple) : list name :=
  match s with SmVar x => [x] | SmClo _ _ fr => flat_map sv1 fr | _ => [] end.

Lemma ev_simple_agree : forall sg sg' phi s, (forall x, In x (sv s) -> lookup x sg' = lookup x sg) ->
  ev_simple sg' phi s = ev_simple sg phi s.
Proof.
  intros sg sg' phi s H. destruct s; cbn in *; auto.
  - now rewrite H by auto.
  - replace (opts (free_sval sg' phi) frees) with (opts (free_sval sg phi) frees); [reflexivity|].
    induction frees as [|s l IH]; cbn in *; [reflexivity|]. rewrite IH by (intros; apply H; apply in_or_app; auto).
    replace (free_sval sg' phi s) with (free_sval sg phi s); [reflexivity|].
    destruct s; cbn; auto. symmetry. apply H. now left.
Qed.

Lemma touched_weaken : forall D D' m m' m1 m1' x, incl D D' -> m' <= m -> m1 <= m1' ->
  touched D m m1 x -> touched D' m' m1' x.
Proof. intros D D' m m' m1 m1' x HD H1 H2 [H|(k & E & H)]; [left; auto|right; exists k; split; [exact E|lia]]. Qed.

Lemma agree_trans : forall D1 D2 D m m1 m2 s1 s2 s3, incl D1 D -> incl D2 D -> m <= m1 -> m1 <= m2 ->
  agree D1 m m1 s1 s2 -> agree D2 m1 m2 s2 s3 -> agree D m m2 s1 s3.
Proof.
  intros D1 D2 D m m1 m2 s1 s2 s3 H1 H2 L1 L2 A1 A2 x Hx.
  rewrite A2, A1; [reflexivity| |]; intro T; apply Hx; eapply touched_weaken; try exact T; auto.
Qed.
Lemma agree_refl : forall D m m1 s, agree D m m1 s s.
Proof. intros D m m1 s x _. reflexivity. Qed.
Lemma agree_cons : forall D m m1 x v s, touched D m m1 x -> agree D m m1 s ((x, v) :: s).
Proof.
  intros D m m1 x v s T y Hy. cbn. destruct (name_eqb_spec y x) as [->|N]; [contradiction|reflexivity].
Qed.

(** a name the expression mentions is not touched by later generated names *)
Lemma older_untouched : forall D m m1 x, older m x = true -> ~ In x D -> ~ touched D m m1 x.
Proof.
  intros D m m1 x HO HD [H|(k & -> & H)]; [auto|]. cbn in HO. apply Nat.ltb_lt in HO. lia.
Qed.

Lemma crelT_arity : forall c1 c2, crelT c1 c2 -> e_arity c1 = t_arity c2.
Proof. intros c1 c2 (H & _). unfold e_arity, t_arity. congruence. Qed.

Definition sim_post (a : ans ecode) (G' : store ecode) (e : exp) (next : kont) (m : nat)
  (sg : list (name * val tcode)) (phi' : list (val tcode)) (ar : arith) (P : val tcode * store tcode -> Prop) : Prop :=
  forall s m1 t1 m2 sg' G2' a2, m <= m1 -> apply_k next s m1 = Some (t1, m2) ->
    agree (binders e) m m1 sg sg' -> ev_simple sg' phi' s = Some a2 -> arelT a a2 ->
    (forall x, In x (sv s) -> In x (free_vars e) \/ touched (binders e) m m1 x) ->
    grelT G' G2' -> evt (fun k => exec ar k sg' phi' t1 G2') P.

Definition sim_at (ar : arith) (n : nat) : Prop :=
  forall rho phi e G a G', ev1 ar n rho phi e G = Some (a, G') ->
  forall next m t m' sg phi' G2 P, tl_ok e = true -> old m e = true -> kmono next ->
  (forall x, In x (free_vars e) -> envT rho sg x) -> phiT phi phi' -> grelT G G2 ->
  tailify e next m = Some (t, m') ->
  sim_post a G' e next m sg phi' ar P ->
  (next = KId -> forall v v' G2', a = AVal v -> vrelT v v' -> grelT G' G2' -> P (v', G2')) ->
  evt (fun k => exec ar k sg phi' t G2) P.

(** operands and their answers *)
Definition ops (sg : list (name * val tcode)) (phi' : list (val tcode)) (a : ans ecode) (s : simple) : Prop :=
  exists a2, ev_simple sg phi' s = Some a2 /\ arelT a a2.

Lemma ops_values : forall sg phi' la ss G G2 vs, Forall2 (ops sg phi') la ss -> grelT G G2 ->
  force_all la G = Some vs ->
  exists vs', opts (fun s => sval_of sg phi' s G2) ss = Some vs' /\ Forall2 vrelT vs vs'.
Proof.
  intros sg phi' la ss G G2 vs F HG. revert vs. induction F as [|a s la ss (a2 & E & R) F IH]; intros vs Ev; cbn in *.
  - injection Ev as <-. exists []. auto.
  - destruct (force a G) as [v|] eqn:E1; [|discriminate].
    destruct (force_all la G) as [ws|] eqn:E2; [|discriminate]. injection Ev as <-.
    destruct (IH _ eq_refl) as (ws' & -> & R2).
    destruct (force_rel _ _ _ _ _ _ _ _ R HG E1) as (v' & E3 & R3).
    unfold sval_of at 1. rewrite E, E3. eexists. split; [reflexivity|]. auto.
Qed.

Lemma Forall2_rev : forall {A B} (R : A -> B -> Prop) l1 l2, Forall2 R l1 l2 -> Forall2 R (rev l1) (rev l2).
Proof. intros A B R l1 l2 H. induction H; cbn; [constructor|]. apply Forall2_app; auto. Qed.

Lemma list_sim : forall ar n, sim_at ar n -> forall rho phi args G la G',
  ev_list (ev1 ar n rho phi) args G = Some (la, G') ->
  forall acc accA fin m t m' sg phi' G2 P,
  forallb tl_ok args = true -> seq_ok args = true -> forallb (old m) args = true -> fmono fin ->
  (forall e x, In e args -> In x (free_vars e) -> envT rho sg x) -> phiT phi phi' -> grelT G G2 ->
  Forall2 (ops sg phi') accA acc ->
  (forall s x, In s acc -> In x (sv s) -> older m x = true /\ ~ In x (flat_map binders args)) ->
  tailify_l args acc fin m = Some (t, m') ->
  (forall ss m1 t1 m2 sg' G2', m <= m1 -> fin ss m1 = Some (t1, m2) ->
     agree (flat_map binders args) m m1 sg sg' -> Forall2 (ops sg' phi') (rev accA ++ la) ss ->
     grelT G' G2' -> evt (fun k => exec ar k sg' phi' t1 G2') P) ->
  evt (fun k => exec ar k sg phi' t G2) P.
Proof.
  intros ar n SIM rho phi args. induction args as [|e args IH]; intros G la G' E acc accA fin m t m' sg phi' G2 P
    HT HS HO HF HE HPhi HG HA HV HTail HK; cbn in E.
  - injection E as <- <-. cbn in HTail. eapply HK; [| exact HTail| | |exact HG].
    + lia.
    + apply agree_refl.
    + rewrite app_nil_r. apply Forall2_rev. exact HA.
  - destruct (ev1 ar n rho phi e G) as [(a, G1)|] eqn:E1; [|discriminate].
    destruct (ev_list (ev1 ar n rho phi) args G1) as [(la', G3)|] eqn:E2; [|discriminate]. injection E as <- <-.
    cbn in HT, HS, HO. apply andb_true_iff in HT as [HT1 HT2]. apply andb_true_iff in HS as [HS HS3].
    apply andb_true_iff in HS as [HS1 HS2]. apply andb_true_iff in HO as [HO1 HO2].
    cbn in HTail.
    eapply (SIM _ _ _ _ _ _ E1); [exact HT1|exact HO1| | |exact HPhi|exact HG|exact HTail| |discriminate].
    + intros s k t' k' E'. cbn in E'. eapply tailify_l_mono; eauto.
    + intros x Hx. eapply HE; [now left|exact Hx].
    + intros s m1 t1 m2 sg' G2' a2 L E' AG ES AR SV HG1. cbn in E'.
      eapply (IH _ _ _ E2) with (accA := a :: accA); [exact HT2|exact HS3| |exact HF| |exact HPhi|exact HG1| | |exact E'|].
      * eapply forallb_impl; [|exact HO2]. rewrite Forall_forall. intros e' _. now apply old_mono.
      * intros e' x He' Hx v Ev. destruct (HE e' x (or_intror He') Hx v Ev) as (v' & Ev' & R).
        exists v'. split; [|exact R]. rewrite AG; [exact Ev'|].
        apply older_untouched.
        -- rewrite forallb_forall in HO2. eapply old_free; [apply HO2; exact He'|exact Hx].
        -- intro Hb. eapply disj_spec; [exact HS2|exact Hb|]. apply in_flat_map. eauto.
      * constructor; [exists a2; auto|].
        assert (HV' : forall s x, In s acc -> In x (sv s) -> lookup x sg' = lookup x sg).
        { intros s0 x Hs Hx. apply AG. destruct (HV s0 x Hs Hx) as (O1 & O2). apply older_untouched; [exact O1|].
          intro Hb. apply O2. cbn. apply in_or_app. now left. }
        clear - HA HV'. induction HA as [|b s0 lA lS (b2 & Eb & Rb) HA IHA]; constructor.
        -- exists b2. split; [|exact Rb]. rewrite <- Eb. apply ev_simple_agree. intros x Hx.
           eapply HV'; [now left|exact Hx].
        -- apply IHA. intros s1 x Hs Hx. eapply HV'; [right; exact Hs|exact Hx].
      * intros s0 x Hs Hx. destruct Hs as [<-|Hs].
        -- destruct (SV x Hx) as [Hf|[Hb|(k & -> & Hk)]].
           ++ split; [eapply older_mono; [exact L|]; eapply old_free; eauto|].
              intro Hb. eapply disj_spec; [exact HS1|exact Hb|]. apply in_or_app. now left.
           ++ split; [eapply older_mono; [exact L|]; eapply old_binders; eauto|].
              intro Hb'. eapply disj_spec; [exact HS1|exact Hb'|]. apply in_or_app. now right.
           ++ split; [cbn; apply Nat.ltb_lt; lia|].
              intro Hb. apply in_flat_map in Hb. destruct Hb as (e' & He' & Hb).
              rewrite forallb_forall in HO2. pose proof (old_binders _ _ (HO2 _ He') _ Hb) as Q.
              cbn in Q. apply Nat.ltb_lt in Q. lia.
        -- destruct (HV s0 x Hs Hx) as (O1 & O2). split; [eapply older_mono; eauto|].
           intro Hb. apply O2. cbn. apply in_or_app. now right.
      * intros ss m3 t3 m4 sg'' G4 L3 E3 AG3 F3 HG3. eapply HK; [| exact E3| | |exact HG3].
        -- lia.
        -- eapply agree_trans; [| | | |exact AG|exact AG3]; auto; cbn; [apply incl_appl|apply incl_appr]; apply incl_refl.
        -- cbn in F3. rewrite <- app_assoc in F3. exact F3.
Qed.

Lemma simples_vals : forall rho phi sg phi' frees ss vs, simples frees = Some ss ->
  (forall e x, In e frees -> In x (free_vars e) -> envT rho sg x) -> phiT phi phi' ->
  opts (free_val rho phi) frees = Some vs ->
  exists vs', opts (free_sval sg phi') ss = Some vs' /\ Forall2 vrelT vs vs' /\
    (forall x, In x (flat_map sv1 ss) -> exists e, In e frees /\ In x (free_vars e)).
Proof.
  intros rho phi sg phi' frees. induction frees as [|e frees IH]; intros ss vs E HE HP Ev; cbn in *.
  - injection E as <-. injection Ev as <-. exists []. repeat split; auto. intros x [].
  - destruct (free_val rho phi e) as [v|] eqn:E1; [|discriminate].
    destruct (opts (free_val rho phi) frees) as [ws|] eqn:E2; [|discriminate]. injection Ev as <-.
    destruct e; cbn in E1; try discriminate; (destruct (simples frees) as [ss'|]; [|discriminate]); injection E as <-;
      (destruct (IH _ _ eq_refl (fun e x He Hx => HE e x (or_intror He) Hx) HP eq_refl) as (ws' & E3 & R3 & S3)).
    + destruct (HE (EVar x) x (or_introl eq_refl) (or_introl eq_refl) v E1) as (v' & Ev' & R).
      exists (v' :: ws'). cbn. rewrite Ev', E3. repeat split; auto. intros y [<-|Hy].
      * exists (EVar x). split; [now left|now left].
      * destruct (S3 y Hy) as (e & He & Hx). eauto.
    + destruct (HP _ _ E1) as (v' & Ev' & R).
      exists (v' :: ws'). cbn. rewrite Ev', E3. repeat split; auto. intros y Hy.
      destruct (S3 y Hy) as (e & He & Hx). eauto.
Qed.

Lemma Forall2_nth : forall {A B} (R : A -> B -> Prop) l1 l2, Forall2 R l1 l2 -> forall i a, nth_error l1 i = Some a ->
  exists b, nth_error l2 i = Some b /\ R a b.
Proof.
  intros A B R l1 l2 H. induction H; intros [|i] a E; cbn in *; try discriminate; [injection E as <-; eauto|eauto].
Qed.

Theorem tailify_sim : forall ar n, sim_at ar n.
Proof.
  intros ar n. induction n as [|n IH]; intros rho phi e G a G' E next m t m' sg phi' G2 P HT HO HM HE HP HG HTail HK HI;
    [discriminate|].
  assert (RUN : forall c1 c2 vs1 vs2 l1 l2 G1 G2 r,
    vrelT (VClo c1 vs1) (VClo c2 vs2) -> Forall2 vrelT l1 l2 -> List.length l1 = e_arity c1 -> grelT G1 G2 ->
    forced (ev1 ar n (combine (e_ps c1) l1 ++ combine (e_env c1) vs1) vs1 (e_body c1) G1) = Some r ->
    evt (fun m => exec ar m (combine (t_ps c2) l2) vs2 (t_body c2) G2) (rres crelT selT e_arity r)).
  { clear - IH. intros c1 c2 vs1 vs2 l1 l2 G1 G2 r HV HL HN HG E.
    inversion HV as [| | | | | | |? ? ? ? HCr HS| |]; subst.
    destruct HCr as (A1 & A2 & A3 & m & m' & A4 & A5).
    rewrite A2 in E. cbn [combine] in E. rewrite app_nil_r in E.
    destruct (ev1 ar n (combine (e_ps c1) l1) vs1 (e_body c1) G1) as [(a, G3)|] eqn:E1; [|discriminate].
    cbn in E. destruct (force a G3) as [v|] eqn:Ef; [|discriminate]. injection E as <-.
    eapply (IH _ _ _ _ _ _ E1) with (phi' := vs2); [exact A3|exact A4|exact kmono_id| | |exact HG|exact A5| |].
    - intros x _ w Hw. rewrite lookup_combine in Hw. rewrite <- A1, lookup_combine.
      destruct (index x (e_ps c1)) as [i|]; [|discriminate]. eapply Forall2_nth; eauto.
    - intros i w Hw. destruct (HS i i) as (v1 & v2 & N1 & N2 & R).
      + split; [reflexivity|]. apply nth_error_Some. congruence.
      + exists v2. split; [exact N2|]. congruence.
    - intros s m1 t1 m2 sg' G2' a2 L E' AG ES AR SV HG'. cbn in E'. injection E' as <- <-.
      destruct (force_rel _ _ _ _ _ _ _ _ AR HG' Ef) as (v2 & Ef2 & R).
      apply evt_now with (a := (v2, G2')); [split; auto|].
      intro k. cbn. unfold sval_of. now rewrite ES, Ef2.
    - intros _ w w' G2' -> HV' HG'. cbn in Ef. injection Ef as <-. split; auto. }
  (* hand the answer to the continuation at once *)
  assert (NOW : forall s m1 a2 G2', m <= m1 -> apply_k next s m1 = Some (t, m') -> ev_simple sg phi' s = Some a2 -> arelT a a2 ->
     (forall x, In x (sv s) -> In x (free_vars e)) -> grelT G' G2' -> evt (fun k => exec ar k sg phi' t G2') P).
  { intros s m1 a2 G2' L E' ES AR SV HG'. eapply HK; eauto. apply agree_refl. }
  destruct e as [s|x|x|i|ps b|ps b frees|ea eb ec|ea eb|x eb ec|p args|f args];
    cbn [ev1 tl_ok old free_vars] in *.
  - injection E as <- <-. eapply NOW; [| exact HTail|reflexivity|apply quoted_rel| |exact HG]; [lia|intros x []].
  - injection E as <- <-. eapply NOW; [| exact HTail|reflexivity|reflexivity| |exact HG]; [lia|intros y []].
  - destruct (lookup x rho) as [v|] eqn:El; [|discriminate]. injection E as <- <-.
    destruct (HE x (or_introl eq_refl) v El) as (v' & Ev & R).
    eapply NOW with (a2 := AVal v'); [| exact HTail|cbn; now rewrite Ev|exact R| |exact HG]; [lia|auto].
  - destruct (nth_error phi i) as [v|] eqn:El; [|discriminate]. injection E as <- <-.
    destruct (HP i v El) as (v' & Ev & R).
    eapply NOW with (a2 := AVal v'); [| exact HTail|cbn; now rewrite Ev|exact R| |exact HG]; [lia|intros x []].
  - discriminate.
  - cbn in HTail. destruct (opts (free_val rho phi) frees) as [vs|] eqn:Ev; [|discriminate]. injection E as <- <-.
    destruct (tailify b KId m) as [(sb, n1)|] eqn:Eb; [|discriminate].
    destruct (simples frees) as [ss|] eqn:Es; [|discriminate].
    apply andb_true_iff in HO as [HO1 HO2].
    pose proof (tailify_mono _ _ _ _ _ kmono_id Eb) as L.
    assert (HE' : forall e x, In e frees -> In x (free_vars e) -> envT rho sg x).
    { intros e0 x He Hx. apply HE. apply in_unions. exists (free_vars e0). split; [right; now apply in_map|exact Hx]. }
    destruct (simples_vals _ _ _ _ _ _ _ Es HE' HP Ev) as (vs' & Ev' & R & SV).
    eapply NOW with (a2 := AVal (VClo (mkT ps sb) vs')); [exact L|exact HTail|cbn; now rewrite Ev'| | |exact HG].
    + cbn. constructor.
      * split; [reflexivity|]. split; [reflexivity|]. split; [exact HT|]. cbn. eauto.
      * intros i j (<- & Li). destruct (nth_error vs i) as [v|] eqn:En; [|apply nth_error_None in En; lia].
        destruct (Forall2_nth _ _ _ R _ _ En) as (v' & En' & Rv). eauto.
    + intros x Hx. cbn in Hx. destruct (SV x Hx) as (e0 & He & Hx').
      apply in_unions. exists (free_vars e0). split; [right; now apply in_map|exact Hx'].
  - (* if *)
    repeat (apply andb_true_iff in HT as [HT ?]). repeat (apply andb_true_iff in HO as [HO ?]).
    destruct (forced (ev1 ar n rho phi ea G)) as [(tv, G1)|] eqn:Ef; [|discriminate].
    destruct (ev1 ar n rho phi ea G) as [(aa, G1')|] eqn:Ea; [|discriminate].
    cbn in Ef. destruct (force aa G1') as [tv'|] eqn:Ef'; [|discriminate]. injection Ef as -> ->.
    assert (IN : forall e0 x, In e0 [ea; eb; ec] -> In x (free_vars e0) -> In x (unions [free_vars ea; free_vars eb; free_vars ec])).
    { intros e0 x He Hx. apply in_unions. exists (free_vars e0). split; [|exact Hx].
      cbn in He |- *. intuition (subst; auto). }
    cbn [tailify] in HTail.
    eapply (IH _ _ _ _ _ _ Ea); [exact HT|exact HO| | |exact HP|exact HG|exact HTail| |discriminate].
    + intros s k t' k' E'. cbn in E'.
      destruct (tailify eb next k) as [(sb, n1)|] eqn:Eb; [|discriminate].
      destruct (tailify ec next n1) as [(sc, n2)|] eqn:Ec; [|discriminate]. injection E' as _ <-.
      pose proof (tailify_mono _ _ _ _ _ HM Eb). pose proof (tailify_mono _ _ _ _ _ HM Ec). lia.
    + intros x Hx. apply HE. eapply IN; [|exact Hx]. cbn; auto.
    + intros s m1 t1 m2 sg' G2' a2 L E' AG ES AR SV HG1. cbn in E'.
      destruct (tailify eb next m1) as [(sb, n1)|] eqn:Eb; [|discriminate].
      destruct (tailify ec next n1) as [(sc, n2)|] eqn:Ec; [|discriminate]. injection E' as <- <-.
      pose proof (tailify_mono _ _ _ _ _ HM Eb) as L1.
      destruct (force_rel _ _ _ _ _ _ _ _ AR HG1 Ef') as (v2 & Ef2 & RV).
      assert (BR : forall e0 mm tt mm', In e0 [eb; ec] -> m1 <= mm -> tailify e0 next mm = Some (tt, mm') ->
         ev1 ar n rho phi e0 G1 = Some (a, G') -> tl_ok e0 = true -> old m e0 = true -> disj (binders ea) (free_vars e0) = true ->
         evt (fun k => exec ar k sg' phi' tt G2') P).
      { intros e0 mm tt mm' He0 Lm Et E0 T0 O0 D0.
        eapply (IH _ _ _ _ _ _ E0); [exact T0| |exact HM| |exact HP|exact HG1|exact Et| |exact HI].
        - eapply old_mono; [|exact O0]. lia.
        - intros x Hx v Hv. destruct (HE x) with (v := v) as (v' & Hv' & Rv'); auto.
          + eapply IN; [|exact Hx]. cbn in He0 |- *. tauto.
          + exists v'. split; [|exact Rv']. rewrite AG; [exact Hv'|]. apply older_untouched.
            * eapply old_free; eauto.
            * intro Hb. eapply disj_spec; eauto.
        - assert (IB : incl (binders e0) (binders (EIf ea eb ec))).
          { intros y Hy. cbn. rewrite !in_app_iff. cbn in He0. intuition (subst; auto). }
          intros s1 m3 t3 m4 sg'' G4 a4 L3 E3 AG3 ES3 AR3 SV3 HG3.
          eapply HK; [|exact E3| |exact ES3|exact AR3| |exact HG3].
          + lia.
          + eapply agree_trans with (D1 := binders ea) (m1 := mm) (D2 := binders e0).
            * cbn. apply incl_appl, incl_refl.
            * exact IB.
            * lia.
            * lia.
            * intros y Hy. apply AG. intro T. apply Hy. eapply touched_weaken; [| | |exact T]; auto. apply incl_refl.
            * exact AG3.
          + intros y Hy. destruct (SV3 y Hy) as [Q|Q].
            * left. eapply IN; [|exact Q]. cbn in He0 |- *. tauto.
            * right. eapply touched_weaken; [exact IB| | |exact Q]; lia. }
      apply evt_S. cbn [exec]. unfold sval_of. rewrite ES, Ef2.
      destruct RV; first [eapply BR with (e0 := eb) (mm := m1); eauto; [cbn; auto] | eapply BR with (e0 := ec) (mm := n1); eauto; [cbn; auto]].
  - (* do *)
    repeat (apply andb_true_iff in HT as [HT ?]). repeat (apply andb_true_iff in HO as [HO ?]).
    destruct (forced (ev1 ar n rho phi ea G)) as [(tv, G1)|] eqn:Ef; [|discriminate].
    destruct (ev1 ar n rho phi ea G) as [(aa, G1')|] eqn:Ea; [|discriminate].
    cbn in Ef. destruct (force aa G1') as [tv'|] eqn:Ef'; [|discriminate]. injection Ef as -> ->.
    assert (IN : forall e0 x, In e0 [ea; eb] -> In x (free_vars e0) -> In x (unions [free_vars ea; free_vars eb])).
    { intros e0 x He Hx. apply in_unions. exists (free_vars e0). split; [|exact Hx].
      cbn in He |- *. intuition (subst; auto). }
    cbn [tailify] in HTail.
    assert (DOI : forall ra k t' k', match ra with SmVar _ => tailify eb next k | _ => with_stm (TDo ra) (tailify eb next k) end = Some (t', k') ->
       exists t'', tailify eb next k = Some (t'', k') /\ (t' = t'' \/ t' = TDo ra t'')).
    { intros ra k t' k' E'. destruct ra; unfold with_stm in E';
        try (destruct (tailify eb next k) as [(t2, k2)|]; [|discriminate]; injection E' as <- <-); eauto. }
    eapply (IH _ _ _ _ _ _ Ea); [exact HT|exact HO| | |exact HP|exact HG|exact HTail| |discriminate].
    + intros s k t' k' E'. cbn in E'. destruct (DOI _ _ _ _ E') as (t'' & E'' & _). eapply tailify_mono; eauto.
    + intros x Hx. apply HE. eapply IN; [|exact Hx]. cbn; auto.
    + intros s m1 t1 m2 sg' G2' a2 L E' AG ES AR SV HG1. cbn in E'.
      destruct (DOI _ _ _ _ E') as (t'' & E'' & TT).
      destruct (force_rel _ _ _ _ _ _ _ _ AR HG1 Ef') as (v2 & Ef2 & RV).
      assert (BR : evt (fun k => exec ar k sg' phi' t'' G2') P).
      { eapply (IH _ _ _ _ _ _ E); [eassumption| |exact HM| |exact HP|exact HG1|exact E''| |exact HI].
        - eapply old_mono; [exact L|eassumption].
        - intros x Hx v Hv. destruct (HE x) with (v := v) as (v' & Hv' & Rv'); auto.
          + eapply IN; [|exact Hx]. cbn; auto.
          + exists v'. split; [|exact Rv']. rewrite AG; [exact Hv'|]. apply older_untouched.
            * eapply old_free; eauto.
            * intro Hb. eapply disj_spec; eauto.
        - intros s1 m3 t3 m4 sg'' G4 a4 L3 E3 AG3 ES3 AR3 SV3 HG3.
          eapply HK; [|exact E3| |exact ES3|exact AR3| |exact HG3].
          + lia.
          + eapply agree_trans; [| | | |exact AG|exact AG3]; auto; cbn; [apply incl_appl|apply incl_appr]; apply incl_refl.
          + intros y Hy. destruct (SV3 y Hy) as [Q|Q].
            * left. eapply IN; [|exact Q]. cbn; auto.
            * right. eapply touched_weaken; [| | |exact Q]; [cbn; apply incl_appr, incl_refl|lia|lia]. }
      destruct TT as [->| ->]; [exact BR|].
      apply evt_S. cbn [exec]. unfold sval_of. rewrite ES, Ef2. exact BR.
  - (* let *)
    repeat (apply andb_true_iff in HT as [HT ?]). apply andb_true_iff in HO as [HO HO3]. apply andb_true_iff in HO as [HO1 HO2].
    destruct (forced (ev1 ar n rho phi eb G)) as [(tv, G1)|] eqn:Ef; [|discriminate].
    destruct (ev1 ar n rho phi eb G) as [(aa, G1')|] eqn:Ea; [|discriminate].
    cbn in Ef. destruct (force aa G1') as [tv'|] eqn:Ef'; [|discriminate]. injection Ef as -> ->.
    cbn [tailify] in HTail.
    eapply (IH _ _ _ _ _ _ Ea); [exact HT|exact HO2| | |exact HP|exact HG|exact HTail| |discriminate].
    + intros s k t' k' E'. cbn in E'. unfold with_stm in E'.
      destruct (tailify ec next k) as [(t2, k2)|] eqn:Ec; [|discriminate]. injection E' as _ <-.
      eapply tailify_mono; eauto.
    + intros y Hy. apply HE. apply in_union. auto.
    + intros s m1 t1 m2 sg' G2' a2 L E' AG ES AR SV HG1. cbn in E'. unfold with_stm in E'.
      destruct (tailify ec next m1) as [(t2, k2)|] eqn:Ec; [|discriminate]. injection E' as <- <-.
      destruct (force_rel _ _ _ _ _ _ _ _ AR HG1 Ef') as (v2 & Ef2 & RV).
      apply evt_S. cbn [exec]. unfold sval_of. rewrite ES, Ef2.
      eapply (IH _ _ _ _ _ _ E); [eassumption| |exact HM| |exact HP|exact HG1|exact Ec| |exact HI].
      * eapply old_mono; [exact L|exact HO3].
      * intros y Hy v Hv. cbn [lookup] in Hv |- *. destruct (name_eqb_spec y x) as [->|N].
        -- injection Hv as <-. eauto.
        -- assert (Hy' : In y (diff (free_vars ec) [x])) by (apply in_diff; split; [exact Hy|cbn; intuition]).
           destruct (HE y) with (v := v) as (v' & Hv' & Rv'); auto; [apply in_union; now right|].
           exists v'. split; [|exact Rv']. rewrite AG; [exact Hv'|]. apply older_untouched.
           ++ eapply old_free; [exact HO3|exact Hy].
           ++ intro Hb. eapply disj_spec; eauto.
      * intros s1 m3 t3 m4 sg'' G4 a4 L3 E3 AG3 ES3 AR3 SV3 HG3.
        eapply HK; [|exact E3| |exact ES3|exact AR3| |exact HG3].
        -- lia.
        -- eapply agree_trans with (m1 := m1) (D1 := x :: binders eb) (D2 := binders ec); [| |lia|lia| |exact AG3].
           ++ cbn. intros y [<-|Hy]; [now left|]. right. apply in_or_app. now left.
           ++ cbn. intros y Hy. right. apply in_or_app. now right.
           ++ intros y Hy. cbn [lookup]. destruct (name_eqb_spec y x) as [->|N]; [exfalso; apply Hy; left; now left|].
              apply AG. intro T. apply Hy. eapply touched_weaken; [| | |exact T]; auto. apply incl_tl, incl_refl.
        -- intros y Hy. destruct (SV3 y Hy) as [Q|Q].
           ++ destruct (name_eqb_spec y x) as [->|N]; [right; left; now left|].
              left. apply in_union. right. apply in_diff. split; [exact Q|cbn; intuition].
           ++ right. eapply touched_weaken; [| | |exact Q]; [cbn; apply incl_tl, incl_appr, incl_refl|lia|lia].
  - (* primitive *)
    apply andb_true_iff in HT as [HT1 HT2]. rewrite tailify_prim in HTail.
    destruct (ev_list (ev1 ar n rho phi) args G) as [(l, G1)|] eqn:E1; [|discriminate].
    destruct (force_all l G1) as [vs|] eqn:E2; [|discriminate].
    destruct (prim_sem ar p vs G1) as [(v, G3)|] eqn:E3; [|discriminate]. injection E as <- <-.
    eapply (list_sim ar n IH _ _ _ _ _ _ E1) with (accA := []) ; [exact HT1|exact HT2|exact HO| | |exact HP|exact HG|constructor| |exact HTail|].
    + intros ss k t' k' E'. unfold with_stm in E'.
      destruct (apply_k next (SmVar (NG k)) (S k)) as [(t2, ?)|] eqn:Ek; [|discriminate]. injection E' as _ <-.
      apply HM in Ek. lia.
    + intros e0 x He Hx. apply HE. apply in_unions_map'. eauto.
    + intros s x [].
    + intros ss m1 t1 m2 sg' G2' L E' AG F HG1. unfold with_stm in E'.
      destruct (apply_k next (SmVar (NG m1)) (S m1)) as [(t2, k2)|] eqn:Ek; [|discriminate]. injection E' as <- <-.
      destruct (ops_values _ _ _ _ _ _ _ F HG1 E2) as (vs' & Evs & RV).
      destruct (prim_rel _ _ _ _ _ _ _ _ _ _ _ RV HG1 E3) as ((v2, G5) & Ep & (R1 & R2)).
      apply evt_S. cbn [exec]. rewrite Evs, Ep.
      cbn in R1, R2.
      eapply HK with (a2 := AVal v2); [|exact Ek| | |exact R1| |exact R2].
      * lia.
      * eapply agree_trans with (m1 := m1) (D1 := flat_map binders args) (D2 := []); [cbn; apply incl_refl|intros ? []|lia| |exact AG|]; [lia|].
        apply agree_cons. right. exists m1. split; [reflexivity|lia].
      * cbn. now rewrite Nat.eqb_refl.
      * intros x [<-|[]]. right. right. exists m1. split; [reflexivity|lia].
  - (* application *)
    apply andb_true_iff in HT as [HT HT3]. apply andb_true_iff in HT as [HT1 HT2]. apply andb_true_iff in HO as [HO1 HO2].
    cbn [seq_ok] in HT3. apply andb_true_iff in HT3 as [HT3 HT5]. apply andb_true_iff in HT3 as [HT3 HT4].
    rewrite tailify_app in HTail.
    destruct (ev1 ar n rho phi f G) as [(af, G1)|] eqn:E1; [|discriminate].
    destruct (ev_list (ev1 ar n rho phi) args G1) as [(l, G3)|] eqn:E2; [|discriminate].
    destruct (force af G3) as [fv|] eqn:E3; [|discriminate].
    destruct (force_all l G3) as [vs|] eqn:E4; [|discriminate].
    match type of E with match ?X with _ => _ end = _ => destruct X as [(v, G5)|] eqn:E5; [|discriminate] end.
    injection E as <- <-.
    assert (FM : forall f1, fmono (fun ss n => match next with
      | KId => Some (TTail f1 ss, n)
      | KFun g => with_stm (fun k => TCall f1 ss (NG n) k None) (g (SmVar (NG n)) (S n)) end)).
    { intros f1 ss k2 t2 k2' E'. destruct next as [|g].
      + injection E' as _ <-. lia.
      + unfold with_stm in E'. destruct (g (SmVar (NG k2)) (S k2)) as [(t3, ?)|] eqn:E6; [|discriminate].
        injection E' as _ <-. apply (HM (SmVar (NG k2)) (S k2)) in E6. lia. }
    eapply (IH _ _ _ _ _ _ E1); [exact HT1|exact HO1| | |exact HP|exact HG|exact HTail| |discriminate].
    + intros s k t' k' E'. cbn in E'. eapply tailify_l_mono; [apply FM|exact E'].
    + intros y Hy. apply HE. apply in_unions_app. now left.
    + intros s m1 t1 m2 sg' G2' a2 L E' AG ES AR SV HG1. cbn in E'.
      eapply (list_sim ar n IH _ _ _ _ _ _ E2) with (accA := []) ; [exact HT2|exact HT5| |apply (FM s)| |exact HP|exact HG1|constructor| |exact E'|].
      * eapply forallb_impl; [|exact HO2]. rewrite Forall_forall. intros e' _. now apply old_mono.
      * intros e0 x He Hx v0 Hv0. destruct (HE x) with (v := v0) as (v' & Hv' & Rv'); auto; [apply in_unions_app; eauto|].
        exists v'. split; [|exact Rv']. rewrite AG; [exact Hv'|]. apply older_untouched.
        -- rewrite forallb_forall in HO2. eapply old_free; [apply HO2; exact He|exact Hx].
        -- intro Hb. eapply disj_spec; [exact HT4|exact Hb|]. apply in_flat_map. eauto.
      * intros s0 x [].
      * intros ss m3 t3 m4 sg'' G4 L3 E6 AG3 F HG3. cbn [rev app] in F.
        assert (ES' : ev_simple sg'' phi' s = Some a2).
        { rewrite <- ES. apply ev_simple_agree. intros x Hx. apply AG3. intros [Hb|(k & -> & Hk)].
          - destruct (SV x Hx) as [Hf|[Hb'|(k & -> & Hk)]].
            + eapply disj_spec; [exact HT3|exact Hb|]. apply in_or_app. now left.
            + eapply disj_spec; [exact HT3|exact Hb|]. apply in_or_app. now right.
            + apply in_flat_map in Hb. destruct Hb as (e' & He' & Hb).
              rewrite forallb_forall in HO2. pose proof (old_binders _ _ (HO2 _ He') _ Hb) as Q.
              cbn in Q. apply Nat.ltb_lt in Q. lia.
          - destruct (SV (NG k) Hx) as [Hf|[Hb'|(k' & Ek' & Hk')]].
            + pose proof (old_free _ _ HO1 _ Hf) as Q. cbn in Q. apply Nat.ltb_lt in Q. lia.
            + pose proof (old_binders _ _ HO1 _ Hb') as Q. cbn in Q. apply Nat.ltb_lt in Q. lia.
            + injection Ek' as <-. lia. }
        destruct (ops_values _ _ _ _ _ _ _ F HG3 E4) as (vs' & Evs & RV).
        destruct (force_rel _ _ _ _ _ _ _ _ AR HG3 E3) as (fv' & Ef & RF).
        assert (AP : evt (fun k => apply ar t_arity (fun c vs args G => exec ar k (combine (t_ps c) args) vs (t_body c) G) k fv' vs' G4)
                         (rres crelT selT e_arity (v, G5))).
        { eapply apply_rel with (run2 := fun k c vs args G => exec ar k (combine (t_ps c) args) vs (t_body c) G);
            [exact crelT_arity|exact RUN|exact RF|exact RV|exact HG3|exact E5]. }
        destruct next as [|g].
        -- injection E6 as <- <-. apply evt_S. cbn [exec]. unfold sval_of at 1. rewrite ES', Ef, Evs.
           eapply evt_weaken; [|exact AP]. intros (v', G6) (R1 & R2). eapply HI; eauto.
        -- unfold with_stm in E6. destruct (g (SmVar (NG m3)) (S m3)) as [(t4, k4)|] eqn:Eg; [|discriminate].
           injection E6 as <- <-. apply evt_S. cbn [exec keep]. unfold sval_of at 1. rewrite ES', Ef, Evs.
           eapply evt_bind with (g := fun k '(r, G1) => exec ar k ((NG m3, r) :: sg'') phi' t4 G1); [exact AP|].
           intros (r, G6) (R1 & R2). cbn in R1, R2.
           eapply HK with (a2 := AVal r); [|exact Eg| | |exact R1| |exact R2].
           ++ lia.
           ++ eapply agree_trans with (m1 := m3) (D1 := binders (EApp f args)) (D2 := []);
                [apply incl_refl|intros ? []|lia|lia| |].
              ** eapply agree_trans; [| | | |exact AG|exact AG3]; auto; cbn; [apply incl_appl|apply incl_appr]; apply incl_refl.
              ** apply agree_cons. right. exists m3. split; [reflexivity|lia].
           ++ cbn. now rewrite Nat.eqb_refl.
           ++ intros x [<-|[]]. right. right. exists m3. split; [reflexivity|lia].
Qed.

(** A whole program: closed, evaluated with no captured values. *)
Corollary tailify_correct : forall ar n e G v G', forced (ev1 ar n [] [] e G) = Some (v, G') ->
  forall m t m' G2, tl_ok e = true -> old m e = true -> grelT G G2 -> tailify e KId m = Some (t, m') ->
  evt (fun k => exec ar k [] [] t G2) (rres crelT selT e_arity (v, G')).
Proof.
  intros ar n e G v G' E m t m' G2 HT HO HG HTail.
  destruct (ev1 ar n [] [] e G) as [(a, G1)|] eqn:E1; [|discriminate].
  cbn in E. destruct (force a G1) as [w|] eqn:Ef; [|discriminate]. injection E as -> ->.
  eapply (tailify_sim ar n _ _ _ _ _ _ E1); [exact HT|exact HO|exact kmono_id| | |exact HG|exact HTail| |].
  - intros x _ w Hw. discriminate.
  - intros i w Hw. destruct i; discriminate.
  - intros s m1 t1 m2 sg' G2' a2 L E' AG ES AR SV HG'. cbn in E'. injection E' as <- <-.
    destruct (force_rel _ _ _ _ _ _ _ _ AR HG' Ef) as (v2 & Ef2 & R).
    apply evt_now with (a := (v2, G2')); [split; auto|].
    intro k. cbn. unfold sval_of. now rewrite ES, Ef2.
  - intros _ w w' G2' -> HV' HG'. cbn in Ef. injection Ef as <-. split; auto.
Qed.
