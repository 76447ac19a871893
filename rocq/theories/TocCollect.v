(** Collecting continuations and functions preserves meaning: running the
    generated functions on the machine of TocMach.v gives what the statement
    means. *)
From Coq Require Import List ZArith Bool String Arith Lia.
From Verif Require Import CoreSpec CoreProofs TocModel TocSem TocTail TocMach.
Import ListNotations.
Local Open Scope list_scope.
Local Open Scope nat_scope.

(** * Induction on statements *)
Section StmInd.
  Variable P : simple -> Prop.
  Variable Q : stm -> Prop.
  Hypothesis H_var : forall x, P (SmVar x).
  Hypothesis H_const : forall s, P (SmConst s).
  Hypothesis H_glob : forall x, P (SmGlob x).
  Hypothesis H_ref : forall i, P (SmRef i).
  Hypothesis H_clo : forall ps b frees, Q b -> P (SmClo ps b frees).
  Hypothesis H_lab : forall l a n frees, P (SmLab l a n frees).
  Hypothesis H_ret : forall s, P s -> Q (TRet s).
  Hypothesis H_tail : forall f args, P f -> Forall P args -> Q (TTail f args).
  Hypothesis H_call : forall f args v k live, P f -> Forall P args -> Q k -> Q (TCall f args v k live).
  Hypothesis H_jump : forall f args l live, Q (TJump f args l live).
  Hypothesis H_let : forall x s k, P s -> Q k -> Q (TLet x s k).
  Hypothesis H_prim : forall x p args k, Forall P args -> Q k -> Q (TPrim x p args k).
  Hypothesis H_if : forall s a b, P s -> Q a -> Q b -> Q (TIf s a b).
  Hypothesis H_do : forall s k, P s -> Q k -> Q (TDo s k).
  Fixpoint simple_ind' (s : simple) : P s :=
    match s with
    | SmVar x => H_var x | SmConst c => H_const c | SmGlob x => H_glob x | SmRef i => H_ref i
    | SmClo ps b frees => H_clo ps b frees (stm_ind' b)
    | SmLab l a n frees => H_lab l a n frees
    end
  with stm_ind' (t : stm) : Q t :=
    let all := fix all (l : list simple) : Forall P l :=
      match l with [] => Forall_nil P | x :: r => Forall_cons x (simple_ind' x) (all r) end in
    match t with
    | TRet s => H_ret s (simple_ind' s)
    | TTail f args => H_tail f args (simple_ind' f) (all args)
    | TCall f args v k live => H_call f args v k live (simple_ind' f) (all args) (stm_ind' k)
    | TJump f args l live => H_jump f args l live
    | TLet x s k => H_let x s k (simple_ind' s) (stm_ind' k)
    | TPrim x p args k => H_prim x p args k (all args) (stm_ind' k)
    | TIf s a b => H_if s a b (simple_ind' s) (stm_ind' a) (stm_ind' b)
    | TDo s k => H_do s k (simple_ind' s) (stm_ind' k)
    end.
End StmInd.

(** Every constant has a C text and every call knows what to save. *)
Fixpoint fin_simple (s : simple) : bool :=
  match s with
  | SmConst c => has_text c
  | SmClo _ b _ => fin_stm b
  | SmLab _ _ _ _ => false
  | _ => true
  end
with fin_stm (t : stm) : bool :=
  match t with
  | TRet s => fin_simple s
  | TTail f args => fin_simple f && forallb fin_simple args
  | TCall f args _ k live => fin_simple f && forallb fin_simple args && fin_stm k && match live with Some _ => true | None => false end
  | TJump _ _ _ _ => false
  | TLet _ s k => fin_simple s && fin_stm k
  | TPrim _ _ args k => forallb fin_simple args && fin_stm k
  | TIf s a b => fin_simple s && fin_stm a && fin_stm b
  | TDo s k => fin_simple s && fin_stm k
  end.

Fixpoint cl_list (v : list func) (l : list simple) : list simple * list func :=
  match l with
  | [] => ([], v)
  | x :: r => let '(y, v1) := cl_simple v x in let '(ys, v2) := cl_list v1 r in (y :: ys, v2)
  end.
Lemma cl_stm_tail : forall v f args, cl_stm v (TTail f args) =
  let '(f1, v1) := cl_simple v f in let '(a1, v2) := cl_list v1 args in (TTail f1 a1, v2).
Proof. reflexivity. Qed.
Lemma cl_stm_call : forall v f args x k live, cl_stm v (TCall f args x k live) =
  let '(f1, v1) := cl_simple v f in let '(a1, v2) := cl_list v1 args in
  let '(k1, v3) := cl_stm v2 k in (TCall f1 a1 x k1 live, v3).
Proof. reflexivity. Qed.
Lemma cl_stm_prim : forall v x p args k, cl_stm v (TPrim x p args k) =
  let '(a1, v1) := cl_list v args in let '(k1, v2) := cl_stm v1 k in (TPrim x p a1 k1, v2).
Proof. reflexivity. Qed.

Definition extends (v w : list func) : Prop := exists u, w = v ++ u.
Lemma extends_refl : forall v, extends v v.
Proof. intro v. exists []. now rewrite app_nil_r. Qed.
Lemma extends_trans : forall a b c, extends a b -> extends b c -> extends a c.
Proof. intros a b c (u & ->) (w & ->). exists (u ++ w). now rewrite app_assoc. Qed.

Lemma cl_list_ext' : forall l, Forall (fun s => forall v s1 v1, cl_simple v s = (s1, v1) -> extends v v1) l ->
  forall v l1 v1, cl_list v l = (l1, v1) -> extends v v1.
Proof.
  intros l H. induction H as [|s l Hs H IH]; intros v l1 v1 E; cbn in E.
  - injection E as _ <-. apply extends_refl.
  - destruct (cl_simple v s) as (s1, v2) eqn:E1. destruct (cl_list v2 l) as (l2, v3) eqn:E2. injection E as _ <-.
    eapply extends_trans; eauto.
Qed.

Lemma cl_ext : (forall s v s1 v1, cl_simple v s = (s1, v1) -> extends v v1) /\
  (forall t v t1 v1, cl_stm v t = (t1, v1) -> extends v v1).
Proof.
  assert (H : forall t, (fun t => forall v t1 v1, cl_stm v t = (t1, v1) -> extends v v1) t).
  { apply (stm_ind' (fun s => forall v s1 v1, cl_simple v s = (s1, v1) -> extends v v1)
      (fun t => forall v t1 v1, cl_stm v t = (t1, v1) -> extends v v1));
    try (intros; cbn in *; match goal with H : (_, _) = (_, _) |- _ => injection H as _ <- end; apply extends_refl).
  - intros ps b frees H v s1 v1 E. cbn in E. destruct (cl_stm v b) as (b1, v2) eqn:E1. injection E as _ <-.
    eapply extends_trans; [eauto|]. unfold append_result. now eexists.
  - intros s H v t1 v1 E. cbn in E. destruct (cl_simple v s) eqn:E1. injection E as _ <-. eauto.
  - intros f args Hf Ha v t1 v1 E. rewrite cl_stm_tail in E. destruct (cl_simple v f) eqn:E1. destruct (cl_list l args) eqn:E2.
    injection E as _ <-. eapply extends_trans; [eauto|]. eapply cl_list_ext'; eauto.
  - intros f args x k live Hf Ha Hk v t1 v1 E. rewrite cl_stm_call in E. destruct (cl_simple v f) eqn:E1.
    destruct (cl_list l args) eqn:E2. destruct (cl_stm l1 k) eqn:E3.
    injection E as _ <-. eapply extends_trans; [eauto|]. eapply extends_trans; [eapply cl_list_ext'; eauto|]. eauto.
  - intros x s k Hs Hk v t1 v1 E. cbn in E. destruct (cl_simple v s) eqn:E1. destruct (cl_stm l k) eqn:E2.
    injection E as _ <-. eapply extends_trans; eauto.
  - intros x p args k Ha Hk v t1 v1 E. rewrite cl_stm_prim in E. destruct (cl_list v args) eqn:E1. destruct (cl_stm l0 k) eqn:E2.
    injection E as _ <-. eapply extends_trans; [eapply cl_list_ext'; eauto|]. eauto.
  - intros s a b Hs Ha Hb v t1 v1 E. cbn in E. destruct (cl_simple v s) eqn:E1. destruct (cl_stm l a) eqn:E2. destruct (cl_stm l0 b) eqn:E3.
    injection E as _ <-. eapply extends_trans; [eauto|]. eapply extends_trans; eauto.
  - intros s k Hs Hk v t1 v1 E. cbn in E. destruct (cl_simple v s) eqn:E1. destruct (cl_stm l k) eqn:E2.
    injection E as _ <-. eapply extends_trans; eauto. }
  split; [|exact H].
  intros s v s1 v1 E. destruct s; cbn in E; try (injection E as _ <-; apply extends_refl).
  destruct (cl_stm v b) as (b1, v2) eqn:E1. injection E as _ <-.
  eapply extends_trans; [eapply H; eauto|]. unfold append_result. now eexists.
Qed.
Lemma cl_simple_ext : forall s v s1 v1, cl_simple v s = (s1, v1) -> extends v v1.
Proof. exact (proj1 cl_ext). Qed.
Lemma cl_stm_ext : forall t v t1 v1, cl_stm v t = (t1, v1) -> extends v v1.
Proof. exact (proj2 cl_ext). Qed.
Lemma cl_list_ext : forall l v l1 v1, cl_list v l = (l1, v1) -> extends v v1.
Proof. intros l. apply cl_list_ext'. apply Forall_forall. intros s _. apply cl_simple_ext. Qed.

Lemma collect_cont_ext : forall t cs t1 cs1, collect_cont t cs = (t1, cs1) -> exists more, cs1 = more ++ cs.
Proof.
  assert (Z : forall t, (fun t => forall cs t1 cs1, collect_cont t cs = (t1, cs1) -> exists more, cs1 = more ++ cs) t).
  { apply (stm_ind' (fun _ => True) (fun t => forall cs t1 cs1, collect_cont t cs = (t1, cs1) -> exists more, cs1 = more ++ cs)); auto.
  - intros s _ cs t1 cs1 E. injection E as _ <-. now exists [].
  - intros f args _ _ cs t1 cs1 E. injection E as _ <-. now exists [].
  - intros f args v k live _ _ IH cs t1 cs1 E. cbn in E. destruct (collect_cont k cs) as (k1, c1) eqn:E1. injection E as _ <-.
    destruct (IH _ _ _ E1) as (more & ->). now eexists (_ :: more).
  - intros f args l live cs t1 cs1 E. injection E as _ <-. now exists [].
  - intros x s k _ IH cs t1 cs1 E. cbn in E. destruct (collect_cont k cs) as (k1, c1) eqn:E1. injection E as _ <-. eauto.
  - intros x p args k _ IH cs t1 cs1 E. cbn in E. destruct (collect_cont k cs) as (k1, c1) eqn:E1. injection E as _ <-. eauto.
  - intros s a b _ IHa IHb cs t1 cs1 E. cbn in E. destruct (collect_cont a cs) as (a1, c1) eqn:E1.
    destruct (collect_cont b c1) as (b1, c2) eqn:E2. injection E as _ <-.
    destruct (IHa _ _ _ E1) as (m1 & ->). destruct (IHb _ _ _ E2) as (m2 & ->). exists (m2 ++ m1). now rewrite app_assoc.
  - intros s k _ IH cs t1 cs1 E. cbn in E. destruct (collect_cont k cs) as (k1, c1) eqn:E1. injection E as _ <-. eauto. }
  exact Z.
Qed.

(** * Frames *)
Lemma fold_max_le : forall (l : list cont) a,
  a <= fold_left (fun acc x => let len := List.length (k_live x) + 1 in if acc <? len then len else acc) l a.
Proof.
  induction l as [|c l IH]; intros a; cbn [fold_left]; [lia|]. cbv zeta in *.
  destruct (Nat.ltb_spec a (List.length (k_live c) + 1)).
  - specialize (IH (List.length (k_live c) + 1)). lia.
  - apply IH.
Qed.
Lemma fold_max_in : forall (l : list cont) a k, In k l -> List.length (k_live k) + 1 <=
  fold_left (fun acc x => let len := List.length (k_live x) + 1 in if acc <? len then len else acc) l a.
Proof.
  induction l as [|c l IH]; intros a k H; [contradiction|]. destruct H as [<-|H]; cbn [fold_left]; auto.
  etransitivity; [|apply fold_max_le]. cbv zeta. destruct (Nat.ltb_spec a (List.length (k_live c) + 1)); lia.
Qed.
(** the frame holds the parameters and what any call saves *)
Lemma frame_params : forall F, List.length (f_ps F) + 1 <= lambda_frame_size F.
Proof. intro F. apply fold_max_le. Qed.
Lemma frame_live : forall F k, In k (f_conts F) -> List.length (k_live k) + 1 <= lambda_frame_size F.
Proof. intros F k H. now apply fold_max_in. Qed.

Lemma skipn_skipn' : forall {A} (x y : nat) (l : list A), skipn x (skipn y l) = skipn (y + x) l.
Proof.
  intros A x y. induction y as [|y IH]; intros l; [reflexivity|]. destruct l; [now rewrite !skipn_nil|]. apply IH.
Qed.

Lemma save_spec : forall vs i R, i + List.length vs <= List.length R ->
  save i vs R = Some (firstn i R ++ map Some vs ++ skipn (i + List.length vs) R).
Proof.
  induction vs as [|v vs IH]; intros i R L; cbn [save List.length map] in *.
  - rewrite Nat.add_0_r. cbn [app]. f_equal. symmetry. apply firstn_skipn.
  - destruct (Nat.ltb_spec i (List.length R)); [|lia].
    assert (LF : List.length (firstn i R) = i) by (rewrite firstn_length; lia).
    rewrite IH.
    + f_equal. rewrite firstn_app, LF, skipn_app, LF.
      replace (S i - i) with 1 by lia. replace (S i + List.length vs - i) with (S (List.length vs)) by lia.
      rewrite (firstn_all2 (firstn i R)) by lia. rewrite (skipn_all2 (firstn i R)) by lia.
      change (firstn 1 (Some v :: skipn (S i) R)) with [Some v].
      change (skipn (S (List.length vs)) (Some v :: skipn (S i) R)) with (skipn (List.length vs) (skipn (S i) R)). cbn [app].
      rewrite <- app_assoc. cbn [app map]. f_equal. f_equal. f_equal.
      rewrite skipn_skipn'. f_equal. lia.
    + rewrite app_length, LF. cbn [List.length]. rewrite skipn_length. lia.
Qed.

Lemma recover_spec : forall xs vs rest, List.length xs = List.length vs ->
  recover xs (map Some vs ++ rest) = Some (combine xs vs).
Proof.
  induction xs as [|x xs IH]; intros [|v vs] rest L; cbn in *; try discriminate; [reflexivity|].
  now rewrite IH by lia.
Qed.
Lemma present_spec : forall vs rest, present (map Some vs ++ rest) (List.length vs) = Some vs.
Proof. induction vs as [|v vs IH]; intros rest; cbn; [reflexivity|]. now rewrite IH. Qed.

Lemma opts_length : forall {A B} (f : A -> option B) l vs, opts f l = Some vs -> List.length vs = List.length l.
Proof.
  intros A B f. induction l as [|x l IH]; intros vs E; cbn in E; [injection E as <-; reflexivity|].
  destruct (f x); [|discriminate]. destruct (opts f l); [|discriminate]. injection E as <-. cbn. f_equal. auto.
Qed.

(** * The simulation *)
Section Sim.
  Context (ar : arith) (fs : list func).

  Definition crelM (c1 : tcode) (c2 : lcode) : Prop :=
    l_nargs c2 = List.length (t_ps c1) /\ fin_stm (t_body c1) = true /\
    exists F v0 t1 v1, nth_error fs (l_lab c2) = Some F /\ cl_stm v0 (t_body c1) = (t1, v1) /\ extends v1 fs /\
      rewrite_lambda_final (t_ps c1) t1 = F /\ lambda_frame_size F <= l_nframe c2.
  Definition selM (c1 : tcode) (c2 : lcode) (k i j : nat) : Prop := i = j /\ i < k.

  Notation vrelM := (vrel crelM selM t_arity).
  Notation grelM := (grel crelM selM t_arity).

  Definition sgM (sg : list (name * val tcode)) (sg2 : list (name * lval)) : Prop :=
    Forall2 (fun p q => fst p = fst q /\ vrelM (snd p) (snd q)) sg sg2.
  Definition phiM (phi : list (val tcode)) (R : slots) : Prop :=
    forall i v, nth_error phi i = Some v -> exists v2, captured R i = Some v2 /\ vrelM v v2.

  Lemma sgM_lookup : forall sg sg2 x v, sgM sg sg2 -> lookup x sg = Some v ->
    exists v2, lookup x sg2 = Some v2 /\ vrelM v v2.
  Proof.
    intros sg sg2 x v H. induction H as [|(a, w) (b, w2) sg sg2 (E & R) H IH]; cbn in *; [discriminate|]. subst b.
    destruct (name_eqb x a); [|exact IH]. intro E. injection E as <-. eauto.
  Qed.
  Lemma sgM_combine : forall xs l1 l2, Forall2 vrelM l1 l2 -> sgM (combine xs l1) (combine xs l2).
  Proof.
    intros xs l1 l2 H. revert xs. induction H as [|a b l1 l2 R H IH]; intros [|x xs]; cbn; constructor; auto. apply IH.
  Qed.

  Lemma free_x_ok : forall sg sg2 phi R frees vs, sgM sg sg2 -> phiM phi R -> opts (free_sval sg phi) frees = Some vs ->
    exists vs2, opts (free_x sg2 R) frees = Some vs2 /\ Forall2 vrelM vs vs2.
  Proof.
    intros sg sg2 phi R frees. induction frees as [|s l IH]; intros vs HS HP E; cbn in E.
    - injection E as <-. exists []. auto.
    - destruct (free_sval sg phi s) as [v|] eqn:E1; [|discriminate]. destruct (opts (free_sval sg phi) l) as [ws|] eqn:E2; [|discriminate].
      injection E as <-. destruct (IH ws HS HP eq_refl) as (ws2 & E3 & R3). cbn. rewrite E3.
      destruct s; cbn in *; try discriminate.
      + destruct (sgM_lookup _ _ _ _ HS E1) as (v2 & -> & R1). eauto.
      + destruct (HP _ _ E1) as (v2 & -> & R1). eauto.
  Qed.

  Lemma simple_ok : forall sg sg2 phi R s G G2 v v0 s1 v1, sval_of sg phi s G = Some v -> fin_simple s = true ->
    cl_simple v0 s = (s1, v1) -> extends v1 fs -> sgM sg sg2 -> phiM phi R -> grelM G G2 ->
    exists v2, x_simple sg2 R s1 G2 = Some v2 /\ vrelM v v2.
  Proof.
    intros sg sg2 phi R s G G2 v v0 s1 v1 E HF EC HX HS HP (_ & HG). unfold sval_of in E.
    destruct s as [x|c|x|i|ps b frees|]; cbn in EC; try discriminate; cbn [ev_simple] in E.
    - injection EC as <- <-. destruct (lookup x sg) as [w|] eqn:E1; [|discriminate]. injection E as <-.
      destruct (sgM_lookup _ _ _ _ HS E1) as (v2 & E2 & R2). exists v2. auto.
    - injection EC as <- <-. injection E as <-. cbn in HF |- *. rewrite HF. eexists. split; [reflexivity|].
      exact (quoted_rel crelM selM t_arity c).
    - injection EC as <- <-. cbn in E |- *. specialize (HG x). rewrite E in HG. destruct (g_val G2 x); [eauto|contradiction].
    - injection EC as <- <-. destruct (nth_error phi i) as [w|] eqn:E1; [|discriminate]. injection E as <-.
      destruct (HP _ _ E1) as (v2 & E2 & R2). exists v2. auto.
    - destruct (cl_stm v0 b) as (b1, v2) eqn:E1. injection EC as <- <-.
      destruct (opts (free_sval sg phi) frees) as [vs|] eqn:E2; [|discriminate]. injection E as <-.
      destruct (free_x_ok _ _ _ _ _ _ HS HP E2) as (vs2 & E3 & R3). cbn [x_simple]. rewrite E3.
      eexists. split; [reflexivity|]. constructor.
      + split; [reflexivity|]. split; [exact HF|]. exists (rewrite_lambda_final ps b1), v0, b1, v2. repeat split; auto.
        * destruct HX as (u & ->). cbn. unfold append_result. rewrite nth_error_app1 by (rewrite app_length; cbn; lia).
          rewrite nth_error_app2 by lia. now rewrite Nat.sub_diag.
        * eapply extends_trans; [|exact HX]. unfold append_result. now eexists.
      + intros i j (-> & L). destruct (nth_error vs j) as [w|] eqn:Ew; [|apply nth_error_None in Ew; lia].
        destruct (Forall2_nth _ _ _ R3 _ _ Ew) as (w2 & Ew2 & Rw). eauto.
  Qed.

  Lemma simples_ok : forall sg sg2 phi R l G G2 vs v0 l1 v1, opts (fun s => sval_of sg phi s G) l = Some vs ->
    forallb fin_simple l = true -> cl_list v0 l = (l1, v1) -> extends v1 fs -> sgM sg sg2 -> phiM phi R -> grelM G G2 ->
    exists vs2, opts (fun s => x_simple sg2 R s G2) l1 = Some vs2 /\ Forall2 vrelM vs vs2.
  Proof.
    intros sg sg2 phi R l. induction l as [|s l IH]; intros G G2 vs v0 l1 v1 E HF EC HX HS HP HG; cbn in E, HF, EC.
    - injection E as <-. injection EC as <- <-. exists []. auto.
    - destruct (sval_of sg phi s G) as [v|] eqn:E1; [|discriminate].
      destruct (opts (fun s => sval_of sg phi s G) l) as [ws|] eqn:E2; [|discriminate]. injection E as <-.
      destruct (cl_simple v0 s) as (s1, v2) eqn:E3. destruct (cl_list v2 l) as (l2, v3) eqn:E4. injection EC as <- <-.
      apply andb_true_iff in HF as [HF1 HF2].
      destruct (simple_ok _ _ _ _ _ _ _ _ _ _ _ E1 HF1 E3 (extends_trans _ _ _ (cl_list_ext _ _ _ _ E4) HX) HS HP HG) as (w2 & A1 & A2).
      destruct (IH _ _ _ _ _ _ E2 HF2 E4 HX HS HP HG) as (ws2 & B1 & B2).
      exists (w2 :: ws2). cbn. rewrite A1, B1. auto.
  Qed.

  (** running the machine *)
  Definition runs (M M' : mst) : Prop := exists k, msteps ar fs k M = Some M'.
  Lemma runs_refl : forall M, runs M M.
  Proof. intro M. now exists 0. Qed.
  Lemma msteps_app : forall k1 k2 M M1, msteps ar fs k1 M = Some M1 -> msteps ar fs (k1 + k2) M = msteps ar fs k2 M1.
  Proof.
    induction k1 as [|k1 IH]; intros k2 M M1 E; cbn in *; [congruence|].
    destruct (mstep ar fs M); [|discriminate]. now apply IH.
  Qed.
  Lemma runs_trans : forall A B C, runs A B -> runs B C -> runs A C.
  Proof. intros A B C (k1 & H1) (k2 & H2). exists (k1 + k2). now rewrite (msteps_app _ _ _ _ H1). Qed.
  Lemma runs_step : forall A B C, mstep ar fs A = Some B -> runs B C -> runs A C.
  Proof. intros A B C H (k & Hk). exists (S k). cbn. now rewrite H. Qed.

  (** the state in which the result [v] has been passed on *)
  Definition done (p : list mitem) (v : lval) (G : store lcode) : mst := m_return (mkM None p None VNil G) v.
  Lemma done_return : forall M v, m_return M v = done (m_pend M) v (m_G M).
  Proof. intros [c [|[a|l] p] w r G] v; reflexivity. Qed.

  Definition outcome_ok (M1 : mst) (p : list mitem) (r : val tcode * store tcode) : Prop :=
    exists v2 G2, runs M1 (done p v2 G2) /\ rres crelM selM t_arity r (v2, G2).

  Definition stm_ok (n : nat) : Prop :=
    forall sg phi t G r, exec ar n sg phi t G = Some r ->
    forall M lab F R v0 t1 v1 cs t2 cs' more sg2 G2, fin_stm t = true -> cl_stm v0 t = (t1, v1) -> extends v1 fs ->
    collect_cont t1 cs = (t2, cs') -> rev (f_conts F) = more ++ cs' -> nth_error fs lab = Some F ->
    lambda_frame_size F <= List.length R -> sgM sg sg2 -> phiM phi R -> grelM G G2 ->
    exists x G3 M1, block ar sg2 R t2 G2 = Some (x, G3) /\ m_finish M lab R x G3 = Some M1 /\ outcome_ok M1 (m_pend M) r.

  Lemma fn_of_need : forall f1 f2 rq, vrelM f1 f2 -> need t_arity f1 = Some rq ->
    exists c nf, fn_of f2 = Some (c, nf, rq) /\ rq + 1 <= nf.
  Proof.
    intros f1 f2 rq H. revert rq. induction H; intros rq E; cbn in E; try discriminate.
    - injection E as <-. destruct H as (A1 & A2 & F & w0 & t1 & w1 & B1 & B2 & B3 & B4 & B5). cbn.
      unfold t_arity. rewrite A1. eexists _, _. split; [reflexivity|].
      pose proof (frame_params F) as L. subst F. unfold rewrite_lambda_final in *.
      destruct (collect_cont t1 []) as (q1, q2). cbn [f_ps] in L. lia.
    - rewrite H1 in E. injection E as <-. destruct (IHvrel _ H1) as (c & nf & E1 & L). cbn. rewrite E1.
      eexists _, _. split; [now rewrite (Forall2_len _ _ _ H0)|]. lia.
    - injection E as <-. cbn. eexists _, _. split; [reflexivity|lia].
  Qed.

  (** a call with exactly the arguments wanted, from the moment the frame is set up *)
  Lemma exact_ok : forall n, stm_ok n -> forall f1 f2, vrelM f1 f2 -> forall l1 l2 G1 G2 r c nf rq rest M,
    Forall2 vrelM l1 l2 -> grelM G1 G2 -> need t_arity f1 = Some (List.length l1) ->
    exact ar (fun c vs args G => exec ar n (combine (t_ps c) args) vs (t_body c) G) f1 l1 G1 = Some r ->
    fn_of f2 = Some (c, nf, rq) -> nf <= S (List.length l2) + List.length rest -> m_G M = G2 ->
    m_cur M = Some (mkMA c 0 (map Some (f2 :: l2) ++ rest)) ->
    outcome_ok M (m_pend M) r.
  Proof.
    intros n SIM f1 f2 HV. induction HV as [z|x|s| | | |a1 a2 d1 d2 _ _ _ _|c1 c2 vs1 vs2 HC HS|f1 f2 l1 l2 k HV IH HL HK HLen|p];
      intros la lb G1 G2 r c nf rq rest M HA HG EN E EF HN EG EC; cbn in E; try discriminate.
    - (* closure *)
      cbn in EF. injection EF as <- <- <-. pose proof HC as (A1 & A2 & F & w0 & t1 & w1 & B1 & B2 & B3 & B4 & B5).
      unfold rewrite_lambda_final in B4. destruct (collect_cont t1 []) as (b, conts) eqn:ECo.
      cbn in EN. injection EN as EN. unfold t_arity in EN.
      assert (LA : List.length (t_ps c1) = List.length lb) by (rewrite EN; eapply Forall2_len; eauto).
      set (R := map Some (VClo c2 vs2 :: lb) ++ rest) in *.
      destruct (SIM _ _ _ _ _ E M (l_lab c2) F R w0 t1 w1 [] b conts [] (combine (t_ps c1) lb) G2) as (x & G3 & M1 & D1 & D2 & v2 & G4 & D3 & D4);
        auto.
      + subst F. cbn. now rewrite rev_involutive.
      + unfold R. rewrite app_length, map_length. cbn [List.length]. lia.
      + now apply sgM_combine.
      + intros i v Hi. cbn. destruct (HS i i) as (v1 & v2 & N1 & N2 & R1).
        { split; [reflexivity|]. apply nth_error_Some. congruence. }
        rewrite Hi in N1. injection N1 as <-. eauto.
      + exists v2, G4. split; [|exact D4]. eapply runs_step; [|exact D3].
        unfold mstep. rewrite EC. fold R. cbn [enter_case]. rewrite B1. subst F. cbn [enter_case f_ps f_first].
        replace (tl R) with (map Some lb ++ rest) by reflexivity. rewrite recover_spec by exact LA.
        rewrite EG, D1. exact D2.
    - (* partial application *)
      cbn in EF. destruct (fn_of_need _ _ _ HV HK) as (c0 & nf0 & E0 & L0). rewrite E0 in EF. injection EF as <- <- <-.
      cbn in EN. rewrite HK in EN. injection EN as EN.
      pose proof (Forall2_len _ _ _ HL) as LL. pose proof (Forall2_len _ _ _ HA) as LB.
      set (M1 := mkM (Some (mkMA c0 0 (map Some (f2 :: l2 ++ lb) ++ repeat None (nf0 - (S (List.length l2) + (k - List.length l2))))))
                     (m_pend M) None (m_res M) (m_G M)).
      assert (ST : mstep ar fs M = Some M1).
      { unfold mstep. rewrite EC. cbn [app map fn_of]. rewrite E0. unfold M1. repeat f_equal.
        rewrite firstn_app, map_length. replace (k - List.length l2 - List.length lb) with 0 by lia.
        cbn [firstn]. rewrite app_nil_r. rewrite firstn_all2 by (rewrite map_length; lia).
        cbn [map app]. now rewrite !map_app, <- !app_assoc. }
      destruct (IH (l1 ++ la) (l2 ++ lb) G1 G2 r c0 nf0 k (repeat None (nf0 - (S (List.length l2) + (k - List.length l2)))) M1) as (v2 & G4 & D3 & D4); auto.
      + now apply Forall2_app.
      + rewrite HK. f_equal. rewrite app_length. lia.
      + rewrite app_length, repeat_length. lia.
      + exists v2, G4. split; [|exact D4]. eapply runs_step; [exact ST|exact D3].
    - (* primitive *)
      cbn in EF. injection EF as <- <- <-. destruct r as (rv, rG). destruct (prim_rel _ _ _ _ _ _ _ _ _ _ _ HA HG E) as ((v2, G3) & E2 & R2).
      exists v2, G3. split; [|exact R2]. eapply runs_step; [|apply runs_refl].
      unfold mstep. rewrite EC. cbn [map app tl]. cbn in EN. injection EN as EN. rewrite EN.
      rewrite (Forall2_len _ _ _ HA), present_spec. rewrite EG, E2. now rewrite done_return.
  Qed.

  Lemma call_ok : forall n, stm_ok n -> forall k f1 f2 l1 l2 G1 G2 r M,
    vrelM f1 f2 -> Forall2 vrelM l1 l2 -> grelM G1 G2 -> m_G M = G2 ->
    apply ar t_arity (fun c vs args G => exec ar n (combine (t_ps c) args) vs (t_body c) G) k f1 l1 G1 = Some r ->
    exists M1, m_call M f2 l2 = Some M1 /\ outcome_ok M1 (m_pend M) r.
  Proof.
    intros n SIM k. induction k as [|k IH]; intros f1 f2 l1 l2 G1 G2 r M HV HL HG EG E; [discriminate|]. cbn [apply] in E.
    destruct (need t_arity f1) as [rq|] eqn:EN; [|discriminate].
    destruct (fn_of_need _ _ _ HV EN) as (c & nf & EF & LF). unfold m_call. rewrite EF.
    pose proof (Forall2_len _ _ _ HL) as LL. rewrite <- LL.
    destruct (Nat.ltb_spec (List.length l1) rq) as [Hlt|Hge].
    - eexists. split; [reflexivity|]. injection E as <-.
      eexists _, (m_G M). split; [rewrite done_return; apply runs_refl|]. split; cbn; [|congruence].
      destruct HL as [|x y l1 l2 Hx HL]; [exact HV|]. econstructor; eauto.
    - destruct (exact ar _ f1 (firstn rq l1) G1) as [(v, G3)|] eqn:Ex; [|discriminate].
      set (p := match skipn rq l2 with [] => m_pend M | _ => MArgs (skipn rq l2) :: m_pend M end).
      set (M1 := mkM (Some (mkMA c 0 (m_fresh f2 (firstn rq l2) nf))) p None (m_res M) (m_G M)).
      exists M1. split; [reflexivity|].
      assert (L1 : List.length (firstn rq l1) = rq) by (rewrite firstn_length; lia).
      assert (L2 : List.length (firstn rq l2) = rq) by (rewrite firstn_length; lia).
      destruct (exact_ok n SIM f1 f2 HV (firstn rq l1) (firstn rq l2) G1 G2 (v, G3) c nf rq (repeat None (nf - S (List.length (firstn rq l2)))) M1) as (v2 & G4 & D1 & D2); auto.
      + now apply Forall2_firstn.
      + now rewrite L1.
      + rewrite repeat_length. lia.
      + pose proof (Forall2_skipn _ rq _ _ HL) as HSk. destruct D2 as (RV & RG). cbn [fst snd] in RV, RG.
        cbn [m_pend M1] in D1. unfold p in D1.
        destruct HSk as [|x y s1 s2 Hx HSk].
        * injection E as <-. exists v2, G4. split; [exact D1|split; auto].
        * destruct (IH v v2 (x :: s1) (y :: s2) G3 G4 r (mkM None (m_pend M) None v2 G4)) as (M2 & E2 & v3 & G5 & D3 & D4); auto.
          exists v3, G5. split; [|exact D4]. eapply runs_trans; [exact D1|].
          eapply runs_step; [|exact D3]. cbn. exact E2.
  Qed.

  Theorem collect_sim : forall n, stm_ok n.
  Proof.
    induction n as [|n IH]; intros sg phi t G r E M lab F R v0 t1 v1 cs t2 cs' more sg2 G2 HF ECl HX ECo HCs HFs HR HS HP HG; [discriminate|].
    destruct t as [s|f args|f args x k live|f args l live|x s k|x p args k|s a b|s k]; cbn [exec] in E; cbn [fin_stm] in HF; try discriminate.
    - (* return *)
      cbn in ECl. destruct (cl_simple v0 s) as (s1, w) eqn:E1. injection ECl as <- <-. cbn in ECo. injection ECo as <- <-.
      destruct (sval_of sg phi s G) as [v|] eqn:E2; [|discriminate]. injection E as <-.
      destruct (simple_ok _ _ _ _ _ _ _ _ _ _ _ E2 HF E1 HX HS HP HG) as (v2 & A1 & A2).
      exists (XRet v2), G2. cbn [block]. rewrite A1. eexists. split; [reflexivity|]. split; [reflexivity|].
      exists v2, G2. split; [rewrite done_return; apply runs_refl|split; auto].
    - (* tail call *)
      rewrite cl_stm_tail in ECl. destruct (cl_simple v0 f) as (f1, w1) eqn:E1. destruct (cl_list w1 args) as (a1, w2) eqn:E2.
      injection ECl as <- <-. cbn in ECo. injection ECo as <- <-. apply andb_true_iff in HF as [HF1 HF2].
      destruct (sval_of sg phi f G) as [fv|] eqn:E3; [|discriminate]. destruct (opts _ args) as [vs|] eqn:E4; [|discriminate].
      destruct (simple_ok _ _ _ _ _ _ _ _ _ _ _ E3 HF1 E1 (extends_trans _ _ _ (cl_list_ext _ _ _ _ E2) HX) HS HP HG) as (fv2 & A1 & A2).
      destruct (simples_ok _ _ _ _ _ _ _ _ _ _ _ E4 HF2 E2 HX HS HP HG) as (vs2 & B1 & B2).
      destruct (call_ok n IH n fv fv2 vs vs2 G G2 r (mkM (m_cur M) (m_pend M) None (m_res M) G2)) as (M1 & C1 & C2); auto.
      exists (XTail fv2 vs2), G2, M1. cbn [block]. rewrite A1, B1. split; [reflexivity|]. split; [exact C1|exact C2].
    - (* call *)
      rewrite cl_stm_call in ECl. destruct (cl_simple v0 f) as (f1, w1) eqn:E1. destruct (cl_list w1 args) as (a1, w2) eqn:E2.
      destruct (cl_stm w2 k) as (k1, w3) eqn:E2k. injection ECl as <- <-. cbn in ECo.
      destruct (collect_cont k1 cs) as (k2, conts1) eqn:ECk. injection ECo as <- <-.
      apply andb_true_iff in HF as [HF HF4]. apply andb_true_iff in HF as [HF HF3]. apply andb_true_iff in HF as [HF1 HF2].
      destruct live as [live|]; [|discriminate]. clear HF4.
      pose proof (extends_trans _ _ _ (cl_stm_ext _ _ _ _ E2k) HX) as HX2.
      destruct (sval_of sg phi f G) as [fv|] eqn:E3; [|discriminate]. destruct (opts (fun s => sval_of sg phi s G) args) as [vs|] eqn:E4; [|discriminate].
      destruct (keep (Some live) sg) as [sg1|] eqn:EK; [|discriminate].
      destruct (apply ar t_arity _ n fv vs G) as [(rv, G1)|] eqn:EA; [|discriminate].
      destruct (simple_ok _ _ _ _ _ _ _ _ _ _ _ E3 HF1 E1 (extends_trans _ _ _ (cl_list_ext _ _ _ _ E2) HX2) HS HP HG) as (fv2 & A1 & A2).
      destruct (simples_ok _ _ _ _ _ _ _ _ _ _ _ E4 HF2 E2 HX2 HS HP HG) as (vs2 & B1 & B2).
      assert (KP : exists vals vals2, sg1 = combine live vals /\ opts (fun x => lookup x sg2) live = Some vals2 /\
                Forall2 vrelM vals vals2 /\ List.length live = List.length vals2).
      { clear - EK HS. cbn in EK. revert sg1 EK. induction live as [|y live IHl]; intros sg1 EK; cbn in EK.
        - injection EK as <-. exists [], []. auto.
        - destruct (lookup y sg) as [v|] eqn:Ev; [|discriminate].
          destruct (opts _ live) as [l|] eqn:El; [|discriminate]. injection EK as <-.
          destruct (IHl _ eq_refl) as (vals & vals2 & -> & Q2 & Q3 & Q4).
          destruct (sgM_lookup _ _ _ _ HS Ev) as (v2 & Ev2 & Rv).
          exists (v :: vals), (v2 :: vals2). cbn. rewrite Ev2, Q2. auto. }
      destruct KP as (vals & vals2 & -> & K2 & K3 & K4).
      set (kc := mkCont x k2 live) in *.
      assert (INK : In kc (f_conts F)).
      { apply in_rev. rewrite HCs. apply in_or_app. right. now left. }
      pose proof (frame_live F kc INK) as LK. cbn [kc k_live] in LK.
      assert (R0 : exists h Rt, R = h :: Rt) by (destruct R; [cbn in HR; lia|eauto]). destruct R0 as (h & Rt & ->).
      assert (SV : save 1 vals2 (h :: Rt) = Some (h :: map Some vals2 ++ skipn (List.length vals2) Rt)).
      { rewrite save_spec by (cbn in HR |- *; lia). reflexivity. }
      set (R1 := h :: map Some vals2 ++ skipn (List.length vals2) Rt) in *.
      set (lbl := List.length conts1 + 1) in *.
      destruct (call_ok n IH n fv fv2 vs vs2 G G2 (rv, G1) (mkM (m_cur M) (MAct (mkMA (MUser lab) lbl R1) :: m_pend M) None (m_res M) G2))
        as (M1 & C1 & v2 & G3 & C2 & (C3 & C4)); auto. cbn [fst snd] in C3, C4.
      exists (XCall vals2 lbl fv2 vs2), G2, M1. cbn [block]. rewrite K2, A1, B1. split; [reflexivity|].
      split; [cbn [m_finish]; rewrite SV; exact C1|].
      set (M2 := mkM (Some (mkMA (MUser lab) lbl R1)) (m_pend M) None v2 G3).
      destruct (IH _ _ _ _ _ E M2 lab F R1 w2 k1 w3 cs k2 conts1 (more ++ [kc]) ((x, v2) :: combine live vals2) G3)
        as (x3 & G4 & M3 & D1 & D2 & v4 & G5 & D3 & D4); auto.
      + rewrite HCs, <- app_assoc. reflexivity.
      + unfold R1. cbn [List.length]. rewrite app_length, map_length, skipn_length. cbn in HR. lia.
      + constructor; [split; auto|]. now apply sgM_combine.
      + exists v4, G5. split; [|exact D4]. eapply runs_trans; [exact C2|].
        change (done (m_pend (mkM (m_cur M) (MAct (mkMA (MUser lab) lbl R1) :: m_pend M) None (m_res M) G2)) v2 G3) with M2.
        eapply runs_step; [|exact D3]. unfold mstep. cbn [M2 m_cur]. rewrite HFs.
        unfold lbl. rewrite Nat.add_1_r. cbn [enter_case].
        assert (NK : nth_error (f_conts F) (List.length conts1) = Some kc).
        { rewrite <- (rev_involutive (f_conts F)), HCs, rev_app_distr. cbn [rev]. rewrite <- app_assoc.
          rewrite nth_error_app2 by (rewrite rev_length; lia). rewrite rev_length, Nat.sub_diag. reflexivity. }
        rewrite NK. cbn [kc k_live k_var k_body]. replace (tl R1) with (map Some vals2 ++ skipn (List.length vals2) Rt) by reflexivity.
        rewrite recover_spec by exact K4. cbn [m_res m_G M2]. rewrite D1. exact D2.
    - (* let *)
      cbn in ECl. destruct (cl_simple v0 s) as (s1, w1) eqn:E1. destruct (cl_stm w1 k) as (k1, w2) eqn:E2. injection ECl as <- <-.
      cbn in ECo. destruct (collect_cont k1 cs) as (k2, c1) eqn:E3. injection ECo as <- <-. apply andb_true_iff in HF as [HF1 HF2].
      destruct (sval_of sg phi s G) as [v|] eqn:E4; [|discriminate].
      destruct (simple_ok _ _ _ _ _ _ _ _ _ _ _ E4 HF1 E1 (extends_trans _ _ _ (cl_stm_ext _ _ _ _ E2) HX) HS HP HG) as (v2 & A1 & A2).
      destruct (IH _ _ _ _ _ E M lab F R w1 k1 w2 cs k2 c1 more ((x, v2) :: sg2) G2) as (y & G3 & M1 & D1 & D2 & D3); auto.
      { constructor; auto. }
      exists y, G3, M1. cbn [block]. rewrite A1. auto.
    - (* primitive *)
      rewrite cl_stm_prim in ECl. destruct (cl_list v0 args) as (a1, w1) eqn:E1. destruct (cl_stm w1 k) as (k1, w2) eqn:E2. injection ECl as <- <-.
      cbn in ECo. destruct (collect_cont k1 cs) as (k2, c1) eqn:E3. injection ECo as <- <-. apply andb_true_iff in HF as [HF1 HF2].
      destruct (opts _ args) as [vs|] eqn:E4; [|discriminate].
      destruct (prim_sem ar p vs G) as [(v, G1)|] eqn:E5; [|discriminate].
      destruct (simples_ok _ _ _ _ _ _ _ _ _ _ _ E4 HF1 E1 (extends_trans _ _ _ (cl_stm_ext _ _ _ _ E2) HX) HS HP HG) as (vs2 & A1 & A2).
      destruct (prim_rel _ _ _ _ _ _ _ _ _ _ _ A2 HG E5) as ((v2, G3) & E6 & (R1 & R2)). cbn in R1, R2.
      destruct (IH _ _ _ _ _ E M lab F R w1 k1 w2 cs k2 c1 more ((x, v2) :: sg2) G3) as (y & G4 & M1 & D1 & D2 & D3); auto.
      { constructor; auto. }
      exists y, G4, M1. cbn [block]. rewrite A1, E6. auto.
    - (* if *)
      cbn in ECl. destruct (cl_simple v0 s) as (s1, w1) eqn:E1. destruct (cl_stm w1 a) as (a1, w2) eqn:E2. destruct (cl_stm w2 b) as (b1, w3) eqn:E2b.
      injection ECl as <- <-.
      cbn in ECo. destruct (collect_cont a1 cs) as (a2, c1) eqn:E3. destruct (collect_cont b1 c1) as (b2, c2) eqn:E3b. injection ECo as <- <-.
      apply andb_true_iff in HF as [HF HF3]. apply andb_true_iff in HF as [HF1 HF2].
      pose proof (extends_trans _ _ _ (cl_stm_ext _ _ _ _ E2b) HX) as HX2.
      destruct (sval_of sg phi s G) as [v|] eqn:E4; [|discriminate].
      destruct (simple_ok _ _ _ _ _ _ _ _ _ _ _ E4 HF1 E1 (extends_trans _ _ _ (cl_stm_ext _ _ _ _ E2) HX2) HS HP HG) as (v2 & A1 & A2).
      destruct (collect_cont_ext _ _ _ _ E3b) as (m2 & ->).
      assert (QA : exec ar n sg phi a G = Some r -> exists y G3 M1, block ar sg2 R a2 G2 = Some (y, G3) /\ m_finish M lab R y G3 = Some M1 /\ outcome_ok M1 (m_pend M) r).
      { intro E'. apply (IH _ _ _ _ _ E' M lab F R w1 a1 w2 cs a2 c1 (more ++ m2) sg2 G2); auto. now rewrite <- app_assoc. }
      assert (QB : exec ar n sg phi b G = Some r -> exists y G3 M1, block ar sg2 R b2 G2 = Some (y, G3) /\ m_finish M lab R y G3 = Some M1 /\ outcome_ok M1 (m_pend M) r).
      { intro E'. apply (IH _ _ _ _ _ E' M lab F R w2 b1 w3 c1 b2 (m2 ++ c1) more sg2 G2); auto. }
      cbn [block]. rewrite A1. destruct A2; auto.
    - (* do *)
      cbn in ECl. destruct (cl_simple v0 s) as (s1, w1) eqn:E1. destruct (cl_stm w1 k) as (k1, w2) eqn:E2. injection ECl as <- <-.
      cbn in ECo. destruct (collect_cont k1 cs) as (k2, c1) eqn:E3. injection ECo as <- <-. apply andb_true_iff in HF as [HF1 HF2].
      destruct (sval_of sg phi s G) as [v|] eqn:E4; [|discriminate].
      destruct (simple_ok _ _ _ _ _ _ _ _ _ _ _ E4 HF1 E1 (extends_trans _ _ _ (cl_stm_ext _ _ _ _ E2) HX) HS HP HG) as (v2 & A1 & A2).
      destruct (IH _ _ _ _ _ E M lab F R w1 k1 w2 cs k2 c1 more sg2 G2) as (y & G3 & M1 & D1 & D2 & D3); auto.
      exists y, G3, M1. cbn [block]. rewrite A1. auto.
  Qed.
End Sim.
