(** One simplification step of the partial evaluator, and the relation between
    the values of a program before and after it. *)
From Coq Require Import List ZArith Bool String Arith Lia.
From Verif Require Import CoreSpec TocModel CoreProofs PevalModel PevalSpec.
Import ListNotations.
Local Open Scope list_scope.
Local Open Scope nat_scope.

Lemma mem_in : forall x l, mem x l = true <-> In x l.
Proof.
  intros x l. unfold mem. rewrite existsb_exists. split.
  - intros (y & H & E). destruct (name_eqb_spec x y); [now subst|discriminate].
  - intro H. exists x. split; [exact H|]. destruct (name_eqb_spec x x); congruence.
Qed.
Lemma mem_notin : forall x l, mem x l = false <-> ~ In x l.
Proof. intros. rewrite <- mem_in. destruct (mem x l); split; congruence || auto. Qed.
Lemma in_remove_all : forall x ps l, In x (remove_all ps l) <-> In x l /\ ~ In x ps.
Proof.
  intros. unfold remove_all. rewrite filter_In. rewrite <- mem_notin. destruct (mem x ps); cbn; intuition congruence.
Qed.
Lemma lookup_minus : forall x ps s, lookup x (minus ps s) = if mem x ps then None else lookup x s.
Proof.
  intros x ps. induction s as [|(y, r) s IH]; [now destruct (mem x ps)|].
  change (minus ps ((y, r) :: s)) with (if negb (mem y ps) then (y, r) :: minus ps s else minus ps s).
  destruct (mem y ps) eqn:M; cbn [negb lookup].
  - rewrite IH. destruct (name_eqb_spec x y) as [->|N]; [now rewrite M|reflexivity].
  - destruct (name_eqb_spec x y) as [->|N]; [now rewrite M|exact IH].
Qed.

Lemma cx_eqb_eq : forall a b, cx_eqb a b = true -> a = b.
Proof. intros a b. unfold cx_eqb. destruct (cx_eq_dec a b); [auto|discriminate]. Qed.

(** induction over expressions *)
Lemma cx_ind' : forall P : cx -> Prop,
  (forall s, P (KC s)) -> (forall s, P (KQ s)) -> (forall x, P (KV x)) -> (forall ps b, P b -> P (KL ps b)) ->
  (forall a b c, P a -> P b -> P c -> P (KI a b c)) -> (forall a b, P a -> P b -> P (KD a b)) ->
  (forall x b c, P b -> P c -> P (KT x b c)) -> (forall f args, P f -> Forall P args -> P (KA f args)) ->
  forall e, P e.
Proof.
  intros P H1 H2 H3 H4 H5 H6 H7 H8. fix IH 1. intros [s|s|x|ps b|a b c|a b|x b c|f args];
    [apply H1|apply H2|apply H3|apply H4; apply IH|apply H5; apply IH|apply H6; apply IH|apply H7; apply IH|].
  apply H8; [apply IH|]. induction args; constructor; auto.
Qed.

Lemma subst_ext : forall e s t, (forall x, In x (fv e) -> lookup x s = lookup x t) -> subst s e = subst t e.
Proof.
  assert (M : forall ps b (s t : csub), (forall x, In x (remove_all ps (fv b)) -> lookup x s = lookup x t) ->
    forall x, In x (fv b) -> lookup x (minus ps s) = lookup x (minus ps t)).
  { intros ps b s t H x I. rewrite !lookup_minus. destruct (mem x ps) eqn:E; [reflexivity|].
    apply H. apply in_remove_all. split; [exact I|now apply mem_notin]. }
  induction e as [c|c|x|ps b IH|a b c IHa IHb IHc|a b IHa IHb|x b c IHb IHc|f args IHf IHa] using cx_ind';
    intros s t H; cbn in *; auto.
  - now rewrite (H x (or_introl eq_refl)).
  - f_equal. apply IH. now apply M.
  - f_equal; [apply IHa|apply IHb|apply IHc]; intros; apply H; rewrite !in_app_iff; auto.
  - f_equal; [apply IHa|apply IHb]; intros; apply H; rewrite !in_app_iff; auto.
  - f_equal; [apply IHb|apply IHc, M]; intros; apply H; rewrite !in_app_iff; auto.
  - f_equal; [apply IHf; intros; apply H; rewrite in_app_iff; auto|].
    apply map_ext_in. intros a I. rewrite Forall_forall in IHa. apply IHa; [exact I|].
    intros x Hx. apply H. rewrite in_app_iff. right. apply in_flat_map. eauto.
Qed.
Lemma minus_nil : forall ps, minus ps [] = [].
Proof. reflexivity. Qed.
Lemma subst_nil : forall e, subst [] e = e.
Proof.
  induction e as [c|c|x|ps b IH|a b c IHa IHb IHc|a b IHa IHb|x b c IHb IHc|f args IHf IHa] using cx_ind';
    cbn; try congruence.
  f_equal; [exact IHf|]. rewrite <- (map_id args) at 2. apply map_ext_in. now rewrite Forall_forall in IHa.
Qed.
Lemma subst_unused : forall e x r, ~ In x (fv e) -> subst [(x, r)] e = e.
Proof.
  intros e x r H. rewrite <- (subst_nil e) at 2. apply subst_ext. intros y I. cbn.
  destruct (name_eqb_spec y x); [congruence|reflexivity].
Qed.

(** free variables after a substitution *)
Lemma fv_subst_keep : forall e s x, In x (fv e) -> lookup x s = None -> In x (fv (subst s e)).
Proof.
  induction e as [c|c|y|ps b IH|a b c IHa IHb IHc|a b IHa IHb|y b c IHb IHc|f args IHf IHa] using cx_ind';
    intros s x I L; cbn in *; auto.
  - destruct I as [<-|[]]. rewrite L. now left.
  - rewrite in_remove_all in *. destruct I as (I & N). split; [|exact N]. apply IH; [exact I|].
    rewrite lookup_minus. now destruct (mem x ps).
  - rewrite !in_app_iff in *. destruct I as [I|[I|I]]; auto.
  - rewrite !in_app_iff in *. destruct I as [I|I]; auto.
  - rewrite !in_app_iff, !in_remove_all in *. destruct I as [I|(I & N)]; auto. right. split; [|exact N].
    apply IHc; [exact I|]. rewrite lookup_minus. now destruct (mem x [y]).
  - rewrite !in_app_iff, !in_flat_map in *. destruct I as [I|(a & I & J)]; auto. right.
    exists (subst s a). split; [now apply in_map|]. rewrite Forall_forall in IHa. now apply IHa.
Qed.
Lemma lookup_In : forall {A} x (s : list (name * A)) r, lookup x s = Some r -> In (x, r) s.
Proof.
  induction s as [|(y, q) s IH]; cbn; [discriminate|]. intros r H. destruct (name_eqb_spec x y) as [->|N].
  - injection H as ->. now left.
  - right. auto.
Qed.
Lemma fresh_binders_spec : forall ps s b x r p, fresh_binders ps s b = true -> In x (fv b) -> lookup x s = Some r ->
  ~ In x ps -> In p ps -> ~ In p (fv r).
Proof.
  intros ps s b x r p H I L N P. unfold fresh_binders in H. rewrite forallb_forall in H.
  assert (J : In (x, r) (minus ps s)).
  { apply lookup_In. rewrite lookup_minus. apply mem_notin in N. now rewrite N. }
  specialize (H _ J). cbn in H. apply mem_in in I. rewrite I in H. cbn in H. rewrite forallb_forall in H.
  specialize (H _ P). apply mem_notin. now destruct (mem p (fv r)).
Qed.
Lemma fv_subst_range : forall e s x r, no_capture s e = true -> In x (fv e) -> lookup x s = Some r ->
  incl (fv r) (fv (subst s e)).
Proof.
  assert (M : forall ps b s x r, fresh_binders ps s b = true -> In x (fv b) -> ~ In x ps -> lookup x s = Some r ->
    incl (fv r) (fv (subst (minus ps s) b)) -> incl (fv r) (remove_all ps (fv (subst (minus ps s) b)))).
  { intros ps b s x r F I N L H z Z. rewrite in_remove_all. split; [now apply H|]. intro P.
    exact (fresh_binders_spec _ _ _ _ _ _ F I L N P Z). }
  assert (ML : forall x ps s r, ~ In x ps -> lookup x s = Some r -> lookup x (minus ps s) = Some r).
  { intros x ps s r N L. rewrite lookup_minus. apply mem_notin in N. now rewrite N. }
  induction e as [c|c|y|ps b IH|a b c IHa IHb IHc|a b IHa IHb|y b c IHb IHc|f args IHf IHa] using cx_ind';
    intros s x r C I L; cbn [fv subst no_capture] in *; try contradiction; rewrite ?andb_true_iff in C.
  - destruct I as [<-|[]]. rewrite L. apply incl_refl.
  - destruct C as (C1 & C2). rewrite in_remove_all in I. destruct I as (I & N).
    eapply M; eauto.
  - destruct C as ((C1 & C2) & C3). intros z Z. rewrite !in_app_iff in *.
    destruct I as [I|[I|I]]; [left; eapply IHa|right; left; eapply IHb|right; right; eapply IHc]; eauto.
  - destruct C as (C1 & C2). intros z Z. rewrite !in_app_iff in *.
    destruct I as [I|I]; [left; eapply IHa|right; eapply IHb]; eauto.
  - destruct C as (C1 & C2 & C3). intros z Z. rewrite !in_app_iff in *.
    destruct I as [I|I]; [left; eapply IHb; eauto|]. right. rewrite in_remove_all in I. destruct I as (I & N).
    revert z Z. eapply M; eauto.
  - destruct C as (C1 & C2). intros z Z. rewrite !in_app_iff in *.
    destruct I as [I|I]; [left; eapply IHf; eauto|]. right. rewrite in_flat_map in *. destruct I as (a & I & J).
    exists (subst s a). split; [now apply in_map|]. rewrite Forall_forall in IHa. rewrite forallb_forall in C2.
    eapply IHa; eauto.
Qed.

Lemma no_capture_nil : forall e, no_capture [] e = true.
Proof.
  induction e as [c|c|y|ps b IH|a b c IHa IHb IHc|a b IHa IHb|y b c IHb IHc|f args IHf IHa] using cx_ind'; cbn;
    rewrite ?andb_true_iff; auto.
  split; [exact IHf|]. apply forallb_forall. now rewrite Forall_forall in IHa.
Qed.
Lemma no_capture_unused : forall e x r, ~ In x (fv e) -> no_capture [(x, r)] e = true.
Proof.
  pose proof no_capture_nil as N0.
  assert (F : forall ps b x r, (In x (fv b) -> In x ps) -> fresh_binders ps [(x, r)] b = true).
  { intros ps b x r H. unfold fresh_binders, minus. cbn. destruct (mem x ps) eqn:E; [reflexivity|]. cbn.
    destruct (mem x (fv b)) eqn:E2; [|reflexivity]. apply mem_in in E2. apply mem_notin in E. tauto. }
  assert (M : forall ps b x r, (In x (fv b) -> In x ps) -> (~ In x (fv b) -> no_capture [(x, r)] b = true) ->
    no_capture (minus ps [(x, r)]) b = true).
  { intros ps b x r H H1. unfold minus. cbn. destruct (mem x ps) eqn:E; cbn; [apply N0|]. apply H1.
    intro I. apply mem_notin in E. tauto. }
  induction e as [c|c|y|ps b IH|a b c IHa IHb IHc|a b IHa IHb|y b c IHb IHc|f args IHf IHa] using cx_ind';
    intros x r H; cbn [no_capture fv] in *; rewrite ?in_app_iff in H; rewrite ?andb_true_iff; auto.
  - assert (G : In x (fv b) -> In x ps).
    { intro I. destruct (mem x ps) eqn:E; [now apply mem_in|]. exfalso. apply H. apply in_remove_all.
      split; [exact I|now apply mem_notin]. }
    split; [now apply F|]. apply M; auto.
  - repeat split; [apply IHa|apply IHb|apply IHc]; tauto.
  - split; [apply IHa|apply IHb]; tauto.
  - assert (G : In x (fv c) -> In x [y]).
    { intro I. destruct (mem x [y]) eqn:E; [now apply mem_in|]. exfalso. apply H. right. apply in_remove_all.
      split; [exact I|now apply mem_notin]. }
    repeat split; [auto|now apply F|]. apply M; auto.
  - split; [auto|]. apply forallb_forall. intros a I. rewrite Forall_forall in IHa. apply IHa; [exact I|].
    intro J. apply H. right. apply in_flat_map. eauto.
Qed.

(** * One step *)

(** [step ar D e e']: in a scope with the local variables [D], [e] may become
    [e'].  Any number of parts of [e] may be simplified at once. *)
Inductive step (ar : arith) : list name -> cx -> cx -> Prop :=
| s_refl D e : step ar D e e
| s_lam D ps b b' : step ar (ps ++ D) b b' -> step ar D (KL ps b) (KL ps b')
| s_if D a a' b b' c c' : step ar D a a' -> step ar D b b' -> step ar D c c' -> step ar D (KI a b c) (KI a' b' c')
| s_do D a a' b b' : step ar D a a' -> step ar D b b' -> step ar D (KD a b) (KD a' b')
| s_let D x b b' c c' : step ar D b b' -> step ar (x :: D) c c' -> step ar D (KT x b c) (KT x b' c')
| s_app D f f' args args' : step ar D f f' -> Forall2 (step ar D) args args' -> headok f' = true ->
    (forall y, f' = KV y -> f = KV y \/ prim_of y = None) -> step ar D (KA f args) (KA f' args')
| s_true D b c : step ar D (KI (KC STrue) b c) b
| s_false D b c : step ar D (KI (KC SFalse) b c) c
| s_drop D ps b c : step ar D (KD (KL ps b) c) c
| s_inline D x b c : pure D b = true -> headok b = true -> no_capture [(x, b)] c = true ->
    step ar D (KT x b c) (subst [(x, b)] c)
| s_unused D x b c : ~ In x (fv c) -> step ar D (KT x b c) (KD b c)
| s_is_cons D f e a d : as_prim D f = Some PIsCons -> as_pair D e = Some (a, d) -> pure D a = true -> pure D d = true ->
    step ar D (KA f [e]) (KC STrue)
| s_car D f e a d : as_prim D f = Some PCar -> as_pair D e = Some (a, d) -> pure D d = true -> step ar D (KA f [e]) a
| s_cdr D f e a d : as_prim D f = Some PCdr -> as_pair D e = Some (a, d) -> pure D a = true -> step ar D (KA f [e]) d
| s_not_true D f : as_prim D f = Some PNot -> step ar D (KA f [KC STrue]) (KC SFalse)
| s_not_false D f : as_prim D f = Some PNot -> step ar D (KA f [KC SFalse]) (KC STrue)
| s_arith D f p x y z : as_prim D f = Some p -> p = PAdd \/ p = PSub -> ar p x y = Some z ->
    step ar D (KA f [KC (SNum x); KC (SNum y)]) (KC (SNum z))
| s_beta D ps0 p ps2 b args0 a args2 : pure D a = true -> headok a = true -> ~ In p ps0 ->
    List.length args0 = List.length ps0 -> List.length ps2 <= List.length args2 ->
    (forall q, In q (ps0 ++ ps2) -> ~ In q (fv a)) -> no_capture [(p, a)] b = true ->
    step ar D (KA (KL (ps0 ++ p :: ps2) b) (args0 ++ a :: args2)) (KA (KL (ps0 ++ ps2) (subst [(p, a)] b)) (args0 ++ args2))
| s_call D b : step ar D (KA (KL [] b) []) b.

Lemma step_var : forall ar D x e, step ar D (KV x) e -> e = KV x.
Proof. intros ar D x e H. now inversion H. Qed.

Lemma wf_subst : forall e s, wf e = true -> (forall x r, lookup x s = Some r -> wf r = true /\ headok r = true) -> wf (subst s e) = true.
Proof.
  assert (ML : forall ps (s : csub), (forall x r, lookup x s = Some r -> wf r = true /\ headok r = true) ->
     forall x r, lookup x (minus ps s) = Some r -> wf r = true /\ headok r = true).
  { intros ps s H x r L. rewrite lookup_minus in L. destruct (mem x ps); [discriminate|eauto]. }
  induction e as [c|c|y|ps b IH|a b c IHa IHb IHc|a b IHa IHb|y b c IHb IHc|f args IHf IHa] using cx_ind';
    intros s W H; cbn [wf subst] in *; rewrite ?andb_true_iff in *; auto.
  - destruct (lookup y s) eqn:E; [|reflexivity]. now apply (H y).
  - apply IH; [exact W|]. now apply ML.
  - destruct W as ((W1 & W2) & W3); auto.
  - destruct W; auto.
  - destruct W. split; [auto|]. apply IHc; [auto|]. now apply ML.
  - destruct W as ((W1 & W2) & W3). repeat split; auto.
    + destruct f; cbn in *; auto. destruct (lookup x s) eqn:E; [|exact W1]. now apply (H x).
    + rewrite forallb_forall in *. intros a I. apply in_map_iff in I. destruct I as (a0 & <- & I).
      rewrite Forall_forall in IHa. apply IHa; auto.
Qed.

Lemma step_wf : forall ar D e e', step ar D e e' -> wf e = true -> wf e' = true.
Proof.
  intros ar. fix IH 4. intros D e e' H W.
  assert (SB : forall x r b, wf r = true -> headok r = true -> wf b = true -> wf (subst [(x, r)] b) = true).
  { intros x r b W1 W2 W3. apply wf_subst; [exact W3|]. intros y q L. cbn in L.
    destruct (name_eqb y x); [injection L as <-; auto|discriminate]. }
  assert (PR : forall D e a d, as_pair D e = Some (a, d) -> wf e = true -> wf a = true /\ wf d = true).
  { intros D0 e0 a d E W0. destruct e0 as [| | | | | | |f [|x [|y [|]]]]; try discriminate. cbn in E.
    destruct (as_prim D0 f) as [[]|]; try discriminate. injection E as <- <-. cbn in W0.
    rewrite !andb_true_iff in W0. tauto. }
  destruct H; cbn [wf] in W |- *; rewrite ?andb_true_iff in *; try exact W; try reflexivity.
  - eapply IH; eassumption.
  - destruct W as ((W1 & W2) & W3). repeat split; eapply IH; eassumption.
  - destruct W as (W1 & W2). repeat split; eapply IH; eassumption.
  - destruct W as (W1 & W2). repeat split; eapply IH; eassumption.
  - destruct W as ((W1 & W2) & W3). repeat split; [exact H1|eapply IH; eassumption|].
    clear - IH H0 W3. induction H0; [reflexivity|]. cbn in *. rewrite andb_true_iff in *. destruct W3.
    split; [eapply IH; eassumption|auto].
  - tauto.
  - tauto.
  - tauto.
  - destruct W as (W1 & W2). now apply SB.
  - destruct W as (_ & W). cbn [forallb] in W. rewrite andb_true_iff in W. now apply (PR D e a d).
  - destruct W as (_ & W). cbn [forallb] in W. rewrite andb_true_iff in W. now apply (PR D e a d).
  - rewrite forallb_app in *. cbn [forallb] in W. rewrite !andb_true_iff in *. destruct W as ((_ & W1) & W2 & W3 & W4).
    repeat split; auto.
  - tauto.
Qed.
