(** A careful run of the partial evaluator is a run of the partial evaluator,
    and a sequence of simplification steps. *)
From Coq Require Import List ZArith Bool String Arith Lia.
From Verif Require Import CoreSpec TocModel CoreProofs TocParseSim TocWhole PevalModel PevalSpec PevalRel PevalSim.
Import ListNotations.
Local Open Scope list_scope.
Local Open Scope nat_scope.

Section Chain.
  Context (ar : arith).

  Inductive steps (D : list name) : cx -> cx -> Prop :=
  | ss_refl e : steps D e e
  | ss_step e1 e2 e3 : step ar D e1 e2 -> steps D e2 e3 -> steps D e1 e3.

  Lemma steps_trans : forall D a b c, steps D a b -> steps D b c -> steps D a c.
  Proof. intros D a b c H K. induction H; [exact K|econstructor; eauto]. Qed.
  Lemma steps_one : forall D a b, step ar D a b -> steps D a b.
  Proof. intros. econstructor; [eassumption|constructor]. Qed.
  Lemma steps_wf : forall D a b, steps D a b -> wf a = true -> wf b = true.
  Proof. intros D a b H W. induction H; [exact W|]. apply IHsteps. eapply step_wf; eauto. Qed.
  Lemma steps_var : forall D x e, steps D (KV x) e -> e = KV x.
  Proof.
    intros D x e H. remember (KV x) as v. revert Heqv. induction H; intros ->; [reflexivity|].
    apply step_var in H. subst e2. auto.
  Qed.

  Lemma steps_lam : forall D ps b b', steps (ps ++ D) b b' -> steps D (KL ps b) (KL ps b').
  Proof. intros D ps b b' H. induction H; [constructor|]. eapply ss_step; [apply s_lam; exact H|exact IHsteps]. Qed.
  Lemma steps_if : forall D a a' b b' c c', steps D a a' -> steps D b b' -> steps D c c' -> steps D (KI a b c) (KI a' b' c').
  Proof.
    intros D a a' b b' c c' Ha Hb Hc.
    apply steps_trans with (KI a' b c).
    { clear Hb Hc. induction Ha; [constructor|]. eapply ss_step; [|exact IHHa]. constructor; auto; constructor. }
    apply steps_trans with (KI a' b' c).
    { clear Ha Hc. induction Hb; [constructor|]. eapply ss_step; [|exact IHHb]. constructor; auto; constructor. }
    clear Ha Hb. induction Hc; [constructor|]. eapply ss_step; [|exact IHHc]. constructor; auto; constructor.
  Qed.
  Lemma steps_do : forall D a a' b b', steps D a a' -> steps D b b' -> steps D (KD a b) (KD a' b').
  Proof.
    intros D a a' b b' Ha Hb. apply steps_trans with (KD a' b).
    { clear Hb. induction Ha; [constructor|]. eapply ss_step; [|exact IHHa]. constructor; auto; constructor. }
    clear Ha. induction Hb; [constructor|]. eapply ss_step; [|exact IHHb]. constructor; auto; constructor.
  Qed.
  Lemma steps_let : forall D x b b' c c', steps D b b' -> steps (x :: D) c c' -> steps D (KT x b c) (KT x b' c').
  Proof.
    intros D x b b' c c' Hb Hc. apply steps_trans with (KT x b' c).
    { clear Hc. induction Hb; [constructor|]. eapply ss_step; [|exact IHHb]. constructor; auto; constructor. }
    clear Hb. induction Hc; [constructor|]. eapply ss_step; [|exact IHHc]. constructor; auto; constructor.
  Qed.
  Lemma step_refls : forall D l, Forall2 (step ar D) l l.
  Proof. induction l; constructor; auto. constructor. Qed.
  Lemma steps_app : forall D f f' args args', steps D f f' -> Forall2 (steps D) args args' -> headok f' = true ->
    (forall y, f' = KV y -> f = KV y \/ prim_of y = None) -> steps D (KA f args) (KA f' args').
  Proof.
    intros D f f' args args' Hf Ha HO HP. apply steps_trans with (KA f' args).
    { clear Ha. induction Hf as [|f f1 f' H Hf IH]; [constructor|]. eapply ss_step.
      - apply s_app with (f' := f1); [exact H|apply step_refls| |].
        + destruct f1; try reflexivity. apply steps_var in Hf. now subst.
        + intros y ->. apply steps_var in Hf. subst. auto.
      - apply IH; [exact HO|]. intros y E. destruct (HP y E) as [->|]; [|now right]. apply step_var in H. auto. }
    clear Hf HP.
    assert (X : forall l0 l l', Forall2 (steps D) l l' -> steps D (KA f' (l0 ++ l)) (KA f' (l0 ++ l'))); [|apply (X [])].
    { intros l0 l l' F. revert l0. induction F as [|a a' l l' H F IH]; intro l0; [constructor|].
      apply steps_trans with (KA f' (l0 ++ a' :: l)).
      - clear F IH. induction H; [constructor|]. eapply ss_step; [|exact IHsteps].
        apply s_app; [constructor| |exact HO|auto]. apply Forall2_app; [apply step_refls|]. constructor; [exact H|apply step_refls].
      - specialize (IH (l0 ++ [a'])). rewrite <- !app_assoc in IH. exact IH. }
    exact Ha.
  Qed.

  Lemma all_some_forall : forall {A B} (f : A -> option B) l r, all_some (map f l) = Some r -> Forall2 (fun a b => f a = Some b) l r.
  Proof.
    intros A B f. induction l as [|a l IH]; intros r H; cbn in H; [injection H as <-; constructor|].
    destruct (f a) eqn:E; [|discriminate]. destruct (all_some (map f l)); [|discriminate]. injection H as <-. constructor; auto.
  Qed.

  Lemma cfold_step : forall D f args r, cfold ar D (f :: args) = Some r -> step ar D (KA f args) r.
  Proof.
    intros D f args r H. destruct args as [|e [|b [|]]]; try discriminate.
    - cbn in H. destruct (as_prim D f) as [p|] eqn:O; [|discriminate].
      destruct (as_pair D e) as [(a, d)|] eqn:PR.
      + destruct p; try discriminate; unfold guard in H.
        * destruct (pure D d) eqn:P; [|discriminate]. injection H as <-. eapply s_car; eauto.
        * destruct (pure D a) eqn:P; [|discriminate]. injection H as <-. eapply s_cdr; eauto.
        * destruct (pure D a && pure D d) eqn:P; [|discriminate]. injection H as <-. apply andb_true_iff in P. destruct P.
          eapply s_is_cons; eauto.
      + destruct p; try discriminate. destruct e as [[]| | | | | | |]; try discriminate; injection H as <-.
        * now apply s_not_true.
        * now apply s_not_false.
    - cbn in H. destruct (as_prim D f) as [p|] eqn:O; [|discriminate]. destruct p; try discriminate;
        destruct e as [[]| | | | | | |]; try discriminate; destruct b as [[]| | | | | | |]; try discriminate.
      + destruct (ar PAdd z z0) eqn:E; [|discriminate]. injection H as <-. eapply s_arith; eauto.
      + destruct (ar PSub z z0) eqn:E; [|discriminate]. injection H as <-. eapply s_arith; eauto.
  Qed.

  Lemma guard_some : forall {A} b (o : option A) r, guard b o = Some r -> b = true /\ o = Some r.
  Proof. intros A [] o r H; [auto|discriminate]. Qed.

  Lemma cbeta_steps : forall D args ps0 args0 ps b s ps1 args1 b1 s1,
    cbeta D ps0 args0 ps args b s = Some (ps1, args1, b1, s1) -> List.length args0 = List.length ps0 ->
    steps D (KA (KL (ps0 ++ ps) b) (args0 ++ args)) (KA (KL ps1 b1) args1).
  Proof.
    intros D. induction args as [|a args IH]; intros ps0 args0 ps b s ps1 args1 b1 s1 H L; destruct ps as [|p ps]; cbn in H; try discriminate.
    - injection H as <- <- <- <-. rewrite !app_nil_r. constructor.
    - injection H as <- <- <- <-. rewrite !app_nil_r. constructor.
    - destruct (kconst a || klist a).
      + apply guard_some in H. destruct H as (C & H). rewrite !andb_true_iff in C. destruct C as (((((C1 & C2) & C3) & C4) & C5) & C6).
        eapply ss_step; [|eapply (IH _ _ _ _ _ _ _ _ _ H L)].
        apply s_beta; auto.
        * apply negb_true_iff in C3. now apply mem_notin.
        * now apply Nat.leb_le.
        * intros q I. rewrite forallb_forall in C5. specialize (C5 q I). apply negb_true_iff in C5. now apply mem_notin.
      + specialize (IH _ _ _ _ _ _ _ _ _ H). rewrite <- !app_assoc in IH. cbn in IH. apply IH. rewrite !app_length. cbn. lia.
  Qed.

  Lemma chain : forall n D s e e', careful ar n D s e = Some e' -> steps D (subst s e) e'.
  Proof.
    induction n as [|n IH]; intros D s e e' H; [discriminate|].
    destruct e as [c|c|x|ps b|a b c|a b|x b c|f args]; cbn [careful subst] in *.
    - injection H as <-. constructor.
    - injection H as <-. constructor.
    - injection H as <-. constructor.
    - destruct (careful ar n (ps ++ D) (minus ps s) b) as [b'|] eqn:E; [|discriminate]. injection H as <-. apply steps_lam. auto.
    - destruct (careful ar n D s a) as [a'|] eqn:Ea; [|discriminate]. apply IH in Ea.
      assert (X : (a' = KC STrue /\ careful ar n D s b = Some e') \/ (a' = KC SFalse /\ careful ar n D s c = Some e') \/
                  exists b' c', careful ar n D s b = Some b' /\ careful ar n D s c = Some c' /\ e' = KI a' b' c').
      { destruct a' as [[]| | | | | | |]; auto; right; right;
          (destruct (careful ar n D s b) as [b'|]; [|discriminate]); (destruct (careful ar n D s c) as [c'|]; [|discriminate]);
          injection H as <-; eauto. }
      destruct X as [(-> & K)|[(-> & K)|(b' & c' & Kb & Kc & ->)]].
      + apply steps_trans with (KI (KC STrue) (subst s b) (subst s c)); [apply steps_if; auto; constructor|].
        eapply ss_step; [apply s_true|auto].
      + apply steps_trans with (KI (KC SFalse) (subst s b) (subst s c)); [apply steps_if; auto; constructor|].
        eapply ss_step; [apply s_false|auto].
      + apply steps_if; auto.
    - destruct (careful ar n D s a) as [a'|] eqn:Ea; [|discriminate]. apply IH in Ea.
      destruct (careful ar n D s b) as [b'|] eqn:Eb; [|destruct a'; discriminate]. apply IH in Eb.
      assert (X : (exists ps q, a' = KL ps q /\ e' = b') \/ e' = KD a' b').
      { destruct a'; injection H as <-; eauto. }
      destruct X as [(ps & q & -> & ->)| ->].
      + apply steps_trans with (KD (KL ps q) (subst s b)); [apply steps_do; auto; constructor|].
        eapply ss_step; [apply s_drop|exact Eb].
      + now apply steps_do.
    - destruct (careful ar n D s b) as [b'|] eqn:Eb; [|discriminate]. apply IH in Eb. cbv zeta in H.
      set (c1 := subst (minus [x] s) c) in *.
      assert (XI : guard (pure D b' && headok b' && no_capture [(x, b')] c1 && cx_eqb (subst [(x, b')] c1) (subst ((x, b') :: s) c))
                     (careful ar n D ((x, b') :: s) c) = Some e' -> steps D (KT x (subst s b) c1) e').
      { intro K. apply guard_some in K. destruct K as (C & K). rewrite !andb_true_iff in C. destruct C as (((C1 & C2) & C3) & C4).
        apply cx_eqb_eq in C4. apply steps_trans with (KT x b' c1); [apply steps_let; [exact Eb|constructor]|].
        eapply ss_step; [apply s_inline; auto|]. rewrite C4. auto. }
      destruct (kconst b' || _ || _) eqn:ES; [auto|].
      apply guard_some in H. destruct H as (_ & H).
      destruct (count x c =? 0).
      + apply guard_some in H. destruct H as (C & H). rewrite andb_true_iff in C. destruct C as (C1 & C2).
        apply cx_eqb_eq in C2. apply negb_true_iff in C1. apply mem_notin in C1.
        apply steps_trans with (KT x b' c1); [apply steps_let; [exact Eb|constructor]|].
        destruct (is_lam b' || _ || _).
        * apply guard_some in H. destruct H as (P & H).
          apply ss_step with c1; [|rewrite C2; auto].
          rewrite <- (subst_unused c1 x b' C1) at 2. apply s_inline; [exact P| |now apply no_capture_unused].
          destruct b'; try reflexivity. cbn in ES. discriminate.
        * destruct (careful ar n D s c) as [c'|] eqn:Ec; [|discriminate]. injection H as <-. apply IH in Ec.
          eapply ss_step; [now apply s_unused|]. apply steps_do; [constructor|]. now rewrite C2.
      + destruct ((count x c =? 1) && _); [auto|].
        destruct (careful ar n (x :: D) (minus [x] s) c) as [c'|] eqn:Ec; [|discriminate]. injection H as <-. apply IH in Ec.
        now apply steps_let.
    - destruct (careful ar n D s f) as [f'|] eqn:Ef; [|discriminate].
      destruct (all_some (map (careful ar n D s) args)) as [args'|] eqn:Ea; [|discriminate].
      assert (FA : Forall2 (steps D) (map (subst s) args) args').
      { apply all_some_forall in Ea. clear H. induction Ea; cbn; constructor; auto. }
      assert (FO : opok f f' = true -> steps D (KA (subst s f) (map (subst s) args)) (KA f' args')).
      { intro O. apply steps_app; [auto|exact FA| |].
        - destruct f'; try reflexivity. cbn in *. destruct f; cbn in O; try (apply andb_true_iff in O; destruct O); assumption.
        - intros y ->. destruct f; try (cbn in O; apply andb_true_iff in O; destruct O as (_ & O); destruct (prim_of y); [discriminate|now right]).
          left. destruct n; [discriminate|]. cbn in Ef. injection Ef as Ef. exact Ef. }
      destruct (cfold ar D (f' :: args')) as [r|] eqn:EF.
      { apply guard_some in H. destruct H as (O & H). injection H as <-. eapply steps_trans; [auto|]. apply steps_one. now apply cfold_step. }
      destruct (would_fold (f' :: args')); [discriminate|].
      assert (X : (exists ps b, f' = KL ps b) \/ guard (opok f f') (Some (KA f' args')) = Some e') by (destruct f'; eauto).
      destruct X as [(ps & b & ->)|X].
      2:{ apply guard_some in X. destruct X as (O & X). injection X as <-. auto. }
      destruct (cbeta D [] [] ps args' b []) as [[[[ps1 args1] b1] s1]|] eqn:EB; [|discriminate]. cbv zeta in H.
      apply guard_some in H. destruct H as (C & H). apply cx_eqb_eq in C.
      destruct (careful ar n (ps1 ++ D) _ b) as [b2|] eqn:E2; [|discriminate]. injection H as <-. apply IH in E2. rewrite <- C in E2.
      apply steps_trans with (KA (KL ps b) args'); [apply steps_app; auto; discriminate|].
      eapply steps_trans; [exact (cbeta_steps _ _ _ _ _ _ _ _ _ _ _ EB eq_refl)|].
      apply steps_trans with (KA (KL ps1 b2) args1).
      { apply steps_app; [now apply steps_lam| |reflexivity|discriminate]. clear. induction args1; constructor; auto. constructor. }
      destruct ps1, args1; try constructor. apply steps_one. constructor.
  Qed.

  (** * A careful run is a run *)
  Definition wfs (s : csub) := forall x r, lookup x s = Some r -> wf r = true /\ headok r = true.
  Definition shows (s : csub) : list (sexp * sexp) := map (fun '(x, r) => (SSym x, show r)) s.

  Lemma careful_wf : forall n D s e e', careful ar n D s e = Some e' -> wf e = true -> wfs s -> wf e' = true.
  Proof. intros n D s e e' H W S. apply chain in H. eapply steps_wf; [exact H|]. now apply wf_subst. Qed.

  Lemma name_sexp_eqb : forall x y, sexp_eqb (SSym x) (SSym y) = name_eqb x y.
  Proof. reflexivity. Qed.
  Lemma assq_shows : forall x s, assq (SSym x) (shows s) = match lookup x s with Some r => Some (show r) | None => None end.
  Proof. intros x s. induction s as [|(y, r) s IH]; [reflexivity|]. cbn. destruct (name_eqb x y); auto. Qed.
  Lemma shrink_shows : forall ps s, shrink_env (of_list (map SSym ps)) (shows s) = Some (shows (minus ps s)).
  Proof.
    assert (M : forall x ps, member (SSym x) (of_list (map SSym ps)) = Some (mem x ps)).
    { intros x ps. induction ps as [|p ps IH]; [reflexivity|]. cbn. unfold mem in *. cbn. rewrite IH.
      destruct (name_eqb x p); reflexivity. }
    intros ps s. induction s as [|(y, r) s IH]; [reflexivity|]. cbn. rewrite M. fold (shows s). rewrite IH.
    destruct (mem y ps); reflexivity.
  Qed.
  Lemma minus_lookup : forall ps s, wfs s -> wfs (minus ps s).
  Proof. intros ps s H x r L. rewrite lookup_minus in L. destruct (mem x ps); [discriminate|eauto]. Qed.

  Lemma wfs_cons : forall x r s, wfs s -> wf r = true -> headok r = true -> wfs ((x, r) :: s).
  Proof. intros x r s H W O y q L. cbn in L. destruct (name_eqb y x); [injection L as <-; auto|eauto]. Qed.

  Lemma prim_names_inj : forall x p, prim_of x = Some p ->
    match p with PIsCons => x = NS "cons?" | PCar => x = NS "car" | PCdr => x = NS "cdr" | PNot => x = NS "not"
    | PAdd => x = NS "+" | PSub => x = NS "-" | PCons => x = NS "cons" | _ => True end.
  Proof.
    intros [t|k] p H; [|discriminate]. cbn in H.
    repeat match type of H with
    | (if String.eqb t ?c then _ else _) = _ => destruct (String.eqb_spec t c) as [->|]; [injection H as <-; exact I || reflexivity|]
    end. discriminate.
  Qed.
  Lemma as_prim_name : forall D f p, as_prim D f = Some p -> exists x, f = KV x /\ prim_of x = Some p.
  Proof. intros D f p H. destruct f; try discriminate. cbn in H. destruct (mem x D); [discriminate|eauto]. Qed.
  Lemma as_pair_show : forall D e a d, as_pair D e = Some (a, d) -> show e = of_list [ssym "cons"; show a; show d].
  Proof.
    intros D e a d H. destruct e as [| | | | | | |f [|a0 [|d0 [|]]]]; try discriminate. cbn in H.
    destruct (as_prim D f) as [[]|] eqn:E; try discriminate. injection H as <- <-. apply as_prim_name in E. destruct E as (x & -> & P).
    apply prim_names_inj in P. now subst.
  Qed.

  Lemma cfold_fold : forall D l r, cfold ar D l = Some r -> fold_app ar (map show l) = Some (Some (show r)).
  Proof.
    intros D l r H. destruct l as [|f [|e [|b [|]]]]; try discriminate.
    - cbn [cfold] in H. destruct (as_prim D f) as [p|] eqn:O; [|discriminate]. apply as_prim_name in O. destruct O as (x & -> & O).
      apply prim_names_inj in O.
      destruct (as_pair D e) as [(a, d)|] eqn:PR.
      + apply as_pair_show in PR. cbn [map]. rewrite PR. destruct p; try discriminate; subst x; apply guard_some in H; destruct H as (_ & H);
          injection H as <-; reflexivity.
      + destruct p; try discriminate; subst x. destruct e as [[]| | | | | | |]; try discriminate; injection H as <-; reflexivity.
    - cbn [cfold] in H. destruct (as_prim D f) as [p|] eqn:O; [|discriminate]. apply as_prim_name in O. destruct O as (x & -> & O).
      apply prim_names_inj in O. destruct p; try discriminate; subst x; destruct e as [[]| | | | | | |]; try discriminate;
        destruct b as [[]| | | | | | |]; try discriminate; cbn.
      + destruct (ar PAdd z z0); [|discriminate]. now injection H as <-.
      + destruct (ar PSub z z0); [|discriminate]. now injection H as <-.
  Qed.

  (** what the code sees of an expression *)
  Lemma const_show : forall e, wf e = true -> const (show e) = kconst e.
  Proof.
    intros e W. destruct e; try reflexivity.
    - cbn in W. destruct s; try discriminate; reflexivity.
    - cbn in W. rewrite !andb_true_iff in W. destruct W as ((HO & Wf) & _). cbn. apply head_not_keyword; cbn; tauto.
  Qed.
  Lemma is_nil_show : forall e, sexp_eqb (show e) SNil = is_nil e.
  Proof. intros e. destruct e; try reflexivity. destruct s; reflexivity. Qed.
  Lemma is_lambda_show : forall e, wf e = true -> is_lambda (show e) = is_lam e.
  Proof.
    intros e W. destruct e; try reflexivity.
    - cbn in W. destruct s; try discriminate; reflexivity.
    - cbn in W. rewrite !andb_true_iff in W. destruct W as ((HO & Wf) & _). cbn. apply head_not_keyword; cbn; tauto.
  Qed.
  Lemma is_sym_show : forall s f, wf f = true -> is_sym s (show f) = match f with KV x => name_eqb x (NS s) | _ => false end.
  Proof. intros s f W. destruct f; try reflexivity. cbn in W. destruct s0; try discriminate; reflexivity. Qed.
  Lemma const_list_show : forall e, wf e = true -> const_list (show e) = klist e.
  Proof.
    induction e as [c|c|y|ps b IH|a b c IHa IHb IHc|a b IHa IHb|y b c IHb IHc|f args IHf IHa] using cx_ind'; intro W; try reflexivity.
    - cbn in W. destruct c; try discriminate; reflexivity.
    - cbn in W. rewrite !andb_true_iff in W. destruct W as ((HO & Wf) & Wa).
      destruct args as [|a [|d [|? ?]]]; try (destruct f; reflexivity).
      cbn in Wa. rewrite !andb_true_iff in Wa. destruct Wa as (Wa & Wd & _).
      assert (IHd : const_list (show d) = klist d) by (inversion IHa as [|? ? _ F2]; inversion F2; auto).
      change (const_list (show (KA f [a; d]))) with (is_sym "cons" (show f) && (const (show a) && (sexp_eqb (show d) SNil || const_list (show d)))).
      rewrite is_sym_show, const_show, is_nil_show, IHd by assumption. destruct f; reflexivity.
  Qed.
  Lemma klength_show : forall e, wf e = true -> klist e = true -> const_list_length (show e) = Some (klength e).
  Proof.
    induction e as [c|c|y|ps b IH|a b c IHa IHb IHc|a b IHa IHb|y b c IHb IHc|f args IHf IHa] using cx_ind'; intros W K; try discriminate.
    cbn in W. rewrite !andb_true_iff in W. destruct W as ((HO & Wf) & Wa).
    destruct f; try discriminate. destruct args as [|a [|d [|? ?]]]; try discriminate.
    cbn in K. rewrite !andb_true_iff in K. destruct K as (K1 & K2 & K3).
    cbn in Wa. rewrite !andb_true_iff in Wa. destruct Wa as (Wa & Wd & _).
    assert (IHd : klist d = true -> const_list_length (show d) = Some (klength d)) by (inversion IHa as [|? ? _ F2]; inversion F2; auto).
    change (const_list_length (show (KA (KV x) [a; d]))) with
      (if name_eqb x (NS "cons") then
         if sexp_eqb (show d) SNil then Some 1 else match const_list_length (show d) with Some k => Some (S k) | None => None end
       else None).
    rewrite K1, is_nil_show. destruct (is_nil d) eqn:N.
    - destruct d as [[]| | | | | | |]; try discriminate. reflexivity.
    - cbn in K3. rewrite (IHd K3). reflexivity.
  Qed.
  Lemma side_effect_free_show : forall e, wf e = true -> side_effect_free (show e) = is_lam e || kconst e || klist e.
  Proof. intros. unfold side_effect_free. now rewrite is_lambda_show, const_show, const_list_show. Qed.

  Lemma member_show : forall x ps, member (SSym x) (of_list (map SSym ps)) = Some (mem x ps).
  Proof.
    intros x ps. induction ps as [|p ps IH]; [reflexivity|]. cbn. unfold mem in *. cbn. rewrite IH. destruct (name_eqb x p); reflexivity.
  Qed.
  Lemma count_show : forall n x e, wf e = true -> depth e <= n -> ref_count n (SSym x) (show e) = Some (count x e).
  Proof.
    induction n as [|n IH]; intros x e W L; [destruct e; cbn in L; lia|].
    cbn [ref_count]. rewrite const_show, const_list_show by exact W.
    destruct e as [c|c|y|ps b|a b c|a b|y b c|f args]; [cbn [kconst klist orb depth count] in *..|]; try reflexivity.
    - cbn. rewrite member_show. destruct (mem x ps); [reflexivity|]. apply IH; [exact W|lia].
    - cbn in W. rewrite !andb_true_iff in W. destruct W as ((Wa & Wb) & Wc). cbn. rewrite !IH by (auto; lia). reflexivity.
    - cbn in W. rewrite !andb_true_iff in W. destruct W as (Wa & Wb). cbn. rewrite !IH by (auto; lia). reflexivity.
    - cbn in W. rewrite !andb_true_iff in W. destruct W as (Wb & Wc). cbn. rewrite IH by (auto; lia).
      destruct (name_eqb y x); [reflexivity|]. rewrite IH by (auto; lia). reflexivity.
    - cbn [kconst orb]. change (count x (KA f args)) with (if klist (KA f args) then 0 else count x f + list_sum (map (count x) args)).
      destruct (klist (KA f args)); [reflexivity|]. cbn [depth] in L.
      cbn [wf] in W. rewrite !andb_true_iff in W. destruct W as ((HO & Wf) & Wa).
      change (show (KA f args)) with (SCons (show f) (of_list (map show args))). cbn [orb].
      rewrite !head_not_keyword by (auto; cbn; tauto). cbn [orb].
      assert (X : forall l, forallb wf l = true -> list_max (map depth l) <= n ->
        (fix sum (l : sexp) : option nat :=
           match l with
           | SNil => Some 0
           | SCons a d => match ref_count n (SSym x) a, sum d with Some i, Some j => Some (i + j) | _, _ => None end
           | _ => None
           end) (of_list (map show l)) = Some (list_sum (map (count x) l))).
      { induction l as [|e l IHl]; intros W1 L1; [reflexivity|]. cbn in W1. apply andb_true_iff in W1. destruct W1 as (W1 & W2).
        cbn [map of_list fold_right].
        change (list_sum (map (count x) (e :: l))) with (count x e + list_sum (map (count x) l)).
        change (list_max (map depth (e :: l))) with (max (depth e) (list_max (map depth l))) in L1.
        rewrite IH by (auto; lia). rewrite IHl by (auto; lia). reflexivity. }
      rewrite IH by (auto; lia). rewrite X by (auto; lia). reflexivity.
  Qed.

  Lemma cell_show : forall {A} e (k : sexp -> sexp -> option A), wf e = true -> kpair e = false ->
    match slist (show e) with Some [h; a; d] => if is_sym "cons" h then k a d else None | _ => None end = None.
  Proof.
    intros A e k W K. destruct e as [c|c|y|ps b|a b c|a b|y b c|f args]; try reflexivity.
    - cbn in W. destruct c; try discriminate; reflexivity.
    - change (show (KA f args)) with (of_list (map show (f :: args))). rewrite slist_of.
      cbn in W. rewrite !andb_true_iff in W. destruct W as ((HO & Wf) & _).
      destruct args as [|a [|d [|]]]; try reflexivity. cbn. rewrite is_sym_show by exact Wf. cbn in K. destruct f; try reflexivity. now rewrite K.
  Qed.
  Lemma fold_show : forall l, forallb wf l = true -> would_fold l = false -> fold_app ar (map show l) = None.
  Proof.
    intros l W H. destruct l as [|f [|e [|b [|]]]]; try reflexivity.
    - cbn in W. rewrite !andb_true_iff in W. destruct W as (Wf & We & _).
      cbn [map fold_app]. cbn [would_fold] in H. rewrite !is_sym_show by exact Wf. rewrite !is_nil_show.
      assert (T : sexp_eqb (show e) STrue = match e with KC STrue => true | _ => false end) by (destruct e as [[]| | | | | | |]; reflexivity).
      assert (F : sexp_eqb (show e) SFalse = match e with KC SFalse => true | _ => false end) by (destruct e as [[]| | | | | | |]; reflexivity).
      rewrite T, F. rewrite !orb_false_iff in H. destruct H as ((H1 & H2) & H3).
      destruct f; try reflexivity.
      pose proof (fun A k => @cell_show A e k We) as CS.
      destruct (name_eqb x (NS "cons?")) eqn:E1.
      { cbn in H1. rewrite H1 in *. specialize (CS _ (fun a d => Some (a, d)) eq_refl). now rewrite CS. }
      destruct (name_eqb x (NS "car")) eqn:E2.
      { cbn in H1. specialize (CS _ (fun a d => Some (a, d)) H1). now rewrite CS. }
      destruct (name_eqb x (NS "cdr")) eqn:E3.
      { cbn in H1. specialize (CS _ (fun a d => Some (a, d)) H1). now rewrite CS. }
      destruct (name_eqb x (NS "null?")) eqn:E4.
      { cbn in H2. apply orb_false_iff in H2. destruct H2 as (-> & H2). specialize (CS _ (fun a d => Some (a, d)) H2). now rewrite CS. }
      destruct (name_eqb x (NS "not")); [|reflexivity]. cbn in H3. destruct e as [[]| | | | | | |]; try reflexivity; discriminate.
    - cbn in W. rewrite !andb_true_iff in W. destruct W as (Wf & Wa & Wb & _).
      cbn [map fold_app]. cbn [would_fold] in H. rewrite !is_sym_show by exact Wf. rewrite orb_false_iff in H. destruct H as (H1 & H2).
      destruct f; try reflexivity.
      destruct (name_eqb x (NS "and")).
      { destruct e as [[]| | | | | | |]; try reflexivity. destruct b as [[]| | | | | | |]; try reflexivity. discriminate. }
      destruct (name_eqb x (NS "+")).
      { cbn in H2. cbn in Wa, Wb. destruct e as [[]| | | | | | |]; try reflexivity. destruct b as [[]| | | | | | |]; try reflexivity. discriminate. }
      destruct (name_eqb x (NS "-")); [|reflexivity].
      cbn in H2. destruct e as [[]| | | | | | |]; try reflexivity. destruct b as [[]| | | | | | |]; try reflexivity. discriminate.
  Qed.

  Lemma cbeta_extend : forall D args ps0 args0 ps b s t ps1 args1 b1 s1,
    cbeta D ps0 args0 ps args b s = Some (ps1, args1, b1, s1) -> forallb wf args = true -> List.length args0 = List.length ps0 ->
    extend_env_h (rev (map SSym ps0)) (rev (map show args0)) (of_list (map SSym ps)) (map show args) (shows (s ++ t))
      = Some (of_list (map SSym ps1), map show args1, shows (s1 ++ t))
    /\ List.length ps1 <= List.length args1.
  Proof.
    intros D. induction args as [|a args IH]; intros ps0 args0 ps b s t ps1 args1 b1 s1 H W L; destruct ps as [|p ps]; cbn in H; try discriminate.
    - injection H as <- <- <- <-. cbn. rewrite !rev_involutive, !app_nil_r. split; [reflexivity|lia].
    - injection H as <- <- <- <-. cbn. rewrite !rev_involutive, map_app, app_length. split; [reflexivity|lia].
    - cbn in W. apply andb_true_iff in W. destruct W as (Wa & W).
      cbn. rewrite const_show, const_list_show by exact Wa. destruct (kconst a || klist a).
      + apply guard_some in H. destruct H as (_ & H). apply (IH _ _ _ _ _ t _ _ _ _ H W L).
      + specialize (IH _ _ _ _ _ t _ _ _ _ H W). rewrite !map_app, !rev_app_distr in IH. apply IH. rewrite !app_length. cbn. lia.
  Qed.

  Lemma cbeta_wfs : forall D args ps0 args0 ps b s ps1 args1 b1 s1,
    cbeta D ps0 args0 ps args b s = Some (ps1, args1, b1, s1) -> forallb wf args = true -> wfs s -> wfs s1.
  Proof.
    intros D. induction args as [|a args IH]; intros ps0 args0 ps b s ps1 args1 b1 s1 H W S; destruct ps as [|p ps]; cbn in H; try discriminate;
      try (injection H as <- <- <- <-; exact S).
    cbn in W. apply andb_true_iff in W. destruct W as (Wa & W).
    destruct (kconst a || klist a); [|eauto].
    apply guard_some in H. destruct H as (C & H). rewrite !andb_true_iff in C. destruct C as (((((C1 & C2) & C3) & C4) & C5) & C6).
    eapply IH; eauto. now apply wfs_cons.
  Qed.

  Lemma pmap_all : forall (f : sexp -> option sexp) (g : cx -> option cx) l r,
    Forall (fun e => forall e', g e = Some e' -> f (show e) = Some (show e')) l ->
    all_some (map g l) = Some r -> pmap f (of_list (map show l)) = Some (map show r).
  Proof.
    intros f g l r F. revert r. induction F as [|e l H F IH]; intros r A; cbn in *; [injection A as <-; reflexivity|].
    destruct (g e) eqn:E; [|discriminate]. destruct (all_some (map g l)); [|discriminate]. injection A as <-.
    rewrite (H _ eq_refl), (IH _ eq_refl). reflexivity.
  Qed.

  Lemma show_true : forall a, sexp_eqb (show a) STrue = true -> a = KC STrue.
  Proof. intros a H. destruct a; try discriminate. destruct s; try discriminate. reflexivity. Qed.
  Lemma show_false : forall a, sexp_eqb (show a) SFalse = true -> a = KC SFalse.
  Proof. intros a H. destruct a; try discriminate. destruct s; try discriminate. reflexivity. Qed.

  Lemma wfs_app : forall s t, wfs s -> wfs t -> wfs (s ++ t).
  Proof.
    intros s t S T. intros x r L. rewrite lookup_app in L. destruct (lookup x s) eqn:E; [injection L as <-; eauto|eauto].
  Qed.

  Theorem mirror : forall n D s e e', careful ar n D s e = Some e' -> wf e = true -> wfs s ->
    peval ar n (shows s) (show e) = Some (show e').
  Proof.
    induction n as [|n IH]; intros D s e e' H W S; [discriminate|].
    destruct e as [c|c|x|ps b|a b c|a b|x b c|f args]; cbn [careful] in H.
    - injection H as <-. cbn in W. destruct c; try discriminate; reflexivity.
    - injection H as <-. reflexivity.
    - injection H as <-. cbn [peval show]. rewrite assq_shows. destruct (lookup x s); reflexivity.
    - destruct (careful ar n (ps ++ D) (minus ps s) b) as [b'|] eqn:E; [|discriminate]. injection H as <-.
      apply IH in E; [|exact W|now apply minus_lookup].
      cbn. rewrite shrink_shows, E. reflexivity.
    - cbn in W. rewrite !andb_true_iff in W. destruct W as ((Wa & Wb) & Wc).
      destruct (careful ar n D s a) as [a'|] eqn:Ea; [|discriminate]. apply IH in Ea; auto. cbn. rewrite Ea.
      destruct (sexp_eqb (show a') STrue) eqn:ET; [apply show_true in ET; subst a'; eauto|].
      destruct (sexp_eqb (show a') SFalse) eqn:EF; [apply show_false in EF; subst a'; eauto|].
      assert (X : exists b' c', careful ar n D s b = Some b' /\ careful ar n D s c = Some c' /\ e' = KI a' b' c').
      { destruct a' as [[]| | | | | | |]; try discriminate;
          (destruct (careful ar n D s b) as [b'|]; [|discriminate]); (destruct (careful ar n D s c) as [c'|]; [|discriminate]);
          injection H as <-; eauto. }
      destruct X as (b' & c' & Kb & Kc & ->). apply IH in Kb; auto. apply IH in Kc; auto. rewrite Kb, Kc. reflexivity.
    - cbn in W. rewrite !andb_true_iff in W. destruct W as (Wa & Wb).
      destruct (careful ar n D s a) as [a'|] eqn:Ea; [|discriminate].
      assert (Wa' : wf a' = true) by (eapply careful_wf; eauto). apply IH in Ea; auto.
      destruct (careful ar n D s b) as [b'|] eqn:Eb; [|destruct a'; discriminate]. apply IH in Eb; auto. cbn. rewrite Ea, Eb.
      rewrite is_lambda_show by exact Wa'. destruct a'; injection H as <-; reflexivity.
    - cbn in W. rewrite !andb_true_iff in W. destruct W as (Wb & Wc).
      destruct (careful ar n D s b) as [b'|] eqn:Eb; [|discriminate].
      assert (Wb' : wf b' = true) by (eapply careful_wf; eauto).
      apply IH in Eb; auto. cbv zeta in H.
      cbn -[Nat.ltb Nat.eqb]. rewrite Eb.
      set (c1 := subst (minus [x] s) c) in *.
      assert (XI : guard (pure D b' && headok b' && no_capture [(x, b')] c1 && cx_eqb (subst [(x, b')] c1) (subst ((x, b') :: s) c))
                     (careful ar n D ((x, b') :: s) c) = Some e' -> peval ar n ((SSym x, show b') :: shows s) (show c) = Some (show e')).
      { intro K. apply guard_some in K. destruct K as (C & K). rewrite !andb_true_iff in C. destruct C as (((C1 & C2) & C3) & C4).
        apply IH in K; auto. now apply wfs_cons. }
      rewrite const_show, const_list_show, side_effect_free_show by exact Wb'.
      assert (XS : match show b' with SSym _ => true | _ => false end = match b' with KV _ => true | _ => false end).
      { destruct b'; try reflexivity. destruct s0; try discriminate; reflexivity. }
      rewrite XS.
      assert (XL : klist b' && match const_list_length (show b') with Some k => k <? 3 | None => false end = klist b' && (klength b' <? 3)).
      { destruct (klist b') eqn:K; [|reflexivity]. now rewrite klength_show by assumption. }
      rewrite XL.
      destruct (kconst b' || _ || _) eqn:ES; [auto|].
      apply guard_some in H. destruct H as (DP & H). apply Nat.leb_le in DP. rewrite count_show by assumption.
      destruct (count x c =? 0).
      + apply guard_some in H. destruct H as (_ & H).
        destruct (is_lam b' || _ || _).
        * apply guard_some in H. destruct H as (P & H). eauto.
        * destruct (careful ar n D s c) as [c'|] eqn:Ec; [|discriminate]. injection H as <-. apply IH in Ec; auto. now rewrite Ec.
      + destruct ((count x c =? 1) && _); [auto|].
        destruct (careful ar n (x :: D) (minus [x] s) c) as [c'|] eqn:Ec; [|discriminate]. injection H as <-.
        apply IH in Ec; [|exact Wc|now apply minus_lookup].
        pose proof (shrink_shows [x] s) as SH. cbn [map of_list] in SH. rewrite SH, Ec. reflexivity.
    - cbn in W. rewrite !andb_true_iff in W. destruct W as ((HO & Wf) & Wa).
      destruct (careful ar n D s f) as [f'|] eqn:Ef; [|discriminate].
      destruct (all_some (map (careful ar n D s) args)) as [args'|] eqn:Ea; [|discriminate].
      assert (Wf' : wf f' = true) by (eapply careful_wf; eauto).
      assert (Wa' : forallb wf args' = true).
      { apply all_some_forall in Ea. clear H. revert Wa. induction Ea as [|e l e1 l1 H1 H2 IHl]; intro Wa; [reflexivity|].
        cbn in Wa. apply andb_true_iff in Wa. destruct Wa as (W1 & W2). cbn. apply andb_true_iff. split; [|auto]. eapply careful_wf; eauto. }
      assert (PM : pmap (peval ar n (shows s)) (show (KA f args)) = Some (map show (f' :: args'))).
      { change (show (KA f args)) with (of_list (map show (f :: args))). eapply pmap_all with (g := careful ar n D s).
        - rewrite Forall_forall. intros e I e1 E1. assert (We : wf e = true).
          { destruct I as [<-|I]; [exact Wf|]. rewrite forallb_forall in Wa. auto. }
          eapply IH; eauto.
        - change (map (careful ar n D s) (f :: args)) with (careful ar n D s f :: map (careful ar n D s) args). cbn. now rewrite Ef, Ea. }
      change (show (KA f args)) with (SCons (show f) (of_list (map show args))) in *. cbn [peval].
      rewrite !head_not_keyword by (auto; cbn; tauto). rewrite PM.
      destruct (cfold ar D (f' :: args')) as [r|] eqn:EF.
      { apply guard_some in H. destruct H as (O & H). injection H as <-. now rewrite (cfold_fold _ _ _ EF). }
      destruct (would_fold (f' :: args')) eqn:WF; [discriminate|].
      rewrite fold_show by (auto; cbn; now rewrite Wf', Wa'). cbn [map].
      assert (X : (exists ps b, f' = KL ps b) \/ (is_lambda (show f') = false /\ e' = KA f' args')).
      { rewrite is_lambda_show by exact Wf'. destruct f'; try (apply guard_some in H; destruct H as (C & H); injection H as <-; right; split; reflexivity).
        eauto. }
      destruct X as [(ps & b & ->)|(X & ->)].
      2:{ destruct (show f') as [| | | | | |h q] eqn:SF; cbn; rewrite ?SF; try reflexivity. cbn in X.
          destruct (slist q) as [[|q1 [|q2 [|]]]|]; try reflexivity. now rewrite X. }
      destruct (cbeta D [] [] ps args' b []) as [[[[ps1 args1] b1] s1]|] eqn:EB; [|discriminate]. cbv zeta in H.
      apply guard_some in H. destruct H as (_ & H).
      destruct (careful ar n (ps1 ++ D) _ b) as [b2|] eqn:E2; [|discriminate]. injection H as <-.
      apply IH in E2; [|exact Wf'|].
      2:{ apply minus_lookup. apply wfs_app; [|exact S]. eapply cbeta_wfs; [exact EB|exact Wa'|]. intros y q L. discriminate. }
      destruct (cbeta_extend _ _ _ _ _ _ _ s _ _ _ _ EB Wa' eq_refl) as (EX & LN). cbn [map rev app] in EX.
      change (slist (show (KL ps b))) with (Some [ssym "lambda"; of_list (map SSym ps); show b]). cbn [is_sym ssym].
      change (name_eqb (NS "lambda") (NS "lambda")) with true. unfold extend_env. rewrite EX, shrink_shows, E2.
      destruct ps1 as [|p1 ps1], args1 as [|a1 args1]; try reflexivity. cbn in LN. lia.
  Qed.
End Chain.
