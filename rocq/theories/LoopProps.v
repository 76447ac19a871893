(** let-loop (C63): a loop is its body, with the loop variables bound to their
    initial values, and a call of the loop's name in the body starts the body
    again with new values. *)
From Coq Require Import List ZArith Bool String Arith Lia.
From Verif Require Import CoreSpec TocModel CoreProofs LoopModel LoopProofs.
Import ListNotations.
Local Open Scope list_scope.
Local Open Scope nat_scope.

(** (let-loop recur (p e ...) body), without the word let-loop *)
Fixpoint interleave (ps : list name) (es : list sexp) : sexp :=
  match ps, es with
  | p :: ps, e :: es => SCons (SSym p) (SCons e (interleave ps es))
  | _, _ => SNil
  end.
Definition loop_sexp (recur : name) (ps : list name) (es : list sexp) (body : sexp) : sexp :=
  of_list [SSym recur; interleave ps es; body].

(** The function that the name of the loop is bound to. *)
Definition loop_fun (k : nat) (recur : name) (ps : list name) (body : sexp) (rho : senv) : sval :=
  let F := VClo (mkSC (NG k :: ps) (of_list [ssym "let"; SSym recur; of_list [SSym (NG k); SSym (NG k)]; body]) (map fst rho)) (map snd rho) in
  VPap F [F].
Definition self (R : sval) : sval := match R with VPap F _ => F | _ => R end.
(** Where the body runs: inside its surroundings are the loop variables, a
    symbol that no program contains, and the loop's name. *)
Definition inside (k : nat) (recur : name) (R : sval) (ps : list name) (vs : list sval) (rho : senv) : senv :=
  (recur, R) :: (NG k, self R) :: combine ps vs ++ rho.

(** Names that are not local variables when they head a list. *)
Definition keyword (x : name) : Prop := In x (map NS ["quote"; "lambda"; "if"; "do"; "let"]%string).

Lemma extract_params : forall ps es acc, List.length es = List.length ps ->
  extract_params_h acc (interleave ps es) = Some (rev acc ++ map SSym ps).
Proof.
  induction ps as [|p ps IH]; intros [|e es] acc L; try discriminate; cbn [interleave extract_params_h map]; [rewrite app_nil_r; reflexivity|].
  rewrite IH by (cbn in L; lia). cbn. rewrite <- app_assoc. reflexivity.
Qed.
Lemma extract_inits : forall ps es acc, List.length es = List.length ps ->
  extract_init_h acc (interleave ps es) = Some (rev acc ++ es).
Proof.
  induction ps as [|p ps IH]; intros [|e es] acc L; try discriminate; cbn [interleave extract_init_h]; [rewrite app_nil_r; reflexivity|].
  rewrite IH by (cbn in L; lia). cbn. rewrite <- app_assoc. reflexivity.
Qed.

Lemma slist_of_list : forall l, slist (of_list l) = Some l.
Proof. induction l as [|a r IH]; cbn; [reflexivity|rewrite IH; reflexivity]. Qed.
Lemma symbols_map : forall l, symbols (map SSym l) = Some l.
Proof. induction l as [|a r IH]; cbn; [reflexivity|rewrite IH; reflexivity]. Qed.
Lemma view_app : forall f args, (forall x, f = SSym x -> ~ keyword x) -> view (of_list (f :: args)) = FApp f args.
Proof.
  intros f args K. cbn [of_list view]. change (SCons f (of_list args)) with (of_list (f :: args)). rewrite slist_of_list.
  assert (Q : forall s, In s ["quote"; "lambda"; "if"; "do"; "let"]%string -> is_sym s f = false).
  { intros s I. destruct f; try reflexivity. cbn [is_sym]. destruct (name_eqb_spec x (NS s)); [|reflexivity]. subst.
    exfalso. apply (K _ eq_refl). apply in_map. exact I. }
  rewrite !Q by (cbn; auto 10). reflexivity.
Qed.
Lemma view_let : forall x b c, view (of_list [ssym "let"; SSym x; b; c]) = FLet x b c.
Proof. reflexivity. Qed.
Lemma view_lambda : forall ps b, view (of_list [ssym "lambda"; of_list (map SSym ps); b]) = FLam ps b.
Proof. intros ps b. cbn -[slist symbols]. change (SCons (of_list (map SSym ps)) (SCons b SNil)) with (of_list [of_list (map SSym ps); b]).
  cbn [slist of_list]. cbn -[slist symbols]. rewrite slist_of_list, symbols_map. reflexivity. Qed.

Section Loop.
  Context (ar : arith).
  Notation evals := (evals ar).
  Notation evals_list := (evals_list ar).
  Notation applies := (applies ar).

  (** (x x), when x is bound to a closure of several parameters *)
  Lemma evals_self : forall rho x ps b env G v G', ~ keyword x -> 1 < List.length ps ->
    lookup x rho = Some (VClo (mkSC ps b (map fst env)) (map snd env)) ->
    (evals rho (of_list [SSym x; SSym x]) G v G' <->
     v = VPap (VClo (mkSC ps b (map fst env)) (map snd env)) [VClo (mkSC ps b (map fst env)) (map snd env)] /\ G' = G).
  Proof.
    intros rho x ps b env G v G' K L H. rewrite (evals_app ar rho _ (SSym x) [SSym x]); [|apply view_app; intros y E; inversion E; subst; exact K|cbn; rewrite H; reflexivity].
    split.
    - intros (fv & G1 & vs & G2 & A & B & C). apply (evals_var ar rho (SSym x) x _ _ _ _ eq_refl H) in A. destruct A as [-> ->].
      inversion B as [|e r G0 w G3 ws G4 B1 B2]; subst. inversion B2; subst.
      apply (evals_var ar rho (SSym x) x _ _ _ _ eq_refl H) in B1. destruct B1 as [-> ->]. apply applies_some in C; assumption.
    - intros [-> ->]. do 4 eexists. split; [apply (evals_var ar rho (SSym x) x _ _ _ _ eq_refl H); split; reflexivity|].
      split; [econstructor; [apply (evals_var ar rho (SSym x) x _ _ _ _ eq_refl H); split; reflexivity|constructor]|].
      apply applies_some; [assumption|split; reflexivity].
  Qed.

  (** Calling the loop's function with new values runs the body. *)
  Lemma loop_applies : forall k recur ps body rho vs G v G', List.length vs = List.length ps -> ps <> [] ->
    (applies (loop_fun k recur ps body rho) vs G v G' <->
     evals (inside k recur (loop_fun k recur ps body rho) ps vs rho) body G v G').
  Proof.
    intros k recur ps body rho vs G v G' L N. unfold loop_fun. rewrite applies_rest by assumption.
    rewrite (evals_let ar _ _ recur (of_list [SSym (NG k); SSym (NG k)]) body) by reflexivity.
    set (F := VClo (mkSC (NG k :: ps) _ (map fst rho)) (map snd rho)).
    assert (S : forall v G', evals ((NG k, F) :: combine ps vs ++ rho) (of_list [SSym (NG k); SSym (NG k)]) G v G' <-> v = VPap F [F] /\ G' = G).
    { intros v0 G0. apply evals_self.
      - cbn. intuition discriminate.
      - destruct ps; [contradiction|cbn; lia].
      - cbn [lookup]. rewrite name_eqb_refl. reflexivity. }
    split.
    - intros (w & G1 & A & B). apply S in A. destruct A as [-> ->]. exact B.
    - intros H. exists (VPap F [F]), G. split; [apply S; auto|exact H].
  Qed.

  (** The meaning of a loop. *)
  Theorem let_loop_enters : forall k recur ps es body e rho G v G', ps <> [] -> List.length es = List.length ps ->
    rewrite_let_loop (loop_sexp recur ps es body) k = Some e ->
    (evals rho e G v G' <-> exists vs G1, evals_list rho es G vs G1 /\
       evals (inside k recur (loop_fun k recur ps body rho) ps vs rho) body G1 v G').
  Proof.
    intros k recur ps es body e rho G v G' N L E. unfold rewrite_let_loop, loop_sexp in E. cbn [of_list] in E.
    rewrite extract_params, extract_inits in E by exact L. cbn [rev app] in E. inversion E; subst e. clear E.
    change (SCons (SSym (NG k)) (of_list (map SSym ps))) with (of_list (map SSym (NG k :: ps))).
    match goal with |- context [SCons ?op (of_list es)] => set (OP := op) end.
    set (F := VClo (mkSC (NG k :: ps) (of_list [ssym "let"; SSym recur; of_list [SSym (NG k); SSym (NG k)]; body]) (map fst rho)) (map snd rho)).
    assert (HOP : forall v G', evals rho OP G v G' <-> v = loop_fun k recur ps body rho /\ G' = G).
    { intros v0 G0. unfold OP. change (evals rho (of_list [ssym "let"; SSym (NG (S k)); of_list [ssym "lambda"; of_list (map SSym (NG k :: ps));
         of_list [ssym "let"; SSym recur; of_list [SSym (NG k); SSym (NG k)]; body]]; of_list [SSym (NG (S k)); SSym (NG (S k))]]) G v0 G0
         <-> v0 = VPap F [F] /\ G0 = G).
      rewrite (evals_let ar _ _ _ _ _ _ _ _ (view_let _ _ _)).
      assert (S : forall v1 G1, evals ((NG (S k), F) :: rho) (of_list [SSym (NG (S k)); SSym (NG (S k))]) G v1 G1 <-> v1 = VPap F [F] /\ G1 = G).
      { intros v1 G1. apply evals_self.
        - cbn. intuition discriminate.
        - destruct ps; [contradiction|cbn; lia].
        - cbn [lookup]. rewrite name_eqb_refl. reflexivity. }
      split.
      - intros (w & G1 & A & B). apply (evals_lam ar rho _ _ _ _ _ _ (view_lambda _ _)) in A. destruct A as [-> ->]. apply S. exact B.
      - intros H. exists F, G. split; [apply (evals_lam ar rho _ _ _ _ _ _ (view_lambda _ _)); split; reflexivity|apply S; exact H]. }
    change (SCons OP (of_list es)) with (of_list (OP :: es)).
    rewrite (evals_app ar rho _ OP es); [|apply view_app; intros x X; discriminate X|reflexivity].
    split.
    - intros (fv & G1 & vs & G2 & A & B & C). apply HOP in A. destruct A as [-> ->]. exists vs, G2. split; [exact B|].
      apply loop_applies; [|exact N|exact C]. rewrite <- L. clear -B. induction B; cbn; congruence.
    - intros (vs & G1 & B & C). exists (loop_fun k recur ps body rho), G, vs, G1. split; [apply HOP; split; reflexivity|]. split; [exact B|].
      apply loop_applies; [|exact N|exact C]. rewrite <- L. clear -B. induction B; cbn; congruence.
  Qed.

  (** A call of the loop's name, wherever it is still visible: the arguments
      are evaluated, and the body is run again in the surroundings of the loop. *)
  Theorem let_loop_again : forall k recur ps es body rho rho' G v G', ps <> [] -> List.length es = List.length ps -> ~ keyword recur ->
    lookup recur rho' = Some (loop_fun k recur ps body rho) ->
    (evals rho' (of_list (SSym recur :: es)) G v G' <-> exists vs G1, evals_list rho' es G vs G1 /\
       evals (inside k recur (loop_fun k recur ps body rho) ps vs rho) body G1 v G').
  Proof.
    intros k recur ps es body rho rho' G v G' N L K H.
    rewrite (evals_app ar rho' _ (SSym recur) es); [|apply view_app; intros x X; inversion X; subst; exact K|cbn; rewrite H; reflexivity].
    split.
    - intros (fv & G1 & vs & G2 & A & B & C). apply (evals_var ar rho' (SSym recur) recur _ _ _ _ eq_refl H) in A. destruct A as [-> ->]. exists vs, G2. split; [exact B|].
      apply loop_applies; [|exact N|exact C]. rewrite <- L. clear -B. induction B; cbn; congruence.
    - intros (vs & G1 & B & C). exists (loop_fun k recur ps body rho), G, vs, G1.
      split; [apply (evals_var ar rho' (SSym recur) recur _ _ _ _ eq_refl H); split; reflexivity|]. split; [exact B|].
      apply loop_applies; [|exact N|exact C]. rewrite <- L. clear -B. induction B; cbn; congruence.
  Qed.

  (** In the body, the loop's name is the loop, each loop variable is its
      value, and every other name that occurs in the program is what it was
      around the loop. *)
  Theorem let_loop_scope : forall k recur ps vs body rho, List.length vs = List.length ps -> NoDup ps -> ~ In recur ps -> recur <> NG k -> ~ In (NG k) ps ->
    let R := loop_fun k recur ps body rho in
    lookup recur (inside k recur R ps vs rho) = Some R /\
    (forall i p v, nth_error ps i = Some p -> nth_error vs i = Some v -> lookup p (inside k recur R ps vs rho) = Some v) /\
    (forall x, x <> recur -> ~ In x ps -> x <> NG k -> lookup x (inside k recur R ps vs rho) = lookup x rho).
  Proof.
    intros k recur ps vs body rho L D NR RK NK R. unfold inside. cbn [lookup]. split; [rewrite name_eqb_refl; reflexivity|]. split.
    - intros i p v P V. destruct (name_eqb_spec p recur) as [->|_]; [exfalso; apply NR; eapply nth_error_In; eassumption|].
      destruct (name_eqb_spec p (NG k)) as [->|_]; [exfalso; apply NK; eapply nth_error_In; eassumption|]. clear -D P V.
      revert vs i P V. induction ps as [|q r IH]; intros [|w ws] i P V; try (destruct i; discriminate). inversion D; subst. cbn [combine app lookup].
      destruct i; cbn in P, V.
      + inversion P; inversion V; subst. rewrite name_eqb_refl. reflexivity.
      + destruct (name_eqb_spec p q) as [->|_]; [exfalso; apply H1; eapply nth_error_In; eassumption|]. eapply IH; eassumption.
    - intros x XR XP XK. destruct (name_eqb_spec x recur); [contradiction|]. destruct (name_eqb_spec x (NG k)); [contradiction|]. clear -XP.
      revert vs XP. induction ps as [|q r IH]; intros [|w ws] XP; try reflexivity. cbn [combine app lookup].
      destruct (name_eqb_spec x q) as [->|_]; [exfalso; apply XP; left; reflexivity|]. apply IH. intro I. apply XP. right. exact I.
  Qed.

  (** A loop without variables never gets to its body. *)
  Theorem let_loop_no_variables_refuted : forall recur body k, exists e, rewrite_let_loop (loop_sexp recur [] [] body) k = Some e /\
    forall rho G v G', ~ evals rho e G v G'.
  Proof.
    intros recur body k. eexists. split; [reflexivity|]. intros rho G v G' H.
    set (F := fun rho : senv => VClo (mkSC [NG k] (of_list [ssym "let"; SSym recur; of_list [SSym (NG k); SSym (NG k)]; body]) (map fst rho)) (map snd rho)).
    assert (A : forall n rho' x G, x = NG k \/ x = NG (S k) -> lookup x rho' = Some (F rho) -> eval ar false n rho' (of_list [SSym x; SSym x]) G = None).
    { induction n as [n IH] using lt_wf_ind. intros rho' x G0 X L. destruct n as [|n]; [reflexivity|]. cbn [eval].
      rewrite view_app by (intros y Y; inversion Y; subst; intro Z; cbn in Z; destruct X; subst; intuition discriminate).
      cbn [op_prim]. rewrite L. destruct n as [|n]; [reflexivity|].
      assert (V : eval ar false (S n) rho' (SSym x) G0 = Some (value (F rho), G0)) by (cbn [eval view]; rewrite L; reflexivity).
      rewrite V. cbn [ev_args]. rewrite V. cbn [use use_all a_from a_val value].
      assert (P : forall m, apply ar (fun c => List.length (sc_ps c)) (fun c vs args G1 => result (eval ar false (S n) (combine (sc_ps c) args ++ combine (sc_env c) vs) (sc_body c) G1)) m (F rho) [F rho] G0 = None).
      { intros [|m]; [reflexivity|]. unfold F at 1. cbn [apply need sc_ps List.length Nat.ltb Nat.leb firstn exact sc_env sc_body combine app].
        cbn [eval]. rewrite view_let. rewrite IH; [reflexivity|lia|left; reflexivity|]. cbn [lookup]. rewrite name_eqb_refl. reflexivity. }
      rewrite P. reflexivity. }
    destruct H as [n H]. destruct n as [|n]; [discriminate|].
    set (OP := of_list [ssym "let"; SSym (NG (S k)); of_list [ssym "lambda"; of_list (map SSym [NG k]); of_list [ssym "let"; SSym recur; of_list [SSym (NG k); SSym (NG k)]; body]]; of_list [SSym (NG (S k)); SSym (NG (S k))]]).
    change (result (eval ar false (S n) rho (of_list (OP :: [])) G) = Some (v, G')) in H. cbn [eval] in H.
    rewrite view_app in H by (intros x X; discriminate X). change (op_prim rho OP) with (@None prim) in H. cbv iota in H.
    assert (Z : eval ar false n rho OP G = None).
    { destruct n as [|n]; [reflexivity|]. cbn [eval]. unfold OP. rewrite view_let.
      destruct n as [|n]; [reflexivity|].
      replace (eval ar false (S n) rho (of_list [ssym "lambda"; of_list (map SSym [NG k]); of_list [ssym "let"; SSym recur; of_list [SSym (NG k); SSym (NG k)]; body]]) G)
        with (Some (value (F rho), G)) by (cbn [eval]; rewrite view_lambda; reflexivity).
      cbn [result a_val value]. apply A; [right; reflexivity|]. cbn [lookup]. rewrite name_eqb_refl. reflexivity. }
    rewrite Z in H. discriminate.
  Qed.
End Loop.

(** A loop variable with the loop's own name is hidden by it. *)
Definition no_arith : arith := fun _ _ _ => None.
Definition G0 : store scode := mkG (fun _ => None) (fun _ => 0) 10.
Local Open Scope string_scope.
Theorem let_loop_hidden_refuted : exists x e v G', rewrite_let_loop (loop_sexp x [x] [SNum 5] (SSym x)) 3 = Some e /\
  evals no_arith [] e G0 v G' /\ v <> VNum 5.
Proof.
  exists (NS "i"). do 3 eexists. split; [vm_compute; reflexivity|]. split; [exists 10; cbn; reflexivity|discriminate].
Qed.

(** (let-loop go (l '(1 2) n 0) (if (cons? l) (go (cdr l) (cons n n)) n)) *)
Definition go_body : sexp := of_list [ssym "if"; of_list [ssym "cons?"; ssym "l"];
  of_list [ssym "go"; of_list [ssym "cdr"; ssym "l"]; of_list [ssym "cons"; ssym "n"; ssym "n"]]; ssym "n"].
Example let_loop_used : exists e G', rewrite_let_loop (loop_sexp (NS "go") [NS "l"; NS "n"] [of_list [ssym "quote"; of_list [SNum 1; SNum 2]]; SNum 0] go_body) 3 = Some e /\
  evals no_arith [] e G0 (VCons (VCons (VNum 0) (VNum 0)) (VCons (VNum 0) (VNum 0))) G'.
Proof. do 2 eexists. split; [reflexivity|]. exists 30. vm_compute. reflexivity. Qed.
Example go_not_keyword : ~ keyword (NS "go") /\ NoDup [NS "l"; NS "n"] /\ ~ In (NS "go") [NS "l"; NS "n"].
Proof. split; [cbn; intuition discriminate|]. split; [repeat constructor; cbn; intuition discriminate|cbn; intuition discriminate]. Qed.

Print Assumptions let_loop_enters.
Print Assumptions let_loop_again.
Print Assumptions let_loop_scope.
Print Assumptions let_loop_no_variables_refuted.
Print Assumptions let_loop_hidden_refuted.
