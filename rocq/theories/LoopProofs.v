(** More fuel does not change what the evaluator of CoreSpec.v finds; the
    evaluator as a relation. *)
From Coq Require Import List ZArith Bool String Arith Lia.
From Verif Require Import CoreSpec TocModel CoreProofs.
Import ListNotations.
Local Open Scope list_scope.
Local Open Scope nat_scope.

Section Mono.
  Context (ar : arith) (strict : bool).

  Lemma exact_mono : forall C (r1 r2 : C -> list (val C) -> list (val C) -> store C -> option (val C * store C)),
    (forall c vs a G v, r1 c vs a G = Some v -> r2 c vs a G = Some v) ->
    forall f args G v, exact ar r1 f args G = Some v -> exact ar r2 f args G = Some v.
  Proof.
    intros C r1 r2 H. fix IH 1. intros f args G v. destruct f; cbn [exact]; auto.
  Qed.
  Lemma apply_mono : forall C (arity : C -> nat) (r1 r2 : C -> list (val C) -> list (val C) -> store C -> option (val C * store C)),
    (forall c vs a G v, r1 c vs a G = Some v -> r2 c vs a G = Some v) ->
    forall n f args G v, apply ar arity r1 n f args G = Some v -> apply ar arity r2 (S n) f args G = Some v.
  Proof.
    intros C arity r1 r2 H. induction n as [|n IH]; intros f args G v E; [discriminate|].
    cbn [apply] in E. cbn [apply]. destruct (need arity f) as [rq|]; [|discriminate].
    destruct (List.length args <? rq); [exact E|].
    destruct (exact ar r1 f (firstn rq args) G) as [[w G1]|] eqn:X; [|discriminate].
    rewrite (exact_mono C r1 r2 H _ _ _ _ X). destruct (skipn rq args) as [|a r]; [exact E|].
    apply IH in E. exact E.
  Qed.

  Lemma ev_args_mono : forall E (e1 e2 : E -> store scode -> option (operand * store scode)),
    (forall x G v, e1 x G = Some v -> e2 x G = Some v) ->
    forall l G v, ev_args e1 l G = Some v -> ev_args e2 l G = Some v.
  Proof.
    intros E e1 e2 H. induction l as [|x r IH]; intros G v K; [exact K|]. cbn [ev_args] in K |- *.
    destruct (e1 x G) as [[a G1]|] eqn:X; [|discriminate]. rewrite (H _ _ _ X).
    destruct (ev_args e1 r G1) as [[la G2]|] eqn:Y; [|discriminate]. rewrite (IH _ _ Y). exact K.
  Qed.

  Lemma result_some : forall (r : option (operand * store scode)) v G, result r = Some (v, G) -> exists a, r = Some (a, G) /\ a_val a = v.
  Proof. intros [[a G0]|] v G H; cbn in H; [inversion H; subst; eauto|discriminate]. Qed.

  Lemma eval_S : forall n rho e G v, eval ar strict n rho e G = Some v -> eval ar strict (S n) rho e G = Some v.
  Proof.
    induction n as [|n IH]; intros rho e G v H; [discriminate|].
    assert (R : forall rho e G v, result (eval ar strict n rho e G) = Some v -> result (eval ar strict (S n) rho e G) = Some v).
    { intros r0 e0 G0 [w G1] K. destruct (result_some _ _ _ K) as (a & E & <-). rewrite (IH _ _ _ _ E). reflexivity. }
    assert (CALL : forall f args G v,
      match use strict f G, use_all strict args G with
      | Some f, Some args => match apply ar (fun c => List.length (sc_ps c)) (fun c vs args G => result (eval ar strict n (combine (sc_ps c) args ++ combine (sc_env c) vs) (sc_body c) G)) n f args G with
                             | Some (v, G1) => Some (value v, G1) | None => None end
      | _, _ => None end = Some v ->
      match use strict f G, use_all strict args G with
      | Some f, Some args => match apply ar (fun c => List.length (sc_ps c)) (fun c vs args G => result (eval ar strict (S n) (combine (sc_ps c) args ++ combine (sc_env c) vs) (sc_body c) G)) (S n) f args G with
                             | Some (v, G1) => Some (value v, G1) | None => None end
      | _, _ => None end = Some v).
    { intros f args G0 v0 K. destruct (use strict f G0) as [f'|]; [|discriminate]. destruct (use_all strict args G0) as [args'|]; [|discriminate].
      destruct (apply ar _ _ n f' args' G0) as [[w G1]|] eqn:A; [|discriminate].
      rewrite (apply_mono _ _ _ (fun c vs args G => result (eval ar strict (S n) (combine (sc_ps c) args ++ combine (sc_env c) vs) (sc_body c) G)) (fun c vs a G v H => R _ _ _ _ H) _ _ _ _ _ A). exact K. }
    remember (S n) as m eqn:M. cbn [eval]. rewrite M in H. cbn [eval] in H. destruct (view e).
    - exact H.
    - exact H.
    - exact H.
    - destruct (result (eval ar strict n rho a G)) as [[w G1]|] eqn:X; [|discriminate]. rewrite (R _ _ _ _ X). destruct w; apply IH; exact H.
    - destruct (result (eval ar strict n rho a G)) as [[w G1]|] eqn:X; [|discriminate]. rewrite (R _ _ _ _ X). apply IH; exact H.
    - destruct (result (eval ar strict n rho b G)) as [[w G1]|] eqn:X; [|discriminate]. rewrite (R _ _ _ _ X). apply IH; exact H.
    - destruct (op_prim rho f).
      + destruct (ev_args (eval ar strict n rho) args G) as [[l G1]|] eqn:X; [|discriminate].
        rewrite (ev_args_mono _ _ _ (fun x G v H => IH rho x G v H) _ _ _ X). apply CALL. exact H.
      + destruct (eval ar strict n rho f G) as [[a G1]|] eqn:X; [|discriminate]. rewrite (IH _ _ _ _ X).
        destruct (ev_args (eval ar strict n rho) args G1) as [[l G2]|] eqn:Y; [|discriminate].
        rewrite (ev_args_mono _ _ _ (fun x G v H => IH rho x G v H) _ _ _ Y). apply CALL. exact H.
    - exact H.
  Qed.
  Lemma eval_le : forall n m rho e G v, n <= m -> eval ar strict n rho e G = Some v -> eval ar strict m rho e G = Some v.
  Proof. intros n m rho e G v L H. induction L; [exact H|]. apply eval_S. exact IHL. Qed.
  Lemma ev_args_le : forall n m rho l G v, n <= m -> ev_args (eval ar strict n rho) l G = Some v -> ev_args (eval ar strict m rho) l G = Some v.
  Proof. intros n m rho l G v L. apply ev_args_mono. intros x G0 v0. apply eval_le. exact L. Qed.
End Mono.

(** * The evaluator as a relation *)
Section Rel.
  Context (ar : arith).

  Definition evals (rho : senv) (e : sexp) (G : store scode) (v : sval) (G' : store scode) : Prop :=
    exists n, result (eval ar false n rho e G) = Some (v, G').
  (** expressions one after the other *)
  Inductive evals_list (rho : senv) : list sexp -> store scode -> list sval -> store scode -> Prop :=
  | el_nil : forall G, evals_list rho [] G [] G
  | el_cons : forall e r G v G1 vs G2, evals rho e G v G1 -> evals_list rho r G1 vs G2 -> evals_list rho (e :: r) G (v :: vs) G2.
  (** calling a function *)
  Definition run_at (n : nat) (c : scode) (vs args : list sval) (G : store scode) : option (sval * store scode) :=
    result (eval ar false n (combine (sc_ps c) args ++ combine (sc_env c) vs) (sc_body c) G).
  Definition applies (f : sval) (args : list sval) (G : store scode) (v : sval) (G' : store scode) : Prop :=
    exists n, apply ar (fun c => List.length (sc_ps c)) (run_at n) n f args G = Some (v, G').

  Lemma evals_det : forall rho e G v G' w G2, evals rho e G v G' -> evals rho e G w G2 -> v = w /\ G' = G2.
  Proof.
    intros rho e G v G' w G2 [n H] [m K]. apply result_some in H. apply result_some in K. destruct H as (a & H & <-), K as (b & K & <-).
    apply (eval_le ar false n (max n m)) in H; [|lia]. apply (eval_le ar false m (max n m)) in K; [|lia]. rewrite H in K. inversion K. auto.
  Qed.

  Lemma use_false : forall (a : operand) G, use false a G = Some (a_val a).
  Proof. intros [v [[x k]|]] G; reflexivity. Qed.
  Lemma use_all_false : forall (l : list operand) G, use_all false l G = Some (map (@a_val scode) l).
  Proof. induction l as [|a r IH]; intros G; cbn [use_all map]; [reflexivity|]. rewrite use_false, IH. reflexivity. Qed.

  Lemma ev_args_rel : forall rho es G vs G', evals_list rho es G vs G' <->
    exists n l, ev_args (eval ar false n rho) es G = Some (l, G') /\ map (@a_val scode) l = vs.
  Proof.
    intros rho. split.
    - induction 1 as [G|e r G v G1 vs G2 [n H] _ (m & l & K & <-)].
      + exists 0, []. split; reflexivity.
      + apply result_some in H. destruct H as (a & H & <-). exists (max n m), (a :: l). cbn [ev_args].
        rewrite (eval_le ar false n (max n m) _ _ _ _ (Nat.le_max_l _ _) H), (ev_args_le ar false m (max n m) _ _ _ _ (Nat.le_max_r _ _) K). split; reflexivity.
    - revert G vs. induction es as [|e r IH]; intros G vs (n & l & H & <-); cbn [ev_args] in H.
      + inversion H; subst. constructor.
      + destruct (eval ar false n rho e G) as [[a G1]|] eqn:E; [|discriminate].
        destruct (ev_args (eval ar false n rho) r G1) as [[la G2]|] eqn:L; [|discriminate]. inversion H; subst. cbn [map].
        econstructor; [exists n; rewrite E; reflexivity|]. apply IH. eauto.
  Qed.

  Lemma run_at_le : forall n m, n <= m -> forall c vs a G v, run_at n c vs a G = Some v -> run_at m c vs a G = Some v.
  Proof.
    intros n m L c vs a G [v G'] H. unfold run_at in *. apply result_some in H. destruct H as (x & H & <-).
    rewrite (eval_le ar false n m _ _ _ _ L H). reflexivity.
  Qed.
  Lemma apply_le : forall n m f args G v, n <= m ->
    apply ar (fun c => List.length (sc_ps c)) (run_at n) n f args G = Some v -> apply ar (fun c => List.length (sc_ps c)) (run_at m) m f args G = Some v.
  Proof.
    intros n m f args G v L H. induction L; [exact H|]. eapply apply_mono; [|exact IHL]. apply run_at_le. lia.
  Qed.

  (** An application whose operator is not a primitive. *)
  Lemma evals_app : forall rho e f args G v G', view e = FApp f args -> op_prim rho f = None ->
    (evals rho e G v G' <-> exists fv G1 vs G2, evals rho f G fv G1 /\ evals_list rho args G1 vs G2 /\ applies fv vs G2 v G').
  Proof.
    intros rho e f args G v G' V O. split.
    - intros [[|n] H]; [discriminate|]. apply result_some in H. destruct H as (x & H & <-). cbn [eval] in H. rewrite V, O in H.
      destruct (eval ar false n rho f G) as [[a G1]|] eqn:F; [|discriminate].
      destruct (ev_args (eval ar false n rho) args G1) as [[l G2]|] eqn:A; [|discriminate].
      rewrite use_false, use_all_false in H. fold (run_at n) in H.
      destruct (apply ar (fun c => List.length (sc_ps c)) _ n (a_val a) (map (@a_val scode) l) G2) as [[w G3]|] eqn:P; [|discriminate].
      inversion H; subst. exists (a_val a), G1, (map (@a_val scode) l), G2. split; [exists n; rewrite F; reflexivity|].
      split; [apply ev_args_rel; eauto|]. exists n. exact P.
    - intros (fv & G1 & vs & G2 & [n F] & A & [p P]). apply ev_args_rel in A. destruct A as (m & l & A & <-).
      apply result_some in F. destruct F as (a & F & <-). set (q := max n (max m p)). exists (S q). cbn [eval]. rewrite V, O.
      rewrite (eval_le ar false n q _ _ _ _ ltac:(lia) F), (ev_args_le ar false m q _ _ _ _ ltac:(lia) A), use_false, use_all_false.
      fold (run_at q). rewrite (apply_le p q _ _ _ _ ltac:(lia) P). reflexivity.
  Qed.
  Lemma evals_let : forall rho e x b c G v G', view e = FLet x b c ->
    (evals rho e G v G' <-> exists w G1, evals rho b G w G1 /\ evals ((x, w) :: rho) c G1 v G').
  Proof.
    intros rho e x b c G v G' V. split.
    - intros [[|n] H]; [discriminate|]. cbn [eval] in H. rewrite V in H.
      destruct (result (eval ar false n rho b G)) as [[w G1]|] eqn:B; [|discriminate]. exists w, G1. split; [exists n; exact B|exists n; exact H].
    - intros (w & G1 & [n B] & [m C]). apply result_some in B. apply result_some in C. destruct B as (a & B & <-), C as (d & C & <-).
      exists (S (max n m)). cbn [eval]. rewrite V, (eval_le ar false n (max n m) _ _ _ _ ltac:(lia) B). cbn [result].
      rewrite (eval_le ar false m (max n m) _ _ _ _ ltac:(lia) C). reflexivity.
  Qed.
  Lemma evals_var : forall rho e x w G v G', view e = FVar x -> lookup x rho = Some w -> (evals rho e G v G' <-> v = w /\ G' = G).
  Proof.
    intros rho e x w G v G' V L. split.
    - intros [[|n] H]; [discriminate|]. cbn [eval] in H. rewrite V, L in H. cbn in H. inversion H. auto.
    - intros [-> ->]. exists 1. cbn [eval]. rewrite V, L. reflexivity.
  Qed.
  Lemma evals_lam : forall rho e ps b G v G', view e = FLam ps b ->
    (evals rho e G v G' <-> v = VClo (mkSC ps b (map fst rho)) (map snd rho) /\ G' = G).
  Proof.
    intros rho e ps b G v G' V. split.
    - intros [[|n] H]; [discriminate|]. cbn [eval] in H. rewrite V in H. cbn in H. inversion H. auto.
    - intros [-> ->]. exists 1. cbn [eval]. rewrite V. reflexivity.
  Qed.

  (** A closure given one argument of several, then the others. *)
  Lemma applies_some : forall ps b rho x G v G', 1 < List.length ps ->
    (applies (VClo (mkSC ps b (map fst rho)) (map snd rho)) [x] G v G' <-> v = VPap (VClo (mkSC ps b (map fst rho)) (map snd rho)) [x] /\ G' = G).
  Proof.
    intros ps b rho x G v G' L. split.
    - intros [[|n] H]; [discriminate|]. cbn [apply need sc_ps] in H. destruct (Nat.ltb_spec (List.length [x]) (List.length ps)); [|cbn in *; lia]. inversion H. auto.
    - intros [-> ->]. exists 1. cbn [apply need sc_ps]. destruct (Nat.ltb_spec (List.length [x]) (List.length ps)); [reflexivity|cbn in *; lia].
  Qed.
  Lemma applies_rest : forall p ps b rho x vs G v G', List.length vs = List.length ps -> ps <> [] ->
    (applies (VPap (VClo (mkSC (p :: ps) b (map fst rho)) (map snd rho)) [x]) vs G v G' <-> evals ((p, x) :: combine ps vs ++ rho) b G v G').
  Proof.
    intros p ps b rho x vs G v G' L N.
    assert (E : forall n m, apply ar (fun c => List.length (sc_ps c)) (run_at n) (S m) (VPap (VClo (mkSC (p :: ps) b (map fst rho)) (map snd rho)) [x]) vs G =
      result (eval ar false n ((p, x) :: combine ps vs ++ rho) b G)).
    { intros n m. cbn [apply need sc_ps List.length]. rewrite L. replace (S (List.length ps) - 1) with (List.length ps) by lia.
      rewrite Nat.ltb_irrefl, <- L, firstn_all, skipn_all. cbn [exact app]. unfold run_at at 1. cbn [sc_ps sc_env sc_body combine app].
      rewrite combine_fst_snd. destruct (result _) as [[w G1]|]; reflexivity. }
    split.
    - intros [[|n] H]; [discriminate|]. exists (S n). rewrite <- (E (S n) n). exact H.
    - intros [n H]. exists (S n). rewrite E. apply result_some in H. destruct H as (a & H & <-). rewrite (eval_S _ _ _ _ _ _ _ H). reflexivity.
  Qed.
End Rel.
