(** Calls of closures, partial application in stages, and the values the text
    of lib/monad.cora gives to its globals. *)
From Coq Require Import List ZArith Bool String Arith Lia.
From Verif Require Import Base CoreSpec TocModel CoreProofs MacroModel PreModel NsProps ReaderProps LoopProofs MonadModel.
Import ListNotations.
Local Open Scope string_scope.
Local Open Scope list_scope.
Local Open Scope nat_scope.

(** the library as the core language sees it *)
Definition core_of (source : string) : sexp :=
  match preprocess false 400 (str source) with
  | Some (Ok (_, e)) => match macroexpand gname ab 400 e 1 with Some (e', _) => e' | None => SNil end
  | _ => SNil
  end.
Definition monad_core : sexp := Eval vm_compute in core_of monad_source.
Definition sys_core : sexp := Eval vm_compute in core_of sys_source.

(** the function a form (set 'x (lambda ...)) of a program [e] gives to x *)
Fixpoint set_in (x : string) (e : sexp) : option sexp :=
  match e with
  | SCons (SSym (NS "do")) (SCons a (SCons b SNil)) => match set_in x a with Some f => Some f | None => set_in x b end
  | SCons (SSym (NS "set")) (SCons (SCons (SSym (NS "quote")) (SCons (SSym (NS y)) SNil)) (SCons f SNil)) =>
      if String.eqb x y then Some f else None
  | _ => None
  end.
Definition closed_fun (e : option sexp) : sval :=
  match e with Some e => match view e with FLam ps b => VClo (mkSC ps b []) [] | _ => VNil end | None => VNil end.
Definition in_monad (x : string) : string := ("cora/lib/monad#" ++ x)%string.
Definition in_sys (x : string) : string := ("cora/lib/sys#" ++ x)%string.
Definition monad_fun (x : string) : sval := closed_fun (set_in (in_monad x) monad_core).
Definition sys_fun (x : string) : sval := closed_fun (set_in (in_sys x) sys_core).

Section Calls.
  Context (ar : arith).
  Notation evals := (evals ar).
  Notation evals_list := (evals_list ar).
  Notation applies := (applies ar).
  Notation arity := (fun c => List.length (sc_ps c)).

  Lemma evals_global : forall rho x w G v G', lookup x rho = None -> g_val G x = Some w -> (evals rho (SSym x) G v G' <-> v = w /\ G' = G).
  Proof.
    intros rho x w G v G' L H. split.
    - intros [[|n] E]; [discriminate|]. cbn [eval view] in E. rewrite L, H in E. cbn in E. inversion E. auto.
    - intros [-> ->]. exists 1. cbn [eval view]. rewrite L, H. reflexivity.
  Qed.

  (** a call with exactly the arguments that are needed *)
  Lemma applies_exact : forall ps b rho vs G v G', List.length vs = List.length ps ->
    (applies (VClo (mkSC ps b (map fst rho)) (map snd rho)) vs G v G' <-> evals (combine ps vs ++ rho) b G v G').
  Proof.
    intros ps b rho vs G v G' L.
    assert (E : forall n m, apply ar arity (run_at ar n) (S m) (VClo (mkSC ps b (map fst rho)) (map snd rho)) vs G =
      result (eval ar false n (combine ps vs ++ rho) b G)).
    { intros n m. cbn [apply need sc_ps]. rewrite <- L, Nat.ltb_irrefl, firstn_all, skipn_all. cbn [exact]. unfold run_at at 1. cbn [sc_ps sc_env sc_body].
      rewrite combine_fst_snd. destruct (result _) as [[w G1]|]; reflexivity. }
    split.
    - intros [[|n] H]; [discriminate|]. exists (S n). rewrite <- (E (S n) n). exact H.
    - intros [n H]. exists (S n). rewrite E. apply result_some in H. destruct H as (a & H & <-). rewrite (eval_S _ _ _ _ _ _ _ H). reflexivity.
  Qed.
  (** too few arguments are remembered *)
  Lemma applies_few : forall f rq a args G v G', need arity f = Some rq -> List.length (a :: args) < rq ->
    (applies f (a :: args) G v G' <-> v = VPap f (a :: args) /\ G' = G).
  Proof.
    intros f rq a args G v G' N L.
    assert (E : forall n m, apply ar arity (run_at ar n) (S m) f (a :: args) G = Some (VPap f (a :: args), G)).
    { intros n m. cbn [apply]. rewrite N. apply Nat.ltb_lt in L. rewrite L. reflexivity. }
    split.
    - intros [[|n] H]; [discriminate|]. rewrite E in H. inversion H. auto.
    - intros [-> ->]. exists 1. apply E.
  Qed.
  (** and the call goes on when the others come *)
  Lemma applies_later : forall f rq a b G v G', need arity f = Some rq -> List.length a < rq -> rq <= List.length a + List.length b ->
    (applies (VPap f a) b G v G' <-> applies f (a ++ b) G v G').
  Proof.
    intros f rq a b G v G' N L M.
    assert (E : forall n m, apply ar arity (run_at ar n) (S m) (VPap f a) b G = apply ar arity (run_at ar n) (S m) f (a ++ b) G).
    { intros n m. cbn [apply need]. rewrite N. rewrite app_length.
      destruct (Nat.ltb_spec (List.length b) (rq - List.length a)); [lia|]. destruct (Nat.ltb_spec (List.length a + List.length b) rq); [lia|].
      cbn [exact]. rewrite firstn_app, skipn_app, (firstn_all2 a) by lia. rewrite (skipn_all2 a) by lia. reflexivity. }
    split; intros [[|n] H]; try discriminate; exists (S n); [rewrite <- E|rewrite E]; exact H.
  Qed.
  (** a call with more arguments than needed passes the rest on *)
  Lemma applies_more : forall f rq a b G v G', need arity f = Some rq -> List.length a = rq -> b <> [] ->
    (applies f (a ++ b) G v G' <-> exists w G1, applies f a G w G1 /\ applies w b G1 v G').
  Proof.
    intros f rq a b G v G' N L B.
    assert (E : forall n m, apply ar arity (run_at ar n) (S m) f (a ++ b) G =
      match exact ar (run_at ar n) f a G with Some (w, G1) => apply ar arity (run_at ar n) m w b G1 | None => None end).
    { intros n m. cbn [apply]. rewrite N, app_length, <- L. destruct (Nat.ltb_spec (List.length a + List.length b) (List.length a)); [lia|].
      rewrite firstn_app, firstn_all, Nat.sub_diag, skipn_app, skipn_all, Nat.sub_diag. cbn [firstn skipn app]. rewrite app_nil_r.
      destruct (exact ar (run_at ar n) f a G) as [[w G1]|]; [|reflexivity]. destruct b; [contradiction|reflexivity]. }
    assert (E1 : forall n m, apply ar arity (run_at ar n) (S m) f a G = exact ar (run_at ar n) f a G).
    { intros n m. cbn [apply]. rewrite N, <- L, Nat.ltb_irrefl, firstn_all, skipn_all.
      destruct (exact ar (run_at ar n) f a G) as [[w G1]|]; reflexivity. }
    split.
    - intros [[|n] H]; [discriminate|]. rewrite E in H. destruct (exact ar (run_at ar (S n)) f a G) as [[w G1]|] eqn:X; [|discriminate].
      exists w, G1. split; [exists (S n); rewrite E1; exact X|]. exists (S n).
      exact (apply_mono ar _ _ (run_at ar (S n)) (run_at ar (S n)) (fun _ _ _ _ _ h => h) n w b G1 _ H).
    - intros (w & G1 & [n H] & [m K]). exists (S (max n m)). rewrite E.
      apply (apply_le ar n (S (max n m))) in H; [|lia]. rewrite E1 in H. rewrite H.
      apply (apply_le ar m (max n m)) in K; [|lia]. revert K. generalize (max n m). intros q K.
      clear - K. revert K. generalize (run_at_le ar q (S q) (Nat.le_succ_diag_r q)). intros R K.
      assert (Q : forall j w b G1 v, apply ar arity (run_at ar q) j w b G1 = Some v -> apply ar arity (run_at ar (S q)) j w b G1 = Some v).
      { clear - R. induction j as [|j IH]; intros w b G1 v K; [discriminate|]. cbn [apply] in K |- *. destruct (need arity w); [|discriminate].
        destruct (List.length b <? n); [exact K|]. destruct (exact ar (run_at ar q) w (firstn n b) G1) as [[u G2]|] eqn:X; [|discriminate].
        rewrite (exact_mono ar _ _ _ R _ _ _ _ X). destruct (skipn n b); [exact K|apply IH; exact K]. }
      apply Q. exact K.
  Qed.

  Lemma list_one : forall rho e G vs G', evals_list rho [e] G vs G' <-> exists v, vs = [v] /\ evals rho e G v G'.
  Proof.
    intros. split.
    - intros H. inversion H as [|e0 r G1 v G2 vs0 G3 A B]; subst. inversion B; subst. eauto.
    - intros (v & -> & H). econstructor; [exact H|constructor].
  Qed.
  Lemma list_two : forall rho e1 e2 G vs G', evals_list rho [e1; e2] G vs G' <-> exists v G1 w, vs = [v; w] /\ evals rho e1 G v G1 /\ evals rho e2 G1 w G'.
  Proof.
    intros. split.
    - intros H. inversion H as [|e0 r G1 v G2 vs0 G3 A B]; subst. apply list_one in B as (w & -> & B). eauto 10.
    - intros (v & G1 & w & -> & A & B). econstructor; [exact A|]. apply list_one. eauto.
  Qed.
  (** a call of a local function with local arguments *)
  Lemma call_one : forall rho f x fv xv G v G', op_prim rho (SSym f) = None -> view (of_list [SSym f; SSym x]) = FApp (SSym f) [SSym x] ->
    lookup f rho = Some fv -> lookup x rho = Some xv ->
    (evals rho (of_list [SSym f; SSym x]) G v G' <-> applies fv [xv] G v G').
  Proof.
    intros rho f x fv xv G v G' O V F X. rewrite (evals_app ar rho _ _ _ _ _ _ V O). split.
    - intros (w & G1 & vs & G2 & A & B & C). apply (evals_var ar rho _ f fv) in A as [-> ->]; [|reflexivity|exact F].
      apply list_one in B as (u & -> & B). apply (evals_var ar rho _ x xv) in B as [-> ->]; [|reflexivity|exact X]. exact C.
    - intros C. exists fv, G, [xv], G. split; [apply (evals_var ar rho _ f fv); auto|]. split; [|exact C].
      apply list_one. exists xv. split; [reflexivity|]. apply (evals_var ar rho _ x xv); auto.
  Qed.
  Lemma call_two : forall rho f x y fv xv yv G v G', op_prim rho (SSym f) = None ->
    view (of_list [SSym f; SSym x; SSym y]) = FApp (SSym f) [SSym x; SSym y] ->
    lookup f rho = Some fv -> lookup x rho = Some xv -> lookup y rho = Some yv ->
    (evals rho (of_list [SSym f; SSym x; SSym y]) G v G' <-> applies fv [xv; yv] G v G').
  Proof.
    intros rho f x y fv xv yv G v G' O V F X Y. rewrite (evals_app ar rho _ _ _ _ _ _ V O). split.
    - intros (w & G1 & vs & G2 & A & B & C). apply (evals_var ar rho _ f fv) in A as [-> ->]; [|reflexivity|exact F].
      apply list_two in B as (u & G3 & u' & -> & B & D). apply (evals_var ar rho _ x xv) in B as [-> ->]; [|reflexivity|exact X].
      apply (evals_var ar rho _ y yv) in D as [-> ->]; [|reflexivity|exact Y]. exact C.
    - intros C. exists fv, G, [xv; yv], G. split; [apply (evals_var ar rho _ f fv); auto|]. split; [|exact C].
      apply list_two. exists xv, G, yv. split; [reflexivity|]. split; [apply (evals_var ar rho _ x xv); auto|apply (evals_var ar rho _ y yv); auto].
  Qed.
End Calls.
