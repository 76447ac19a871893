(** C56 and C57: the theorems of record about lib/infer.cora. *)
From Coq Require Import List ZArith Bool String Arith Lia.
From Verif Require Import CoreSpec CoreProofs InferSpec InferModel InferProofs InferSound.
Import ListNotations.
Local Open Scope list_scope.
Local Open Scope nat_scope.
Local Notation S' s := (SSym (NS s)).
Local Notation "'L' l" := (fold_right SCons SNil l) (at level 9, l at level 0).

(** * C56 *)
(** If two types have a common instance that solves the equations found so
    far, unification ends and finds it; the equations it answers with have
    exactly the solutions of the old ones that make the two types equal: the
    answer is a most general unifier.

    Partial: the full claim, that unification also ends and says no when there
    is no common instance, is false ([unify_cyclic_refuted]); it is true for
    types without lists and without functions of no argument
    ([unify_decides_partial]). *)
Theorem unify_mgu_partial : forall th x y s, tri s -> solves th s -> inst th x = inst th y ->
  exists s' m, (forall n, m <= n -> unify n x y s = Some (Succ s')) /\ tri s' /\
    forall th, solves th s' <-> solves th s /\ inst th x = inst th y.
Proof.
  intros th x y s HT HS HE. destruct (unify_complete th _ x y s eq_refl HT HS HE) as (r & m & (s' & -> & S' & T' & _) & HM).
  exists s', m. split; [exact HM|]. split; [exact T'|]. exact (unify_solutions _ _ _ _ _ (HM m (le_n m))).
Qed.

(** Whenever it answers with equations, with whatever types, their solutions
    are those of the old ones that make the two types equal. *)
Theorem types_unify_exact : forall n x y s s', unify n x y s = Some (Succ s') ->
  forall th, solves th s' <-> solves th s /\ inst th x = inst th y.
Proof. exact unify_solutions. Qed.

Theorem unify_decides_partial : forall x y s, tri s -> sarrows s -> arrows x = true -> arrows y = true ->
  exists r m, (forall n, m <= n -> unify n x y s = Some r) /\
    match r with
    | Fail => forall th, solves th s -> inst th x <> inst th y
    | Succ s' => tri s' /\ exists th, solves th s' /\ solves th s /\ inst th x = inst th y
    end.
Proof. exact unify_decide. Qed.

(** what apply-subst answers is the type with everything known filled in *)
Theorem apply_subst_correct : forall s t, tri s ->
  exists t' m, (forall n, m <= n -> apply_subst n t s = Some t') /\
    (forall v, In v (vars t') -> ~ In v (keys s)) /\ (forall th, solves th s -> inst th t' = inst th t).
Proof.
  intros s t HT. destruct (apply_ends s t HT) as (t' & m & (A & B & _) & HM). eauto.
Qed.

Lemma ksize_list : forall k, k <> KList k.
Proof. intros k E. apply (f_equal ksize) in E. cbn in E. lia. Qed.
Lemma ksize_thunk : forall k, k <> KThunk k.
Proof. intros k E. apply (f_equal ksize) in E. cbn in E. lia. Qed.

(** A variable is unified with the list of itself, although they have no
    common instance, and from then on filling in the variable never ends. *)
Theorem unify_cyclic_refuted : exists x y s', unify 3 x y [] = Some (Succ s') /\
  (forall th, inst th x <> inst th y) /\ forall n, apply_subst n x s' = None.
Proof.
  exists (TVar 1), (TList (TVar 1)), [(1, TList (TVar 1))]. split; [reflexivity|]. split.
  - intros th E. cbn in E. exact (ksize_list _ E).
  - assert (H : forall n, apply_subst n (TVar 1) [(1, TList (TVar 1))] = None /\ apply_subst n (TList (TVar 1)) [(1, TList (TVar 1))] = None).
    { induction n as [|n (A & B)]; [split; reflexivity|]. cbn [apply_subst assv Nat.eqb]. rewrite A, B. auto. }
    intro n. apply H.
Qed.
Theorem unify_cyclic_thunk_refuted : exists x y s', unify 3 x y [] = Some (Succ s') /\
  (forall th, inst th x <> inst th y) /\ forall n, apply_subst n x s' = None.
Proof.
  exists (TVar 1), (TThunk (TVar 1)), [(1, TThunk (TVar 1))]. split; [reflexivity|]. split.
  - intros th E. cbn in E. exact (ksize_thunk _ E).
  - assert (H : forall n, apply_subst n (TVar 1) [(1, TThunk (TVar 1))] = None /\ apply_subst n (TThunk (TVar 1)) [(1, TThunk (TVar 1))] = None).
    { induction n as [|n (A & B)]; [split; reflexivity|]. cbn [apply_subst assv Nat.eqb]. rewrite A, B. auto. }
    intro n. apply H.
Qed.

(** v1 -> [v2]  against  v3 -> v1 , knowing v3 = v4 *)
Example unify_mgu_inhabited :
  let s := [(3, TVar 4)] in let x := TArr (TVar 1) (TList (TVar 2)) in let y := TArr (TVar 3) (TVar 1) in
  let th v := match v with 2 => KInt | _ => KList KInt end in
  tri s /\ solves th s /\ inst th x = inst th y /\ unify 9 x y s = Some (Succ [(4, TList (TVar 2)); (1, TVar 4); (3, TVar 4)]).
Proof.
  cbn. split; [split; [auto|split; [auto|intros w [<-|[]]; split; [lia|auto]]]|]. split; [|split; reflexivity].
  intros v t [E|[]]. injection E as <- <-. reflexivity.
Qed.
Example unify_decides_no :
  let x := TArr (TVar 1) (TVar 1) in let y := TArr (TVar 2) (TArr TInt (TVar 2)) in
  arrows x = true /\ arrows y = true /\ unify 9 x y [] = Some Fail.
Proof. now vm_compute. Qed.
Example unify_decides_yes :
  let x := TArr (TVar 1) (TVar 1) in let y := TArr (TVar 2) (TArr TInt (TVar 3)) in
  arrows x = true /\ arrows y = true /\ unify 9 x y [] = Some (Succ [(2, TArr TInt (TVar 3)); (1, TVar 2)]).
Proof. now vm_compute. Qed.

(** * C57 *)
(** Every expression that has a simple type is accepted at that type, and at
    every type it is an instance of.

    Partial: [(do e ())] and a local variable named cons are excluded
    ([do_nil_refuted]), so are assignments, which the typing rules leave out;
    the converse, that what is accepted has a type, is false
    (the refutations named [accepted]), but true for first-order expressions
    ([accepted_typed_partial], [accepted_typable_partial]). *)
Theorem well_typed_accepted_partial : forall st th D e t,
  tinst th (tenv st) = D -> typed D [] e (inst th t) -> fine e = true ->
  (forall T, lookup (NS "cons") D = Some T -> exists A, T = KArr A (KArr (KList A) (KList A))) ->
  below (next st) t -> ebelow (next st) (tenv st) ->
  exists s st' m, (forall n, m <= n -> check_type_bang n e t st = Some (Some s, st')) /\
    tri s /\ tenv st' = tenv st /\ exists th', solves th' s /\ inst th' t = inst th t.
Proof.
  intros st th D e t ED HT HF HC Bt Be.
  destruct (proj1 (check_accepts D HC [] e _ HT) HF th t [] [] st false) as ((r & st') & m & (s & th' & Er & A & S1 & T1 & _ & _ & D1) & HM).
  - constructor; auto; [intros ? ? []|exact I|intros ? ? []|intros ? ? []].
  - reflexivity.
  - exact Bt.
  - discriminate.
  - cbn in Er, D1. subst r. exists s, st', m. split.
    + intros n Hn. unfold check_type_bang. now rewrite (HM n Hn).
    + split; [exact T1|]. split; [exact D1|]. exists th'. split; [exact S1|]. apply inst_agree. auto.
Qed.

Local Open Scope string_scope.
Definition plus_type : ty := TArr TInt (TArr TInt TInt).
Definition twice : sexp := L [S' "lambda"; L [S' "f"; S' "x"]; L [S' "f"; L [S' "f"; S' "x"]]].
Definition incr : sexp := L [S' "lambda"; L [S' "n"]; L [S' "+"; S' "n"; SNum 1]].
Definition prog : sexp := L [S' "let"; S' "twice"; twice; L [S' "cons"; L [S' "twice"; incr; SNum 5]; SNil]].
Definition decls : list (name * ty) := [(NS "+", plus_type); (NS "cons", TArr TInt (TArr (TList TInt) (TList TInt)))].

(** (let twice (lambda (f x) (f (f x))) (cons (twice (lambda (n) (+ n 1)) 5) ())) *)
Example well_typed_accepted_inhabited :
  typed (tinst (fun _ => KInt) decls) [] prog (KList KInt) /\ fine prog = true /\ ebelow 5 decls /\
  match check_type_bang 60 prog (TVar 1) (mkSt 5 decls) with Some (Some s, _) => apply_subst 20 (TVar 1) s = Some (TList TInt) | _ => False end.
Proof.
  split; [|split; [reflexivity|split; [|vm_compute; reflexivity]]].
  - apply t_let with (a := KArr (KArr KInt KInt) (KArr KInt KInt)).
    + apply t_lams. apply t_lam. apply t_app with (a := KInt); [reflexivity|apply t_local; reflexivity|].
      apply t_app with (a := KInt); [reflexivity|apply t_local; reflexivity|apply t_local; reflexivity].
    + apply (t_apps _ _ (S' "cons") _ SNil []); [reflexivity|]. apply t_app with (a := KList KInt); [reflexivity| |apply t_nil].
      apply t_app with (a := KInt); [reflexivity|apply t_declared; reflexivity|].
      apply (t_apps _ _ (S' "twice") _ (SNum 5) []); [reflexivity|]. apply t_app with (a := KInt); [reflexivity| |apply t_num].
      apply t_app with (a := KArr KInt KInt); [reflexivity|apply t_local; reflexivity|].
      apply t_lam. apply (t_apps _ _ (S' "+") _ (SNum 1) []); [reflexivity|]. apply t_app with (a := KInt); [reflexivity| |apply t_num].
      apply t_app with (a := KInt); [reflexivity|apply t_declared; reflexivity|apply t_local; reflexivity].
  - intros x t [E|[E|[]]]; injection E as <- <-; intros v []; contradiction.
Qed.

(** A first-order expression that is accepted has the expected type under
    every solution of the equations answered. *)
Theorem accepted_typed_partial : forall n e t st s st',
  check_type_bang n e t st = Some (Some s, st') -> fo (tenv st) true FExp [] e -> below (next st) t -> ebelow (next st) (tenv st) ->
  forall th, solves th s -> typed (tinst th (tenv st)) [] e (inst th t).
Proof.
  intros n e t st s st' E HF Bt Be th Hth. unfold check_type_bang in E.
  destruct (check_type n false e t [] [] st) as [([|s0], st0)|] eqn:EC; try discriminate. injection E as -> ->.
  destruct (fo_sound (tenv st) true _ _ _ HF _ _ _ _ _ _ _ _ ltac:(discriminate) EC eq_refl eq_refl Bt) as (_ & _ & _ & _ & _ & S1 & _); auto; try (intros ? ? []).
  exact (proj2 (S1 th Hth)).
Qed.

(** Without functions of no argument and without lists the equations have a
    solution, hence the expression has a type. *)
Theorem accepted_typable_partial : forall n e t st s st',
  check_type_bang n e t st = Some (Some s, st') -> fo (tenv st) false FExp [] e -> below (next st) t -> ebelow (next st) (tenv st) ->
  arrows t = true -> earrows (tenv st) ->
  exists th, solves th s /\ typed (tinst th (tenv st)) [] e (inst th t).
Proof.
  intros n e t st s st' E HF Bt Be At Ae. unfold check_type_bang in E.
  destruct (check_type n false e t [] [] st) as [([|s0], st0)|] eqn:EC; try discriminate. injection E as -> ->.
  destruct (fo_sound (tenv st) false _ _ _ HF _ _ _ _ _ _ _ _ ltac:(discriminate) EC eq_refl eq_refl Bt) as (_ & _ & _ & _ & T1 & S1 & _); auto; try (intros ? ? []).
  destruct T1 as (T1 & _); auto; [intros ? ? []|exact I|intros ? ? []|].
  destruct (tri_solution s T1 (fun _ => KInt)) as (th & Hth & _). exists th. split; [exact Hth|]. exact (proj2 (S1 th Hth)).
Qed.

(** (lambda (g x) (let y (+ x 1) (if (< y 2) g (lambda (z) (+ z y))))) is accepted, (lambda (x) (if x (+ x 1) 2)) is not *)
Definition decls2 : list (name * ty) := [(NS "+", plus_type); (NS "<", TArr TInt (TArr TInt TBool))].
Definition fo_prog : sexp := L [S' "lambda"; L [S' "g"; S' "x"]; L [S' "let"; S' "y"; L [S' "+"; S' "x"; SNum 1];
  L [S' "if"; L [S' "<"; S' "y"; SNum 2]; S' "g"; L [S' "lambda"; L [S' "z"]; L [S' "+"; S' "z"; S' "y"]]]]].
Lemma fo_bin : forall D b xs f x y t, ~ In f xs -> lookup f D = Some t -> vars t = [] -> keyword (SSym f) = false -> f <> NS "cons" ->
  fo D b FExp xs x -> fo D b FExp xs y -> fo D b FExp xs (L [SSym f; x; y]).
Proof.
  intros D b xs f x y t N HL V K NC Hx Hy. apply (fo_calls D b xs (SSym f) x y []); [exact K|congruence|].
  apply fo_call; [|exact Hy]. apply fo_call; [|exact Hx]. now apply fo_head with (t := t).
Qed.
Example accepted_typable_inhabited :
  fo decls2 false FExp [] fo_prog /\ earrows decls2 /\ ebelow 5 decls2 /\
  match check_type_bang 60 fo_prog (TVar 1) (mkSt 5 decls2) with Some (Some s, _) => apply_subst 20 (TVar 1) s = Some (TArr (TArr TInt TInt) (TArr TInt (TArr TInt TInt))) | _ => False end /\
  option_map fst (check_type_bang 60 (L [S' "lambda"; L [S' "x"]; L [S' "if"; S' "x"; L [S' "+"; S' "x"; SNum 1]; SNum 2]]) (TVar 1) (mkSt 5 decls2)) = Some None.
Proof.
  split; [|split; [|split; [|split; vm_compute; reflexivity]]].
  - apply fo_lams. apply fo_lam. apply fo_let.
    + eapply fo_bin; try reflexivity; [intros [E|[E|[]]]; discriminate E|discriminate|apply fo_var; left; left; reflexivity|apply fo_num].
    + apply fo_if.
      * eapply fo_bin; try reflexivity; [intros [E|[E|[E|[]]]]; discriminate E|discriminate|apply fo_var; left; left; reflexivity|apply fo_num].
      * apply fo_var. left. right. right. now left.
      * apply fo_lam. eapply fo_bin; try reflexivity; [intros [E|[E|[E|[E|[]]]]]; discriminate E|discriminate|apply fo_var; left; left; reflexivity|apply fo_var; left; right; left; reflexivity].
  - intros x t [E|[E|[]]]; injection E as <- <-; reflexivity.
  - intros x t [E|[E|[]]]; injection E as <- <-; intros v []; contradiction.
Qed.

Ltac inv := repeat match goal with
  | H : fold_right SCons SNil ?l = SNil |- _ => destruct l; [clear H|discriminate H]
  | H : SNil = fold_right SCons SNil ?l |- _ => destruct l; [clear H|discriminate H]
  | H : typed _ _ (fold_right _ _ _) _ |- _ => cbn in H
  | H : keyword (SSym _) = false |- _ => cbn in H; try discriminate H; clear H
  | H : typed _ _ (SCons _ _) _ |- _ => inversion H; clear H; subst; try discriminate
  | H : typed _ _ (SSym _) _ |- _ => inversion H; clear H; subst; try discriminate
  | H : typed _ _ (SNum _) _ |- _ => inversion H; clear H; subst; try discriminate
  | H : typed _ _ STrue _ |- _ => inversion H; clear H; subst; try discriminate
  | H : lookup _ _ = _ |- _ => cbn in H; try discriminate H; injection H as H
  | H : _ = _ :: _ |- _ => discriminate H
  end; try congruence.

Definition poly_use : sexp := L [S' "lambda"; L [S' "f"]; L [S' "if"; L [S' "f"; SNum 1]; L [S' "f"; STrue]; SFalse]].
Theorem accepted_forget_refuted : exists e s st', check_type_bang 40 e (TVar 1) (mkSt 2 []) = Some (Some s, st') /\ forall T, ~ typed [] [] e T.
Proof.
  exists poly_use. eexists. eexists. split; [vm_compute; reflexivity|]. intros T H. unfold poly_use in H. inv.
Qed.
(** (lambda (f) (if (f 1) (f true) false)): the argument of f is a number and a truth value *)

(** (lambda (x) (do (+ x 1) (if x 1 2))): what is learnt from the first
    expression of a do is dropped *)
Definition do_use : sexp := L [S' "lambda"; L [S' "x"]; L [S' "do"; L [S' "+"; S' "x"; SNum 1]; L [S' "if"; S' "x"; SNum 1; SNum 2]]].
Theorem accepted_do_refuted : exists e s st', check_type_bang 40 e (TVar 1) (mkSt 2 [(NS "+", plus_type)]) = Some (Some s, st') /\
  forall T, ~ typed [(NS "+", inst (fun _ => KInt) plus_type)] [] e T.
Proof.
  exists do_use. eexists. eexists. split; [vm_compute; reflexivity|]. intros T H. unfold do_use in H. inv.
Qed.

(** (let x () (+ x 1)): the empty list is taken for a number *)
Definition nil_use : sexp := L [S' "let"; S' "x"; SNil; L [S' "+"; S' "x"; SNum 1]].
Theorem accepted_nil_refuted : exists e s st', check_type_bang 40 e (TVar 1) (mkSt 2 [(NS "+", plus_type)]) = Some (Some s, st') /\
  forall T, ~ typed [(NS "+", inst (fun _ => KInt) plus_type)] [] e T.
Proof.
  exists nil_use. eexists. eexists. split; [vm_compute; reflexivity|]. intros T H. unfold nil_use in H. inv.
  subst. match goal with H : typed _ _ SNil _ |- _ => inversion H end.
Qed.

(** an unknown name has every type *)
Theorem accepted_unbound_refuted : exists e s st', check_type_bang 9 e (TVar 1) (mkSt 2 []) = Some (Some s, st') /\ forall T, ~ typed [] [] e T.
Proof.
  exists (S' "nowhere"). eexists. eexists. split; [vm_compute; reflexivity|]. intros T H. inv.
Qed.

(** (do 1 ()) is a list of numbers but is refused as one *)
Theorem do_nil_refuted : exists e st', typed [] [] e (KList KInt) /\ check_type_bang 9 e (TList TInt) (mkSt 2 []) = Some (None, st').
Proof.
  exists (L [S' "do"; SNum 1; SNil]). eexists. split; [|vm_compute; reflexivity]. apply t_do with (a := KInt); [apply t_num|apply t_nil].
Qed.

(** (lambda (x) (if true x (lambda () x))): the checker never answers *)
Definition loop_use : sexp := L [S' "lambda"; L [S' "x"]; L [S' "if"; STrue; S' "x"; L [S' "lambda"; SNil; S' "x"]]].
Lemma lam_unroll : forall k, check_type (S (S k)) false loop_use (TVar 1) [] [] (mkSt 2 []) =
  bind_s (check_type k false (L [S' "if"; STrue; S' "x"; L [S' "lambda"; SNil; S' "x"]]) (TVar 3) [(NS "x", TVar 2)] [] (mkSt 4 []))
    (fun s1 st => pure (unify k (TVar 1) (TArr (TVar 2) (TVar 3)) s1) st).
Proof. reflexivity. Qed.
Theorem checker_ends_refuted : exists e st, forall n, check_type_bang n e (TVar 1) st = None.
Proof.
  exists loop_use, (mkSt 2 []).
  assert (B : exists s1 st1, (forall n, check_type (12 + n) false (L [S' "if"; STrue; S' "x"; L [S' "lambda"; SNil; S' "x"]]) (TVar 3) [(NS "x", TVar 2)] [] (mkSt 4 []) = Some (Succ s1, st1))
     /\ s1 = [(4, TThunk (TVar 4)); (3, TVar 4); (2, TVar 3)]).
  { exists [(4, TThunk (TVar 4)); (3, TVar 4); (2, TVar 3)], (mkSt 5 []). split; [intro n; vm_compute; reflexivity|reflexivity]. }
  destruct B as (s1 & st1 & B & ES).
  assert (LOOP : forall n, apply_subst n (TArr (TVar 2) (TVar 3)) s1 = None).
  { subst s1. set (s1 := [_; _; _]).
    assert (H : forall n, apply_subst n (TVar 4) s1 = None /\ apply_subst n (TThunk (TVar 4)) s1 = None).
    { induction n as [|n (A & C)]; [split; reflexivity|]. cbn [apply_subst]. change (assv 4 s1) with (Some (TThunk (TVar 4))). cbn iota. rewrite A, C. auto. }
    assert (H3 : forall n, apply_subst n (TVar 3) s1 = None).
    { intros [|n]; [reflexivity|]. cbn [apply_subst]. change (assv 3 s1) with (Some (TVar 4)). apply H. }
    assert (H2 : forall n, apply_subst n (TVar 2) s1 = None).
    { intros [|n]; [reflexivity|]. cbn [apply_subst]. change (assv 2 s1) with (Some (TVar 3)). apply H3. }
    intros [|n]; [reflexivity|]. cbn [apply_subst]. now rewrite H2. }
  intro n. destruct (Nat.lt_ge_cases n 14) as [Hn|Hn].
  - do 14 (destruct n as [|n]; [vm_compute; reflexivity|]). lia.
  - replace n with (S (S (12 + (n - 14)))) by lia. specialize (B (n - 14)). revert B. generalize (12 + (n - 14)). clear n Hn. intros n B.
    unfold check_type_bang. rewrite lam_unroll, B. cbn [bind_s]. destruct n as [|n]; [reflexivity|]. cbn [unify]. rewrite LOOP.
    destruct (apply_subst n (TVar 1) s1); reflexivity.
Qed.

Print Assumptions unify_mgu_partial.
Print Assumptions types_unify_exact.
Print Assumptions unify_decides_partial.
Print Assumptions apply_subst_correct.
Print Assumptions unify_cyclic_refuted.
Print Assumptions unify_cyclic_thunk_refuted.
Print Assumptions well_typed_accepted_partial.
Print Assumptions accepted_typed_partial.
Print Assumptions accepted_typable_partial.
Print Assumptions accepted_forget_refuted.
Print Assumptions accepted_do_refuted.
Print Assumptions accepted_nil_refuted.
Print Assumptions accepted_unbound_refuted.
Print Assumptions do_nil_refuted.
Print Assumptions checker_ends_refuted.
