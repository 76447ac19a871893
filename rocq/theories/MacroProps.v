(** Theorems of record about the macros (C37, C38). *)
From Coq Require Import List ZArith Bool String Arith Lia.
From Verif Require Import Base CoreSpec TocModel TocSem CoreProofs TocParse TocParseSim TocMach TocScope TocWhole TocProps
  EvalRel NsSpec NsModel NsProofs NsProps MacroModel SurfSpec MacroExp MacroProofs MacroScope.
Import ListNotations.
Local Open Scope list_scope.
Local Open Scope nat_scope.

(** * C37, C38: expansion preserves meaning *)

(** For every program of the language that meets [ok]: the expander, given
    enough fuel, delivers an expression without derived forms that computes the
    same value and sets the same global variables as the program.  [show] is
    how the program is written, [k] the next gensym. *)
Theorem expansion_partial : forall gt exports ar strict x B g n v G k,
  ok [] x = true -> xprogram gt exports ar strict n x (init B g) = Some (v, G) -> 1 <= k ->
  exists e' k' f m v' G', (forall fuel, f <= fuel -> boot gt exports fuel (show x) k = Some (e', k')) /\
    (forall m', m <= m' -> nprogram gt exports ar strict m' e' (init B g) = Some (v', G')) /\
    looks x_arity n_arity v v' /\ same_globals x_arity n_arity G G'.
Proof.
  intros gt exports ar strict x B g n v G k HO E Hk. unfold xprogram in E.
  destruct (R_all gt exports x [] k HO Hk) as ((f & EB) & _).
  assert (X : evt (fun m => result (neval gt exports ar strict m (mkX "" []) [] (fst (ex x k)) (init B g))) (rres crelX selX x_arity (v, G))).
  { eapply result_rel; [|exact E]. intros r Er.
    eapply (macro_sim gt exports ar strict n (mkX "" []) [] [] [] x k (init B g) (init B g) r Er HO).
    - intro s. exact I.
    - intros s _. reflexivity.
    - intros s [].
    - apply init_rel. }
  destruct X as ((v', G') & m & (HV & HG) & EM). destruct (ex x k) as (e', k').
  exists e', k', f, m, v', G'. split; [exact EB|]. split; [exact EM|]. cbn in HV, HG.
  split; [exact (vrel_looks _ _ _ _ crelX_arity _ _ HV)|exact (grel_looks _ _ _ _ crelX_arity _ _ HG)].
Qed.

(** With the packages: what macroexpand delivers, for a [tidy] program. *)
Theorem expansion_packages_partial : forall gt exports ar strict x B g n v G k,
  ok [] x = true -> tidy x = true -> xprogram gt exports ar strict n x (init B g) = Some (v, G) -> 1 <= k ->
  exists f, forall fuel, f <= fuel -> exists e' k' m v' G', macroexpand gt exports fuel (show x) k = Some (e', k') /\
    (forall m', m <= m' -> program ar strict m' e' (init B g) = Some (v', G')) /\
    looks x_arity s_arity v v' /\ same_globals x_arity s_arity G G'.
Proof.
  intros gt exports ar strict x B g n v G k HO HT E Hk.
  destruct (expansion_partial gt exports ar strict x B g n v G k HO E Hk) as (e1 & k1 & f & m & v1 & G1 & EB & EM & LV & LG).
  assert (exists ks, scoped ks e1 = true) as (ks & SK).
  { destruct (R_all gt exports x [] k HO Hk) as ((f2 & EB2) & _). specialize (EB2 (max f f2) ltac:(lia)).
    rewrite EB in EB2 by lia. injection EB2 as EE. destruct (SX_all x [] k HO HT) as ((ks & SK) & _).
    exists ks. rewrite <- EE in SK. cbn in SK. now apply SK. }
  exists (max f (S ks)). intros fuel Hf.
  destruct (namespaces_partial gt exports ar strict ks e1 B g m v1 G1 fuel SK (EM m (le_n m)) ltac:(lia)) as (e2 & m2 & v2 & G2 & ER & EP & A1 & A2).
  exists e2, k1, m2, v2, G2. unfold macroexpand. rewrite EB by lia. unfold rewrite_namespace in ER. rewrite ER.
  split; [reflexivity|]. split; [exact EP|]. split; [eapply looks_trans; eauto|eapply same_globals_trans; eauto].
Qed.

(** With the compiler: a program, and the C functions that its expansion is
    compiled to, compute the same value. *)
Theorem compile_program_partial : forall gt exports ar x B g n v G k,
  ok [] x = true -> tidy x = true -> xprogram gt exports ar true n x (init B g) = Some (v, G) -> 1 <= k ->
  exists f, forall fuel, f <= fuel -> exists e' k', macroexpand gt exports fuel (show x) k = Some (e', k') /\
    forall n0 ks fuel' fs gl nf, legal n0 ks e' = true -> compile fuel' n0 e' = Some (fs, gl) -> top_frame fs <= nf ->
    exists M0 j M1, m_start fs nf (init B g) = Some M0 /\ msteps ar fs j M0 = Some M1 /\ finished M1 = true /\
      looks x_arity l_nargs v (m_res M1) /\ same_globals x_arity l_nargs G (m_G M1).
Proof.
  intros gt exports ar x B g n v G k HO HT E Hk.
  destruct (expansion_packages_partial gt exports ar true x B g n v G k HO HT E Hk) as (f & X). exists f. intros fuel Hf.
  destruct (X fuel Hf) as (e' & k' & m & v' & G' & E1 & E2 & LV & LG). exists e', k'. split; [exact E1|].
  intros n0 ks fuel' fs gl nf HL EC HF.
  destruct (compile_correct_partial ar n0 ks fuel' e' fs gl B m g v' G' nf HL EC (E2 m (le_n m)) HF) as (M0 & j & M1 & B1 & B2 & B3 & B4 & B5).
  exists M0, j, M1. repeat (split; [assumption|]). split; [eapply looks_trans; eauto|eapply same_globals_trans; eauto].
Qed.

(** * C37: what matching is *)

(** the value that a pattern describes when its variables stand for [f] *)
Fixpoint rebuild {C} (f : string -> val C) (p : pat) : val C :=
  match p with
  | QVar x => f x
  | QLit s | QQuote s => quoted s
  | QCons p q => VCons (rebuild f p) (rebuild f q)
  | QList l => fold_right (fun p r => VCons (rebuild f p) r) VNil l
  | QListRest l q => fold_right (fun p r => VCons (rebuild f p) r) (rebuild f q) l
  end.

Lemma veq_quoted_eq : forall {C} s (v : val C), veq (quoted s) v = Some true -> v = quoted s.
Proof.
  intro C. induction s as [z|x|s| | | |a IHa d IHd]; intros v H; destruct v; cbn in H; try discriminate; cbn.
  - injection H as H. apply Z.eqb_eq in H. now subst.
  - injection H as H. destruct (name_eqb_spec x x0); [now subst|discriminate].
  - injection H as H. apply String.eqb_eq in H. now subst.
  - reflexivity.
  - reflexivity.
  - reflexivity.
  - destruct (veq (quoted a) v1) as [[|]|] eqn:E; try discriminate. now rewrite (IHa _ E), (IHd _ H).
Qed.
Lemma veq_quoted_refl : forall {C} s, @veq C (quoted s) (quoted s) = Some true.
Proof.
  intro C. induction s as [z|x|s| | | |a IHa d IHd]; cbn; try reflexivity.
  - now rewrite Z.eqb_refl.
  - destruct (name_eqb_spec x x); [reflexivity|contradiction].
  - now rewrite String.eqb_refl.
  - now rewrite IHa.
Qed.

(** In one direction: what [pmatch] binds is the variables of the pattern, and
    to parts from which the pattern gives back the value. *)
Theorem pattern_sound : forall {C} p (v : val C) bs, pmatch p v = Some bs ->
  (forall x, In x (map fst bs) <-> exists s, x = NS s /\ In s (pvars p)) /\
  forall f, (forall s w, In (NS s, w) bs -> f s = w) -> rebuild f p = v.
Proof.
  intro C. fix IH 1. intros p.
  assert (TWO : forall (b1 b2 : list (name * val C)) l1 l2,
    (forall x, In x (map fst b1) <-> exists s, x = NS s /\ In s l1) ->
    (forall x, In x (map fst b2) <-> exists s, x = NS s /\ In s l2) ->
    forall x, In x (map fst (b2 ++ b1)) <-> exists s, x = NS s /\ In s (l1 ++ l2)).
  { intros b1 b2 l1 l2 H1 H2 x. rewrite map_app, in_app_iff, H1, H2. clear. split.
    - intros [(s & E & H)|(s & E & H)]; exists s; (split; [exact E|]); apply in_or_app; auto.
    - intros (s & E & H). apply in_app_or in H as [H|H]; [right|left]; exists s; auto. }
  destruct p as [x|s|s|p q|l|l q]; intros v bs H; cbn [pmatch pvars rebuild] in *.
  - injection H as <-. split; [|intros f Hf; apply Hf; now left]. intro y. cbn. split.
    + intros [<-|[]]. exists x. auto.
    + intros (s & -> & [->|[]]). now left.
  - destruct (veq (quoted s) v) as [[|]|] eqn:E; try discriminate. injection H as <-. apply veq_quoted_eq in E. split; [|auto].
    intro x. split; [intros []|intros (? & _ & [])].
  - destruct (veq (quoted s) v) as [[|]|] eqn:E; try discriminate. injection H as <-. apply veq_quoted_eq in E. split; [|auto].
    intro x. split; [intros []|intros (? & _ & [])].
  - destruct v as [| | | | | |a d| | |]; try discriminate. destruct (pmatch p a) as [b1|] eqn:E1; [|discriminate].
    destruct (pmatch q d) as [b2|] eqn:E2; [|discriminate]. injection H as <-.
    destruct (IH p a b1 E1) as (A1 & A2). destruct (IH q d b2 E2) as (B1 & B2). split; [now apply TWO|].
    intros f Hf. rewrite A2, B2; [reflexivity| |]; intros; apply Hf, in_or_app; auto.
  - revert v bs H. induction l as [|p l IL]; intros v bs H.
    + destruct v; try discriminate. injection H as <-. split; [|reflexivity]. intro x. split; [intros []|intros (? & _ & [])].
    + destruct v as [| | | | | |a d| | |]; try discriminate. destruct (pmatch p a) as [b1|] eqn:E1; [|discriminate].
      match type of H with match ?g with _ => _ end = _ => destruct g as [b2|] eqn:E2; [|discriminate] end. injection H as <-.
      destruct (IH p a b1 E1) as (A1 & A2). destruct (IL d b2 E2) as (B1 & B2). cbn [flat_map fold_right]. split; [now apply TWO|].
      intros f Hf. rewrite A2, B2; [reflexivity| |]; intros; apply Hf, in_or_app; auto.
  - revert v bs H. induction l as [|p l IL]; intros v bs H.
    + exact (IH q v bs H).
    + destruct v as [| | | | | |a d| | |]; try discriminate. destruct (pmatch p a) as [b1|] eqn:E1; [|discriminate].
      match type of H with match ?g with _ => _ end = _ => destruct g as [b2|] eqn:E2; [|discriminate] end. injection H as <-.
      destruct (IH p a b1 E1) as (A1 & A2). destruct (IL d b2 E2) as (B1 & B2). cbn [flat_map fold_right]. rewrite <- app_assoc. split; [now apply TWO|].
      intros f Hf. rewrite A2, B2; [reflexivity| |]; intros; apply Hf, in_or_app; auto.
Qed.
(** In the other: every value that the pattern describes matches, with the
    variables bound to what they stand for. *)
Theorem pattern_complete : forall {C} p (f : string -> val C),
  exists bs, pmatch p (rebuild f p) = Some bs /\ forall x w, In (x, w) bs -> exists s, x = NS s /\ w = f s.
Proof.
  intros C p f. revert p. fix IH 1. intro p.
  assert (TWO : forall (b1 b2 : list (name * val C)), (forall x w, In (x, w) b1 -> exists s, x = NS s /\ w = f s) ->
    (forall x w, In (x, w) b2 -> exists s, x = NS s /\ w = f s) -> forall x w, In (x, w) (b2 ++ b1) -> exists s, x = NS s /\ w = f s).
  { intros b1 b2 H1 H2 x w H. apply in_app_or in H as [H|H]; auto. }
  destruct p as [x|s|s|p q|l|l q]; cbn [pmatch rebuild].
  - exists [(NS x, f x)]. split; [reflexivity|]. intros y w [E|[]]. injection E as <- <-. eauto.
  - rewrite veq_quoted_refl. exists []. split; [reflexivity|]. intros ? ? [].
  - rewrite veq_quoted_refl. exists []. split; [reflexivity|]. intros ? ? [].
  - destruct (IH p) as (b1 & -> & A). destruct (IH q) as (b2 & -> & B). exists (b2 ++ b1). split; [reflexivity|]. now apply TWO.
  - induction l as [|p l IL]; cbn [fold_right].
    + exists []. split; [reflexivity|]. intros ? ? [].
    + destruct (IH p) as (b1 & -> & A). destruct IL as (b2 & -> & B). exists (b2 ++ b1). split; [reflexivity|]. now apply TWO.
  - induction l as [|p l IL]; cbn [fold_right].
    + apply IH.
    + destruct (IH p) as (b1 & -> & A). destruct IL as (b2 & -> & B). exists (b2 ++ b1). split; [reflexivity|]. now apply TWO.
Qed.

(** the clauses of a match that are passed over: those that do not match, and
    those whose guard does not hold *)
Inductive skips (ev : ctx -> xenv -> src -> store xcode -> xres) (w : xval) (c : ctx) (rho : xenv)
  : list (pat * option src * src) -> store xcode -> store xcode -> Prop :=
| sk_nil G : skips ev w c rho [] G G
| sk_pat p g b r G G' : pmatch p w = None -> skips ev w c rho r G G' -> skips ev w c rho ((p, g, b) :: r) G G'
| sk_guard p g b r bs t G G1 G' : pmatch p w = Some bs -> result (ev c (bs ++ rho) g G) = Some (t, G1) -> t <> VTrue ->
    skips ev w c rho r G1 G' -> skips ev w c rho ((p, Some g, b) :: r) G G'.

(** A match has the value of the body of its first clause that is not passed
    over, with the variables of the pattern bound. *)
Theorem match_first : forall gt exports ar strict n c rho v cs G r,
  let ev := xeval gt exports ar strict n in
  xeval gt exports ar strict (S n) c rho (XMatch v cs) G = Some r <->
  exists w G1 before p g b more bs G2 G3, result (ev c rho v G) = Some (w, G1) /\ cs = before ++ (p, g, b) :: more /\
    skips ev w c rho before G1 G2 /\ pmatch p w = Some bs /\
    match g with None => G3 = G2 | Some g => result (ev c (bs ++ rho) g G2) = Some (VTrue, G3) end /\
    ev c (bs ++ rho) b G3 = Some r.
Proof.
  intros gt exports ar strict n c rho v cs G r ev. cbn [xeval]. fold ev. split.
  - destruct (result (ev c rho v G)) as [(w, G1)|]; [|discriminate]. revert G1. induction cs as [|((p, g), b) cs IH]; intros G1 E; [discriminate|].
    cbn [ev_rules] in E. destruct (pmatch p w) as [bs|] eqn:EP.
    + destruct g as [g|].
      * destruct (result (ev c (bs ++ rho) g G1)) as [(t, G3)|] eqn:EG; [|discriminate].
        assert (D : t = VTrue \/ t <> VTrue) by (destruct t; (now left) || (right; discriminate)).
        destruct D as [->|D].
        -- exists w, G1, [], p, (Some g), b, cs, bs, G1, G3. repeat (split; [reflexivity || assumption || constructor|]). exact E.
        -- assert (E' : ev_rules ev (fun p => pmatch p w) c rho cs G3 = Some r) by (destruct t; congruence || exact E).
           destruct (IH G3 E') as (w' & G1' & before & p' & g' & b' & more & bs' & G2 & G3' & E1 & -> & SK & E2 & E3 & E4). injection E1 as <- <-.
           exists w, G1, ((p, Some g, b) :: before), p', g', b', more, bs', G2, G3'. repeat (split; [reflexivity || assumption|]).
           split; [eapply sk_guard; eauto|]. auto.
      * exists w, G1, [], p, None, b, cs, bs, G1, G1. repeat (split; [reflexivity || assumption || constructor|]). exact E.
    + destruct (IH G1 E) as (w' & G1' & before & p' & g' & b' & more & bs' & G2 & G3' & E1 & -> & SK & E2 & E3 & E4). injection E1 as <- <-.
      exists w, G1, ((p, g, b) :: before), p', g', b', more, bs', G2, G3'. repeat (split; [reflexivity || assumption|]).
      split; [apply sk_pat; auto|]. auto.
  - intros (w & G1 & before & p & g & b & more & bs & G2 & G3 & -> & -> & SK & EP & EG & EB).
    induction SK as [G1|p' g' b' r' G1 G2 EP' _ IH|p' g' b' r' bs' t G1 G1' G2 EP' EG' NT _ IH]; cbn [app ev_rules].
    + rewrite EP. destruct g as [g|]; [now rewrite EG|now subst].
    + rewrite EP'. now apply IH.
    + rewrite EP', EG'. specialize (IH EG). destruct t; congruence || exact IH.
Qed.

Local Notation Y s := (SSym (NS s)).
Local Notation N z := (SNum z%Z).
Local Notation "'L' l" := (of_list l) (at level 9, l at level 0).
Local Open Scope string_scope.
Local Notation num z := (XLit (SNum z%Z)).
Local Notation call f l := (XApp (XVar f) l).

(** (ns "c" ("a" "b")
      (begin
        (func insert
          x () => [x]
          x (cons y ys) => (cons x (cons y ys)) where (< x y)
          x (cons y ys) => (cons y (insert x ys)))
        (defun sort (l) (match l () () (cons x r) (insert x (sort r))))
        (let n 3 m (+ n 1)
          (cond ((or (= n m) (> n m)) 0)
                (true `(sorted ,(sort [n m 1 . [2]])))))))  *)
Definition demo_src : src :=
  XNs "c" ["a"; "b"] (XBegin [
    XFunc "insert"
      [([QVar "x"; QLit SNil], None, XList [XVar "x"]);
       ([QVar "x"; QCons (QVar "y") (QVar "ys")], Some (call "<" [XVar "x"; XVar "y"]),
          call "cons" [XVar "x"; call "cons" [XVar "y"; XVar "ys"]]);
       ([QVar "x"; QCons (QVar "y") (QVar "ys")], None, call "cons" [XVar "y"; call "insert" [XVar "x"; XVar "ys"]])];
    XDefun "sort" ["l"]
      (XMatch (XVar "l") [(QLit SNil, None, XLit SNil);
                          (QCons (QVar "x") (QVar "r"), None, call "insert" [XVar "x"; call "sort" [XVar "r"]])]);
    XLet [("n", num 3); ("m", call "+" [XVar "n"; num 1])]
      (XCond [(XOr [call "=" [XVar "n"; XVar "m"]; call ">" [XVar "n"; XVar "m"]], num 0);
              (XLit STrue,
               XBack (TList [TSym (NS "sorted"); TUnquote (call "sort" [XListRest [XVar "n"; XVar "m"; num 1] (XList [num 2])])]))])]).
Definition sorted_list {C} : val C :=
  VCons (VSym (NS "sorted")) (VCons (VCons (VNum 1) (VCons (VNum 2) (VCons (VNum 3) (VCons (VNum 4) VNil)))) VNil).
Example expansion_example :
  ok [] demo_src = true /\ tidy demo_src = true /\
  (match xprogram gname ab std true 40 demo_src (init no_globals 0) with
   | Some (v, G) => v = sorted_list /\ g_val G (NS "c#insert") <> None /\ g_val G (NS "insert") = None
   | None => False
   end) /\
  (match macroexpand gname ab 60 (show demo_src) 1 with
   | Some (e', k') =>
       match program std true 200 e' (init no_globals 0) with Some (v, _) => v = sorted_list | None => False end
   | None => False
   end).
Proof. vm_compute. repeat split; discriminate. Qed.
Example compile_program_example :
  match macroexpand gname ab 60 (show demo_src) 1 with
  | Some (e', k') => legal k' 60 e' = true /\ match compile 100 k' e' with Some (fs, _) => top_frame fs <= 20 | None => False end
  | None => False
  end.
Proof. vm_compute. repeat split. repeat constructor. Qed.
Example pattern_example :
  pmatch (QListRest [QQuote (Y "a"); QVar "x"] (QVar "y")) (@VCons xcode (VSym (NS "a")) (VCons (VNum 1) (VCons VNil VNil)))
    = Some [(NS "y", VCons VNil VNil); (NS "x", VNum 1)] /\
  pmatch (QListRest [QQuote (Y "a"); QVar "x"] (QVar "y")) (@VCons xcode (VSym (NS "b")) (VCons (VNum 1) VNil)) = None.
Proof. split; reflexivity. Qed.

Print Assumptions expansion_partial.
Print Assumptions expansion_packages_partial.
Print Assumptions compile_program_partial.
Print Assumptions pattern_sound.
Print Assumptions pattern_complete.
Print Assumptions match_first.

(** * Without the conditions *)

(** [expands_wrongly B x v w]: the program gives [v] and its expansion [w]. *)
Definition expands_wrongly (B : base) (x : src) (v : val xcode) (w : val ncode) : Prop :=
  exists n G e' k' G', xprogram gname ab std false n x (init B 0) = Some (v, G) /\
    boot gname ab n (show x) 1 = Some (e', k') /\ nprogram gname ab std false n e' (init B 0) = Some (w, G').
Ltac expands_badly := exists 30; do 4 eexists; split; [vm_compute; reflexivity|]; split; [vm_compute; reflexivity|]; vm_compute; reflexivity.
Local Notation setq x e := (call "set" [XQuote (Y x); e]).

(** (do (or (do (set 'y 1) false) true) y) with y = 0: the or becomes true *)
Theorem or_literal_refuted :
  expands_wrongly (glob "y" 0) (XDo (XOr [XDo (setq "y" (num 1)) (XLit SFalse); XLit STrue]) (XVar "y")) (VNum 1) (VNum 0).
Proof. expands_badly. Qed.
(** (do (and (do (set 'y 1) true) false) y) *)
Theorem and_literal_refuted :
  expands_wrongly (glob "y" 0) (XDo (XAnd [XDo (setq "y" (num 1)) (XLit STrue); XLit SFalse]) (XVar "y")) (VNum 1) (VNum 0).
Proof. expands_badly. Qed.
(** a local variable does not shadow a macro: ((lambda (list) (list 1)) (lambda (x) 5)) *)
Theorem macro_shadow_refuted :
  expands_wrongly no_globals (XApp (XLam ["list"] (call "list" [num 1])) [XLam ["x"] (num 5)]) (VNum 5) (VCons (VNum 1) VNil).
Proof. expands_badly. Qed.
(** a local function called like one that expansions use is called by them:
    (let cons (lambda (a b) 9) [1]) *)
Theorem local_cons_refuted :
  expands_wrongly no_globals (XLet [("cons", XLam ["a"; "b"] (num 9))] (XList [num 1])) (VCons (VNum 1) VNil) (VNum 9).
Proof. expands_badly. Qed.
(** a pattern variable called like the variable that is matched:
    (let x '((5 . 6) . 2) (match x (cons x y) y)) *)
Theorem match_capture_refuted :
  expands_wrongly no_globals (XLet [("x", XQuote (SCons (SCons (N 5) (N 6)) (N 2)))]
    (XMatch (XVar "x") [(QCons (QVar "x") (QVar "y"), None, XVar "y")])) (VNum 2) (VNum 6).
Proof. expands_badly. Qed.
(** what is matched is evaluated again in every clause if it is written with
    cons: (match (cons (set 'y (+ y 1)) 1) (cons 7 z) 0 (cons w z) w) *)
Theorem match_twice_refuted :
  expands_wrongly (glob "y" 0) (XMatch (call "cons" [setq "y" (call "+" [XVar "y"; num 1]); num 1])
    [(QCons (QLit (N 7)) (QVar "z"), None, num 0); (QCons (QVar "w") (QVar "z"), None, XVar "w")]) (VNum 1) (VNum 2).
Proof. expands_badly. Qed.
(** a global variable that is matched is read again in every clause:
    (match y w (where (do (set 'y 1) false) 0) 1 7 u 8) *)
Theorem match_global_refuted :
  expands_wrongly (glob "y" 0) (XMatch (XVar "y")
    [(QVar "w", Some (XDo (setq "y" (num 1)) (XLit SFalse)), num 0); (QLit (N 1), None, num 7); (QVar "u", None, num 8)]) (VNum 8) (VNum 7).
Proof. expands_badly. Qed.
(** a definition inside what is matched is made outside the package:
    (do (ns "p" () (match (do (def y 1) 5) z z)) y) with y = 0 *)
Theorem match_def_refuted :
  expands_wrongly (glob "y" 0) (XDo (XNs "p" [] (XMatch (XDo (XDef "y" (num 1)) (num 5)) [(QVar "z", None, XVar "z")])) (XVar "y")) (VNum 0) (VNum 1).
Proof. expands_badly. Qed.

(** `(1 . 2) is (1) *)
Theorem backquote_improper_refuted : exists e' k' G',
  boot gname ab 30 (L [Y "backquote"; SCons (N 1) (N 2)]) 1 = Some (e', k') /\
  nprogram gname ab std false 30 e' (init no_globals 0) = Some (VCons (VNum 1) VNil, G').
Proof. do 3 eexists. split; [vm_compute; reflexivity|]. vm_compute; reflexivity. Qed.
(** of the body of a lambda only the first expression is kept *)
Theorem lambda_body_dropped : forall gt exports fuel ps a more n,
  boot gt exports fuel (SCons (Y "lambda") (SCons ps (SCons a more))) n = boot gt exports fuel (L [Y "lambda"; ps; a]) n.
Proof. intros. destruct fuel; reflexivity. Qed.
(** (begin) is an error *)
Theorem begin_empty_refuted : forall gt exports fuel n, boot gt exports fuel (L [Y "begin"]) n = None.
Proof. intros. destruct fuel; reflexivity. Qed.

(** (defmacro f (e) body) expands to the call that adds to the table, under the
    name f, the function of the same parameters with the expanded body; the name
    and the parameters are not expanded, and expressions after the body are lost. *)
Theorem defmacro_right : forall gt exports f ps body more n body' n',
  (exists m, forall k, m <= k -> boot gt exports k body n = Some (body', n')) ->
  exists m, forall k, m <= k ->
    boot gt exports k (SCons (Y "defmacro") (SCons f (SCons ps (SCons body more)))) n =
    Some (L [Y "cora/init#add-to-*macros*"; L [Y "quote"; f]; L [Y "lambda"; ps; body']], n').
Proof.
  intros gt exports f ps body more n body' n' (m & H). exists (S (S (S m))). intros [|[|[|k]]] K; try lia.
  rewrite boot_S. cbn [is_protect name_eqb protect is_sym String.eqb Ascii.eqb Bool.eqb].
  unfold expand1. change (macro_of (NS "defmacro")) with (Some MDefmacro).
  cbn [expand rewrite_defmacro ocadr ocaddr ocdddr ocddr ocdr ocar pure].
  assert (E : forall x, sexp_eqb (L [Y "cora/init#add-to-*macros*"; L [Y "quote"; f]; x]) (SCons (Y "defmacro") (SCons f (SCons ps (SCons body more)))) = false)
    by reflexivity.
  rewrite E. unfold ssym. cbn [of_list]. rewrite boot_S. cbn [is_protect name_eqb protect is_sym String.eqb Ascii.eqb Bool.eqb].
  unfold expand1. change (macro_of (NS "cora/init#add-to-*macros*")) with (@None macro). cbv beta iota.
  rewrite sexp_eqb_refl. cbn [cells map_gen].
  change (boot gt exports (S k) (Y "cora/init#add-to-*macros*") n) with (Some (Y "cora/init#add-to-*macros*", n)).
  cbv beta iota. change (boot gt exports (S k) (SCons (Y "quote") (SCons f SNil)) n) with (Some (L [Y "quote"; f], n)). cbv beta iota.
  rewrite lambda_body_dropped. cbn [of_list]. rewrite boot_S. cbn [is_protect name_eqb protect is_sym String.eqb Ascii.eqb Bool.eqb ocadr ocaddr ocddr ocdr ocar].
  rewrite H by lia. reflexivity.
Qed.
(** (defmacro twice (e) (and (cdr e) e)) *)
Example defmacro_example : exists n',
  boot gname ab 30 (L [Y "defmacro"; Y "twice"; L [Y "e"]; L [Y "and"; L [Y "cdr"; Y "e"]; Y "e"]]) 1 =
  Some (L [Y "cora/init#add-to-*macros*"; L [Y "quote"; Y "twice"];
           L [Y "lambda"; L [Y "e"]; L [Y "if"; L [Y "cdr"; Y "e"]; L [Y "if"; Y "e"; STrue; SFalse]; SFalse]]], n').
Proof. eexists. vm_compute. reflexivity. Qed.
Print Assumptions defmacro_right.

(** (fold-apply f a b ... y z) is expanded as (f a (f b ... (f y z))). *)
Theorem fold_apply_right : forall gt exports f l z k n, l <> [] ->
  boot gt exports (S k) (L (Y "fold-apply" :: f :: l ++ [z])) n =
  boot gt exports k (fold_right (fun a r => L [f; a; r]) z l) n.
Proof.
  intros gt exports f l z k n NE.
  assert (F : fold_apply f (L (l ++ [z])) = Some (fold_right (fun a r => L [f; a; r]) z l)).
  { induction l as [|a l IH]; [contradiction|]. destruct l as [|b l]; [reflexivity|].
    specialize (IH ltac:(discriminate)). cbn [app of_list fold_right] in *. cbn [fold_apply]. cbn [fold_apply] in IH.
    destruct (l ++ [z])%list as [|c m] eqn:E; [now destruct l|]. cbn [of_list] in *. rewrite IH. reflexivity. }
  cbn [of_list]. rewrite boot_S. cbn [is_protect name_eqb protect is_sym String.eqb Ascii.eqb Bool.eqb].
  unfold expand1. change (macro_of (NS "fold-apply")) with (Some MFoldApply).
  cbn [expand ocadr ocddr ocdr ocar pure]. rewrite F. cbn [pure].
  destruct (sexp_eqb (fold_right (fun a r => L [f; a; r]) z l) (SCons (Y "fold-apply") (SCons f (L (l ++ [z]))))) eqn:E; [|reflexivity].
  apply sexp_eqb_eq in E. destruct l as [|a l]; [contradiction|]. cbn [fold_right of_list app] in E.
  injection E as _ _ _ E. now destruct l.
Qed.
Example fold_apply_example :
  boot gname ab 9 (L [Y "fold-apply"; Y "h"; N 1; N 2; N 3]) 1 = Some (L [Y "h"; N 1; L [Y "h"; N 2; N 3]], 1).
Proof. vm_compute. reflexivity. Qed.
Print Assumptions fold_apply_right.
