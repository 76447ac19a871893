(** C69: conditions on a program as it is written under which it compiles from
    file to file. *)
From Coq Require Import List ZArith Bool String Ascii Arith Lia.
From Verif Require Import Base StrModel ReaderModel ReaderSpec ReaderProofs ReaderTerm ReaderProps CoreSpec TocModel TocSem CoreProofs TocParse TocParseSim TocMach TocScope TocWhole TocProps
  TocTotal TocTable NsSpec NsModel NsProofs NsProps MacroModel SurfSpec MacroExp MacroProofs MacroScope MacroProps
  CSpec GenModel GenCond GenSource GenProps TotalProps PreSpec PreModel PreProofs PreProps FineCore FineNs FineSpec FineSurf CalmSpec CalmProofs.
Import ListNotations.
Local Open Scope list_scope.
Local Open Scope nat_scope.

Lemma map_opt_more : forall (f g : sexp -> option sexp) l r, (forall x y, f x = Some y -> g x = Some y) -> map_opt f l = Some r -> map_opt g l = Some r.
Proof.
  intros f g l. induction l as [|x l IH]; intros r H E; cbn in *; [exact E|]. destruct (f x) as [y|] eqn:E1; [|discriminate].
  destruct (map_opt f l) as [ys|] eqn:E2; [|discriminate]. now rewrite (H _ _ E1), (IH _ H eq_refl).
Qed.
Lemma nsparse_more : forall gt exports k k' env ns imps e r, k <= k' -> nsparse gt exports k env ns imps e = Some r -> nsparse gt exports k' env ns imps e = Some r.
Proof.
  intros gt exports. induction k as [|k IH]; intros [|k'] env ns imps e r H E; try discriminate; [lia|].
  assert (IH' : forall env ns imps e r, nsparse gt exports k env ns imps e = Some r -> nsparse gt exports k' env ns imps e = Some r) by (intros; apply IH; [lia|assumption]).
  assert (S : forall env ns imps l r, map_opt (nsparse gt exports k env ns imps) l = Some r -> map_opt (nsparse gt exports k' env ns imps) l = Some r).
  { intros. eapply map_opt_more; [|eassumption]. intros. now apply IH'. }
  cbn [nsparse] in E |- *. destruct e as [| | | | | |h t]; try exact E.
  destruct (NsModel.clause h t) as [|args body|i pkg y| |a b c|path imps' body|var v|].
  - exact E.
  - destruct (slist args) as [l|]; [|discriminate]. destruct (nsparse gt exports k _ _ _ body) as [b|] eqn:Q; [|discriminate]. now rewrite (IH' _ _ _ _ _ Q).
  - destruct (nsparse gt exports k _ _ _ (of_list [i; SStr pkg])) as [a|] eqn:Q1; [|discriminate]. destruct (nsparse gt exports k _ _ _ y) as [b|] eqn:Q2; [|discriminate].
    now rewrite (IH' _ _ _ _ _ Q1), (IH' _ _ _ _ _ Q2).
  - destruct (map_opt _ (cells t)) as [l|] eqn:Q; [|discriminate]. now rewrite (S _ _ _ _ _ Q).
  - destruct (nsparse gt exports k _ _ _ b) as [b1|] eqn:Q1; [|discriminate]. destruct (nsparse gt exports k _ _ _ c) as [c1|] eqn:Q2; [|discriminate].
    now rewrite (IH' _ _ _ _ _ Q1), (IH' _ _ _ _ _ Q2).
  - destruct path; try discriminate. destruct (slist imps') as [l|]; [|discriminate]. destruct (the_strings l); [|discriminate]. now apply IH'.
  - destruct var; try discriminate. destruct (nsparse gt exports k _ _ _ v) as [v1|] eqn:Q; [|discriminate]. now rewrite (IH' _ _ _ _ _ Q).
  - destruct (map_opt _ (cells (SCons h t))) as [l|] eqn:Q; [|discriminate]. now rewrite (S _ _ _ _ _ Q).
Qed.

(** Every neat program is expanded and compiled, whether or not it ever ends;
    the result meets all the conditions of the compiler and of the generator. *)
Lemma neat_compiled : forall gt exports x k, ok [] x = true -> tidy x = true -> neat [] x = true -> 1 <= k ->
  exists e1 e' k' ks fs gl f, (forall e r, r = (e1, k') -> BX gt exports e k r -> exists f2, forall fuel, f2 <= fuel -> macroexpand gt exports fuel e k = Some (e', k')) /\
    BX gt exports (show x) k (e1, k') /\ ex x k = (e1, k') /\
    (forall fuel, f <= fuel -> compile fuel k' e' = Some (fs, gl)) /\ (forall fuel, f <= fuel -> nsparse gt exports fuel [] "" [] e1 = Some e') /\
    legal k' ks e' = true /\ literals e' = true /\ forallb GenSource.local_ok (locals ks e') = true /\ forallb symbol_ok gl = true.
Proof.
  intros gt exports x k HO HT HN Hk. destruct (R_all gt exports x [] k HO Hk) as (BE & _).
  destruct (SX_all x [] k HO HT) as ((ks0 & SK) & _).
  destruct (neat_nf (snd (ex x k)) x [] [] k HO HT HN) as (_ & NF). { split; [reflexivity|]. intros i []. }
  specialize (NF (le_n _)). destruct (ex x k) as (e1, k') eqn:EX. cbn [fst snd] in *.
  destruct (np_total gt exports ks0 e1 (SK ks0 (le_n ks0)) (S ks0) [] "" [] (Nat.lt_succ_diag_r _)) as (e' & EN).
  pose proof (proj1 (nf_renamed gt exports k') _ _ _ NF (S ks0) (mkX "" []) e' ltac:(split; reflexivity) EN) as FI.
  destruct (fine_legal _ _ _ FI) as (LI & ks & HK). destruct (HK ks (le_n ks)) as (HL & NFm & LO & SO).
  destruct (compile_total k' ks e' HL NFm) as (fs & gl & EC).
  assert (EN' : forall fuel, S ks0 <= fuel -> nsparse gt exports fuel [] "" [] e1 = Some e') by (intros fuel Hf; now apply (nsparse_more _ _ (S ks0))).
  exists e1, e', k', ks, fs, gl, (S (4 * ks) + S ks0). split.
  { intros e r -> (m & HB). exists (max m (S ks0)). intros fuel Hf. unfold macroexpand. rewrite HB by lia. unfold rewrite_namespace. rewrite EN' by lia. reflexivity. }
  split; [exact BE|]. split; [reflexivity|]. split; [intros fuel Hf; apply EC; lia|]. split; [intros fuel Hf; apply EN'; lia|].
  split; [exact HL|]. split; [exact LI|]. split; [exact LO|].
  destruct (symbol_table _ _ _ _ _ _ HL (EC (S (4 * ks)) (Nat.lt_succ_diag_r _))) as (_ & T). rewrite forallb_forall in SO |- *. intros s Hs. apply SO. now apply T.
Qed.

(** * C69 *)

(** A file that consists of a neat program is compiled, with enough fuel, to a
    text that is a C file, no matter what the program does; only the texts of
    gensyms are left to the runtime.  Whenever the program has a value, running
    that C file ends with this value and with the same globals.  This is for runs
    in which no operand is assigned before it is used ([strict]), and for all
    runs of programs from which it can be seen that this does not happen
    ([definitions]). *)
Definition settled (strict : bool) (B : base) (e : sexp) : Prop :=
  strict = true \/ (quiet_base B /\ exists ks S, definitions ks S e = true).
Lemma settled_program : forall ar strict B e n g r, settled strict B e -> program ar strict n e (init B g) = Some r -> program ar true n e (init B g) = Some r.
Proof.
  intros ar strict B e n g r [->|(QB & ks & S & D)] E; [exact E|]. destruct strict; [exact E|]. eapply calm_program; eauto.
Qed.
Theorem neat_file_to_c_partial : forall gt exports t ds x k,
  file_text t ds -> file_means (map form_of ds) x -> ok [] x = true -> tidy x = true -> neat [] x = true ->
  exists F imports e e' k' fs gl,
    (forall fuel, F <= fuel -> preprocess false fuel t = Some (Ok (imports, e)) /\ macroexpand gt exports fuel e (S k) = Some (e', k') /\
       compile fuel k' e' = Some (fs, gl)) /\
    forall gs, gensym_texts gs (local_names fs) ->
    exists text d names a, (forall fuel, F <= fuel -> compile_to_c gt exports gs false fuel k t = Some (Ok text)) /\
      c_file text = Some d /\ c_load d = Some (names, a, 0) /\ gl = map SSym names /\
      forall ar strict B g n v G nf, settled strict B e' -> xprogram gt exports ar strict n x (init B g) = Some (v, G) -> top_frame fs <= nf ->
      exists M0 j M1, m_call (mkM None [] None (VNum 0) (init B g)) (VClo (mkL a 0 nf) []) [] = Some M0 /\
        c_steps ar d names j M0 = Some M1 /\ finished M1 = true /\
        looks x_arity l_nargs v (m_res M1) /\ same_globals x_arity l_nargs G (m_G M1).
Proof.
  intros gt exports t ds x k FT FM HO HT HN.
  destruct (file_expands gt exports _ x FM t ds FT eq_refl) as (F1 & imports & e & EP & BE).
  destruct (neat_compiled gt exports x (S k) HO HT HN ltac:(lia)) as (e1 & e' & k' & ks & fs & gl & f & X & BX1 & EX & EC & EN & HL & LI & LO & SO).
  destruct (X e _ eq_refl (BE _ _ BX1)) as (f2 & EM).
  exists (F1 + f + f2), imports, e, e', k', fs, gl. split. { intros fuel Hf. rewrite EP, EM, EC by lia. auto. }
  intros gs GS. pose proof (source_writable gs _ _ _ _ _ _ HL (EC f (le_n f)) LI LO SO GS) as W.
  destruct (written_file_runs gs fs gl W) as (text & d & names & B1 & B2 & B3 & B4 & _ & B5).
  exists text, d, names, (List.length fs - 1). split. { intros fuel Hf. unfold compile_to_c. rewrite EP, EM, EC by lia. rewrite B1. reflexivity. }
  split; [exact B2|]. split; [exact B4|]. split; [exact B3|]. intros ar strict B g n v G nf ST E HF.
  destruct (expansion_partial gt exports ar strict x B g n v G (S k) HO E ltac:(lia)) as (e2 & k2 & f3 & m & v1 & G1 & EB & EV & LV & LG).
  assert (e2 = e1) as ->. { destruct BX1 as (f4 & EB4). specialize (EB4 (max f3 f4) ltac:(lia)). rewrite EB in EB4 by lia. congruence. }
  destruct (SX_all x [] (S k) HO HT) as ((ks0 & SK) & _). rewrite EX in SK. cbn [fst] in SK.
  destruct (namespaces_partial gt exports ar strict ks0 e1 B g m v1 G1 (S ks0 + f) (SK ks0 (le_n ks0)) (EV m (le_n m)) ltac:(lia)) as (e3 & m2 & v2 & G2 & ER & E2 & A1 & A2).
  unfold rewrite_namespace in ER. rewrite EN in ER by lia. injection ER as <-.
  destruct (compile_correct_partial ar k' ks f e' fs gl B m2 g v2 G2 nf HL (EC f (le_n f)) (settled_program _ _ _ _ _ _ _ ST (E2 m2 (le_n m2))) HF) as (M0 & j & M1 & C1 & C2 & C3 & C4 & C5).
  exists M0, j, M1. rewrite B5. do 3 (split; [assumption|]). split; [eapply looks_trans; [|exact C4]; eapply looks_trans; eauto|].
  eapply same_globals_trans; [|exact C5]. eapply same_globals_trans; eauto.
Qed.

Example neat_file_to_c_example :
  file_text demo_text [demo_file] /\ file_means [form_of demo_file] (package_src demo_package) /\
  ok [] (package_src demo_package) = true /\ tidy (package_src demo_package) = true /\ neat [] (package_src demo_package) = true.
Proof.
  split; [exact (proj1 file_to_c_example)|]. split; [exact (proj1 (proj2 file_to_c_example))|]. split; [reflexivity|]. split; [reflexivity|]. vm_compute. reflexivity.
Qed.

(** a program with most of the forms of the language:
    (begin
      (func len () => 0 (cons _ t) => (+ 1 (len t)))
      (defun swap (p) (match p (cons a b) (list b a)))
      (let x (len (list 1 2)) y (swap (cons 3 4))
        `(x ,x ,(cond ((= x 2) (car y)) (true (or false (car y))))))) *)
Local Notation call f l := (XApp (XVar f) l).
Local Notation num z := (XLit (SNum z%Z)).
Local Open Scope string_scope.
Definition rich_program : src :=
  XBegin [XFunc "len" [([QLit SNil], None, num 0);
                       ([QCons (QVar "_") (QVar "t")], None, call "+" [num 1; call "len" [XVar "t"]])];
          XDefun "swap" ["p"] (XMatch (XVar "p") [(QCons (QVar "a") (QVar "b"), None, XList [XVar "b"; XVar "a"])]);
          XLet [("x", call "len" [XList [num 1; num 2]]); ("y", call "swap" [call "cons" [num 3; num 4]])]
            (XBack (TList [TSym (NS "x"); TUnquote (XVar "x");
               TUnquote (XCond [(call "=" [XVar "x"; num 2], call "car" [XVar "y"]);
                                (XLit STrue, XOr [XLit SFalse; call "car" [XVar "y"]])])]))].

Example rich_program_neat :
  ok [] rich_program = true /\ tidy rich_program = true /\ neat [] rich_program = true /\
  (match xprogram gname ab std true 60 rich_program (init no_globals 0) with Some (v, _) => Some v | None => None end) =
  Some (VCons (VSym (NS "x")) (VCons (VNum 2) (VCons (VNum 4) VNil))).
Proof. split; [vm_compute; reflexivity|]. split; [vm_compute; reflexivity|]. split; vm_compute; reflexivity. Qed.

(** ** What goes wrong without neatness

    [of_source x z P]: x is within the other conditions and has the value z,
    and P holds of what the generator writes for it. *)
Definition of_source (x : src) (z : Z) (P : outcome bytes -> mst -> Prop) : Prop :=
  ok [] x = true /\ tidy x = true /\
  (exists n G, xprogram gname ab std true n x (init no_globals 0) = Some (VNum z, G)) /\
  exists fuel e k fs gl nf M0, macroexpand gname ab fuel (show x) 1 = Some (e, k) /\ compile fuel k e = Some (fs, gl) /\ top_frame fs <= nf /\
    m_call (mkM None [] None (VNum 0) (init no_globals 0)) (VClo (mkL (List.length fs - 1) 0 nf) []) [] = Some M0 /\
    P (generate_c demo_gs fs gl) M0.
Ltac source_shows n :=
  split; [vm_compute; reflexivity|]; split; [vm_compute; reflexivity|]; split; [exists n; eexists; vm_compute; reflexivity|];
  exists 60; do 4 eexists; exists 12; eexists; split; [vm_compute; reflexivity|]; split; [vm_compute; reflexivity|]; split; [cbn; repeat constructor|];
  split; [reflexivity|].

(** a let inside a let with the same variable is two declarations in one block:
    (let x 1 (let x 2 (+ x 1))), 3 in the language *)
Theorem shadowing_let_refuted :
  of_source (XLet [("x", num 1)] (XLet [("x", num 2)] (call "+" [XVar "x"; num 1]))) 3 no_meaning.
Proof. source_shows 20. do 4 eexists. exists 0. eexists. repeat (split; [vm_compute; reflexivity|]). vm_compute; reflexivity. Qed.

(** so is a let that binds its variable again: (let x 1 x (+ x 1) (+ x 1)) *)
Theorem rebinding_let_refuted :
  of_source (XLet [("x", num 1); ("x", call "+" [XVar "x"; num 1])] (call "+" [XVar "x"; num 1])) 3 no_meaning.
Proof. source_shows 20. do 4 eexists. exists 0. eexists. repeat (split; [vm_compute; reflexivity|]). vm_compute; reflexivity. Qed.

(** and two lets one after the other: (do (let x 1 x) (let x 2 x)) *)
Theorem sibling_lets_refuted :
  of_source (XDo (XLet [("x", num 1)] (XVar "x")) (XLet [("x", num 2)] (XVar "x"))) 2 no_meaning.
Proof. source_shows 20. do 4 eexists. exists 0. eexists. repeat (split; [vm_compute; reflexivity|]). vm_compute; reflexivity. Qed.

(** a pattern with _ twice: (match (cons 1 2) (cons _ _) 3) *)
Theorem two_wildcards_refuted :
  of_source (XMatch (call "cons" [num 1; num 2]) [(QCons (QVar "_") (QVar "_"), None, num 3)]) 3 no_meaning.
Proof. source_shows 20. do 4 eexists. exists 0. eexists. repeat (split; [vm_compute; reflexivity|]). vm_compute; reflexivity. Qed.

Print Assumptions neat_file_to_c_partial.
