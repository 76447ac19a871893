(** C70: compilation as main.c sets it up, with the partial evaluator. *)
From Coq Require Import List ZArith Bool String Ascii Arith Lia.
From Verif Require Import Base StrModel ReaderModel ReaderSpec ReaderProofs ReaderTerm ReaderProps CoreSpec TocModel TocSem CoreProofs TocParse TocParseSim TocMach TocScope TocWhole TocProps
  TocTotal TocTable NsSpec NsModel NsProofs NsProps MacroModel SurfSpec MacroExp MacroProofs MacroScope MacroProps
  CSpec GenModel GenCond GenSource GenProps TotalProps PreSpec PreModel PreProofs PreProps FineCore FineNs FineSpec FineSurf FineProps
  PevalModel PevalSpec PevalProps CalmSpec CalmProofs HookModel HookProofs.
Import ListNotations.
Local Open Scope list_scope.
Local Open Scope nat_scope.

(** A file is compiled with the partial evaluator installed.  Suppose it leaves
    what match takes apart as it is ([unchanged]) and simplifies the whole
    program carefully (C42), and the simplified program meets the conditions of
    the compiler and the generator and assigns no operand before its use.  Then
    the C file ends with the value that the source program has in the language,
    and with the same globals. *)
Theorem hooked_file_to_c_partial : forall gt exports ar gs t ds x k,
  file_text t ds -> file_means (map form_of ds) x -> ok [] x = true -> tidy x = true ->
  exists F imports e, (forall fuel, F <= fuel -> preprocess false fuel t = Some (Ok (imports, e))) /\
  forall fuel e1 k' c c' ks fs gl, F <= fuel ->
  hboot gt exports (unchanged (installed ar)) fuel e (S k) = Some (e1, k') ->
  nsparse gt exports fuel [] "" [] e1 = Some (PevalSpec.show c) -> wf c = true -> careful ar fuel [] [] c = Some c' ->
  legal k' ks (PevalSpec.show c') = true -> compile fuel k' (PevalSpec.show c') = Some (fs, gl) -> literals (PevalSpec.show c') = true ->
  forallb GenSource.local_ok (locals ks (PevalSpec.show c')) = true -> forallb symbol_ok gl = true -> gensym_texts gs (local_names fs) ->
  exists text d names a, hcompile_to_c gt exports (installed ar) gs false fuel k t = Some (Ok text) /\
    c_file text = Some d /\ c_load d = Some (names, a, 0) /\ gl = map SSym names /\
    forall B g n v G nf kd S, quiet_base B -> definitions kd S (PevalSpec.show c') = true ->
    xprogram gt exports ar false n x (init B g) = Some (v, G) -> top_frame fs <= nf ->
    exists M0 j M1, m_call (mkM None [] None (VNum 0) (init B g)) (VClo (mkL a 0 nf) []) [] = Some M0 /\
      c_steps ar d names j M0 = Some M1 /\ finished M1 = true /\
      looks x_arity l_nargs v (m_res M1) /\ same_globals x_arity l_nargs G (m_G M1).
Proof.
  intros gt exports ar gs t ds x k FT FM HO HT.
  destruct (file_expands gt exports _ x FM t ds FT eq_refl) as (F1 & imports & e & EP & BE).
  exists F1, imports, e. split; [exact EP|]. intros fuel e1 k' c c' ks fs gl HF1 EB EN WF CA HL EC LI LO SO GS. specialize (EP fuel HF1).
  destruct (peval_partial ar fuel c c' WF CA) as (PE & PR).
  pose proof (source_writable gs _ _ _ _ _ _ HL EC LI LO SO GS) as W.
  destruct (written_file_runs gs fs gl W) as (text & d & names & B1 & B2 & B3 & B4 & _ & B5).
  exists text, d, names, (List.length fs - 1). split.
  { unfold hcompile_to_c. rewrite EP. unfold hmacroexpand. rewrite (checked_boot _ _ _ _ _ _ _ EB), EN. unfold installed at 1. rewrite PE, EC, B1. reflexivity. }
  split; [exact B2|]. split; [exact B4|]. split; [exact B3|]. intros B g n v G nf kd S QB DF E HF.
  destruct (expansion_partial gt exports ar false x B g n v G (Datatypes.S k) HO E ltac:(lia)) as (e3 & k3 & f & m & v1 & G1 & EB3 & EV & LV & LG).
  destruct (BE (Datatypes.S k) (e3, k3) ltac:(exists f; exact EB3)) as (f4 & EB4).
  assert (e1 = e3 /\ k' = k3) as (<- & <-).
  { pose proof (checked_plain _ _ _ _ _ _ _ EB) as Q. apply (boot_more _ _ fuel (max fuel f4)) in Q; [|lia]. rewrite EB4 in Q by lia. split; congruence. }
  destruct (SX_all x [] (Datatypes.S k) HO HT) as ((ks0 & SK) & _).
  assert (EX : fst (ex x (Datatypes.S k)) = e1).
  { destruct (R_all gt exports x [] (Datatypes.S k) HO ltac:(lia)) as ((f5 & EB5) & _). specialize (EB5 (max f f5) ltac:(lia)). rewrite EB3 in EB5 by lia. injection EB5 as EB5. now rewrite <- EB5. }
  rewrite EX in SK.
  destruct (namespaces_partial gt exports ar false ks0 e1 B g m v1 G1 (Datatypes.S ks0 + fuel) (SK ks0 (le_n ks0)) (EV m (le_n m)) ltac:(lia)) as (e5 & m2 & v2 & G2 & ER & E2 & A1 & A2).
  unfold rewrite_namespace in ER. rewrite (nsparse_more _ _ fuel (Datatypes.S ks0 + fuel) _ _ _ _ _ ltac:(lia) EN) in ER. injection ER as <-.
  destruct (PR B g m2 v2 G2 (E2 m2 (le_n m2))) as (m3 & v3 & G3 & E3 & A3 & A4).
  pose proof (calm_program ar kd S _ B g m3 _ QB DF (E3 m3 (le_n m3))) as E4.
  destruct (compile_correct_partial ar k' ks fuel _ fs gl B m3 g v3 G3 nf HL EC E4 HF) as (M0 & j & M1 & C1 & C2 & C3 & C4 & C5).
  exists M0, j, M1. rewrite B5. do 3 (split; [assumption|]). split.
  - eapply looks_trans; [|exact C4]. eapply looks_trans; [|exact A3]. eapply looks_trans; eauto.
  - eapply same_globals_trans; [|exact C5]. eapply same_globals_trans; [|exact A4]. eapply same_globals_trans; eauto.
Qed.
Print Assumptions hooked_file_to_c_partial.

(** * Examples *)
Fixpoint read_back (k : nat) (e : sexp) : option cx :=
  match k with
  | O => None
  | S k =>
      match e with
      | SSym x => Some (KV x)
      | SCons h r =>
          if is_sym "quote" h then match r with SCons x SNil => Some (KQ x) | _ => None end
          else
            match view e with
            | FConst s => Some (KC s)
            | FVar x => Some (KV x)
            | FLam ps b => match read_back k b with Some b => Some (KL ps b) | None => None end
            | FIf a b c => match read_back k a, read_back k b, read_back k c with Some a, Some b, Some c => Some (KI a b c) | _, _, _ => None end
            | FDo a b => match read_back k a, read_back k b with Some a, Some b => Some (KD a b) | _, _ => None end
            | FLet x a b => match read_back k a, read_back k b with Some a, Some b => Some (KT x a b) | _, _ => None end
            | FApp f l => match read_back k f, all_some (map (read_back k) l) with Some f, Some l => Some (KA f l) | _, _ => None end
            | FBad => None
            end
      | s => Some (KC s)
      end
  end.

(** [meets e S]: the code e that the file consists of meets all conditions *)
Definition meets (e : sexp) (S : list name) : bool :=
  match hboot gname ab (unchanged (installed std)) 60 e 1 with
  | Some (e1, k') =>
      match nsparse gname ab 60 [] "" [] e1 with
      | Some e2 =>
          match read_back 60 e2 with
          | Some c =>
              match careful std 60 [] [] c with
              | Some c' =>
                  let e' := PevalSpec.show c' in
                  sexp_eqb (PevalSpec.show c) e2 && wf c && legal k' 60 e' && literals e' && forallb GenSource.local_ok (locals 60 e') &&
                  definitions 60 S e' && match compile 60 k' e' with Some (_, gl) => forallb symbol_ok gl | None => false end
              | None => false
              end
          | None => false
          end
      | None => false
      end
  | None => false
  end.

(** the file of C67, and the two programs of C69 that need the partial
    evaluator's help or are helped by it *)
Example hooked_file_to_c_example :
  file_text demo_text [demo_file] /\ file_means [form_of demo_file] (package_src demo_package) /\
  ok [] (package_src demo_package) = true /\ tidy (package_src demo_package) = true /\
  match preprocess false 60 demo_text with Some (Ok (_, e)) => meets e [] = true | _ => False end /\
  match xprogram gname ab std false 40 (package_src demo_package) (init no_globals 0) with Some (v, _) => v = VNum 120 | None => False end.
Proof.
  split; [exact (proj1 file_to_c_example)|]. split; [exact (proj1 (proj2 file_to_c_example))|]. split; [reflexivity|]. split; [reflexivity|].
  split; vm_compute; reflexivity.
Qed.
Local Notation call f l := (XApp (XVar f) l).
Local Notation num z := (XLit (SNum z%Z)).
Local Open Scope string_scope.
(** a counter that is assigned inside a function, and a pattern with _ twice:
    (begin (def n 0) (defun tick () (set 'n (+ n 1))) (tick) (tick)
           (match (cons 1 2) (cons _ _) (+ (tick) n))) *)
Definition counter : src :=
  XBegin [XDef "n" (num 0); XDefun "tick" [] (call "set" [XQuote (SSym (NS "n")); call "+" [XVar "n"; num 1]]);
          call "tick" []; call "tick" [];
          XMatch (call "cons" [num 1; num 2]) [(QCons (QVar "_") (QVar "_"), None, call "+" [call "tick" []; XVar "n"])]].
Example hooked_examples :
  meets (SurfSpec.show rich_program) [] = true /\ neat [] counter = false /\ meets (SurfSpec.show counter) [NS "n"] = true /\
  match xprogram gname ab std false 40 counter (init no_globals 0) with Some (v, _) => v = VNum 6 | None => False end.
Proof. split; [vm_compute; reflexivity|]. split; [vm_compute; reflexivity|]. split; vm_compute; reflexivity. Qed.

(** * Without the conditions *)

(** [of_hooked x v P]: x has the value v in the language, and P holds of what
    is written for it with the partial evaluator installed *)
Definition of_hooked (x : src) (v : xval) (P : outcome bytes -> mst -> Prop) : Prop :=
  ok [] x = true /\ tidy x = true /\
  (exists n G, xprogram gname ab std false n x (init no_globals 0) = Some (v, G)) /\
  exists fuel e k fs gl nf M0, hmacroexpand gname ab (installed std) fuel (SurfSpec.show x) 1 = Some (e, k) /\ compile fuel k e = Some (fs, gl) /\ top_frame fs <= nf /\
    m_call (mkM None [] None (VNum 0) (init no_globals 0)) (VClo (mkL (List.length fs - 1) 0 nf) []) [] = Some M0 /\
    P (generate_c demo_gs fs gl) M0.
Ltac hooked_shows n :=
  split; [vm_compute; reflexivity|]; split; [vm_compute; reflexivity|]; split; [exists n; eexists; vm_compute; reflexivity|];
  exists 60; do 4 eexists; exists 12; eexists; split; [vm_compute; reflexivity|]; split; [vm_compute; reflexivity|]; split; [cbn; repeat constructor|];
  split; [reflexivity|].

(** The partial evaluator takes the car of a pair whose head is a global
    variable, and puts the variable itself where its value was meant: an operand
    that is assigned before it is used.
    (do (def y 1) (cons (car (cons y 0)) (set 'y 2))) is (1 . 2) in the language
    and (2 . 2) in C.  The program is neat: without the hook C69 applies to it. *)
Definition late_read : src :=
  XDo (XDef "y" (num 1)) (call "cons" [call "car" [call "cons" [XVar "y"; num 0]]; call "set" [XQuote (SSym (NS "y")); num 2]]).
Theorem hooked_operand_refuted : neat [] late_read = true /\ of_hooked late_read (VCons (VNum 1) (VNum 2)) (c_gives (VCons (VNum 2) (VNum 2))).
Proof. split; [vm_compute; reflexivity|]. hooked_shows 20. do 4 eexists. exists 1. eexists. repeat (split; [vm_compute; reflexivity|]). vm_compute; reflexivity. Qed.

(** A let that shadows another one survives unless its value is a constant:
    (do (def f (lambda (y) (let x (+ y 1) (let x (+ x 1) (+ x x))))) (f 1)) is 6 in
    the language; in C x is declared twice in one block *)
Theorem hooked_shadowing_refuted :
  of_hooked (XDo (XDef "f" (XLam ["y"] (XLet [("x", call "+" [XVar "y"; num 1])] (XLet [("x", call "+" [XVar "x"; num 1])] (call "+" [XVar "x"; XVar "x"])))))
    (call "f" [num 1])) (VNum 6) no_meaning.
Proof. hooked_shows 20. do 4 eexists. exists 1. eexists. repeat (split; [vm_compute; reflexivity|]). vm_compute; reflexivity. Qed.

(** match simplifies its value before it decides whether to compute it once;
    the variable that is left is then hidden by the pattern:
    (do (defun g (p) (match (car (cons p 0)) (cons p q) q)) (g (cons (cons 1 5) 2)))
    is 2 in the language; the expanded program gives 5 *)
Theorem hooked_match_refuted : exists x, ok [] x = true /\ tidy x = true /\
  (exists n G, xprogram gname ab std false n x (init no_globals 0) = Some (VNum 2, G)) /\
  (exists e k n G, macroexpand gname ab n (SurfSpec.show x) 1 = Some (e, k) /\ program std false n e (init no_globals 0) = Some (VNum 2, G)) /\
  exists e k n G, hmacroexpand gname ab (installed std) n (SurfSpec.show x) 1 = Some (e, k) /\ program std false n e (init no_globals 0) = Some (VNum 5, G).
Proof.
  exists (XDo (XDefun "g" ["p"] (XMatch (call "car" [call "cons" [XVar "p"; num 0]]) [(QCons (QVar "p") (QVar "q"), None, XVar "q")]))
                  (call "g" [call "cons" [call "cons" [num 1; num 5]; num 2]])).
  split; [vm_compute; reflexivity|]. split; [vm_compute; reflexivity|]. split; [exists 30; eexists; vm_compute; reflexivity|].
  split; (do 2 eexists; exists 40; eexists; split; [vm_compute; reflexivity|]; vm_compute; reflexivity).
Qed.

(** Why operands have to be steady: (begin (def n 0) (defun tick () (set 'n (+ n 1)))
    (+ n (tick))) is neat and is 1 in the language; in C, with or without the
    partial evaluator, n is read after the call, which gives 2 *)
Definition unsteady : src :=
  XBegin [XDef "n" (num 0); XDefun "tick" [] (call "set" [XQuote (SSym (NS "n")); call "+" [XVar "n"; num 1]]);
          call "+" [XVar "n"; call "tick" []]].
Theorem unsteady_operand_refuted : neat [] unsteady = true /\ of_hooked unsteady (VNum 1) (c_gives (VNum 2)).
Proof. split; [vm_compute; reflexivity|]. hooked_shows 20. do 4 eexists. exists 3. eexists. repeat (split; [vm_compute; reflexivity|]). vm_compute; reflexivity. Qed.
Example unsteady_seen : match macroexpand gname ab 40 (SurfSpec.show unsteady) 1 with
  | Some (e, _) => definitions 40 [NS "n"] e = false
  | None => False
  end.
Proof. vm_compute. reflexivity. Qed.

Print Assumptions calm_program.
Print Assumptions hooked_operand_refuted.
Print Assumptions hooked_match_refuted.
