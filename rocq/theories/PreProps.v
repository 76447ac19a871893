(** Theorems of record about source files (C67). *)
From Coq Require Import List ZArith Bool String Ascii Arith Lia.
From Verif Require Import Base StrModel ReaderModel ReaderSpec ReaderProofs ReaderTerm ReaderProps CoreSpec TocModel TocSem CoreProofs TocParse TocMach TocScope TocWhole TocProps
  NsSpec NsModel NsProofs NsProps MacroModel SurfSpec MacroExp MacroProofs MacroScope MacroProps
  CSpec GenModel GenCond GenSource GenProps PreSpec PreModel PreProofs.
Import ListNotations.
Local Open Scope list_scope.
Local Open Scope nat_scope.

(** * Expanding whole files *)
Lemma sexp_not_inside : forall x h, x <> SCons h (SCons x SNil).
Proof.
  intros x h H.
  assert (X : forall s : sexp, exists n : nat, (fix size (s : sexp) : nat := match s with SCons a d => S (size a + size d) | _ => 1 end) s = n) by eauto.
  set (size := fix size (s : sexp) : nat := match s with SCons a d => S (size a + size d) | _ => 1 end) in *.
  assert (Y : size x = size (SCons h (SCons x SNil))) by now f_equal.
  cbn in Y. lia.
Qed.
Lemma bx_begin : forall gt exports x n r, BX gt exports x n r -> BX gt exports (seq_of [SSym (NS "begin"); x]) n r.
Proof.
  intros gt exports x n r H. eapply (bx_macro_neq gt exports "begin" MBegin (SCons x SNil) n x n); try reflexivity; [|exact H].
  apply sexp_not_inside.
Qed.
Lemma bx_sequence : forall gt exports xs n r, xs <> [] -> BX gt exports (show (sequence xs)) n r ->
  BX gt exports (seq_of (SSym (NS "begin") :: map show xs)) n r.
Proof.
  intros gt exports [|x [|y xs]] n r N H; [contradiction| |exact H]. now apply bx_begin.
Qed.

Lemma parse_clauses : forall h bs acc ex, match bs with e :: _ => header_form e = false | [] => True end ->
  parse_package (seq_of (map show_clause h ++ bs)) acc ex =
    (rev acc ++ map SStr (pk_imports h),
     fold_left (fun ex c => match c with Export xs => seq_of (map (fun x => SSym (NS x)) xs) | Import _ => ex end) h ex, seq_of bs).
Proof.
  induction h as [|c h IH]; intros bs acc ex HB.
  - cbn [map app pk_imports flat_map fold_left]. rewrite app_nil_r. rewrite <- (rev_involutive acc) at 1.
    destruct bs as [|e bs]; [cbn; now rewrite rev_involutive|]. change (seq_of (e :: bs)) with (SCons e (seq_of bs)).
    rewrite rev_involutive. cbn [parse_package].
    destruct e as [z|x|s| | | |i t]; try reflexivity. unfold header_form in HB.
    destruct i as [z|[n|k]|s| | | |i1 i2]; try (destruct t as [| | | | | |? [| | | | | |]]; reflexivity).
    cbn [headed import_form] in HB. rewrite !is_sym_eq. apply orb_false_elim in HB as (B1 & B2). rewrite B1.
    destruct t as [| | | | | |lib [| | | | | |]]; try reflexivity. destruct (String.eqb n "import"); [discriminate|reflexivity].
  - cbn [map app]. change (seq_of (show_clause c :: ?l)) with (SCons (show_clause c) (seq_of l)).
    destruct c as [p|xs]; cbn [show_clause].
    + change (seq_of [SSym (NS "import"); SStr p]) with (SCons (SSym (NS "import")) (SCons (SStr p) SNil)).
      cbn [parse_package]. change (is_sym "import" (SSym (NS "import"))) with true. cbv iota. rewrite IH by exact HB.
      cbn [rev pk_imports flat_map app map fold_left]. rewrite <- app_assoc. reflexivity.
    + assert (X : parse_package (SCons (seq_of (SSym (NS "export") :: map (fun x => SSym (NS x)) xs)) (seq_of (map show_clause h ++ bs))) acc ex
        = parse_package (seq_of (map show_clause h ++ bs)) acc (seq_of (map (fun x => SSym (NS x)) xs))).
      { destruct xs as [|x [|y xs]]; reflexivity. }
      rewrite X, IH by exact HB. reflexivity.
Qed.
Lemma one_export : forall h,
  List.length (filter (fun c => match c with Export _ => true | Import _ => false end) h) <= 1 ->
  fold_left (fun ex c => match c with Export xs => seq_of (map (fun x => SSym (NS x)) xs) | Import _ => ex end) h SNil
    = seq_of (map (fun x => SSym (NS x)) (pk_exports h)).
Proof.
  assert (Z : forall h ex, List.length (filter (fun c => match c with Export _ => true | Import _ => false end) h) = 0 ->
    fold_left (fun ex c => match c with Export xs => seq_of (map (fun x => SSym (NS x)) xs) | Import _ => ex end) h ex = ex /\ pk_exports h = []).
  { induction h as [|[p|xs] h IH]; intros ex H; cbn in *; [auto|now apply IH|discriminate]. }
  induction h as [|[p|xs] h IH]; intro H; cbn [filter List.length fold_left pk_exports flat_map app] in *; [reflexivity|now apply IH|].
  destruct (Z h (seq_of (map (fun x => SSym (NS x)) xs)) ltac:(lia)) as (-> & E). unfold pk_exports in E. rewrite E, app_nil_r. reflexivity.
Qed.
(** * The package form *)
Lemma package_expands : forall p, proper p = true -> rewrite_package (show_package p) = Some (show (package_src p)).
Proof.
  intros [q h b] HP. unfold proper in HP. cbn [pk_header pk_body] in HP. apply andb_prop in HP as (H1 & H2). apply Nat.leb_le in H1.
  unfold show_package, package_src. cbn [pk_name pk_header pk_body].
  change (seq_of (SSym (NS "package") :: SStr q :: ?l)) with (SCons (SSym (NS "package")) (SCons (SStr q) (seq_of l))).
  cbn [rewrite_package ocadr ocddr ocdr ocar]. rewrite parse_clauses.
  2: { destruct b as [|x b]; [exact I|]. cbn [map]. now apply negb_true_iff in H2. }
  rewrite one_export by exact H1. cbn [rev app]. f_equal.
  set (w := match pk_exports h with [] => TData SNil | _ => _ end).
  assert (EX : seq_of (map (fun x => SSym (NS x)) (pk_exports h)) = show_tmpl w).
  { unfold w. destruct (pk_exports h) as [|x l]; [reflexivity|]. cbn [show_tmpl]. rewrite map_map. reflexivity. }
  rewrite EX.
  assert (EB : fold_right SCons
      (SCons (of_list [ssym "def"; ssym "*ns-export*"; of_list [ssym "backquote"; show_tmpl w]]) (seq_of (map show b)))
      (map (fun i => of_list [ssym "import"; i]) (map SStr (pk_imports h)))
    = seq_of (map show (map (fun q => XApp (XVar "import") [XLit (SStr q)]) (pk_imports h) ++ XDef "*ns-export*" (XBack w) :: b))).
  { rewrite map_app, !map_map. unfold seq_of at 2. rewrite fold_right_app. reflexivity. }
  rewrite EB, (of_list_seq (map SStr (pk_imports h))). reflexivity.
Qed.
Lemma bx_package : forall gt exports p n r, proper p = true -> BX gt exports (show (package_src p)) n r -> BX gt exports (show_package p) n r.
Proof.
  intros gt exports p n r HP H. pose proof (package_expands p HP) as E. unfold show_package in *.
  change (seq_of (SSym (NS "package") :: ?t)) with (SCons (SSym (NS "package")) (seq_of t)) in *.
  eapply (bx_macro_neq gt exports "package" MPackage _ n (show (package_src p)) n); try reflexivity; [| |exact H].
  - intro mx. cbn [expand]. rewrite E. reflexivity.
  - discriminate.
Qed.

(** * From the text to the program to compile *)

(** [prepared tc l]: what the forms [l] of a file become *)
Lemma file_prepared : forall tc l e, split_type_and_code_toplevel tc (whole SCons SNil (SSym (NS "begin")) l) = Some e ->
  forall t ds, file_text t ds -> map form_of ds = l -> l <> [] ->
  exists F, forall fuel, F <= fuel -> preprocess tc fuel t = Some (Ok (handle_import_eagerly (whole SCons SNil (SSym (NS "begin")) l), e)).
Proof.
  intros tc l e E t ds FT <- N. assert (N' : ds <> []) by (intros ->; now apply N).
  destruct (read_file_text t ds FT N') as (F & R). exists F. intros fuel Hf. unfold preprocess. rewrite R by exact Hf.
  rewrite form_of_whole by exact N'. rewrite E. reflexivity.
Qed.

(** A file of two forms or more *)
Theorem forms_prepared : forall tc t ds, file_text t ds -> 2 <= List.length ds ->
  forallb (fun e => negb (bare e)) (map form_of ds) = true ->
  exists F, forall fuel, F <= fuel -> preprocess tc fuel t =
    Some (Ok (imported (map form_of ds), seq_of (SSym (NS "begin") :: compiled_forms tc (map form_of ds)))).
Proof.
  intros tc t ds FT HL B. set (l := map form_of ds) in *.
  assert (W : whole SCons SNil (SSym (NS "begin")) l = seq_of (SSym (NS "begin") :: l)).
  { assert (HL2 : 2 <= List.length l) by (unfold l; now rewrite map_length). destruct l as [|a [|b l']]; cbn in HL2; try lia. reflexivity. }
  destruct (file_prepared tc l (seq_of (SSym (NS "begin") :: compiled_forms tc l)) ltac:(rewrite W; now apply split_begin) t ds FT eq_refl) as (F & E).
  { unfold l. destruct ds; [cbn in HL; lia|discriminate]. }
  exists F. intros fuel Hf. rewrite E, W by exact Hf. do 3 f_equal. rewrite <- (eager_forms l B).
  change (seq_of (SSym (NS "begin") :: l)) with (SCons (SSym (NS "begin")) (seq_of l)). cbn [handle_import_eagerly]. destruct (seq_of l); reflexivity.
Qed.

(** A file that is one package form *)
Theorem package_prepared : forall tc t d p l, file_text t [d] -> form_of d = seq_of (SSym (NS "package") :: p :: l) ->
  forallb (fun e => negb (bare e)) l = true ->
  exists F, forall fuel, F <= fuel -> preprocess tc fuel t =
    Some (Ok (imported l, seq_of (SSym (NS "package") :: p :: compiled_forms tc l))).
Proof.
  intros tc t d p l FT E B.
  destruct (file_prepared tc [form_of d] (seq_of (SSym (NS "package") :: p :: compiled_forms tc l)) ltac:(cbn [whole]; rewrite E; now apply split_package)
              t [d] FT eq_refl ltac:(discriminate)) as (F & X).
  exists F. intros fuel Hf. rewrite X by exact Hf. do 3 f_equal. cbn [whole]. rewrite E, <- (eager_forms l B). reflexivity.
Qed.

(** A file that is one form of another kind *)
Theorem single_prepared : forall tc t d, file_text t [d] -> headed "package" (form_of d) = false -> headed "begin" (form_of d) = false ->
  exists F, forall fuel, F <= fuel -> exists imports, preprocess tc fuel t =
    Some (Ok (imports, seq_of (SSym (NS "begin") :: (if tc then [type_code (form_of d)] else []) ++ code [form_of d]))).
Proof.
  intros tc t d FT H1 H2.
  destruct (file_prepared tc [form_of d] _ ltac:(cbn [whole]; now apply split_single) t [d] FT eq_refl ltac:(discriminate)) as (F & X).
  exists F. intros fuel Hf. eexists. apply X. exact Hf.
Qed.

(** Without type checking: what is compiled expands as the program that the file is *)
Lemma file_expands : forall gt exports l x, file_means l x -> forall t ds, file_text t ds -> map form_of ds = l ->
  exists F imports e, (forall fuel, F <= fuel -> preprocess false fuel t = Some (Ok (imports, e))) /\
    forall n r, BX gt exports (show x) n r -> BX gt exports e n r.
Proof.
  intros gt exports l x FM t ds FT EL.
  assert (X : exists e, split_type_and_code_toplevel false (whole SCons SNil (SSym (NS "begin")) l) = Some e /\
      forall n r, BX gt exports (show x) n r -> BX gt exports e n r).
  { destruct FM as [l xs HL B EC N|x H1 H2 H3|l xs B EC N|l p B EC HP].
    - exists (seq_of (SSym (NS "begin") :: code l)).
      assert (W : whole SCons SNil (SSym (NS "begin")) l = seq_of (SSym (NS "begin") :: l)) by (destruct l as [|a [|b l']]; cbn in HL; try lia; reflexivity).
      rewrite W, split_begin by exact B. split; [reflexivity|]. intros n r H. rewrite EC. now apply bx_sequence.
    - exists (seq_of [SSym (NS "begin"); show x]). cbn [whole]. rewrite split_single by assumption. cbn [app code filter]. rewrite H3. cbn [negb].
      split; [reflexivity|]. intros n r H. now apply bx_begin.
    - exists (seq_of (SSym (NS "begin") :: code l)). cbn [whole]. rewrite split_begin by exact B. split; [reflexivity|]. intros n r H. rewrite EC. now apply bx_sequence.
    - exists (show_package p). cbn [whole]. rewrite split_package by exact B. unfold compiled_forms. rewrite EC. split; [reflexivity|].
      intros n r H. now apply bx_package. }
  destruct X as (e & E & H).
  assert (N : l <> []) by (destruct FM; try discriminate; destruct l; [cbn in *; lia|discriminate]).
  destruct (file_prepared false l e E t ds FT EL N) as (F & P). eauto.
Qed.

(** * From the text to C *)

(** A program in a file, type checking switched off: with enough fuel, what is
    compiled expands to a core program; and if that is legal, has names and
    literals that C can express and compiles, then the text that compile-to-c
    writes is a C file that computes what the program computes. *)
Theorem file_to_c_partial : forall gt exports ar gs t ds x B g n v G k,
  file_text t ds -> file_means (map form_of ds) x ->
  ok [] x = true -> tidy x = true -> xprogram gt exports ar true n x (init B g) = Some (v, G) ->
  exists F, forall fuel, F <= fuel -> exists imports e e' k',
    preprocess false fuel t = Some (Ok (imports, e)) /\ macroexpand gt exports fuel e (S k) = Some (e', k') /\
    forall ks fs gl nf, legal k' ks e' = true -> compile fuel k' e' = Some (fs, gl) ->
      literals e' = true -> forallb GenSource.local_ok (locals ks e') = true -> forallb symbol_ok gl = true -> gensym_texts gs (local_names fs) ->
      top_frame fs <= nf ->
      exists text d names a M0 j M1, compile_to_c gt exports gs false fuel k t = Some (Ok text) /\
        c_file text = Some d /\ c_load d = Some (names, a, 0) /\
        m_call (mkM None [] None (VNum 0) (init B g)) (VClo (mkL a 0 nf) []) [] = Some M0 /\
        c_steps ar d names j M0 = Some M1 /\ finished M1 = true /\
        looks x_arity l_nargs v (m_res M1) /\ same_globals x_arity l_nargs G (m_G M1).
Proof.
  intros gt exports ar gs t ds x B g n v G k FT FM HO HT E.
  destruct (file_expands gt exports _ x FM t ds FT eq_refl) as (F1 & imports & e & EP & BE).
  destruct (expansion_partial gt exports ar true x B g n v G (S k) HO E ltac:(lia)) as (e1 & k1 & f & m & v1 & G1 & EB & EM & LV & LG).
  destruct (BE (S k) (e1, k1) ltac:(now exists f)) as (f3 & EB3).
  assert (exists ks, scoped ks e1 = true) as (ks0 & SK).
  { destruct (R_all gt exports x [] (S k) HO ltac:(lia)) as ((f2 & EB2) & _). specialize (EB2 (max f f2) ltac:(lia)).
    rewrite EB in EB2 by lia. injection EB2 as EE. destruct (SX_all x [] (S k) HO HT) as ((ks & SK) & _).
    exists ks. rewrite <- EE in SK. cbn in SK. now apply SK. }
  exists (max F1 (max f3 (S ks0))). intros fuel Hf.
  destruct (namespaces_partial gt exports ar true ks0 e1 B g m v1 G1 fuel SK (EM m (le_n m)) ltac:(lia)) as (e2 & m2 & v2 & G2 & ER & E2 & A1 & A2).
  unfold rewrite_namespace in ER.
  assert (EX : macroexpand gt exports fuel e (S k) = Some (e2, k1)) by (unfold macroexpand; rewrite EB3 by lia; rewrite ER; reflexivity).
  exists imports, e, e2, k1. split; [apply EP; lia|]. split; [exact EX|].
  intros ks fs gl nf HL EC H1 H2 H3 H4 HF.
  destruct (source_to_c_partial ar gs k1 ks fuel e2 fs gl B m2 g v2 G2 nf HL EC H1 H2 H3 H4 (E2 m2 (le_n m2)) HF)
    as (text & d & names & a & M0 & j & M1 & C1 & C2 & C3 & C4 & C5 & C6 & C7 & C8).
  exists text, d, names, a, M0, j, M1.
  split. { unfold compile_to_c. rewrite EP by lia. rewrite EX, EC, C1. reflexivity. }
  do 5 (split; [assumption|]). split; [eapply looks_trans; [|exact C7]; eapply looks_trans; eauto|].
  eapply same_globals_trans; [|exact C8]. eapply same_globals_trans; eauto.
Qed.

(** * Examples *)
Lemma print_file : forall d t, printable d -> printObj d = Ok t -> file_text t [d].
Proof.
  intros d t P E. destruct print_reads as [H _]. destruct (H d P) as (t' & b & E' & R & _). rewrite E in E'. injection E' as <-.
  rewrite <- (app_nil_r t). apply (ft_form [] t d b [] []); [constructor|exact R|intros _; exact I|].
  apply ft_end. exists [], []. split; [reflexivity|]. split; [constructor|now left].
Qed.
Lemma minus_symbol : symbol_name [cMI].
Proof.
  split; [discriminate|]. split; [intros c [<-|[]]; split; [apply ident_delim; reflexivity|discriminate]|].
  split; [intros c t' E Dg; injection E as <- <-; apply isdigit_char in Dg; discriminate|].
  split; [intros t' z E Dc; injection E as <-; apply decimal_spec in Dc as (N & _); now apply N|]. split; discriminate.
Qed.
Ltac prints :=
  repeat first [apply pl_cons | apply pl_nil | apply pr_true | apply pr_false | apply pr_num; lia
               | apply pr_sym; [first [exact minus_symbol|sym_tac]|cbn; lia|intros [? E]; discriminate]
               | apply pr_str; split; [cbn; lia|]; cbn; intuition (subst; discriminate)
               | apply pr_list].

Local Notation W s := (DSym (ReaderProps.str s)).
Local Notation "'D' l" := (dlist l) (at level 9, l at level 0).

(** (package "m" (export fact) (:declare fact (-> int int))
      (defun fact (n) (if (= n 0) 1 (let p (- n 1) (\* n (fact p)))))
      (fact 5)) *)
Definition demo_file : datum :=
  D [W "package"; DStr (ReaderProps.str "m"); D [W "export"; W "fact"]; D [W ":declare"; W "fact"; D [W "->"; W "int"; W "int"]];
     D [W "defun"; W "fact"; D [W "n"];
        D [W "if"; D [W "="; W "n"; DNum 0]; DNum 1; D [W "let"; W "p"; D [W "-"; W "n"; DNum 1]; D [W "*"; W "n"; D [W "fact"; W "p"]]]]];
     D [W "fact"; DNum 5]].
Local Notation call f l := (XApp (XVar f) l).
Local Notation num z := (XLit (SNum z%Z)).
Local Open Scope string_scope.
Definition demo_package : package :=
  mkPackage "m" [Export ["fact"]]
    [XDefun "fact" ["n"] (XIf (call "=" [XVar "n"; num 0]) (num 1)
       (XLet [("p", call "-" [XVar "n"; num 1])] (call "*" [XVar "n"; call "fact" [XVar "p"]])));
     call "fact" [num 5]].
Local Close Scope string_scope.
Definition demo_text : bytes := match printObj demo_file with Ok t => t | _ => [] end.

Example file_to_c_example :
  file_text demo_text [demo_file] /\ file_means [form_of demo_file] (package_src demo_package) /\
  ok [] (package_src demo_package) = true /\ tidy (package_src demo_package) = true /\
  (match xprogram gname ab std true 40 (package_src demo_package) (init no_globals 0) with
   | Some (v, G) => v = VNum 120 /\ g_val G (NS "m#*ns-export*") = Some (VCons (VSym (NS "fact")) VNil)
   | None => False
   end) /\
  match preprocess false 60 demo_text with
  | Some (Ok (imports, e)) =>
      imports = [] /\
      match macroexpand gname ab 60 e 1 with
      | Some (e', k') =>
          legal k' 60 e' = true /\ literals e' = true /\ forallb GenSource.local_ok (locals 60 e') = true /\
          match compile 60 k' e' with
          | Some (fs, gl) => forallb symbol_ok gl = true /\ top_frame fs <= 3 /\
              match compile_to_c gname ab demo_gs false 60 0 demo_text with
              | Some (Ok text) => 1000 < List.length text /\
                  match c_file text, m_start fs 3 (init no_globals 0) with
                  | Some d, Some M0 =>
                      match c_load d with
                      | Some (names, _, _) =>
                          match c_steps std d names 12 M0 with Some M1 => finished M1 = true /\ m_res M1 = VNum 120 | None => False end
                      | None => False
                      end
                  | _, _ => False
                  end
              | _ => False
              end
          | None => False
          end
      | None => False
      end
  | _ => False
  end.
Proof.
  split. { apply print_file; [|vm_compute; reflexivity]. unfold demo_file. cbn [dlist]. prints. }
  split. { apply (fm_package (skipn 2 (cells (form_of demo_file))) demo_package); reflexivity. }
  split; [reflexivity|]. split; [reflexivity|]. split; [vm_compute; auto|].
  vm_compute. repeat split; repeat constructor.
Qed.

(** two forms and an annotation, and a comment that the end of the file ends *)
Definition lines_text : bytes :=
  ReaderProps.str "(import ""a"")" ++ cNL :: ReaderProps.str "(:type 1)" ++ cNL :: ReaderProps.str "(f 2) ; done".
Example forms_prepared_example :
  (exists ds, file_text lines_text ds /\ 2 <= List.length ds /\ forallb (fun e => negb (bare e)) (map form_of ds) = true) /\
  preprocess false 20 lines_text = Some (Ok ([SStr "a"],
    seq_of [SSym (NS "begin"); seq_of [SSym (NS "import"); SStr "a"]; seq_of [SSym (NS "f"); SNum 2]])) /\
  preprocess true 20 lines_text = Some (Ok ([SStr "a"],
    seq_of [SSym (NS "begin"); seq_of [SSym (NS "import"); SStr "a"]; seq_of [SSym (NS "begin"); SNum 1];
            type_code (seq_of [SSym (NS "f"); SNum 2]); seq_of [SSym (NS "f"); SNum 2]])).
Proof.
  split; [|split; vm_compute; reflexivity].
  assert (P : forall d, printable d -> exists t b, printObj d = Ok t /\ reads t d b).
  { intros d P. destruct print_reads as [H _]. destruct (H d P) as (t & b & E & R & _). eauto. }
  assert (NL : forall w, layout w -> layout (cNL :: w)) by (intros w L; apply lay_blank; [apply isspace_blank; reflexivity|exact L]).
  destruct (P (D [W "import"; DStr (ReaderProps.str "a")]) ltac:(cbn [dlist]; prints)) as (t1 & b1 & E1 & R1).
  destruct (P (D [W ":type"; DNum 1]) ltac:(cbn [dlist]; prints)) as (t2 & b2 & E2 & R2).
  destruct (P (D [W "f"; DNum 2]) ltac:(cbn [dlist]; prints)) as (t3 & b3 & E3 & R3).
  vm_compute in E1, E2, E3. injection E1 as <-. injection E2 as <-. injection E3 as <-.
  exists [D [W "import"; DStr (ReaderProps.str "a")]; D [W ":type"; DNum 1]; D [W "f"; DNum 2]]. split; [|split; [repeat constructor|reflexivity]].
  assert (F3 : file_text (ReaderProps.str " ; done") []).
  { apply ft_end. exists [cSP], (ReaderProps.str "; done"). split; [reflexivity|]. split; [apply lay_blank; [apply isspace_blank; reflexivity|constructor]|].
    right. exists (ReaderProps.str " done"). split; [reflexivity|]. cbn. intuition discriminate. }
  pose proof (fun H => ft_form [cNL] _ _ _ _ _ (NL _ lay_nil) R3 H F3) as F2. specialize (F2 ltac:(intros _; left; apply isspace_blank; reflexivity)).
  pose proof (fun H => ft_form [cNL] _ _ _ _ _ (NL _ lay_nil) R2 H F2) as F1. specialize (F1 ltac:(intros _; left; apply isspace_blank; reflexivity)).
  pose proof (fun H => ft_form [] _ _ _ _ _ lay_nil R1 H F1) as F0. exact (F0 ltac:(intros _; left; apply isspace_blank; reflexivity)).
Qed.

Print Assumptions forms_prepared.
Print Assumptions package_prepared.
Print Assumptions single_prepared.
Print Assumptions file_to_c_partial.

(** * Without the conditions *)

(** "1 '" is not a sequence of forms, but it is compiled: as 1 *)
Theorem unfinished_file_refuted : exists t, (forall l, ~ file_text t l) /\
  exists e, forall fuel, 4 <= fuel -> preprocess false fuel t = Some (Ok ([], e)).
Proof.
  exists (ReaderProps.str "1 '"). split.
  - assert (L : forall w, layout w -> ~ In cSC w -> ~ In cQT w).
    { induction 1 as [|c w HB _ IH|t w _ _ _]; intros N HI; [exact HI| |].
      - destruct HI as [->|HI]; [apply isspace_blank in HB; discriminate|]. apply IH; [|exact HI]. intro K. apply N. now right.
      - apply N. now left. }
    assert (LE : forall w, layout_end w -> ~ In cSC w -> ~ In cQT w).
    { intros w (w1 & w2 & -> & LW & H) N HI. apply in_app_or in HI as [HI|HI].
      - eapply L; eauto. intro K. apply N. apply in_or_app. now left.
      - destruct H as [->|(t & -> & _)]; [exact HI|]. apply N. apply in_or_app. right. now left. }
    assert (NS : ~ In cSC (ReaderProps.str "1 '")) by (vm_compute; intuition discriminate).
    intros l FT. pose proof FT as FT'. destruct (read_loop_text _ _ FT) as (F & E).
    specialize (E (S (max 4 (List.length l))) (max 4 F) [] ltac:(lia) ltac:(lia)).
    assert (EV : forall n f, 4 <= n -> 4 <= f -> read_loop n f (ReaderProps.str "1 '") [] = Some (Ok [DNum 1])).
    { intros [|[|[|[|n]]]] [|[|[|[|f]]]] H1 H2; try lia. reflexivity. }
    rewrite EV, app_nil_r in E by lia. injection E as E.
    assert (EL : l = [DNum 1]) by (rewrite <- (rev_involutive l), <- E; reflexivity). subst l. clear E.
    remember (ReaderProps.str "1 '") as s eqn:ES. inversion FT' as [|w t d b r l' LW R HB FR E1 E2]; subst d l'.
    inversion FR as [w' LE'|]; subst w'.
    assert (HQ : In cQT (w ++ t ++ r)) by (rewrite E1, ES; vm_compute; tauto).
    assert (HS : ~ In cSC (w ++ t ++ r)) by (rewrite E1; exact NS).
    assert (HT : ~ In cQT t).
    { assert (DN : forall t z, decimal t z -> ~ In cQT t).
      { intros t0 z Dc HI. apply decimal_spec in Dc as (_ & Dc & _). rewrite forallb_forall in Dc. specialize (Dc _ HI). discriminate. }
      inversion R as [t0 z Dc H1 H2|t0 z Dc H1 H2| | | | | | | | ]; subst.
      - eapply DN; eauto.
      - intros [H|H]; [discriminate|]. eapply DN; eauto.
      - match goal with H : reads_items _ (DNum _) |- _ => inversion H end. }
    apply in_app_or in HQ as [HQ|HQ]; [|apply in_app_or in HQ as [HQ|HQ]].
    + eapply L; eauto. intro K. apply HS. apply in_or_app. now left.
    + now apply HT.
    + eapply LE; eauto. intro K. apply HS. apply in_or_app. right. apply in_or_app. now right.
  - eexists. intros [|[|[|[|fuel]]]] H; try lia. reflexivity.
Qed.
Print Assumptions unfinished_file_refuted.

(** a file without forms: car of the empty list *)
Theorem empty_file_refuted : exists t, file_text t [] /\ forall fuel, 1 <= fuel -> preprocess false fuel t = Some UB.
Proof.
  exists []. split; [apply ft_end; exists [], []; split; [reflexivity|split; [constructor|now left]]|].
  intros [|fuel] H; [lia|reflexivity].
Qed.
Print Assumptions empty_file_refuted.

(** (package "m" (export f) (export g) 1): only g is exported *)
Theorem two_exports_refuted : exists p e' k' G G', proper p = false /\
  xprogram gname ab std true 40 (package_src p) (init no_globals 0) = Some (VNum 1, G) /\
  g_val G (NS "m#*ns-export*") = Some (VCons (VSym (NS "f")) (VCons (VSym (NS "g")) VNil)) /\
  macroexpand gname ab 60 (show_package p) 1 = Some (e', k') /\
  program std true 200 e' (init no_globals 0) = Some (VNum 1, G') /\
  g_val G' (NS "m#*ns-export*") = Some (VCons (VSym (NS "g")) VNil).
Proof.
  exists (mkPackage "m" [Export ["f"%string]; Export ["g"%string]] [XLit (SNum 1)]). do 4 eexists.
  split; [reflexivity|]. split; [vm_compute; reflexivity|]. split; [reflexivity|]. split; [vm_compute; reflexivity|].
  split; [vm_compute; reflexivity|]. reflexivity.
Qed.
Print Assumptions two_exports_refuted.
