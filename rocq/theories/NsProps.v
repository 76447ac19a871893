(** Theorems of record about names in packages (C39). *)
From Coq Require Import List ZArith Bool String Arith Lia.
From Verif Require Import Base CoreSpec TocModel TocSem CoreProofs TocParse TocParseSim TocMach TocScope TocWhole TocProps
  EvalRel NsSpec NsModel NsProofs.
Import ListNotations.
Local Open Scope list_scope.
Local Open Scope nat_scope.

(** * C39 *)

(** Whatever the package and its imports, a name with a local binder is left
    alone, and so is quoted data. *)
Theorem local_untouched : forall gt exports k env ns imps x, In x env ->
  nsparse gt exports (S k) env ns imps (SSym x) = Some (SSym x).
Proof.
  intros gt exports k env ns imps x H. cbn [nsparse]. destruct (mem_spec x env); [reflexivity|contradiction].
Qed.
Theorem quoted_untouched : forall gt exports k env ns imps s,
  nsparse gt exports (S k) env ns imps (of_list [ssym "quote"; s]) = Some (of_list [ssym "quote"; s]).
Proof. intros. apply np_quote. Qed.

(** A free name becomes: itself if it is a built-in; otherwise the name
    qualified by the first import that exports it; otherwise, by the package,
    unless there is none or the name is already qualified. *)
Definition qualifies (gt : nat -> string) (p : string) (x y : name) : Prop :=
  y = NS (p ++ "#" ++ match x with NS s => s | NG k => gt k end).
Theorem free_name_resolved : forall gt exports k env ns imps x, ~ In x env ->
  exists y, nsparse gt exports (S k) env ns imps (SSym x) = Some (SSym y) /\
    (prim_of x <> None -> y = x) /\
    (prim_of x = None -> forall before p after, imps = before ++ p :: after ->
       (forall q, In q before -> ~ In x (exports q)) -> In x (exports p) -> qualifies gt p x y) /\
    (prim_of x = None -> (forall q, In q imps -> ~ In x (exports q)) ->
       if String.eqb ns "" || has_hash match x with NS s => s | NG k => gt k end then y = x else qualifies gt ns x y).
Proof.
  intros gt exports k env ns imps x H. cbn [nsparse]. destruct (mem_spec x env); [contradiction|].
  pose proof (resolve_ok gt exports (mkX ns imps) x) as R. cbn [x_ns x_imports] in R.
  exists (global_of gt exports (mkX ns imps) x). split; [rewrite <- R; destruct (builtin x); reflexivity|].
  unfold global_of. cbn [x_ns x_imports].
  assert (EX : forall q, existsb (name_eqb x) (exports q) = true <-> In x (exports q)).
  { intro q. fold (mem x (exports q)). destruct (mem_spec x (exports q)); split; auto; discriminate. }
  split; [|split].
  - intro HP. destruct (prim_of x); congruence.
  - intros -> before p after -> HB HI.
    assert (F : List.find (fun p => existsb (name_eqb x) (exports p)) (before ++ p :: after) = Some p).
    { clear R. induction before as [|q before IH]; cbn.
      - apply EX in HI. now rewrite HI.
      - destruct (existsb (name_eqb x) (exports q)) eqn:E; [apply EX in E; exfalso; eapply HB; [now left|exact E]|].
        apply IH. intros. apply HB. now right. }
    rewrite F. reflexivity.
  - intros -> HB.
    assert (F : List.find (fun p => existsb (name_eqb x) (exports p)) imps = None).
    { clear R. induction imps as [|q imps IH]; cbn; [reflexivity|].
      destruct (existsb (name_eqb x) (exports q)) eqn:E; [apply EX in E; exfalso; eapply HB; [now left|exact E]|].
      apply IH. intros. apply HB. now right. }
    rewrite F. change (match x with NS s => s | NG k0 => gt k0 end) with (text gt x).
    destruct (String.eqb ns "" || has_hash (text gt x)); reflexivity.
Qed.

(** Renaming a whole file gives a program that computes the same value and
    sets the same global variables, for every program whose locals have no #
    in their name and are not called set, and which does not call a (ns ...)
    form ([scoped]).  [strict] is either reading of global operands. *)
Theorem namespaces_partial : forall gt exports ar strict ks e B g n v G fuel,
  scoped ks e = true -> nprogram gt exports ar strict n e (init B g) = Some (v, G) -> ks < fuel ->
  exists e' m v' G', rewrite_namespace gt exports fuel e = Some e' /\
    (forall m', m <= m' -> program ar strict m' e' (init B g) = Some (v', G')) /\
    looks n_arity s_arity v v' /\ same_globals n_arity s_arity G G'.
Proof.
  intros gt exports ar strict ks e B g n v G fuel HS E L. unfold nprogram in E.
  destruct (np_total gt exports ks e HS fuel [] "" [] L) as (e' & EP).
  assert (X : evt (fun m => result (eval ar strict m [] e' (init B g))) (rres (crelN gt exports) selN n_arity (v, G))).
  { eapply result_rel; [|exact E]. intros r Er.
    eapply (ns_sim gt exports ar strict n (mkX "" []) [] e (init B g) r Er fuel ks []); auto; [constructor|apply init_rel]. }
  destruct X as ((v', G') & m & (HV & HG) & EM).
  exists e', m, v', G'. split; [exact EP|]. split; [exact EM|]. cbn in HV, HG.
  split; [exact (vrel_looks _ _ _ _ (crelN_arity gt exports) _ _ HV)|exact (grel_looks _ _ _ _ (crelN_arity gt exports) _ _ HG)].
Qed.

(** With the compiler: a program with packages, its renaming, and the compiled
    functions compute the same value. *)
Theorem compile_packages_partial : forall gt exports ar ks e B g n v G fuel e' n0 ks' fuel' fs gl nf,
  scoped ks e = true -> nprogram gt exports ar true n e (init B g) = Some (v, G) -> ks < fuel ->
  rewrite_namespace gt exports fuel e = Some e' -> legal n0 ks' e' = true -> compile fuel' n0 e' = Some (fs, gl) ->
  top_frame fs <= nf ->
  exists M0 k M1, m_start fs nf (init B g) = Some M0 /\ msteps ar fs k M0 = Some M1 /\ finished M1 = true /\
    looks n_arity l_nargs v (m_res M1) /\ same_globals n_arity l_nargs G (m_G M1).
Proof.
  intros gt exports ar ks e B g n v G fuel e' n0 ks' fuel' fs gl nf HS E L ER HL EC HT.
  destruct (namespaces_partial gt exports ar true ks e B g n v G fuel HS E L) as (e2 & m & v' & G' & E2 & EM & A1 & A2).
  rewrite ER in E2. injection E2 as <-.
  destruct (compile_correct_partial ar n0 ks' fuel' e' fs gl B m g v' G' nf HL EC (EM m (le_n m)) HT)
    as (M0 & k & M1 & B1 & B2 & B3 & B4 & B5).
  exists M0, k, M1. repeat (split; [assumption|]). split; [eapply looks_trans; eauto|eapply same_globals_trans; eauto].
Qed.

Local Notation Y s := (SSym (NS s)).
Local Notation N z := (SNum z%Z).
Local Notation "'L' l" := (of_list l) (at level 9, l at level 0).
Local Notation Q s := (of_list [SSym (NS "quote"); s]).
Local Open Scope string_scope.

(** Package a exports f, package b exports f and g.
    (do (ns "a" () (def f (lambda (x) (+ x 1))))
     (do (ns "b" () (do (def f 0) (def g (lambda (w) (cons 'f (c#h w))))))
      (ns "c" ("a" "b") (do (def h (lambda (f) (cons f ()))) (let y (f 3) (g y))))))
    where w is any name, for instance that of a primitive. *)
Definition gname (k : nat) : string := "x".
Definition ab (p : string) : list name :=
  if String.eqb p "a" then [NS "f"] else if String.eqb p "b" then [NS "f"; NS "g"] else [].
Definition demo_pkgs (w : string) : sexp :=
  L [Y "do"; L [Y "ns"; SStr "a"; SNil; L [Y "def"; Y "f"; L [Y "lambda"; L [Y "x"]; L [Y "+"; Y "x"; N 1]]]];
    L [Y "do"; L [Y "ns"; SStr "b"; SNil;
        L [Y "do"; L [Y "def"; Y "f"; N 0];
           L [Y "def"; Y "g"; L [Y "lambda"; L [Y w]; L [Y "cons"; Q (Y "f"); L [Y "c#h"; Y w]]]]]];
      L [Y "ns"; SStr "c"; L [SStr "a"; SStr "b"];
        L [Y "do"; L [Y "def"; Y "h"; L [Y "lambda"; L [Y "f"]; L [Y "cons"; Y "f"; SNil]]];
           L [Y "let"; Y "y"; L [Y "f"; N 3]; L [Y "g"; Y "y"]]]]]].

Example namespaces_example :
  scoped 20 (demo_pkgs "car") = true /\
  (match nprogram gname ab std true 30 (demo_pkgs "car") (init no_globals 0) with
   | Some (v, G) => v = VCons (VSym (NS "f")) (VCons (VNum 4) VNil) /\ g_val G (NS "a#f") <> None /\ g_val G (NS "f") = None
   | None => False
   end) /\
  (match rewrite_namespace gname ab 30 (demo_pkgs "car") with
   | Some e' => match program std true 30 e' (init no_globals 0) with
                | Some (v, _) => v = VCons (VSym (NS "f")) (VCons (VNum 4) VNil)
                | None => False
                end
   | None => False
   end).
Proof. vm_compute. repeat split; discriminate. Qed.

Example compile_packages_example :
  match nprogram gname ab std true 30 (demo_pkgs "w") (init no_globals 0) with Some _ => True | None => False end /\
  match rewrite_namespace gname ab 30 (demo_pkgs "w") with
  | Some e' => legal 0 20 e' = true /\
      match compile 40 0 e' with Some (fs, _) => top_frame fs <= 3 | None => False end
  | None => False
  end.
Proof. vm_compute. repeat split. repeat constructor. Qed.

Example free_name_example :
  nsparse gname ab 1 [NS "g"] "c" ["z"; "b"; "a"] (Y "f") = Some (Y "b#f") /\
  nsparse gname ab 1 [NS "f"] "c" ["z"; "b"; "a"] (Y "f") = Some (Y "f") /\
  nsparse gname ab 1 [] "c" ["z"] (Y "f") = Some (Y "c#f") /\
  nsparse gname ab 1 [] "c" ["z"] (Y "q#f") = Some (Y "q#f") /\
  nsparse gname ab 1 [] "c" ["z"] (Y "car") = Some (Y "car").
Proof. repeat split. Qed.

Print Assumptions local_untouched.
Print Assumptions quoted_untouched.
Print Assumptions free_name_resolved.
Print Assumptions namespaces_partial.
Print Assumptions compile_packages_partial.

(** Without the conditions: [renames_wrongly B e v w], the program gives [v]
    and its renaming [w]. *)
Definition renames_wrongly (B : base) (e : sexp) (v : val ncode) (w : val scode) : Prop :=
  exists n e' G G', nprogram gname ab std false n e (init B 0) = Some (v, G) /\
    rewrite_namespace gname ab n e = Some e' /\ program std false n e' (init B 0) = Some (w, G').
Ltac renames_badly := exists 20; do 3 eexists; split; [vm_compute; reflexivity|]; split; [vm_compute; reflexivity|]; vm_compute; reflexivity.

(** a local whose name is the qualified name of a global captures the global:
    (ns "p" () (let p#x 1 x)) with p#x = 2 *)
Theorem qualified_local_refuted :
  renames_wrongly (glob "p#x" 2) (L [Y "ns"; SStr "p"; SNil; L [Y "let"; Y "p#x"; N 1; Y "x"]]) (VNum 2) (VNum 1).
Proof. renames_badly. Qed.

(** a definition under a local called set calls that local:
    (let set (lambda (a b) 7) (def y 1)) *)
Theorem local_set_refuted :
  renames_wrongly no_globals (L [Y "let"; Y "set"; L [Y "lambda"; L [Y "a"; Y "b"]; N 7]; L [Y "def"; Y "y"; N 1]]) (VNum 1) (VNum 7).
Proof. renames_badly. Qed.

(** A package cannot use its own definition of a name that one of its imports
    exports: in c, which imports a, after (def f 5) the name f is still a#f,
    which is 2. *)
Theorem own_definition_hidden : exists G,
  nprogram gname ab std false 20 (L [Y "ns"; SStr "c"; L [SStr "a"]; L [Y "do"; L [Y "def"; Y "f"; N 5]; Y "f"]]) (init (glob "a#f" 2) 0)
    = Some (VNum 2, G) /\ g_val G (NS "c#f") = Some (VNum 5).
Proof. eexists. split; [vm_compute; reflexivity|]. reflexivity. Qed.
