(** C71: a script computes what the program in its file means. *)
From Coq Require Import List ZArith Bool String Ascii Arith Lia.
From Verif Require Import Base StrModel ReaderModel ReaderSpec ReaderProofs ReaderTerm ReaderProps CoreSpec TocModel TocSem CoreProofs TocParse TocWhole TocProps
  NsSpec NsModel NsProofs NsProps MacroModel SurfSpec MacroExp MacroProofs MacroScope MacroProps
  PreSpec PreModel PreProofs PreProps FineProps PevalModel PevalSpec PevalRel PevalProofs PevalProps HookModel HookProofs HookProps
  ReplSpec ReplModel ReplProofs ReplProps ScriptSpec ScriptModel ScriptProofs.
Import ListNotations.
Local Open Scope list_scope.
Local Open Scope nat_scope.

Section Script.
  Context (gt : nat -> string) (exports : string -> list name) (imported : list string) (ar : arith).

  (** [simplified fuel k xs evs]: round by round, the partial evaluator leaves
      alone what match takes apart, simplifies the expanded form carefully
      (C42), and leaves core code; its evaluation makes no new symbols.  [k] is
      the counter of gensym. *)
  Inductive simplified (fuel : nat) : nat -> list src -> list event -> Prop :=
  | sp_nil k : simplified fuel k [] []
  | sp_cons k x xs ev evs e1 c c' ks :
      hboot gt exports (unchanged (installed ar)) fuel (SurfSpec.show x) k = Some (e1, ev_count ev) ->
      nsparse gt exports fuel [] "" [] e1 = Some (PevalSpec.show c) -> wf c = true -> careful ar fuel [] [] c = Some c' ->
      clean ks (PevalSpec.show c') = true -> import_of (PevalSpec.show c') = None ->
      g_next (ev_store ev) = ev_count ev -> simplified fuel (ev_count ev) xs evs -> simplified fuel k (x :: xs) (ev :: evs).

  Lemma simplified_firstn : forall fuel j k xs evs, simplified fuel k xs evs -> simplified fuel k (firstn j xs) (firstn j evs).
  Proof. induction j as [|j IH]; intros k xs evs H; [constructor|]. destruct H; [constructor|]. cbn [firstn]. econstructor; eauto. Qed.
  Lemma simplified_still : forall fuel k xs evs, simplified fuel k xs evs -> Forall still evs.
  Proof. induction 1; constructor; auto. Qed.

  Fixpoint kdos (l : list cx) : cx := match l with [] => KC SNil | [x] => x | x :: r => KD x (kdos r) end.
  Lemma show_kdos : forall l, PevalSpec.show (kdos l) = chain (map PevalSpec.show l).
  Proof. induction l as [|x l IH]; [reflexivity|]. destruct l as [|y l]; [reflexivity|]. cbn [kdos map chain] in *. cbn [PevalSpec.show]. rewrite IH. reflexivity. Qed.
  Lemma wf_kdos : forall l, Forall (fun c => wf c = true) l -> wf (kdos l) = true.
  Proof. induction 1 as [|x l H F IH]; [reflexivity|]. destruct l; [exact H|]. cbn [kdos wf] in *. now rewrite H, IH. Qed.
  Lemma steps_kdos : forall l l', Forall2 (steps ar []) l l' -> steps ar [] (kdos l) (kdos l').
  Proof. induction 1 as [|x y l l' H F IH]; [constructor|]. destruct F; [exact H|]. now apply steps_do. Qed.

  (** what the rounds have to do with the expansion of the whole program *)
  Lemma codes : forall fuel k xs evs, simplified fuel k xs evs -> 1 <= k -> forallb (ok []) xs = true -> forall G, g_next G = k ->
    session gt exports imported ar fuel G (map SurfSpec.show xs) evs ->
    exists cs cs', Forall2 (fun e c => nsparse gt exports fuel [] "" [] e = Some (PevalSpec.show c)) (fst (gens ex xs k)) cs /\
      Forall (fun c => wf c = true) cs /\ Forall2 (steps ar []) cs cs' /\ map ev_code evs = map PevalSpec.show cs' /\
      Forall (fun e => (exists ks, clean ks e = true) /\ import_of e = None) (map ev_code evs) /\
      Forall2 (fun x e => import_of e = import_call x) xs (fst (gens ex xs k)).
  Proof.
    induction 1 as [k|k x xs ev evs e1 c c' ks EB EN WF CA CL IM ST SI IH]; intros Hk HO G HG S.
    - exists [], []. repeat split; constructor.
    - cbn [forallb] in HO. apply andb_prop in HO as (HO1 & HO2). cbn [map] in S. inversion S as [|? ? ? ? ? RD S2]; subst.
      destruct (R_all gt exports x [] (g_next G) HO1 Hk) as ((f & EB5) & GE & _ & _ & IC).
      assert (EX : ex x (g_next G) = (e1, ev_count ev)).
      { pose proof (checked_plain _ _ _ _ _ _ _ EB) as Q. apply (boot_more _ _ fuel (max fuel f)) in Q; [|lia]. rewrite EB5 in Q by lia. congruence. }
      rewrite EX in GE, IC. cbn [fst snd] in GE, IC.
      destruct (peval_partial ar fuel c c' WF CA) as (PE & _).
      assert (EC : ev_code ev = PevalSpec.show c').
      { unfold round, hmacroexpand in RD. rewrite (checked_boot _ _ _ _ _ _ _ EB), EN in RD. unfold installed in RD at 1. rewrite PE in RD.
        destruct (interp _ _ _ _ _ _ _ _) as [(v, G1)|]; [|discriminate]. injection RD as <-. reflexivity. }
      destruct (IH ltac:(lia) HO2 (ev_store ev) ST S2) as (cs & cs' & A1 & A2 & A3 & A4 & A5 & A6).
      exists (c :: cs), (c' :: cs'). cbn [gens]. rewrite EX. destruct (gens ex xs (ev_count ev)) as (ys, k2). cbn [fst map] in *.
      split; [constructor; assumption|]. split; [constructor; assumption|].
      split; [constructor; [|assumption]; apply PevalProofs.chain in CA; now rewrite subst_nil in CA|]. split; [congruence|].
      split; [constructor; [|assumption]; rewrite EC; eauto|]. constructor; assumption.
  Qed.

  Lemma np_dos : forall l cs fuel, Forall2 (fun e c => nsparse gt exports fuel [] "" [] e = Some (PevalSpec.show c)) l cs ->
    Forall (fun e => import_of e = None) l -> l <> [] -> nsparse gt exports (fuel + List.length l) [] "" [] (dos l) = Some (PevalSpec.show (kdos cs)).
  Proof.
    induction 1 as [|e c l cs H F IH]; intros I N; [contradiction|]. inversion I as [|? ? I1 I2]; subst.
    destruct F as [|e2 c2 l cs H2 F].
    - cbn [dos kdos]. eapply nsparse_more; [|exact H]. lia.
    - specialize (IH I2 ltac:(discriminate)). cbn [List.length] in *. rewrite Nat.add_succ_r.
      change (dos (e :: e2 :: l)) with (of_list [ssym "do"; e; dos (e2 :: l)]). rewrite np_do by exact I1. rewrite IH.
      rewrite (nsparse_more _ _ fuel (fuel + S (List.length l)) _ _ _ _ _ ltac:(lia) H). reflexivity.
  Qed.

  Lemma ok_sequence : forall xs, forallb (ok []) xs = true -> xs <> [] -> ok [] (sequence xs) = true.
  Proof. intros [|x [|y l]] H N; [contradiction| |exact H]. cbn in H. now rewrite andb_true_r in H. Qed.
  Lemma tidy_sequence : forall xs, forallb tidy xs = true -> xs <> [] -> tidy (sequence xs) = true.
  Proof. intros [|x [|y l]] H N; [contradiction| |exact H]. cbn in H. now rewrite andb_true_r in H. Qed.
  Lemma ex_sequence : forall xs k, xs <> [] -> fst (ex (sequence xs) k) = dos (fst (gens ex xs k)).
  Proof.
    intros [|x [|y l]] k N; [contradiction| |].
    - cbn [sequence gens]. destruct (ex x k). reflexivity.
    - change (sequence (x :: y :: l)) with (XBegin (x :: y :: l)). cbn [ex]. destruct (gens ex (x :: y :: l) k). reflexivity.
  Qed.

  Hypothesis HX : forall p x q, In p imported -> prim_of x = Some q -> ~ In x (exports p).
  Notation rho := (stands_for gt exports imported).

  Lemma rounds : forall fuel xs evs B g n v G,
    (forall x q, prim_of x = Some q -> through gt exports imported B x = None \/ through gt exports imported B x = Some (inr q)) ->
    1 <= g -> forallb (ok []) xs = true -> forallb tidy xs = true -> Forall (fun x => import_call x = None) xs ->
    simplified fuel g xs evs -> session gt exports imported ar fuel (init B g) (map SurfSpec.show xs) evs -> evs <> [] ->
    respected gt exports imported (last_of evs (init B g)) ->
    xprogram gt exports ar false n (sequence xs) (init (through gt exports imported B) g) = Some (v, G) ->
    looks x_arity i_arity v (ev_value (last evs (mkEv SNil 0 VNil (init B g)))) /\
    forall x, match g_val G x, g_val (last_of evs (init B g)) (rho x) with
              | Some v1, Some v2 => looks x_arity i_arity v1 v2
              | None, None => True
              | _, _ => False
              end.
  Proof.
    intros fuel xs evs B g n v G HB Hg HO HT HI SI SE NE (RP & RI) E.
    assert (NX : xs <> []) by (inversion SI; subst; [contradiction|discriminate]).
    destruct (codes fuel g xs evs SI Hg HO (init B g) eq_refl SE) as (cs & cs' & A1 & A2 & A3 & A4 & A5 & A6).
    (* the interpreter *)
    destruct (session_chain gt exports imported ar HX fuel (init B g) _ evs SE NE (simplified_still _ _ _ _ SI) RI
      (init (through gt exports imported B) g) ltac:(intro; reflexivity)) as (G1 & EI & S1 & N1 & V1).
    destruct (clean_chain (map ev_code evs) ltac:(destruct evs; [contradiction|discriminate]) A5) as (ks & CL).
    destruct (clean_plain _ _ CL) as (PL & SC).
    destruct (interpreter_partial gt exports [] ar ks _ _ _ _ _ _ PL ltac:(intros p x q []) HB EI) as (m1 & v1 & G2 & E1 & L1 & GL1).
    { intros x q Hq. specialize (V1 x). cbn in V1. specialize (RP x q Hq). lia. }
    destruct (namespaces_partial gt exports ar false ks _ _ _ _ _ _ (S ks) SC (E1 m1 (le_n _)) ltac:(lia)) as (e2 & m2 & v2 & G3 & EN & E2 & L2 & GL2).
    unfold rewrite_namespace in EN. rewrite (clean_same _ _ _ _ CL _ _ (Nat.lt_succ_diag_r ks)) in EN. injection EN as <-.
    (* the language *)
    pose proof (ok_sequence xs HO NX) as HO'. pose proof (tidy_sequence xs HT NX) as HT'.
    destruct (expansion_partial gt exports ar false _ _ _ _ _ _ g HO' E Hg) as (e3 & k3 & f & m3 & v3 & G4 & EB & E3 & L3 & GL3).
    assert (X : e3 = dos (fst (gens ex xs g))).
    { destruct (R_all gt exports _ [] g HO' Hg) as ((f' & EB') & _). specialize (EB (max f f') ltac:(lia)). rewrite EB' in EB by lia.
      injection EB as EB. rewrite <- (ex_sequence xs g NX). now rewrite EB. }
    destruct (SX_all (sequence xs) [] g HO' HT') as ((ks' & SC'0) & _). pose proof (SC'0 ks' (le_n _)) as SC'. rewrite (ex_sequence xs g NX) in SC'. rewrite <- X in SC'.
    set (fl := max (S ks') (fuel + List.length (fst (gens ex xs g)))).
    destruct (namespaces_partial gt exports ar false ks' _ _ _ _ _ _ fl SC' (E3 m3 (le_n _)) (Nat.le_max_l _ _)) as (e4 & m4 & v4 & G5 & EN & E4 & L4 & GL4).
    assert (Y : e4 = PevalSpec.show (kdos cs)).
    { unfold rewrite_namespace in EN. rewrite X in EN.
      pose proof (np_dos _ _ _ A1) as Q. rewrite (nsparse_more _ _ (fuel + List.length (fst (gens ex xs g))) fl _ _ _ _ _ (Nat.le_max_r _ _) (Q ltac:(clear - A6 HI; induction A6; inversion HI; subst; constructor; auto; congruence)
         ltac:(intro Q0; rewrite Q0 in A6; inversion A6; subst; contradiction))) in EN. congruence. }
    subst e4. destruct (steps_program ar _ _ _ _ _ _ _ (steps_kdos _ _ A3) (wf_kdos _ A2) (E4 m4 (le_n _))) as (m5 & v5 & G6 & E5 & L5 & GL5).
    rewrite show_kdos, <- A4 in E5. specialize (E5 (max m2 m5) ltac:(lia)). rewrite (E2 (max m2 m5) ltac:(lia)) in E5. injection E5 as <- <-.
    split.
    - eapply looks_trans; [exact L3|]. eapply looks_trans; [exact L4|]. eapply looks_trans; [exact L5|].
      apply looks_sym. eapply looks_trans; [exact L1|exact L2].
    - pose proof (same_globals_trans _ _ _ _ _ _ GL3 (same_globals_trans _ _ _ _ _ _ GL4 GL5)) as (_ & P).
      pose proof (same_globals_trans _ _ _ _ _ _ GL1 GL2) as (_ & Q). intro x. specialize (P x). specialize (Q x). rewrite <- (S1 x).
      destruct (g_val G x), (g_val G1 x), (g_val G3 x); auto; try contradiction. eapply looks_trans; [exact P|apply looks_sym; exact Q].
  Qed.
End Script.

Lemma firstn_nth {A} : forall (l : list A) j x, nth_error l j = Some x -> firstn (S j) l = firstn j l ++ [x].
Proof. induction l as [|a l IH]; intros [|j] x H; try discriminate; [now injection H as ->|]. cbn [firstn app nth_error] in *. now rewrite (IH j x H). Qed.
Lemma last_app {A} : forall (l : list A) x d, last (l ++ [x]) d = x.
Proof. induction l as [|a l IH]; intros x d; [reflexivity|]. cbn. destruct (l ++ [x]) eqn:E; [destruct l; discriminate|]. rewrite <- E. apply IH. Qed.
Lemma forallb_firstn {A} (f : A -> bool) : forall j l, forallb f l = true -> forallb f (firstn j l) = true.
Proof. induction j as [|j IH]; intros [|a l] H; try reflexivity. cbn in *. apply andb_prop in H as (-> & H). now apply IH. Qed.
Lemma Forall_firstn {A} (P : A -> Prop) : forall j l, Forall P l -> Forall P (firstn j l).
Proof. induction j as [|j IH]; intros l H; [constructor|]. destruct H; constructor; auto. Qed.

(** The statement wanted is that running a script computes what the program in
    the file means, for every file and with no condition on what the rounds do.
    It is false: see the examples below.  It holds of a file whose first line is
    not too long and whose forms are in the documented language without eager
    imports: when the run ends, the reader neither runs into anything undefined
    nor leaves a form out, and for each form that the partial evaluator
    simplifies carefully, as it did all forms before it, the value of that form
    is the one that the sequence of forms up to it has in the language, and the
    global variables are set accordingly.  The language sees each global
    variable under the name that the script uses for it, and
    *command-line-args* is the list of the arguments in order. *)
Theorem script_partial : forall gt exports imported ar t rest ds xs argv buf B g,
  nth 254 buf (ch 0) <> cNL -> script_text t rest -> file_text rest ds -> map form_of ds = map SurfSpec.show xs ->
  (forall p x q, In p imported -> prim_of x = Some q -> ~ In x (exports p)) ->
  (forall x q, prim_of x = Some q -> with_args argv B x = None \/ with_args argv B x = Some (inr q)) ->
  1 <= g -> forallb (ok []) xs = true -> forallb tidy xs = true -> Forall (fun x => import_call x = None) xs ->
  exists F, forall fuel n o, F <= fuel -> shebang gt exports imported ar (S n) fuel argv buf t B g = Some o ->
  exists evs, o = Some (Ok evs) /\ List.length evs = List.length xs /\
  forall j ev, nth_error evs j = Some ev -> simplified gt exports ar fuel g (firstn (S j) xs) (firstn (S j) evs) ->
  respected gt exports imported (ev_store ev) ->
  forall m v G, xprogram gt exports ar false m (sequence (firstn (S j) xs)) (init (through gt exports imported (with_args argv B)) g) = Some (v, G) ->
  looks x_arity i_arity v (ev_value ev) /\
  forall x, match g_val G x, g_val (ev_store ev) (stands_for gt exports imported x) with
            | Some v1, Some v2 => looks x_arity i_arity v1 v2
            | None, None => True
            | _, _ => False
            end.
Proof.
  intros gt exports imported ar t rest ds xs argv buf B g HU HS HF HD HX HB Hg HO HT HI.
  destruct (repl_session gt exports imported ar rest ds HF) as (F & RS).
  exists F. intros fuel n o HFu E. unfold shebang in E. rewrite (skip_short n buf t rest HS HU) in E.
  destruct (repl gt exports imported ar (S n) fuel rest (init (set_args argv B) g)) as [o1|] eqn:ER; [|discriminate]. injection E as <-.
  assert (SA : set_args argv B = with_args argv B) by (unfold set_args, with_args; now rewrite args_right). rewrite SA in ER.
  destruct (RS fuel _ _ _ HFu ER) as (evs & -> & SE). rewrite HD in SE. exists evs. split; [reflexivity|].
  split; [rewrite (session_length _ _ _ _ _ _ _ _ SE); apply map_length|].
  intros j ev EJ SI RE m v G EX. pose proof (firstn_nth _ _ _ EJ) as FN.
  assert (NE : firstn (S j) evs <> []) by (rewrite FN; destruct (firstn j evs); discriminate).
  pose proof (session_firstn _ _ _ _ _ (S j) _ _ _ SE) as SE'. rewrite firstn_map in SE'.
  assert (LA : last_of (firstn (S j) evs) (init (with_args argv B) g) = ev_store ev).
  { unfold last_of. rewrite FN. rewrite last_app. destruct (firstn j evs); reflexivity. }
  pose proof (rounds gt exports imported ar HX fuel (firstn (S j) xs) (firstn (S j) evs) (with_args argv B) g m v G) as Q.
  rewrite LA in Q. rewrite FN, last_app in Q. rewrite <- FN in Q.
  apply Q; auto.
  - intros x q Hq. unfold through, stands_for, global_of. rewrite Hq. exact (HB x q Hq).
  - now apply forallb_firstn.
  - now apply forallb_firstn.
  - now apply Forall_firstn.
Qed.
Print Assumptions script_partial.

(** * Examples *)

(** [simplified], decided *)
Section Decide.
  Context (gt : nat -> string) (exports : string -> list name) (ar : arith).
  Fixpoint rounds_ok (fuel : nat) (k : nat) (xs : list src) (evs : list event) : bool :=
    match xs, evs with
    | [], [] => true
    | x :: xs', ev :: evs' =>
        match hboot gt exports (unchanged (installed ar)) fuel (SurfSpec.show x) k with
        | Some (e1, k') =>
            match nsparse gt exports fuel [] "" [] e1 with
            | Some e2 =>
                match read_back fuel e2 with
                | Some c =>
                    match careful ar fuel [] [] c with
                    | Some c' =>
                        (k' =? ev_count ev)%nat && sexp_eqb (PevalSpec.show c) e2 && wf c && clean fuel (PevalSpec.show c') &&
                        match import_of (PevalSpec.show c') with None => true | Some _ => false end &&
                        (g_next (ev_store ev) =? ev_count ev)%nat && rounds_ok fuel k' xs' evs'
                    | None => false
                    end
                | None => false
                end
            | None => false
            end
        | None => false
        end
    | _, _ => false
    end.
  Lemma rounds_ok_right : forall fuel xs k evs, rounds_ok fuel k xs evs = true -> simplified gt exports ar fuel k xs evs.
  Proof.
    intros fuel. induction xs as [|x xs IH]; intros k [|ev evs] H; try discriminate; [constructor|]. cbn [rounds_ok] in H.
    destruct (hboot _ _ _ _ _ _) as [(e1, k')|] eqn:E1; [|discriminate]. destruct (nsparse _ _ _ _ _ _ _) as [e2|] eqn:E2; [|discriminate].
    destruct (read_back _ _) as [c|]; [|discriminate]. destruct (careful _ _ _ _ _) as [c'|] eqn:E3; [|discriminate].
    rewrite !andb_true_iff in H. destruct H as ((((((A & B) & C) & D) & E) & F) & G0).
    apply Nat.eqb_eq in A, F. apply sexp_eqb_eq in B. destruct (import_of _) eqn:EI; [discriminate|]. subst k' e2.
    eapply sp_cons; eauto.
  Qed.
End Decide.

Local Notation W s := (DSym (ReaderProps.str s)).
Local Notation "'D' l" := (dlist l) (at level 9, l at level 0).
Local Notation call f l := (XApp (XVar f) l).
Local Notation num z := (XLit (SNum z%Z)).

(** the text of some data, each on a line of its own *)
Fixpoint printed_lines (ds : list datum) : bytes :=
  match ds with [] => [] | d :: r => match printObj d with Ok t => t | _ => [] end ++ cNL :: printed_lines r end.
Lemma lines_read : forall ds, Forall printable ds -> forall w, layout w -> file_text (w ++ printed_lines ds) ds.
Proof.
  induction 1 as [|d ds P F IH]; intros w L.
  - apply ft_end. exists w, []. split; [reflexivity|]. split; [exact L|now left].
  - destruct print_reads as [H _]. destruct (H d P) as (t & b & E & R & _). cbn [printed_lines]. rewrite E.
    apply (ft_form w t d b (cNL :: printed_lines ds) ds); [exact L|exact R|intros _; left; cbn; auto|].
    change (cNL :: printed_lines ds) with ([cNL] ++ printed_lines ds). apply IH. constructor; [|constructor]. cbn; auto.
Qed.

(** #!/usr/bin/env cora
    (def n 2)
    (defun add (k) (set (quote n) (+ n k)))
    (add 5)
    (cons n (cons g (cdr *command-line-args* )))
    run with b imported, which exports g *)
Definition demo_data : list datum :=
  [D [W "def"; W "n"; DNum 2]; D [W "defun"; W "add"; D [W "k"]; D [W "set"; D [W "quote"; W "n"]; D [W "+"; W "n"; W "k"]]];
   D [W "add"; DNum 5]; D [W "cons"; W "n"; D [W "cons"; W "g"; D [W "cdr"; W "*command-line-args*"]]]].
Definition first_line : bytes := ReaderProps.str "#!/usr/bin/env cora".
Definition demo_script : bytes := first_line ++ cNL :: printed_lines demo_data.
Local Open Scope string_scope.
Definition demo_forms : list src :=
  [XDef "n" (num 2); XDefun "add" ["k"] (call "set" [XQuote (SSym (NS "n")); call "+" [XVar "n"; XVar "k"]]);
   call "add" [num 5]; call "cons" [XVar "n"; call "cons" [XVar "g"; call "cdr" [XVar "*command-line-args*"]]]].
Definition demo_argv : list string := ["demo.cora"; "x"].
Definition demo_run : option (option (outcome (list event))) := shebang gname ab ["b"] std 9 200 demo_argv [] demo_script loaded 1.
Definition demo_events : list event := match demo_run with Some (Some (Ok evs)) => evs | _ => [] end.

Example script_hypotheses :
  nth 254 (@nil ascii) (ch 0) <> cNL /\ script_text demo_script (printed_lines demo_data) /\ file_text (printed_lines demo_data) demo_data /\
  map form_of demo_data = map SurfSpec.show demo_forms /\
  (forall p x q, In p ["b"] -> prim_of x = Some q -> ~ In x (ab p)) /\
  (forall x q, prim_of x = Some q -> with_args demo_argv loaded x = None \/ with_args demo_argv loaded x = Some (inr q)) /\
  forallb (ok []) demo_forms = true /\ forallb tidy demo_forms = true /\ Forall (fun x => import_call x = None) demo_forms.
Proof.
  split; [discriminate|]. split.
  { exists first_line. split; [reflexivity|]. split; [|cbn; lia]. cbn. intuition discriminate. }
  split. { apply (lines_read demo_data) with (w := []); [|constructor]. unfold demo_data. cbn [dlist]. repeat (constructor; [prints|]). constructor. }
  split; [reflexivity|]. split; [exact (proj1 interpreter_hypotheses)|].
  split. { intros x q E. unfold with_args. destruct (name_eqb x (NS "*command-line-args*")) eqn:EA; [|now apply interpreter_hypotheses].
           destruct (name_eqb_spec x (NS "*command-line-args*")); [subst x|]; discriminate. }
  split; [reflexivity|]. split; [reflexivity|]. repeat constructor.
Qed.
Example script_example :
  (exists evs, demo_run = Some (Some (Ok evs)) /\ evs = demo_events /\ rounds_ok gname ab std 200 1 demo_forms evs = true /\
     map ev_value evs <> [] /\ nth_error (map ev_value evs) 3 = Some (VCons (VNum 7) (VCons (VNum 7) (VCons (VStr "x") VNil)))) /\
  match xprogram gname ab std false 40 (sequence demo_forms) (init (through gname ab ["b"] (with_args demo_argv loaded)) 1) with
  | Some (v, G) => v = VCons (VNum 7) (VCons (VNum 7) (VCons (VStr "x") VNil)) /\ g_val G (NS "n") = Some (VNum 7)
  | None => False
  end.
Proof.
  split.
  - eexists. split; [vm_compute; reflexivity|]. split; [vm_compute; reflexivity|]. split; [vm_compute; reflexivity|]. split; [vm_compute; discriminate|].
    vm_compute. reflexivity.
  - vm_compute. split; reflexivity.
Qed.

(** and no primitive or imported name is assigned *)
Definition demo_assigned (y : name) : nat :=
  let a y k := if name_eqb y (NS "n") then S k else k in
  let b y k := if name_eqb y (NS "add") then S k else k in a y (b y (a y 0)).
Example script_respected : match nth_error demo_events 3 with
  | Some ev => respected gname ab ["b"] (ev_store ev)
  | None => False
  end.
Proof.
  assert (X : match nth_error demo_events 3 with Some ev => forall y, g_ver (ev_store ev) y = demo_assigned y | None => False end)
    by (vm_compute; reflexivity).
  destruct (nth_error demo_events 3) as [ev|]; [|contradiction].
  assert (Z : forall y, y <> NS "n" -> y <> NS "add" -> g_ver (ev_store ev) y = 0).
  { intros y N1 N2. rewrite X. unfold demo_assigned. destruct (name_eqb_spec y (NS "n")); [contradiction|]. destruct (name_eqb_spec y (NS "add")); [contradiction|]. reflexivity. }
  split.
  - intros x q H. apply Z; intros ->; discriminate.
  - intros x N. unfold stands_for, global_of in *. destruct (prim_of x) eqn:EP; [contradiction|]. cbn [x_imports x_ns find] in *.
    destruct (existsb (name_eqb x) (ab "b")) eqn:EE; [|contradiction]. cbn in EE. rewrite orb_false_r in EE.
    apply orb_prop in EE as [EE|EE]; destruct (name_eqb_spec x (NS "f")), (name_eqb_spec x (NS "g")); try discriminate; subst x; split; apply Z; discriminate.
Qed.

(** * Without the conditions *)
Local Open Scope list_scope.
Lemma skip_eq : forall n buf s, skip_first_line (S n) buf s =
  match fgets buf s with
  | None => Some None
  | Some (buf1, r) => if is (nth 254 buf1 (ch 0)) cNL then skip_first_line n buf1 r else Some (Some r)
  end.
Proof. reflexivity. Qed.
Lemma nth_skipn {A} : forall k (l : list A) m d, nth m (skipn k l) d = nth (k + m) l d.
Proof. induction k as [|k IH]; intros [|a l] m d; cbn; auto. destruct m; reflexivity. Qed.

(** A first line of exactly 254 bytes, or a newline that happens to be in the
    buffer, and no line of the script is run: the byte that is tested stays what
    it is, so that lines are skipped until the file ends, and then the process
    ends with status -1. *)
Definition short (l : bytes) : Prop := ~ In cNL l /\ List.length l <= 252.
Definition text_of (ls : list bytes) : bytes := flat_map (fun l => l ++ [cNL]) ls.
Lemma stale : forall ls buf, Forall short ls -> nth 254 buf (ch 0) = cNL -> skip_first_line (S (List.length ls)) buf (text_of ls) = Some None.
Proof.
  induction ls as [|l ls IH]; intros buf F H; [reflexivity|]. inversion F as [|? ? (N & L) F2]; subst.
  cbn [text_of flat_map List.length]. fold (text_of ls). rewrite <- app_assoc. cbn [app].
  rewrite skip_eq. unfold fgets. destruct (l ++ cNL :: text_of ls) eqn:E; [destruct l; discriminate|]. rewrite <- E. rewrite fgets_line by (auto; lia).
  set (buf1 := (l ++ [cNL]) ++ ch 0 :: skipn (S (List.length (l ++ [cNL]))) buf).
  assert (X : nth 254 buf1 (ch 0) = cNL).
  { unfold buf1. rewrite app_nth2; rewrite app_length; cbn [List.length]; [|lia].
    destruct (254 - (List.length l + 1)) as [|m] eqn:M; [lia|]. cbn [nth]. rewrite nth_skipn. rewrite <- H. f_equal. lia. }
  rewrite X. change (is cNL cNL) with true. cbn [negb]. apply IH; assumption.
Qed.
Theorem full_line_refuted : forall gt exports imported ar fuel argv buf B g line ls, ~ In cNL line -> List.length line = 254 -> Forall short ls ->
  shebang gt exports imported ar (S (S (List.length ls))) fuel argv buf (line ++ cNL :: text_of ls) B g = Some None.
Proof.
  intros gt exports imported ar fuel argv buf B g line ls N L F. unfold shebang.
  rewrite skip_eq. unfold fgets. destruct (line ++ cNL :: text_of ls) eqn:E; [destruct line; discriminate|]. rewrite <- E. rewrite fgets_line by (auto; lia).
  assert (X : nth 254 ((line ++ [cNL]) ++ ch 0 :: skipn (S (List.length (line ++ [cNL]))) buf) (ch 0) = cNL).
  { rewrite <- app_assoc. cbn [app]. rewrite app_nth2; [|lia]. rewrite L. reflexivity. }
  rewrite X. change (is cNL cNL) with true. cbn iota. rewrite stale; auto.
Qed.
Theorem uninitialised_refuted : forall gt exports imported ar fuel argv buf B g ls, nth 254 buf (ch 0) = cNL -> Forall short ls ->
  shebang gt exports imported ar (S (List.length ls)) fuel argv buf (text_of ls) B g = Some None.
Proof. intros. unfold shebang. now rewrite stale. Qed.
Example full_line_example : ~ In cNL (repeat cSC 254) /\ List.length (repeat cSC 254) = 254 /\ Forall short [ReaderProps.str "(def n 9)"; ReaderProps.str "n"].
Proof.
  split; [intro H; apply repeat_spec in H; discriminate|]. split; [reflexivity|].
  repeat constructor; try (cbn; lia); cbn; intuition discriminate.
Qed.

(** Of a longer first line, what is after byte 255 is run. *)
Theorem long_line_refuted : exists line rest d evs, ~ In cNL line /\ file_text rest [d] /\
  shebang gname ab [] std 9 200 [] [] (line ++ cNL :: rest) loaded 1 = Some (Some (Ok evs)) /\
  map ev_value evs = [VNum 9; VNum 9; VNum 9] /\ form_of d = SSym (NS "n").
Proof.
  exists (repeat cSC 255 ++ ReaderProps.str "(def n 9) n"), (printed_lines [W "n"]), (W "n"). eexists.
  split. { intro H. apply in_app_or in H as [H|H]; [apply repeat_spec in H; discriminate|]. cbn in H. intuition discriminate. }
  split. { apply (lines_read [W "n"]) with (w := []); [|constructor]. repeat (constructor; [prints|]). constructor. }
  split; [vm_compute; reflexivity|]. split; reflexivity.
Qed.

(** A script that defines a name which an imported package exports does not
    see its own definition: (def g 1) g with b imported gives b's g. *)
Theorem imported_name_refuted : exists t rest ds xs evs, script_text t rest /\ file_text rest ds /\ map form_of ds = map SurfSpec.show xs /\
  forallb (ok []) xs = true /\ forallb tidy xs = true /\
  (exists G, xprogram gname ab std false 20 (sequence xs) (init (through gname ab ["b"] loaded) 1) = Some (VNum 1, G)) /\
  shebang gname ab ["b"] std 9 200 [] [] t loaded 1 = Some (Some (Ok evs)) /\ rounds_ok gname ab std 200 1 xs evs = true /\
  map ev_value evs = [VNum 1; VNum 7].
Proof.
  set (ds := [D [W "def"; W "g"; DNum 1]; W "g"]).
  exists (first_line ++ cNL :: printed_lines ds), (printed_lines ds), ds, [XDef "g" (num 1); XVar "g"]. eexists.
  split. { exists first_line. split; [reflexivity|]. split; [|cbn; lia]. cbn. intuition discriminate. }
  split. { apply (lines_read ds) with (w := []); [|constructor]. unfold ds. cbn [dlist]. repeat (constructor; [prints|]). constructor. }
  split; [reflexivity|]. split; [reflexivity|]. split; [reflexivity|]. split; [eexists; vm_compute; reflexivity|].
  split; [vm_compute; reflexivity|]. split; [vm_compute; reflexivity|]. reflexivity.
Qed.

(** A script that ends inside a form never ends. *)
Theorem unclosed_refuted : exists t rest, script_text t rest /\
  forall gt exports imported ar n fuel argv B g, shebang gt exports imported ar n fuel argv [] t B g = None.
Proof.
  destruct reader_terminates_refuted as (s & H). exists (first_line ++ cNL :: s), s.
  assert (S0 : script_text (first_line ++ cNL :: s) s).
  { exists first_line. split; [reflexivity|]. split; [|cbn; lia]. cbn. intuition discriminate. }
  split; [exact S0|]. intros gt exports imported ar [|n] fuel argv B g; [reflexivity|]. unfold shebang.
  rewrite (skip_short n [] _ s S0) by discriminate. cbn [repl]. now rewrite H.
Qed.

Print Assumptions full_line_refuted.
Print Assumptions uninitialised_refuted.
Print Assumptions long_line_refuted.
Print Assumptions imported_name_refuted.
Print Assumptions unclosed_refuted.
