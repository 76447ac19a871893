(** Proofs about scripts. *)
From Coq Require Import List ZArith Bool String Ascii Arith Lia.
From Verif Require Import Base StrModel ReaderModel ReaderSpec ReaderProofs ReaderTerm ReaderProps CoreSpec TocModel TocSem CoreProofs TocParse TocWhole TocProps
  NsSpec NsModel NsProofs NsProps MacroModel PreSpec PreModel PreProofs PevalModel HookModel ReplSpec ReplModel ReplProofs ReplProps ScriptSpec ScriptModel.
Import ListNotations.
Local Open Scope list_scope.
Local Open Scope nat_scope.

(** * The first line *)
Lemma fgets_line : forall line n r, ~ In cNL line -> List.length line < n -> fgets_loop n (line ++ cNL :: r) = (line ++ [cNL], r).
Proof.
  induction line as [|c line IH]; intros [|n] r N L; cbn in L; try lia; cbn [app fgets_loop].
  - now rewrite is_refl.
  - replace (is c cNL) with false by (symmetry; apply is_false; intros ->; apply N; now left).
    rewrite IH; [reflexivity|intro K; apply N; now right|lia].
Qed.
Lemma skip_short : forall n buf t rest, script_text t rest -> nth 254 buf (ch 0) <> cNL -> skip_first_line (S n) buf t = Some (Some rest).
Proof.
  intros n buf t rest (line & -> & N & L) HB. cbn [skip_first_line]. unfold fgets.
  destruct (line ++ cNL :: rest) eqn:E; [destruct line; discriminate|]. rewrite <- E. rewrite fgets_line by (auto; lia).
  assert (X : nth 254 ((line ++ [cNL]) ++ ch 0 :: skipn (S (List.length (line ++ [cNL]))) buf) (ch 0) <> cNL).
  { rewrite app_nth2; rewrite app_length; cbn [List.length]; [|lia].
    destruct (254 - (List.length line + 1)) as [|m] eqn:M; [discriminate|]. cbn [nth].
    replace (nth m (skipn (S (List.length line + 1)) buf) (ch 0)) with (nth 254 buf (ch 0)); [exact HB|].
    rewrite <- (firstn_skipn (S (List.length line + 1)) buf) at 1.
    destruct (le_lt_dec (List.length buf) (S (List.length line + 1))) as [B|B].
    - rewrite skipn_all2 by lia. rewrite app_nil_r, nth_overflow by (rewrite firstn_length; lia). destruct m; reflexivity.
    - rewrite app_nth2; rewrite firstn_length; [|lia]. f_equal. lia. }
  unfold is. destruct (Ascii.eqb_spec (nth 254 ((line ++ [cNL]) ++ ch 0 :: skipn (S (List.length (line ++ [cNL]))) buf) (ch 0)) cNL); [contradiction|reflexivity].
Qed.

(** * The arguments *)
Lemma cons_args_rev : forall argv acc, cons_args argv acc = fold_left (fun a s => SCons (SStr s) a) argv acc.
Proof. induction argv as [|a argv IH]; intro acc; cbn; auto. Qed.
Lemma reverse_strings : forall l acc b, reverse_sexp (fold_left (fun a s => SCons (SStr s) a) l acc) b =
  reverse_sexp acc (fold_right (fun s a => SCons (SStr s) a) b l).
Proof. induction l as [|s l IH]; intros acc b; cbn; [reflexivity|]. rewrite IH. reflexivity. Qed.
Lemma args_right : forall argv, command_line_args argv = strings_list argv.
Proof.
  intro argv. unfold command_line_args. rewrite cons_args_rev, reverse_strings. cbn.
  induction argv as [|a argv IH]; cbn; congruence.
Qed.

Section Session.
  Context (gt : nat -> string) (exports : string -> list name) (imported : list string) (ar : arith).
  Notation repl := (repl gt exports imported ar).
  Notation round := (round gt exports imported ar).
  Notation interp0 := (interp gt exports [] ar).
  Notation interp1 := (interp gt exports imported ar).

  (** the rounds, form by form *)
  Inductive session (fuel : nat) : store icode -> list sexp -> list event -> Prop :=
  | se_nil G : session fuel G [] []
  | se_cons G e l ev evs : round fuel e G = Some ev -> session fuel (ev_store ev) l evs -> session fuel G (e :: l) (ev :: evs).

  Lemma repl_session : forall t ds, file_text t ds -> exists F, forall fuel n G o, F <= fuel -> repl n fuel t G = Some o ->
    exists evs, o = Ok evs /\ session fuel G (map form_of ds) evs.
  Proof.
    induction 1 as [w L|w t d b r l L R D FT (F & IH)].
    - exists 1. intros [|f] [|n] G o H1 E; try lia; try discriminate. cbn [ScriptModel.repl] in E. rewrite sexp_eq, eat_layout_end in E by auto.
      cbn in E. injection E as <-. exists []. split; [reflexivity|constructor].
    - destruct (reader_follows_grammar w t d b r L R D) as (F1 & E1). exists (max F F1).
      intros fuel [|n] G o H1 E; [discriminate|]. cbn [ScriptModel.repl] in E. rewrite E1 in E by lia.
      destruct (round fuel (form_of d) G) as [ev|] eqn:ER; [|discriminate].
      destruct (repl n fuel r (ev_store ev)) as [o'|] eqn:EL; [|discriminate].
      destruct (IH fuel n _ _ ltac:(lia) EL) as (evs & -> & S). injection E as <-. exists (ev :: evs). split; [reflexivity|].
      cbn [map]. econstructor; eauto.
  Qed.
  Lemma session_firstn : forall fuel j G l evs, session fuel G l evs -> session fuel G (firstn j l) (firstn j evs).
  Proof.
    induction j as [|j IH]; intros G l evs H; [constructor|]. destruct H; [constructor|]. cbn [firstn]. econstructor; eauto.
  Qed.
  Lemma session_length : forall fuel G l evs, session fuel G l evs -> List.length evs = List.length l.
  Proof. induction 1; cbn; congruence. Qed.

  (** * Imports, and the counter of gensym *)
  Hypothesis HX : forall p x q, In p imported -> prim_of x = Some q -> ~ In x (exports p).
  Notation rho := (stands_for gt exports imported).
  Lemma named_by : forall x, lookup_var gt exports x "" imported = rho x.
  Proof. intro x. unfold stands_for. now apply (global_same gt exports imported HX). Qed.
  Lemma named_self : forall x, lookup_var gt exports x "" [] = x.
  Proof. reflexivity. Qed.

  Definition same (G G' : store icode) : Prop := forall x, g_val G' x = g_val G (rho x).
  Definition free (G : store icode) : Prop := forall x, rho x <> x -> g_ver G x = 0 /\ g_ver G (rho x) = 0.
  Definition grows (G G1 : store icode) : Prop := keeps G G1 /\ g_next G <= g_next G1.

  Lemma grows_refl : forall G, grows G G.
  Proof. intro G. split; [apply keeps_refl|lia]. Qed.
  Lemma grows_trans : forall G1 G2 G3, grows G1 G2 -> grows G2 G3 -> grows G1 G3.
  Proof. intros G1 G2 G3 (A & B) (C & D). split; [eapply keeps_trans; eauto|lia]. Qed.
  Lemma free_back : forall G G1, grows G G1 -> free G1 -> free G.
  Proof. intros G G1 (K & _) F x N. destruct (F x N) as (A & B). destruct (K x), (K (rho x)). split; lia. Qed.

  (** what one run does in the other store *)
  Definition follows {A} (f0 f1 : store icode -> option (A * store icode)) : Prop :=
    forall G v G1, f1 G = Some (v, G1) -> grows G G1 /\
      (free G1 -> g_next G1 = g_next G -> forall G', same G G' ->
        exists G1', f0 G' = Some (v, G1') /\ same G1 G1' /\ g_next G1' = g_next G' /\ (forall x, g_ver G1' x + g_ver G x = g_ver G1 x + g_ver G' x)).

  Lemma follows_ret : forall {A} (v : A), follows (fun G => Some (v, G)) (fun G => Some (v, G)).
  Proof. intros A v G w G1 E. injection E as <- <-. split; [apply grows_refl|]. intros _ _ G' S. exists G'. repeat split; auto. lia. Qed.
  Lemma follows_none : forall {A} (f : store icode -> option (A * store icode)), follows f (fun _ => None).
  Proof. intros A f G v G1 E. discriminate. Qed.
  Lemma follows_bind : forall {A B} (f0 f1 : store icode -> option (A * store icode)) (h0 h1 : A -> store icode -> option (B * store icode)), follows f0 f1 -> (forall v, follows (h0 v) (h1 v)) ->
    follows (fun G => match f0 G with Some (v, G1) => h0 v G1 | None => None end)
            (fun G => match f1 G with Some (v, G1) => h1 v G1 | None => None end).
  Proof.
    intros A B f0 f1 h0 h1 F H G v G2 E. destruct (f1 G) as [(w, G1)|] eqn:E1; [|discriminate].
    destruct (F _ _ _ E1) as (A1 & B1). destruct (H w _ _ _ E) as (A2 & B2). split; [eapply grows_trans; eauto|].
    intros FR NX G' S. pose proof A1 as (_ & L1). pose proof A2 as (_ & L2).
    destruct (B1 (free_back _ _ A2 FR) ltac:(lia) G' S) as (G1' & E1' & S1 & N1 & V1). rewrite E1'.
    destruct (B2 FR ltac:(lia) G1' S1) as (G2' & E2' & S2 & N2 & V2). exists G2'. split; [exact E2'|]. split; [exact S2|]. split; [congruence|].
    intro x. specialize (V1 x). specialize (V2 x). lia.
  Qed.
  Lemma follows_set : forall x v, follows (fun G => Some (v, g_set G x v)) (fun G => Some (v, g_set G x v)).
  Proof.
    intros x v G w G1 E. injection E as <- <-. split; [split; [apply keeps_set|cbn; lia]|].
    intros FR _ G' S. eexists. split; [reflexivity|]. split; [|split; [reflexivity|]].
    2: { intro y. cbn. destruct (name_eqb y x); lia. }
    assert (X : rho x = x).
    { destruct (name_eqb_spec (rho x) x) as [|N]; [assumption|]. destruct (FR x N) as (A & _). cbn in A. rewrite name_eqb_refl in A. discriminate. }
    intro y. cbn. destruct (name_eqb_spec y x) as [->|N].
    - rewrite X, name_eqb_refl. reflexivity.
    - destruct (name_eqb_spec (rho y) x) as [E|_]; [|apply S].
      exfalso. assert (rho y <> y) as NY by congruence. destruct (FR y NY) as (_ & A). cbn in A. rewrite E, name_eqb_refl in A. discriminate.
  Qed.
  Lemma follows_prim : forall p l, follows (prim_sem ar p l) (prim_sem ar p l).
  Proof.
    intros p l. destruct (match p, l with PSet, [VSym x; v] => Some (x, v) | _, _ => None end) as [(x, v)|] eqn:SE.
    { destruct p; try discriminate. destruct l as [|[] [|? [|? ?]]]; try discriminate. apply follows_set. }
    intros G v G1 E. split.
    - split; [eapply keeps_prim; eauto|].
      destruct p; destruct l as [|a [|b [|c l]]]; cbn in E; try discriminate;
        try (destruct a; try discriminate); try (destruct b; try discriminate); try (destruct (ar _ _ _); try discriminate);
        try (destruct (veq _ _); try discriminate); injection E as <- <-; cbn; lia.
    - intros _ NX G' S.
      assert (X : G1 = G /\ prim_sem ar p l G' = Some (v, G')).
      { destruct p; destruct l as [|a [|b [|c l]]]; cbn in E |- *; try discriminate;
          try (destruct a; try discriminate); try (destruct b; try discriminate); try (destruct (ar _ _ _); try discriminate);
          try (destruct (veq _ _); try discriminate); injection E as <- <-; auto; cbn in NX; lia. }
      destruct X as (-> & ->). exists G'. repeat split; auto. lia.
  Qed.
  Lemma follows_exact : forall run0 run1, (forall c vs l, follows (run0 c vs l) (run1 c vs l)) ->
    forall f l, follows (exact ar run0 f l) (exact ar run1 f l).
  Proof.
    intros run0 run1 HR. induction f; intro l; cbn [exact]; try apply follows_none; auto. apply follows_prim.
  Qed.
  Lemma follows_apply : forall run0 run1, (forall c vs l, follows (run0 c vs l) (run1 c vs l)) ->
    forall f l, follows (native_apply ar run0 f l) (native_apply ar run1 f l).
  Proof.
    intros run0 run1 HR f l. unfold native_apply. destruct (need i_arity f); [|apply follows_none]. destruct (_ =? _); [|apply follows_none]. now apply follows_exact.
  Qed.
  Lemma follows_args : forall ev0 ev1, (forall e, follows (ev0 e) (ev1 e)) -> forall l, follows (map_eval ev0 l) (map_eval ev1 l).
  Proof.
    intros ev0 ev1 H. induction l as [|e l IH]; [apply follows_ret|]. cbn [map_eval].
    apply (follows_bind (ev0 e) (ev1 e) (fun v G1 => match map_eval ev0 l G1 with Some (vs, G2) => Some (v :: vs, G2) | None => None end)); [apply H|].
    intro v. apply (follows_bind (map_eval ev0 l) (map_eval ev1 l) (fun vs G2 => Some (v :: vs, G2))); [exact IH|]. intro vs. apply follows_ret.
  Qed.
  Lemma follows_interp : forall n e env, follows (interp0 n e env) (interp1 n e env).
  Proof.
    induction n as [|n IH]; intros e env; [apply follows_none|].
    assert (HC : forall h t, follows (icall gt exports [] ar n env h t) (icall gt exports imported ar n env h t)).
    { intros h t. unfold icall. destruct (slist t) as [l|].
      2: { intros G v G1 E. destruct (interp1 n h env G) as [(?, ?)|]; discriminate. }
      apply (follows_bind (interp0 n h env) (interp1 n h env)
        (fun f G1 => match map_eval (fun x => interp0 n x env) l G1 with Some (args, G2) => native_apply ar (fun c vs args => interp0 n (ic_body c) (push_args (ic_ps c) args (combine (ic_env c) vs))) f args G2 | None => None end)
        (fun f G1 => match map_eval (fun x => interp1 n x env) l G1 with Some (args, G2) => native_apply ar (fun c vs args => interp1 n (ic_body c) (push_args (ic_ps c) args (combine (ic_env c) vs))) f args G2 | None => None end)); [apply IH|].
      intro f. apply (follows_bind (map_eval (fun x => interp0 n x env) l) (map_eval (fun x => interp1 n x env) l)
        (fun args G2 => native_apply ar (fun c vs args => interp0 n (ic_body c) (push_args (ic_ps c) args (combine (ic_env c) vs))) f args G2)
        (fun args G2 => native_apply ar (fun c vs args => interp1 n (ic_body c) (push_args (ic_ps c) args (combine (ic_env c) vs))) f args G2)).
      - apply follows_args. intro e0. apply IH.
      - intro args. apply follows_apply. intros c vs a. apply IH. }
    destruct e as [z|x|s| | | |h t]; cbn [interp]; try apply follows_ret.
    - destruct (lookup_env x env) as [v|]; [apply follows_ret|]. rewrite named_self, named_by.
      intros G v G1 E. destruct (g_val G (rho x)) as [w|] eqn:EG; [|discriminate]. injection E as <- <-.
      split; [apply grows_refl|]. intros _ _ G' S. exists G'. rewrite (S x), EG. repeat split; auto. lia.
    - specialize (HC h t). unfold icall in HC.
      repeat match goal with |- follows (fun G => if ?b then _ else _) _ => destruct b end.
      + destruct t as [| | | | | |a [| | | | | |]]; try exact HC. apply follows_ret.
      + destruct (three t) as [((a, b), c)|]; [|exact HC].
        apply (follows_bind (interp0 n a env) (interp1 n a env)
          (fun w G1 => match w with VTrue => interp0 n b env G1 | _ => interp0 n c env G1 end)
          (fun w G1 => match w with VTrue => interp1 n b env G1 | _ => interp1 n c env G1 end)); [apply IH|].
        intros []; apply IH.
      + destruct (two t) as [(a, b)|]; [|exact HC].
        apply (follows_bind (interp0 n a env) (interp1 n a env) (fun _ G1 => interp0 n b env G1) (fun _ G1 => interp1 n b env G1)); [apply IH|].
        intros _. apply IH.
      + destruct (two t) as [(a, b)|]; [|exact HC]. destruct a; try apply follows_none.
        apply (follows_bind (interp0 n b env) (interp1 n b env) (fun v G1 => Some (v, g_set G1 x v)) (fun v G1 => Some (v, g_set G1 x v))); [apply IH|].
        intro v. apply follows_set.
      + destruct (three t) as [((a, b), c)|]; [|exact HC]. destruct a; try apply follows_none.
        apply (follows_bind (interp0 n b env) (interp1 n b env) (fun v G1 => interp0 n c ((x, v) :: env) G1) (fun v G1 => interp1 n c ((x, v) :: env) G1)); [apply IH|].
        intro v. apply IH.
      + destruct (two t) as [(a, b)|]; [|exact HC]. destruct (slist a) as [l|]; [|apply follows_none].
        destruct (symbols l); [|apply follows_none]. apply follows_ret.
      + exact HC.
  Qed.

  (** * More fuel *)
  Definition subsumes {A} (f h : store icode -> option (A * store icode)) : Prop := forall G r, f G = Some r -> h G = Some r.
  Lemma subsumes_bind : forall {A B} (f f' : store icode -> option (A * store icode)) (h h' : A -> store icode -> option (B * store icode)),
    subsumes f f' -> (forall v, subsumes (h v) (h' v)) ->
    subsumes (fun G => match f G with Some (v, G1) => h v G1 | None => None end) (fun G => match f' G with Some (v, G1) => h' v G1 | None => None end).
  Proof. intros A B f f' h h' F H G r E. destruct (f G) as [(v, G1)|] eqn:E1; [|discriminate]. rewrite (F _ _ E1). now apply H. Qed.
  Lemma subsumes_exact : forall run run', (forall c vs l, subsumes (run c vs l) (run' c vs l)) -> forall f l, subsumes (exact ar run f l) (exact ar run' f l).
  Proof. intros run run' HR. induction f; intros l G r E; cbn [exact] in *; try discriminate; eauto. now apply HR. now apply IHf. Qed.
  Lemma subsumes_apply : forall run run', (forall c vs l, subsumes (run c vs l) (run' c vs l)) -> forall f l, subsumes (native_apply ar run f l) (native_apply ar run' f l).
  Proof.
    intros run run' HR f l G r E. unfold native_apply in *. destruct (need i_arity f); [|discriminate]. destruct (_ =? _); [|discriminate].
    revert E. now apply subsumes_exact.
  Qed.
  Lemma subsumes_args : forall ev ev', (forall e, subsumes (ev e) (ev' e)) -> forall l, subsumes (map_eval ev l) (map_eval ev' l).
  Proof.
    intros ev ev' H. induction l as [|e l IH]; [intros G r E; exact E|]. cbn [map_eval].
    apply (subsumes_bind (ev e) (ev' e) (fun v G1 => match map_eval ev l G1 with Some (vs, G2) => Some (v :: vs, G2) | None => None end)); [apply H|].
    intro v. apply (subsumes_bind (map_eval ev l) (map_eval ev' l) (fun vs G2 => Some (v :: vs, G2))); [exact IH|]. intros vs G r E. exact E.
  Qed.
  Lemma interp_S : forall n e env, subsumes (interp0 n e env) (interp0 (S n) e env).
  Proof.
    induction n as [|n IH]; intros e env; [intros G r E; discriminate|].
    assert (HC : forall h t, subsumes (icall gt exports [] ar n env h t) (icall gt exports [] ar (S n) env h t)).
    { intros h t. unfold icall. destruct (slist t) as [l|].
      2: { intros G r E. destruct (interp0 n h env G) as [(?, ?)|]; discriminate. }
      apply (subsumes_bind (interp0 n h env) (interp0 (S n) h env)
        (fun f G1 => match map_eval (fun x => interp0 n x env) l G1 with Some (args, G2) => native_apply ar (fun c vs args => interp0 n (ic_body c) (push_args (ic_ps c) args (combine (ic_env c) vs))) f args G2 | None => None end)
        (fun f G1 => match map_eval (fun x => interp0 (S n) x env) l G1 with Some (args, G2) => native_apply ar (fun c vs args => interp0 (S n) (ic_body c) (push_args (ic_ps c) args (combine (ic_env c) vs))) f args G2 | None => None end)); [apply IH|].
      intro f. apply (subsumes_bind (map_eval (fun x => interp0 n x env) l) (map_eval (fun x => interp0 (S n) x env) l)
        (fun args G2 => native_apply ar (fun c vs args => interp0 n (ic_body c) (push_args (ic_ps c) args (combine (ic_env c) vs))) f args G2)
        (fun args G2 => native_apply ar (fun c vs args => interp0 (S n) (ic_body c) (push_args (ic_ps c) args (combine (ic_env c) vs))) f args G2)).
      - apply subsumes_args. intro e0. apply IH.
      - intro args. apply subsumes_apply. intros c vs a. apply IH. }
    intros G r E. destruct e as [z|x|s| | | |h t]; try exact E.
    remember (S n) as n1. cbn [interp]. subst n1. cbn [interp] in E. specialize (HC h t). unfold icall in HC. set (i1 := interp0 (S n)) in *. set (i0 := interp0 n) in *.
    repeat match type of E with (if ?b then _ else _) = _ => destruct b end.
    + destruct t as [| | | | | |a [| | | | | |]]; try (apply HC; exact E). exact E.
    + destruct (three t) as [((a, b), c)|]; [|apply HC; exact E].
      destruct (i0 a env G) as [(w, G1)|] eqn:E1; [|discriminate]. rewrite (IH _ _ _ _ E1). destruct w; now apply IH.
    + destruct (two t) as [(a, b)|]; [|apply HC; exact E].
      destruct (i0 a env G) as [(w, G1)|] eqn:E1; [|discriminate]. rewrite (IH _ _ _ _ E1). now apply IH.
    + destruct (two t) as [(a, b)|]; [|apply HC; exact E]. destruct a; try discriminate.
      destruct (i0 b env G) as [(w, G1)|] eqn:E1; [|discriminate]. rewrite (IH _ _ _ _ E1). exact E.
    + destruct (three t) as [((a, b), c)|]; [|apply HC; exact E]. destruct a; try discriminate.
      destruct (i0 b env G) as [(w, G1)|] eqn:E1; [|discriminate]. rewrite (IH _ _ _ _ E1). now apply IH.
    + destruct (two t) as [(a, b)|]; [exact E|apply HC; exact E].
    + apply HC; exact E.
  Qed.
  Lemma interp_more : forall n m e env, n <= m -> subsumes (interp0 n e env) (interp0 m e env).
  Proof. intros n m e env L. induction L; intros G r E; [exact E|]. apply interp_S. now apply IHL. Qed.

  (** * The rounds as one program *)
  Definition still (ev : event) : Prop := g_next (ev_store ev) = ev_count ev.
  Definition last_of (evs : list event) (G : store icode) : store icode := match evs with [] => G | _ => ev_store (last evs (mkEv SNil 0 VNil G)) end.
  Lemma round_grows : forall fuel e G ev, round fuel e G = Some ev -> keeps G (ev_store ev).
  Proof.
    intros fuel e G ev E. unfold ScriptModel.round in E. destruct (hmacroexpand _ _ _ _ _ _) as [(e1, k)|]; [|discriminate].
    destruct (interp1 fuel e1 [] _) as [(v, G1)|] eqn:EI; [|discriminate]. injection E as <-. cbn.
    exact (keeps_interp _ _ _ _ _ _ _ _ _ _ EI).
  Qed.
  Lemma last_cons : forall ev ev2 evs G, last_of (ev :: ev2 :: evs) G = last_of (ev2 :: evs) (ev_store ev).
  Proof. intros. unfold last_of. cbn [last]. f_equal. clear. revert ev2. induction evs as [|e evs IH]; intro ev2; [reflexivity|]. apply IH. Qed.
  Lemma session_grows : forall fuel G l evs, session fuel G l evs -> keeps G (last_of evs G).
  Proof.
    induction 1 as [G|G e l ev evs R S IH]; [apply keeps_refl|].
    eapply keeps_trans; [exact (round_grows _ _ _ _ R)|]. destruct evs as [|ev2 evs]; [apply keeps_refl|rewrite last_cons; exact IH].
  Qed.
  Fixpoint chain (l : list sexp) : sexp :=
    match l with [] => SNil | [x] => x | x :: r => of_list [ssym "do"; x; chain r] end.
  Lemma session_chain : forall fuel G l evs, session fuel G l evs -> evs <> [] -> Forall still evs -> free (last_of evs G) ->
    forall G', same G G' -> exists G1', interp0 (fuel + List.length evs) (chain (map ev_code evs)) [] G' =
        Some (ev_value (last evs (mkEv SNil 0 VNil G)), G1') /\
      same (last_of evs G) G1' /\ g_next G1' = g_next G' /\ (forall x, g_ver G1' x + g_ver G x = g_ver (last_of evs G) x + g_ver G' x).
  Proof.
    induction 1 as [G|G e l ev evs R S IH]; [contradiction|]. intros _ ST FR G' SM. inversion ST as [|? ? ST1 ST2]; subst.
    assert (FR1 : free (ev_store ev)).
    { destruct evs as [|ev2 evs]; [exact FR|]. rewrite last_cons in FR. intros x N. destruct (FR x N) as (A & B).
      destruct (session_grows _ _ _ _ S x), (session_grows _ _ _ _ S (rho x)). split; lia. }
    unfold ScriptModel.round in R. destruct (hmacroexpand _ _ _ _ _ _) as [(e1, k)|]; [|discriminate].
    destruct (interp1 fuel e1 [] _) as [(v, G1)|] eqn:EI; [|discriminate]. injection R as <-. unfold still in ST1. cbn in ST1, FR1.
    destruct (follows_interp _ _ _ _ _ _ EI) as (_ & F). cbn [g_next] in F.
    destruct (F FR1 ST1 G' SM) as (G1' & E1 & S1 & N1 & V1). cbn [g_ver] in V1.
    destruct evs as [|ev2 evs].
    - exists G1'. cbn [map chain ev_code last ev_value List.length last_of ev_store]. split; [apply (interp_more fuel); [lia|exact E1]|]. auto.
    - destruct (IH ltac:(discriminate) ST2 ltac:(rewrite last_cons in FR; exact FR) G1' S1) as (G2' & E2 & S2 & N2 & V2).
      exists G2'. rewrite last_cons. split; [|split; [exact S2|split; [congruence|intro x; specialize (V1 x); specialize (V2 x); cbn [ev_store] in *; lia]]].
      cbn [map]. cbn [chain]. change (match map ev_code evs with [] => ev_code ev2 | _ :: _ => of_list [ssym "do"; ev_code ev2; chain (map ev_code evs)] end)
        with (chain (map ev_code (ev2 :: evs))).
      replace (fuel + List.length (mkEv e1 k v G1 :: ev2 :: evs)) with (Datatypes.S (fuel + List.length (ev2 :: evs))) by (cbn; lia).
      rewrite i_do. cbn [ev_code]. rewrite (interp_more fuel (fuel + List.length (ev2 :: evs)) e1 [] ltac:(lia) _ _ E1).
      etransitivity; [exact E2|]. f_equal. f_equal. f_equal. cbn [last]. clear. revert ev2. induction evs as [|a evs IH]; intro ev2; [reflexivity|]. apply IH.
  Qed.
End Session.

(** * Core code *)
Lemma clean_plain : forall k e, clean k e = true -> plain k e = true /\ scoped k e = true.
Proof.
  induction k as [|k IH]; intros e H; [discriminate|]. cbn [clean plain scoped] in *.
  destruct (nview e) as [[]| | |]; try discriminate; auto; rewrite ?andb_true_iff in *.
  - destruct H as ((A & B) & C). destruct (IH _ C). auto.
  - destruct H as ((A & B) & C). destruct (IH _ A), (IH _ B), (IH _ C). auto.
  - destruct H as (A & B). destruct (IH _ A), (IH _ B). auto.
  - destruct H as ((A & B) & C). destruct (IH _ B), (IH _ C). auto.
  - destruct H as ((A & B) & C). destruct (IH _ B). rewrite forallb_forall in C.
    split; split; auto; apply forallb_forall; intros x Hx; now apply IH, C.
Qed.
Lemma clean_more : forall k k' e, k <= k' -> clean k e = true -> clean k' e = true.
Proof.
  induction k as [|k IH]; intros [|k'] e L H; try discriminate; [lia|]. cbn [clean] in *.
  assert (IH' : forall e, clean k e = true -> clean k' e = true) by (intros; apply IH; [lia|assumption]).
  destruct (nview e) as [[]| | |]; try discriminate; auto; rewrite ?andb_true_iff in *.
  - destruct H as ((A & B) & C). auto.
  - destruct H as ((A & B) & C). auto.
  - destruct H as (A & B). auto.
  - destruct H as ((A & B) & C). auto.
  - destruct H as ((A & B) & C). split; auto. rewrite forallb_forall in *. auto.
Qed.
Lemma clean_same : forall gt exports ks e, clean ks e = true -> forall k env, ks < k -> nsparse gt exports k env "" [] e = Some e.
Proof.
  intros gt exports. induction ks as [|ks IH]; intros e HS k env L; [discriminate|]. destruct k as [|k]; [lia|].
  assert (IH' : forall e, clean ks e = true -> forall env, nsparse gt exports k env "" [] e = Some e) by (intros; apply IH; [assumption|lia]).
  cbn [clean] in HS. pose proof (nview_shape e) as SH.
  destruct (nview e) as [[]| | |] eqn:EV; inversion SH; subst; try discriminate; rewrite ?andb_true_iff in HS.
  - destruct s; try contradiction; reflexivity.
  - now rewrite np_quote.
  - cbn [nsparse]. destruct (mem x env); [reflexivity|]. destruct (builtin x); reflexivity.
  - rewrite np_lam. destruct HS as (_ & HS). now rewrite IH'.
  - rewrite np_if. destruct HS as ((A1 & A2) & A3). now rewrite !IH'.
  - rewrite np_do by assumption. destruct HS as (A1 & A2). now rewrite !IH'.
  - rewrite np_let. destruct HS as ((_ & A1) & A2). now rewrite !IH'.
  - rewrite np_app by assumption. destruct HS as ((_ & A1) & A2). cbn [map_opt]. rewrite IH' by assumption.
    assert (X : map_opt (nsparse gt exports k env "" []) args = Some args).
    { clear - IH' A2. induction args as [|a args IHa]; cbn in *; [reflexivity|]. apply andb_true_iff in A2 as (A & B). rewrite IH', IHa by assumption. reflexivity. }
    now rewrite X.
Qed.
Lemma clean_chain : forall l, l <> [] -> Forall (fun e => (exists ks, clean ks e = true) /\ import_of e = None) l -> exists ks, clean ks (chain l) = true.
Proof.
  induction l as [|e l IH]; intros N F; [contradiction|]. inversion F as [|? ? ((k1 & C1) & I1) F2]; subst.
  destruct l as [|e2 l]; [exists k1; exact C1|]. destruct (IH ltac:(discriminate) F2) as (k2 & C2).
  exists (S (max k1 k2)). change (chain (e :: e2 :: l)) with (of_list [ssym "do"; e; chain (e2 :: l)]). cbn [clean].
  assert (V : nview (of_list [ssym "do"; e; chain (e2 :: l)]) = NCore (FDo e (chain (e2 :: l)))).
  { unfold nview. rewrite slist_of_list. cbn [is_sym ssym name_eqb String.eqb Ascii.eqb Bool.eqb]. now rewrite I1. }
  rewrite V, (clean_more k1 (max k1 k2) e ltac:(lia) C1), (clean_more k2 (max k1 k2) _ ltac:(lia) C2). reflexivity.
Qed.
Lemma looks_sym : forall {C1 C2} (a1 : C1 -> nat) (a2 : C2 -> nat) v1 v2, looks a1 a2 v1 v2 -> looks a2 a1 v2 v1.
Proof.
  intros C1 C2 a1 a2. fix IH 3. intros v1 v2 H. destruct H; constructor; auto.
  match goal with A : Forall2 (looks a1 a2) ?x ?y |- _ => clear - IH A; induction A; constructor; auto end.
Qed.

