(** Programs with all the properties that the compiler and the C generator ask
    for, described form by form. *)
From Coq Require Import List ZArith Bool String Ascii Arith Lia.
From Verif Require Import Base GenCond GenSource SurfSpec CoreSpec CoreProofs TocModel TocSem TocMach TocTail TocParse TocScope TocWhole TocTotal TocTable NsProofs.
Import ListNotations.
Local Open Scope list_scope.
Local Open Scope nat_scope.

Local Notation Y s := (SSym (NS s)).
Local Notation "'L' l" := (of_list l) (at level 9, l at level 0).

Definition dj (a b : list name) : Prop := forall x, In x a -> ~ In x b.

Section Fine.
  Variable n0 : nat.
  Definition good (x : name) : bool := binder_ok n0 x && no_form x && GenSource.local_ok x.

  (** [fine env ls e]: [env] are the local variables that can be seen, [ls]
      contains all names that lets of [e] bind outside the functions in it *)
  Inductive fine : list name -> list name -> sexp -> Prop :=
  | fi_atom env ls s : is_atom s = true -> literals s = true -> fine env ls s
  | fi_sym env ls x : older n0 x = true -> In x env \/ symbol_ok (SSym x) = true -> fine env ls (SSym x)
  | fi_quote env ls x : symbol_ok (SSym x) = true -> fine env ls (L [Y "quote"; SSym x])
  | fi_lam env ls ps b lb : NoDup ps -> forallb good ps = true -> fine (ps ++ env) lb b ->
      fine env ls (L [Y "lambda"; L (map SSym ps); b])
  | fi_if env ls a b c la lb lc : fine env la a -> fine env lb b -> fine env lc c -> dj la (lb ++ lc) ->
      incl (la ++ lb ++ lc) ls -> fine env ls (L [Y "if"; a; b; c])
  | fi_do env ls a b la lb : fine env la a -> fine env lb b -> dj la lb -> incl (la ++ lb) ls -> fine env ls (L [Y "do"; a; b])
  | fi_let env ls x b c lb lc : good x = true -> ~ In x env -> fine env lb b -> fine (x :: env) lc c -> ~ In x lb -> dj lb lc ->
      incl (x :: lb ++ lc) ls -> fine env ls (L [Y "let"; SSym x; b; c])
  | fi_prim env ls x p args lss : prim_of x = Some p -> prim_arity p = List.length args -> fines env lss args -> ForallOrdPairs dj lss ->
      incl (List.concat lss) ls -> fine env ls (L (SSym x :: args))
  | fi_app env ls f args lf lss : view (L (f :: args)) = FApp f args -> (match f with SSym x => prim_of x | _ => None end = None) ->
      fine env lf f -> fines env lss args -> ForallOrdPairs dj (lf :: lss) -> incl (lf ++ List.concat lss) ls -> fine env ls (L (f :: args))
  with fines : list name -> list (list name) -> list sexp -> Prop :=
  | fis_nil env : fines env [] []
  | fis_cons env l lss e es : fine env l e -> fines env lss es -> fines env (l :: lss) (e :: es).
  Scheme fine_i := Minimality for fine Sort Prop with fines_i := Minimality for fines Sort Prop.
  Combined Scheme fine_fines from fine_i, fines_i.

  Definition holds (k : nat) (env ls : list name) (e : sexp) : Prop :=
    src_ok n0 k e = true /\ scope_ok k env e = true /\ texts k e = true /\ incl (TocScope.lets k e) ls /\
    forallb good (locals k e) = true /\ forallb symbol_ok (mentioned k env e) = true.
  Definition Fi (env ls : list name) (e : sexp) : Prop := literals e = true /\ exists k0, forall k, k0 <= k -> holds k env ls e.
  Definition Fis (env : list name) (lss : list (list name)) (es : list sexp) : Prop :=
    forallb literals es = true /\ List.length lss = List.length es /\ exists k0, forall k, k0 <= k -> Forall2 (holds k env) lss es.

  Lemma lit_list : forall l, literals (L l) = forallb literals l.
  Proof. induction l as [|a l IH]; cbn; [reflexivity|]. now rewrite IH. Qed.
  Lemma holds_all : forall k env lss es, Forall2 (holds k env) lss es ->
    forallb (src_ok n0 k) es = true /\ forallb (scope_ok k env) es = true /\ forallb (texts k) es = true /\
    Forall2 (fun ls e => incl (TocScope.lets k e) ls) lss es /\ forallb good (flat_map (locals k) es) = true /\
    forallb symbol_ok (flat_map (mentioned k env) es) = true.
  Proof.
    intros k env lss es H. induction H as [|ls e lss es (A & B & C & D & E & F) _ (A1 & B1 & C1 & D1 & E1 & F1)]; cbn.
    - repeat split; constructor.
    - rewrite !forallb_app, A, B, C, E, F, A1, B1, C1, E1, F1. repeat split; auto.
  Qed.
  Lemma lets_apart : forall k lss es, Forall2 (fun ls e => incl (TocScope.lets k e) ls) lss es -> ForallOrdPairs dj lss ->
    apart (map (TocScope.lets k) es) = true.
  Proof.
    intros k lss es H. induction H as [|ls e lss es A H IH]; intro P; cbn; [reflexivity|]. inversion P as [|? ? Q P']; subst.
    rewrite IH by exact P'. rewrite andb_true_r. apply forallb_forall. intros b Hb. apply in_map_iff in Hb as (e' & <- & He').
    apply disj_intro. intros x Hx Hx'. apply A in Hx. clear IH P P' A. induction H as [|ls' e'' lss es A' H IH]; [exact He'|].
    inversion Q as [|? ? D Q']; subst. destruct He' as [->|He']; [exact (D x Hx (A' x Hx'))|exact (IH Q' He')].
  Qed.
  Lemma lets_concat : forall k lss es, Forall2 (fun ls e => incl (TocScope.lets k e) ls) lss es ->
    incl (flat_map (TocScope.lets k) es) (List.concat lss).
  Proof. intros k lss es H. induction H; cbn; [intros x []|]. now apply incl_app_app. Qed.
  Lemma good_binder : forall ps, forallb good ps = true -> forallb (binder_ok n0) ps = true.
  Proof. intros ps H. rewrite forallb_forall in *. intros x Hx. specialize (H x Hx). unfold good in H. rewrite !andb_true_iff in H. apply H. Qed.
  Lemma distinct_intro : forall l, NoDup l -> TocScope.distinct l = true.
  Proof. induction 1 as [|x l N _ IH]; cbn; [reflexivity|]. rewrite IH, notmem by exact N. reflexivity. Qed.
  Lemma prim_view : forall x p args, prim_of x = Some p -> view (L (SSym x :: args)) = FApp (SSym x) args.
  Proof.
    intros x p args H. unfold view. cbn [of_list]. change (slist (SCons (SSym x) (L args))) with (slist (L (SSym x :: args))). rewrite slist_of_list.
    destruct x as [s|]; [|discriminate].
    assert (K : forall f, prim_of (NS f) = None -> is_sym f (Y s) = false).
    { intros f E. cbn. destruct (String.eqb_spec s f) as [->|]; [congruence|reflexivity]. }
    now rewrite !K by reflexivity.
  Qed.
  Lemma view_lam : forall ps b, view (L [Y "lambda"; L (map SSym ps); b]) = FLam ps b.
  Proof.
    intros ps b. unfold view. cbn. rewrite slist_of_list.
    assert (X : symbols (map SSym ps) = Some ps) by (induction ps as [|p ps IH]; cbn; [reflexivity|now rewrite IH]). now rewrite X.
  Qed.

  Lemma fine_holds : (forall env ls e, fine env ls e -> Fi env ls e) /\ (forall env lss es, fines env lss es -> Fis env lss es).
  Proof.
    apply fine_fines; unfold Fi, Fis; intros.
    - split; [assumption|]. exists 1. intros [|k] Hk; [lia|]. destruct s; try discriminate; repeat split; intros x [].
    - split; [reflexivity|]. exists 1. intros [|k] Hk; [lia|]. unfold holds. cbn [src_ok view scope_ok texts TocScope.lets locals mentioned].
      repeat split; auto; [intros y []|]. destruct (mem_spec x env) as [|N]; [reflexivity|]. destruct H0 as [|H0]; [contradiction|]. cbn [forallb]. now rewrite H0.
    - split; [reflexivity|]. exists 1. intros [|k] Hk; [lia|]. unfold holds.
      assert (V : view (L [Y "quote"; SSym x]) = FConst (SSym x)) by reflexivity. cbn [src_ok scope_ok texts TocScope.lets locals mentioned]. rewrite V.
      repeat split; auto; [intros y []|]. cbn [of_list forallb]. now rewrite H.
    - destruct H2 as (LI & k0 & HK). split.
      { rewrite lit_list. cbn [forallb]. rewrite LI, lit_list.
        assert (X : forallb literals (map SSym ps) = true) by (clear; induction ps; auto). now rewrite X. }
      exists (S k0). intros [|k] Hk; [lia|]. destruct (HK k ltac:(lia)) as (A & B & C & D & E & F).
      unfold holds. cbn [src_ok scope_ok texts TocScope.lets locals mentioned]. rewrite view_lam.
      rewrite forallb_app, A, B, C, E, F, H0, good_binder, distinct_intro by assumption. repeat split. intros y [].
    - destruct H0 as (LA & ka & HA), H2 as (LB & kb & HB), H4 as (LC & kc & HC). split.
      { rewrite lit_list. cbn [forallb]. now rewrite LA, LB, LC. }
      exists (S (max ka (max kb kc))). intros [|k] Hk; [lia|].
      destruct (HA k ltac:(lia)) as (A1 & A2 & A3 & A4 & A5 & A6), (HB k ltac:(lia)) as (B1 & B2 & B3 & B4 & B5 & B6), (HC k ltac:(lia)) as (C1 & C2 & C3 & C4 & C5 & C6).
      unfold holds. cbn [src_ok scope_ok texts TocScope.lets locals mentioned]. change (view (L [Y "if"; a; b; c])) with (FIf a b c).
      cbv beta iota. rewrite !forallb_app, A1, A2, A3, A5, A6, B1, B2, B3, B5, B6, C1, C2, C3, C5, C6. repeat split; auto.
      + cbn [andb]. apply disj_intro. intros x Hx Hx'. apply (H5 x (A4 _ Hx)). apply in_app_or in Hx'. apply in_or_app. destruct Hx'; [left; now apply B4|right; now apply C4].
      + eapply incl_tran; [|exact H6]. repeat apply incl_app_app; assumption.
    - destruct H0 as (LA & ka & HA), H2 as (LB & kb & HB). split.
      { rewrite lit_list. cbn [forallb]. now rewrite LA, LB. }
      exists (S (max ka kb)). intros [|k] Hk; [lia|].
      destruct (HA k ltac:(lia)) as (A1 & A2 & A3 & A4 & A5 & A6), (HB k ltac:(lia)) as (B1 & B2 & B3 & B4 & B5 & B6).
      unfold holds. cbn [src_ok scope_ok texts TocScope.lets locals mentioned]. change (view (L [Y "do"; a; b])) with (FDo a b).
      cbv beta iota. rewrite !forallb_app, A1, A2, A3, A5, A6, B1, B2, B3, B5, B6. repeat split; auto.
      + cbn [andb]. apply disj_intro. intros x Hx Hx'. exact (H3 x (A4 _ Hx) (B4 _ Hx')).
      + eapply incl_tran; [|exact H4]. repeat apply incl_app_app; assumption.
    - destruct H2 as (LA & ka & HA), H4 as (LB & kb & HB). split.
      { rewrite lit_list. cbn [forallb]. now rewrite LA, LB. }
      exists (S (max ka kb)). intros [|k] Hk; [lia|].
      destruct (HA k ltac:(lia)) as (A1 & A2 & A3 & A4 & A5 & A6), (HB k ltac:(lia)) as (B1 & B2 & B3 & B4 & B5 & B6).
      unfold holds. cbn [src_ok scope_ok texts TocScope.lets locals mentioned]. change (view (L [Y "let"; SSym x; b; c])) with (FLet x b c).
      cbv beta iota. cbn [forallb]. rewrite !forallb_app, A1, A2, A3, A5, A6, B1, B2, B3, B5, B6, H, notmem by assumption. repeat split; auto.
      + pose proof (good_binder [x] ltac:(cbn; now rewrite H)) as G. cbn in G. rewrite andb_true_r in G. now rewrite G.
      + rewrite notmem by (intro K; apply H5, A4, K). cbn [andb]. apply disj_intro. intros y Hy Hy'. exact (H6 y (A4 _ Hy) (B4 _ Hy')).
      + eapply incl_tran; [|exact H7]. apply incl_cons; [now left|]. apply incl_tl. now apply incl_app_app.
    - destruct H2 as (LA & LEN & k0 & HK). split.
      { rewrite lit_list. cbn [forallb]. now rewrite LA. }
      exists (S (S k0)). intros [|k] Hk; [lia|]. destruct (holds_all _ _ _ _ (HK k ltac:(lia))) as (A & B & C & D & E & F).
      unfold holds. cbn [src_ok scope_ok texts TocScope.lets locals mentioned]. rewrite (prim_view x p args H). cbv beta iota.
      rewrite H, H0, Nat.eqb_refl, A. cbn [forallb map apart flat_map]. rewrite B, C, (lets_apart _ _ _ D H3).
      assert (SY : scope_ok k env (SSym x) = true /\ texts k (SSym x) = true /\ TocScope.lets k (SSym x) = [] /\ locals k (SSym x) = []).
      { destruct k as [|k']; [lia|]. repeat split. }
      destruct SY as (-> & -> & -> & ->). cbn [app andb]. rewrite E, F. repeat split; auto.
      + rewrite andb_true_r. apply forallb_forall. intros; reflexivity.
      + eapply incl_tran; [apply lets_concat; exact D|exact H4].
    - destruct H2 as (LF & kf & HF), H4 as (LA & LEN & k0 & HK). split.
      { rewrite lit_list. cbn [forallb]. now rewrite LF, LA. }
      exists (S (max kf k0)). intros [|k] Hk; [lia|]. 
      assert (ALL : Forall2 (holds k env) (lf :: lss) (f :: args)) by (constructor; [apply HF|apply HK]; lia).
      destruct (holds_all _ _ _ _ ALL) as (A & B & C & D & E & F). cbn [forallb flat_map] in A, C, E, F.
      unfold holds. cbn [src_ok scope_ok texts TocScope.lets locals mentioned]. rewrite H. cbv beta iota.
      rewrite H0, A, B, C, E, F, (lets_apart _ _ _ D H5). repeat split; auto.
      eapply incl_tran; [apply lets_concat; exact D|exact H6].
    - split; [reflexivity|]. split; [reflexivity|]. exists 0. intros. constructor.
    - destruct H0 as (LF & kf & HF), H2 as (LA & LEN & k0 & HK). split; [cbn; now rewrite LF|]. split; [cbn; now rewrite LEN|].
      exists (max kf k0). intros k Hk. constructor; [apply HF|apply HK]; lia.
  Qed.

  Theorem fine_legal : forall ls e, fine [] ls e -> literals e = true /\ exists k0, forall k, k0 <= k ->
    legal n0 k e = true /\ forallb no_form (locals k e) = true /\ forallb GenSource.local_ok (locals k e) = true /\
    forallb symbol_ok (mentioned k [] e) = true.
  Proof.
    intros ls e H. destruct (proj1 fine_holds _ _ _ H) as (LI & k0 & HK). split; [exact LI|]. exists k0. intros k Hk.
    destruct (HK k Hk) as (A & B & C & _ & E & F). unfold legal. rewrite A, B, C. split; [reflexivity|].
    rewrite forallb_forall in E. split; [|split; [|exact F]]; apply forallb_forall; intros x Hx; specialize (E x Hx); unfold good in E;
      rewrite !andb_true_iff in E; apply E.
  Qed.

  (** a larger set of let-bound names; another environment *)
  Lemma fine_weak : forall env ls e, fine env ls e -> forall ls', incl ls ls' -> fine env ls' e.
  Proof.
    intros env ls e H ls' HI. inversion H; subst; try (econstructor; eauto using incl_tran; fail).
  Qed.
  Lemma fines_length : forall env lss es, fines env lss es -> List.length lss = List.length es.
  Proof. intros env lss es H. induction H; cbn; congruence. Qed.
End Fine.
