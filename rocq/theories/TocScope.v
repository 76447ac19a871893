(** From a condition on the names in the source program to the conditions
    the passes need. *)
From Coq Require Import List ZArith Bool String Arith Lia Permutation.
From Verif Require Import CoreSpec TocModel TocSem CoreProofs TocClosure TocTail TocLive TocParse TocMach TocCollect.
Import ListNotations.
Local Open Scope list_scope.
Local Open Scope nat_scope.

(** * Source programs *)

(** every local name a program introduces, once for each binder *)
Fixpoint locals (fuel : nat) (e : sexp) : list name :=
  match fuel with
  | O => []
  | S k =>
      match view e with
      | FLam ps b => ps ++ locals k b
      | FIf a b c => locals k a ++ locals k b ++ locals k c
      | FDo a b => locals k a ++ locals k b
      | FLet x b c => x :: locals k b ++ locals k c
      | FApp f args => locals k f ++ flat_map (locals k) args
      | FConst _ | FVar _ | FBad => []
      end
  end.

(** no quoted list *)
Fixpoint texts (fuel : nat) (e : sexp) : bool :=
  match fuel with
  | O => false
  | S k =>
      match view e with
      | FConst s => has_text s
      | FVar _ => true
      | FLam _ b => texts k b
      | FIf a b c => texts k a && texts k b && texts k c
      | FDo a b => texts k a && texts k b
      | FLet _ b c => texts k b && texts k c
      | FApp f args => texts k f && forallb (texts k) args
      | FBad => false
      end
  end.

(** the names a function introduces by let, not counting functions inside it *)
Fixpoint lets (fuel : nat) (e : sexp) : list name :=
  match fuel with
  | O => []
  | S k =>
      match view e with
      | FIf a b c => lets k a ++ lets k b ++ lets k c
      | FDo a b => lets k a ++ lets k b
      | FLet x b c => x :: lets k b ++ lets k c
      | FApp f args => flat_map (lets k) (f :: args)
      | FConst _ | FVar _ | FLam _ _ | FBad => []
      end
  end.

Fixpoint distinct (l : list name) : bool :=
  match l with [] => true | x :: r => negb (mem x r) && distinct r end.
Lemma distinct_spec : forall l, distinct l = true -> NoDup l.
Proof.
  induction l as [|x l IH]; intro H; [constructor|]. cbn in H. apply andb_true_iff in H as [H1 H2].
  constructor; [|auto]. destruct (mem_spec x l); [discriminate|assumption].
Qed.

Fixpoint apart (l : list (list name)) : bool :=
  match l with [] => true | a :: r => forallb (disj a) r && apart r end.

(** No let rebinds a local name that is visible where it stands ([env]), and
    two lets of one function that can both be run have different names.
    Parameters may hide anything. *)
Fixpoint scope_ok (fuel : nat) (env : list name) (e : sexp) : bool :=
  match fuel with
  | O => false
  | S k =>
      match view e with
      | FConst _ | FVar _ => true
      | FLam ps b => distinct ps && scope_ok k (ps ++ env) b
      | FIf a b c => scope_ok k env a && scope_ok k env b && scope_ok k env c && disj (lets k a) (lets k b ++ lets k c)
      | FDo a b => scope_ok k env a && scope_ok k env b && disj (lets k a) (lets k b)
      | FLet x b c =>
          negb (mem x env) && scope_ok k env b && scope_ok k (x :: env) c &&
          negb (mem x (lets k b)) && disj (lets k b) (lets k c)
      | FApp f args => forallb (scope_ok k env) (f :: args) && apart (map (lets k) (f :: args))
      | FBad => false
      end
  end.

(** * Intermediate expressions *)
Fixpoint allb (e : exp) : list name :=
  match e with
  | EConst _ | EGlob _ | EVar _ | ERef _ => []
  | ELam ps b | EClo ps b _ => ps ++ allb b
  | EIf a b c => allb a ++ allb b ++ allb c
  | EDo a b => allb a ++ allb b
  | ELet x b c => x :: allb b ++ allb c
  | EPrim _ args => flat_map allb args
  | EApp f args => allb f ++ flat_map allb args
  end.
Fixpoint etexts (e : exp) : bool :=
  match e with
  | EConst s => has_text s
  | EGlob _ | EVar _ | ERef _ => true
  | ELam _ b | EClo _ b _ => etexts b
  | EIf a b c => etexts a && etexts b && etexts c
  | EDo a b => etexts a && etexts b
  | ELet _ b c => etexts b && etexts c
  | EPrim _ args => forallb etexts args
  | EApp f args => etexts f && forallb etexts args
  end.

(** * Distinct names *)
Lemma NoDup_app_iff : forall {A} (a b : list A), NoDup (a ++ b) <-> NoDup a /\ NoDup b /\ forall x, In x a -> ~ In x b.
Proof.
  intros A a b. induction a as [|x a IH]; cbn.
  - split; [intro H; repeat split; auto; constructor|tauto].
  - split.
    + intro H. inversion H as [|? ? N H']; subst. apply IH in H'. destruct H' as (H1 & H2 & H3).
      rewrite in_app_iff in N. repeat split; [constructor; tauto|exact H2|].
      intros y [<-|Hy]; [tauto|auto].
    + intros (H1 & H2 & H3). inversion H1; subst. constructor.
      * rewrite in_app_iff. intros [?|Hb]; [contradiction|]. eapply H3; eauto.
      * apply IH. split; [assumption|]. split; [assumption|]. intros y Hy. apply H3. now right.
Qed.

Section Covers.
  Context (n0 : nat).
  Definition gen (lo hi : nat) (y : name) : Prop := exists i, y = NG i /\ lo <= i < hi.
  Definition olds (L : list name) : Prop := forall y, In y L -> older n0 y = true.
  Definition covers (A L : list name) (lo hi : nat) : Prop :=
    (forall y, In y A -> In y L \/ gen lo hi y) /\ (NoDup L -> NoDup A).

  Lemma covers_nil : forall lo hi, covers [] [] lo hi.
  Proof. intros. split; [intros y []|auto]. Qed.
  Lemma covers_self : forall L lo hi, covers L L lo hi.
  Proof. intros. split; auto. Qed.
  Lemma covers_mono : forall A L lo hi lo' hi', lo' <= lo -> hi <= hi' -> covers A L lo hi -> covers A L lo' hi'.
  Proof.
    intros A L lo hi lo' hi' H1 H2 (H3 & H4). split; [|exact H4]. intros y Hy. destruct (H3 y Hy) as [|(i & -> & Hi)]; [auto|].
    right. exists i. split; [reflexivity|lia].
  Qed.
  Lemma old_gen : forall lo hi y, n0 <= lo -> older n0 y = true -> gen lo hi y -> False.
  Proof. intros lo hi y H1 H2 (i & -> & Hi). cbn in H2. apply Nat.ltb_lt in H2. lia. Qed.
  Lemma covers_app : forall A1 L1 l1 h1 A2 L2 l2 h2, n0 <= l1 -> l1 <= h1 -> h1 <= l2 -> l2 <= h2 -> olds (L1 ++ L2) ->
    covers A1 L1 l1 h1 -> covers A2 L2 l2 h2 -> covers (A1 ++ A2) (L1 ++ L2) l1 h2.
  Proof.
    intros A1 L1 l1 h1 A2 L2 l2 h2 H0 H1 H2 H3 HO (C1 & D1) (C2 & D2). split.
    - intros y Hy. rewrite in_app_iff in *. destruct Hy as [Hy|Hy].
      + destruct (C1 y Hy) as [|(i & -> & Hi)]; [auto|]. right. exists i. split; [reflexivity|lia].
      + destruct (C2 y Hy) as [|(i & -> & Hi)]; [auto|]. right. exists i. split; [reflexivity|lia].
    - rewrite !NoDup_app_iff. intros (N1 & N2 & N3). repeat split; auto. intros y Hy1 Hy2.
      destruct (C1 y Hy1) as [I1|G1]; destruct (C2 y Hy2) as [I2|G2].
      + eapply N3; eauto.
      + eapply old_gen; [|apply HO; apply in_or_app; left; exact I1|exact G2]. lia.
      + eapply old_gen; [|apply HO; apply in_or_app; right; exact I2|exact G1]. lia.
      + destruct G1 as (i & -> & Hi). destruct G2 as (j & E & Hj). injection E as ->. lia.
  Qed.
  Lemma covers_perm : forall A L A' L' lo hi, Permutation A A' -> Permutation L L' -> covers A L lo hi -> covers A' L' lo hi.
  Proof.
    intros A L A' L' lo hi PA PL (C & D). split.
    - intros y Hy. apply (Permutation_in y (Permutation_sym PA)) in Hy. destruct (C y Hy); [left|auto]. now apply (Permutation_in y PL).
    - intro N. apply (Permutation_NoDup PA). apply D. now apply (Permutation_NoDup (Permutation_sym PL)).
  Qed.
  Lemma covers_gen : forall A L i hi, n0 <= i -> S i <= hi -> olds L -> covers A L (S i) hi -> covers (NG i :: A) L i hi.
  Proof.
    intros A L i hi H0 H1 HO (C & D). split.
    - intros y [<-|Hy]; [right; exists i; split; [reflexivity|lia]|]. destruct (C y Hy) as [|(j & -> & Hj)]; [auto|].
      right. exists j. split; [reflexivity|lia].
    - intro N. constructor; [|auto]. intro Hy. destruct (C _ Hy) as [HL|(j & E & Hj)].
      + eapply (old_gen i hi); [exact H0|apply HO; exact HL|]. exists i. split; [reflexivity|lia].
      + injection E as ->. lia.
  Qed.
  Lemma olds_app : forall a b, olds (a ++ b) <-> olds a /\ olds b.
  Proof.
    intros a b. unfold olds. split.
    - intro H. split; intros y Hy; apply H; apply in_or_app; auto.
    - intros (H1 & H2) y Hy. apply in_app_iff in Hy. destruct Hy; auto.
  Qed.
  Lemma covers_bind : forall x A L lo hi, n0 <= lo -> older n0 x = true -> covers A L lo hi -> covers (x :: A) (x :: L) lo hi.
  Proof.
    intros x A L lo hi H0 HX (C & D). split.
    - intros y [<-|Hy]; [left; now left|]. destruct (C y Hy); [left; now right|auto].
    - intro N. inversion N; subst. constructor; [|auto]. intro Hx. destruct (C x Hx) as [|G]; [contradiction|]. eapply old_gen; eauto.
  Qed.

  Lemma locals_old : forall ks e, src_ok n0 ks e = true -> olds (locals ks e).
  Proof.
    assert (B : forall ps, forallb (binder_ok n0) ps = true -> olds ps).
    { intros ps H y Hy. rewrite forallb_forall in H. specialize (H y Hy). unfold binder_ok in H. now apply andb_true_iff in H. }
    induction ks as [|k IH]; intros e H; [discriminate|]. cbn in H |- *. destruct (view e); try (now intros y []); rewrite ?andb_true_iff in H.
    - apply olds_app. destruct H; auto.
    - rewrite !olds_app. destruct H as ((? & ?) & ?); auto.
    - rewrite !olds_app. destruct H as (? & ?); auto.
    - destruct H as ((Hx & Hb) & Hc). intros y [<-|Hy].
      + unfold binder_ok in Hx. now apply andb_true_iff in Hx.
      + apply in_app_iff in Hy. destruct Hy as [Hy|Hy]; [eapply (IH b)|eapply (IH c)]; eauto.
    - destruct H as (Hf & Ha). rewrite olds_app. split.
      + destruct f; try (now apply IH). destruct k; [intros y []|]. cbn. intros y [].
      + intros y Hy. apply in_flat_map in Hy. destruct Hy as (a & Ha1 & Hy). rewrite forallb_forall in Ha. eapply IH; eauto.
  Qed.

  Definition scoped (env : list name) (ks : nat) (x : sexp) (e : exp) (st st' : pst) : Prop :=
    incl (free_vars e) env /\ covers (allb e) (locals ks x) (p_gen st) (p_gen st') /\ (texts ks x = true -> etexts e = true).
  Definition scoped_l (env : list name) (ks : nat) (l : list sexp) (es : list exp) (st st' : pst) : Prop :=
    (forall e, In e es -> incl (free_vars e) env) /\
    covers (flat_map allb es) (flat_map (locals ks) l) (p_gen st) (p_gen st') /\
    (forallb (texts ks) l = true -> forallb etexts es = true).

  Definition parse_scoped (k : nat) : Prop := forall env st x e st' ks, parse k env st x = Some (e, st') ->
    src_ok n0 ks x = true -> n0 <= p_gen st -> scoped env ks x e st st'.

  Lemma incl_drop : forall i n env (l : list name), n <= i -> incl l (NG i :: env) -> forall x, older n x = true -> In x l -> In x env.
  Proof. intros i n env l H HI x HX Hx. destruct (HI x Hx) as [<-|]; [|assumption]. cbn in HX. apply Nat.ltb_lt in HX. lia. Qed.

  Lemma list_scoped : forall ks, (forall k env st x e st', parse k env st x = Some (e, st') ->
      src_ok n0 ks x = true -> n0 <= p_gen st -> scoped env ks x e st st') ->
    forall k env l st es st', parse_list (parse k env) st l = Some (es, st') -> forallb (src_ok n0 ks) l = true ->
    n0 <= p_gen st -> scoped_l env ks l es st st'.
  Proof.
    intros ks IH k env l. induction l as [|x l IHl]; intros st es st' E HS HN.
    - apply parse_list_nil in E. destruct E as (-> & ->). split; [intros e []|]. split; [apply covers_nil|reflexivity].
    - apply parse_list_app in E. destruct E as (e & st1 & es1 & E1 & E2 & ->). cbn in HS. apply andb_true_iff in HS as [HS1 HS2].
      pose proof (parse_mono _ _ _ _ _ _ E1) as L1.
      assert (L2 : p_gen st1 <= p_gen st').
      { eapply parse_list_mono; [|exact E2]. intros ? ? ? ? _ HH. eapply parse_mono; exact HH. }
      destruct (IH _ _ _ _ _ _ E1 HS1 HN) as (A1 & A2 & A3).
      destruct (IHl _ _ _ E2 HS2 ltac:(lia)) as (B1 & B2 & B3). split; [|split].
      + intros e0 [<-|He]; auto.
      + cbn. apply covers_app with (h1 := p_gen st1) (l2 := p_gen st1); auto.
        apply olds_app. split; [now apply locals_old|]. intros y Hy. apply in_flat_map in Hy. destruct Hy as (a & Ha & Hy).
        rewrite forallb_forall in HS2. exact (locals_old ks a (HS2 _ Ha) y Hy).
      + cbn. rewrite !andb_true_iff. intros (T1 & T2). auto.
  Qed.

  Lemma in_free_unions : forall x l, In x (unions (List.map free_vars l)) <-> exists e, In e l /\ In x (free_vars e).
  Proof.
    intros x l. rewrite in_unions. split.
    - intros (s & Hs & Hx). apply in_map_iff in Hs. destruct Hs as (e & <- & He). eauto.
    - intros (e & He & Hx). exists (free_vars e). split; [now apply in_map|exact Hx].
  Qed.

  Theorem parse_scope : forall ks k env st x e st', parse k env st x = Some (e, st') ->
    src_ok n0 ks x = true -> n0 <= p_gen st -> scoped env ks x e st st'.
  Proof.
    induction ks as [|ks IH]; intros k env st x e st' E HS HN; [discriminate|].
    assert (PL := list_scoped ks IH).
    pose proof (locals_old _ x HS) as HO.
    destruct k as [|k]; [discriminate|].
    cbn [parse] in E. cbn [src_ok] in HS. cbn [locals] in HO. unfold scoped. cbn [locals texts].
    destruct x as [z|y|s| | | |e1 e2]; cbn [view] in *;
      try (injection E as <- <-; split; [intros y []|split; [apply covers_nil|auto]]; fail).
    - (* symbol *)
      destruct (mem_spec y env); injection E as <- <-.
      + split; [intros z [<-|[]]; assumption|split; [apply covers_nil|auto]].
      + split; [intros z []|split; [|auto]]. rewrite add_symbol_gen. apply covers_nil.
    - destruct (slist (SCons e1 e2)) as [[|h l]|] eqn:Esl; try discriminate.
      destruct (is_sym "quote" h).
      { destruct l as [|c [|? ?]]; try discriminate. injection E as <- <-. split; [intros y []|split; [|auto]].
        rewrite add_symbol_gen. apply covers_nil. }
      destruct (is_sym "lambda" h).
      { destruct l as [|ps [|b [|? ?]]]; try discriminate. unfold names_of in E.
        destruct (slist ps) as [lp|]; [|discriminate]. destruct (symbols lp) as [xs|]; [|discriminate].
        destruct (existsb reserved xs); [discriminate|].
        destruct (parse k (xs ++ env) st b) as [(eb, st1)|] eqn:E1; [|discriminate]. injection E as <- <-.
        apply andb_true_iff in HS as [HS1 HS2]. destruct (IH _ _ _ _ _ _ E1 HS2 HN) as (A1 & A2 & A3).
        pose proof (parse_mono _ _ _ _ _ _ E1) as L1.
        split; [|split].
        - intros y Hy. cbn in Hy. apply in_diff in Hy. destruct Hy as (Hy & N). specialize (A1 y Hy). apply in_app_iff in A1. tauto.
        - cbn. apply covers_app with (h1 := p_gen st) (l2 := p_gen st); auto. apply covers_self.
        - exact A3. }
      destruct (is_sym "if" h).
      { destruct l as [|c [|a [|b [|? ?]]]]; try discriminate.
        apply andb_true_iff in HS as [HS HS3]. apply andb_true_iff in HS as [HS1 HS2].
        pose proof (locals_old _ _ HS1) as O1. pose proof (locals_old _ _ HS2) as O2. pose proof (locals_old _ _ HS3) as O3.
        destruct (headed "if" c).
        - set (i := p_gen st) in *. set (j := S i) in *.
          apply parse_nested_if in E.
          destruct E as (k1 & k2 & ea & eb & ec & st1 & st2 & P1 & P2 & P3 & ->).
          destruct (IH _ _ _ _ _ _ P1 HS2 ltac:(cbn [p_gen]; subst i; lia)) as (A1 & A2 & A3).
          pose proof (parse_mono _ _ _ _ _ _ P1) as L1. cbn [p_gen] in *.
          destruct (IH _ _ _ _ _ _ P2 HS3 ltac:(subst i j; lia)) as (B1 & B2 & B3).
          pose proof (parse_mono _ _ _ _ _ _ P2) as L2.
          destruct (IH _ _ _ _ _ _ P3 HS1 ltac:(subst i j; lia)) as (C1 & C2 & C3).
          pose proof (parse_mono _ _ _ _ _ _ P3) as L3.
          split; [|split].
          + intros y Hy. cbn -[unions] in Hy. apply in_union in Hy. destruct Hy as [Hy|Hy]; [|apply in_diff in Hy; destruct Hy as (Hy & N)].
            * apply in_diff in Hy. destruct Hy as (Hy & N). apply in_unions in Hy.
              destruct Hy as (s & [<-|[<-|[<-|[]]]] & Hy); [contradiction|apply A1 in Hy|apply B1 in Hy];
                (destruct Hy as [<-|Hy]; [exfalso; apply N; now left|exact Hy]).
            * apply in_unions in Hy. destruct Hy as (s & [<-|[<-|[]]] & Hy); [contradiction|].
              apply C1 in Hy. destruct Hy as [<-|Hy]; [exfalso; apply N; now left|exact Hy].
          + cbn. rewrite app_nil_r.
            apply covers_gen; [exact HN|subst i j; lia|exact HO|].
            apply covers_gen; [subst i j; lia|subst i j; lia|exact HO|].
            apply covers_perm with (A := (allb ea ++ allb eb) ++ allb ec) (L := (locals ks a ++ locals ks b) ++ locals ks c).
            * reflexivity.
            * apply Permutation_app_comm.
            * apply covers_app with (h1 := p_gen st2) (l2 := p_gen st2); try (subst i j; lia).
              -- rewrite !olds_app. auto.
              -- apply covers_app with (h1 := p_gen st1) (l2 := p_gen st1); try (subst i j; lia); [rewrite olds_app; auto|exact A2|exact B2].
              -- exact C2.
          + cbn. rewrite !andb_true_iff. intros ((T1 & T2) & T3). auto.
        - destruct (parse_list (parse k env) st [c; a; b]) as [(es, st1)|] eqn:E1; [|discriminate].
          assert (ES : exists x1 x2 x3, es = [x1; x2; x3]).
          { destruct es as [|? [|? [|? [|? ?]]]]; try discriminate. eauto. }
          destruct ES as (x1 & x2 & x3 & ->). injection E as <- <-.
          apply PL in E1; [|cbn; now rewrite HS1, HS2, HS3|exact HN]. destruct E1 as (A1 & A2 & A3).
          cbn in A2, A3. rewrite !app_nil_r in A2. rewrite !andb_true_r in A3. split; [|split].
          + intros y Hy. change (free_vars (EIf x1 x2 x3)) with (unions (List.map free_vars [x1; x2; x3])) in Hy.
            apply in_free_unions in Hy. destruct Hy as (e & He & Hy). exact (A1 e He y Hy).
          + exact A2.
          + cbn. rewrite !andb_true_iff in *. tauto. }
      destruct (is_sym "do" h).
      { destruct l as [|a [|b [|? ?]]]; try discriminate.
        apply andb_true_iff in HS as [HS1 HS2].
        destruct (parse_list (parse k env) st [a; b]) as [(es, st1)|] eqn:E1; [|discriminate].
        assert (ES : exists x1 x2, es = [x1; x2]).
        { destruct es as [|? [|? [|? ?]]]; try discriminate. eauto. }
        destruct ES as (x1 & x2 & ->). injection E as <- <-.
        apply PL in E1; [|cbn; now rewrite HS1, HS2|exact HN]. destruct E1 as (A1 & A2 & A3).
        cbn in A2, A3. rewrite !app_nil_r in A2. rewrite !andb_true_r in A3. split; [|split].
        - intros y Hy. change (free_vars (EDo x1 x2)) with (unions (List.map free_vars [x1; x2])) in Hy.
          apply in_free_unions in Hy. destruct Hy as (e & He & Hy). exact (A1 e He y Hy).
        - exact A2.
        - cbn. rewrite !andb_true_iff in *. tauto. }
      destruct (is_sym "let" h).
      { destruct l as [|y [|b [|c [|? ?]]]]; try discriminate; destruct y; try discriminate.
        apply andb_true_iff in HS as [HS HS3]. apply andb_true_iff in HS as [HS1 HS2].
        destruct (reserved x); [discriminate|].
        destruct (parse k env st b) as [(eb, st1)|] eqn:E1; [|discriminate].
        destruct (parse k (x :: env) st1 c) as [(ec, st2)|] eqn:E2; [|discriminate]. injection E as <- <-.
        pose proof (parse_mono _ _ _ _ _ _ E1) as L1. pose proof (parse_mono _ _ _ _ _ _ E2) as L2.
        destruct (IH _ _ _ _ _ _ E1 HS2 HN) as (A1 & A2 & A3).
        destruct (IH _ _ _ _ _ _ E2 HS3 ltac:(lia)) as (B1 & B2 & B3). split; [|split].
        - intros y Hy. cbn in Hy. apply in_union in Hy. destruct Hy as [Hy|Hy]; [|apply in_diff in Hy; destruct Hy as (Hy & N)]; [auto|].
          apply B1 in Hy. destruct Hy as [<-|Hy]; [exfalso; apply N; now left|exact Hy].
        - cbn. apply covers_bind; [exact HN|unfold binder_ok in HS1; now apply andb_true_iff in HS1|].
          apply covers_app with (h1 := p_gen st1) (l2 := p_gen st1); auto.
          intros y Hy. apply HO. now right.
        - cbn. rewrite !andb_true_iff. intros (T1 & T2). auto. }
      (* application *)
      apply andb_true_iff in HS as [HS1 HS2].
      destruct (headed "lambda" h && match l with [a] => headed "if" a | _ => false end) eqn:EH.
      { apply andb_true_iff in EH as [EH1 EH2].
        assert (HS1' : src_ok n0 ks h = true) by (destruct h; try discriminate; exact HS1).
        set (i := p_gen st) in *.
        apply parse_redex_if in E. destruct E as (k1 & k2 & eh & st1 & es & P1 & P2 & ->).
        pose proof (parse_mono _ _ _ _ _ _ P1) as L1. cbn [p_gen] in L1.
        assert (L2 : p_gen st1 <= p_gen st').
        { eapply parse_list_mono; [|exact P2]. intros ? ? ? ? _ HH. eapply parse_mono; exact HH. }
        destruct (IH _ _ _ _ _ _ P1 HS1' ltac:(cbn [p_gen]; subst i; lia)) as (A1 & A2 & A3). cbn [p_gen] in *.
        destruct (PL _ _ _ _ _ _ P2 HS2 ltac:(subst i; lia)) as (B1 & B2 & B3).
        split; [|split].
        - intros y Hy. cbn -[unions] in Hy. apply in_union in Hy. destruct Hy as [Hy|Hy]; [|apply in_diff in Hy; destruct Hy as (Hy & N)]; [auto|].
          apply in_unions in Hy. destruct Hy as (s & [<-|Hs] & Hy).
          + destruct Hy as [<-|[]]. exfalso. apply N. now left.
          + apply in_map_iff in Hs. destruct Hs as (e & <- & He). apply (B1 e He) in Hy.
            destruct Hy as [<-|Hy]; [exfalso; apply N; now left|exact Hy].
        - cbn. apply covers_gen; [exact HN|subst i; lia|exact HO|].
          apply covers_app with (h1 := p_gen st1) (l2 := p_gen st1); auto; subst i; lia.
        - cbn. rewrite !andb_true_iff. intros (T1 & T2). auto. }
      destruct (match h with SSym s => prim_of s | _ => None end) as [p|] eqn:EPr.
      { rewrite HS1 in E. destruct (parse_list (parse k env) st l) as [(es, st1)|] eqn:P2; [|discriminate]. injection E as <- <-.
        destruct (PL _ _ _ _ _ _ P2 HS2 HN) as (B1 & B2 & B3).
        assert (LH : locals ks h = []) by (destruct h; try discriminate; destruct ks; reflexivity). rewrite LH. split; [|split].
        - intros y Hy. cbn -[unions] in Hy. apply in_unions_map' in Hy. destruct Hy as (e & He & Hy). exact (B1 e He y Hy).
        - exact B2.
        - cbn. rewrite andb_true_iff. tauto. }
      destruct (parse_list (parse k env) st (h :: l)) as [(es, st1)|] eqn:P2; [|discriminate].
      destruct es as [|eh es]; [discriminate|]. injection E as <- <-.
      destruct (PL _ _ _ _ _ _ P2 ltac:(cbn; now rewrite HS1, HS2) HN) as (B1 & B2 & B3).
      split; [|split].
      + intros y Hy. cbn -[unions] in Hy. apply in_unions_app in Hy. destruct Hy as [Hy|(e & He & Hy)].
        * exact (B1 eh (or_introl eq_refl) y Hy).
        * exact (B1 e (or_intror He) y Hy).
      + exact B2.
      + exact B3.
  Qed.
End Covers.

(** * What the passes need *)

(** [scope_ok] for intermediate expressions *)
Fixpoint esc (env : list name) (e : exp) : bool :=
  match e with
  | EConst _ | EGlob _ | EVar _ | ERef _ => true
  | ELam ps b => distinct ps && esc (ps ++ env) b
  | EClo _ _ _ => false
  | EIf a b c => esc env a && esc env b && esc env c && disj (binders a) (binders b ++ binders c)
  | EDo a b => esc env a && esc env b && disj (binders a) (binders b)
  | ELet x b c => negb (mem x env) && esc env b && esc (x :: env) c && negb (mem x (binders b)) && disj (binders b) (binders c)
  | EPrim _ args => forallb (esc env) args && apart (map binders args)
  | EApp f args => forallb (esc env) (f :: args) && apart (map binders (f :: args))
  end.

Lemma disj_intro : forall a b, (forall x, In x a -> ~ In x b) -> disj a b = true.
Proof. intros a b H. unfold disj. apply forallb_forall. intros x Hx. destruct (mem_spec x b); [exfalso; eapply H; eauto|reflexivity]. Qed.
Lemma notmem : forall x l, ~ In x l -> negb (mem x l) = true.
Proof. intros x l H. destruct (mem_spec x l); [contradiction|reflexivity]. Qed.
Lemma notmem_inv : forall x l, negb (mem x l) = true -> ~ In x l.
Proof. intros x l H. destruct (mem_spec x l); [discriminate|assumption]. Qed.

Section ParseEsc.
  Context (n0 : nat).
  Definition within (A L : list name) (lo hi : nat) : Prop := forall y, In y A -> In y L \/ gen lo hi y.
  Definition seen (env senv : list name) (hi : nat) : Prop := forall y, In y env -> (In y senv /\ older n0 y = true) \/ gen n0 hi y.

  Lemma within_app : forall A1 L1 l1 h1 A2 L2 l2 h2, l1 <= h1 -> h1 <= l2 -> l2 <= h2 ->
    within A1 L1 l1 h1 -> within A2 L2 l2 h2 -> within (A1 ++ A2) (L1 ++ L2) l1 h2.
  Proof.
    intros A1 L1 l1 h1 A2 L2 l2 h2 H1 H2 H3 C1 C2 y Hy. rewrite in_app_iff in *. destruct Hy as [Hy|Hy].
    - destruct (C1 y Hy) as [|(i & -> & Hi)]; [auto|]. right. exists i. split; [reflexivity|lia].
    - destruct (C2 y Hy) as [|(i & -> & Hi)]; [auto|]. right. exists i. split; [reflexivity|lia].
  Qed.
  Lemma within_disj : forall A1 L1 l1 h1 A2 L2 l2 h2, n0 <= l1 -> n0 <= l2 -> (h1 <= l2 \/ h2 <= l1) -> olds n0 L1 -> olds n0 L2 ->
    within A1 L1 l1 h1 -> within A2 L2 l2 h2 -> disj L1 L2 = true -> disj A1 A2 = true.
  Proof.
    intros A1 L1 l1 h1 A2 L2 l2 h2 H0 H1 H2 O1 O2 C1 C2 D. apply disj_intro. intros y Hy1 Hy2.
    destruct (C1 y Hy1) as [I1|G1]; destruct (C2 y Hy2) as [I2|G2].
    - eapply disj_spec; eauto.
    - eapply old_gen; [exact H1|apply O1; exact I1|exact G2].
    - eapply old_gen; [exact H0|apply O2; exact I2|exact G1].
    - destruct G1 as (i & -> & Hi). destruct G2 as (j & E & Hj). injection E as ->. lia.
  Qed.
  Lemma within_notin : forall A L lo hi x, n0 <= lo -> older n0 x = true -> within A L lo hi -> ~ In x L -> ~ In x A.
  Proof. intros A L lo hi x H0 HX C N Hx. destruct (C x Hx) as [|G]; [contradiction|]. exact (old_gen n0 lo hi x H0 HX G). Qed.
  Lemma within_gen_notin : forall A L lo hi i, olds n0 L -> n0 <= i -> (i < lo \/ hi <= i) -> within A L lo hi -> ~ In (NG i) A.
  Proof.
    intros A L lo hi i HO H0 H1 C Hx. destruct (C _ Hx) as [I|(j & E & Hj)].
    - specialize (HO _ I). cbn in HO. apply Nat.ltb_lt in HO. lia.
    - injection E as ->. lia.
  Qed.
  Lemma within_wide : forall A L lo hi lo' hi', lo' <= lo -> hi <= hi' -> within A L lo hi -> within A L lo' hi'.
  Proof. intros A L lo hi lo' hi' H1 H2 C y Hy. destruct (C y Hy) as [|(i & -> & Hi)]; [auto|]. right. exists i. split; [reflexivity|lia]. Qed.
  Lemma seen_mono : forall env senv h h', h <= h' -> seen env senv h -> seen env senv h'.
  Proof. intros env senv h h' H S y Hy. destruct (S y Hy) as [|(i & -> & Hi)]; [auto|]. right. exists i. split; [reflexivity|lia]. Qed.
  Lemma seen_cons : forall x env senv h, older n0 x = true -> seen env senv h -> seen (x :: env) (x :: senv) h.
  Proof. intros x env senv h HX S y [<-|Hy]; [left; split; [now left|exact HX]|]. destruct (S y Hy) as [(? & ?)|]; [left; split; [now right|assumption]|auto]. Qed.
  Lemma seen_app : forall ps env senv h, olds n0 ps -> seen env senv h -> seen (ps ++ env) (ps ++ senv) h.
  Proof.
    intros ps env senv h HO S. induction ps as [|x ps IH]; [exact S|]. apply seen_cons; [apply HO; now left|]. apply IH.
    intros y Hy. apply HO. now right.
  Qed.
  Lemma seen_fresh : forall env senv i, n0 <= i -> seen env senv i -> ~ In (NG i) env.
  Proof.
    intros env senv i H0 S Hi. destruct (S _ Hi) as [(_ & Ho)|(q & Eq & Hq)].
    - cbn in Ho. apply Nat.ltb_lt in Ho. lia.
    - injection Eq as ->. lia.
  Qed.
  Lemma seen_notin : forall env senv h x, older n0 x = true -> seen env senv h -> ~ In x senv -> ~ In x env.
  Proof. intros env senv h x HX S N Hx. destruct (S _ Hx) as [(I & _)|G]; [contradiction|]. exact (old_gen n0 n0 h x (le_n _) HX G). Qed.
  Lemma seen_gen : forall i env senv h, n0 <= i < h -> seen env senv h -> seen (NG i :: env) senv h.
  Proof. intros i env senv h H S y [<-|Hy]; [right; exists i; split; [reflexivity|lia]|auto]. Qed.

  Lemma lets_locals : forall k e, incl (lets k e) (locals k e).
  Proof.
    induction k as [|k IH]; intros e y Hy; [destruct Hy|]. cbn in Hy |- *. destruct (view e); try contradiction; rewrite ?in_app_iff in *.
    - destruct Hy as [Hy|[Hy|Hy]]; apply IH in Hy; auto.
    - destruct Hy as [Hy|Hy]; apply IH in Hy; auto.
    - destruct Hy as [<-|Hy]; [now left|]. right. rewrite in_app_iff in *. destruct Hy as [Hy|Hy]; apply IH in Hy; auto.
    - destruct Hy as [Hy|Hy]; [apply IH in Hy; auto|]. right. apply in_flat_map in Hy as (a & Ha & Hy). apply in_flat_map. exists a. split; [exact Ha|now apply IH].
  Qed.
  Lemma lets_old : forall k e, src_ok n0 k e = true -> olds n0 (lets k e).
  Proof. intros k e H y Hy. apply (locals_old n0 k e H). now apply lets_locals. Qed.

  Definition goal_e (env : list name) (ks : nat) (x : sexp) (e : exp) (st st' : pst) : Prop :=
    esc env e = true /\ within (binders e) (lets ks x) (p_gen st) (p_gen st').
  Definition goal_l (env : list name) (ks : nat) (l : list sexp) (es : list exp) (st st' : pst) : Prop :=
    forallb (esc env) es = true /\ within (flat_map binders es) (flat_map (lets ks) l) (p_gen st) (p_gen st') /\
    (apart (map (lets ks) l) = true -> apart (map binders es) = true) /\
    (forall A L lo hi, n0 <= lo -> (hi <= p_gen st \/ p_gen st' <= lo) -> olds n0 L -> within A L lo hi ->
       forallb (disj L) (map (lets ks) l) = true -> forallb (disj A) (map binders es) = true).

  Lemma list_esc : forall ks, (forall k env senv st x e st', parse k env st x = Some (e, st') ->
      src_ok n0 ks x = true -> n0 <= p_gen st -> seen env senv (p_gen st) -> scope_ok ks senv x = true -> goal_e env ks x e st st') ->
    forall k env senv l st es st', parse_list (parse k env) st l = Some (es, st') -> forallb (src_ok n0 ks) l = true ->
    n0 <= p_gen st -> seen env senv (p_gen st) -> forallb (scope_ok ks senv) l = true -> goal_l env ks l es st st'.
  Proof.
    intros ks IH k env senv l. induction l as [|x l IHl]; intros st es st' E HS HN HV HO.
    - apply parse_list_nil in E. destruct E as (-> & ->). repeat split; auto. intros y [].
    - apply parse_list_app in E. destruct E as (e & st1 & es1 & E1 & E2 & ->). cbn in HS, HO.
      apply andb_true_iff in HS as [HS1 HS2]. apply andb_true_iff in HO as [HO1 HO2].
      pose proof (parse_mono _ _ _ _ _ _ E1) as L1.
      assert (L2 : p_gen st1 <= p_gen st').
      { eapply parse_list_mono; [|exact E2]. intros ? ? ? ? _ HH. eapply parse_mono; exact HH. }
      destruct (IH _ _ _ _ _ _ _ E1 HS1 HN HV HO1) as (A1 & A2).
      destruct (IHl _ _ _ E2 HS2 ltac:(lia) (seen_mono _ _ _ _ L1 HV) HO2) as (B1 & B2 & B3 & B4).
      pose proof (lets_old _ _ HS1) as O1.
      repeat split.
      + cbn. now rewrite A1, B1.
      + cbn. eapply within_app; [exact L1| | |exact A2|exact B2]; lia.
      + cbn. rewrite !andb_true_iff. intros (D1 & D2). split; [|auto]. eapply B4; [exact HN| |exact O1|exact A2|exact D1]. lia.
      + intros A L lo hi G1 G2 G3 G4 D. cbn in D |- *. apply andb_true_iff in D as (D1 & D2). apply andb_true_iff. split.
        * eapply within_disj; [exact G1|exact HN| |exact G3|exact O1|exact G4|exact A2|exact D1]. lia.
        * eapply B4; [exact G1| |exact G3|exact G4|exact D2]. lia.
  Qed.

  Theorem parse_esc : forall ks k env senv st x e st', parse k env st x = Some (e, st') ->
    src_ok n0 ks x = true -> n0 <= p_gen st -> seen env senv (p_gen st) -> scope_ok ks senv x = true -> goal_e env ks x e st st'.
  Proof.
    induction ks as [|ks IH]; intros k env senv st x e st' E HS HN HV HC; [discriminate|].
    assert (PL := list_esc ks IH).
    destruct k as [|k]; [discriminate|].
    cbn [parse] in E. cbn [src_ok] in HS. unfold goal_e. cbn [scope_ok] in HC. cbn [lets].
    destruct x as [z|y|s| | | |e1 e2]; cbn [view] in *;
      try (injection E as <- <-; split; [reflexivity|intros y []]; fail).
    - destruct (mem_spec y env); injection E as <- <-; (split; [reflexivity|intros z []]).
    - destruct (slist (SCons e1 e2)) as [[|h l]|] eqn:Esl; try discriminate.
      destruct (is_sym "quote" h).
      { destruct l as [|c [|? ?]]; try discriminate. injection E as <- <-. split; [reflexivity|intros y []]. }
      destruct (is_sym "lambda" h).
      { destruct l as [|ps [|b [|? ?]]]; try discriminate. unfold names_of in E.
        destruct (slist ps) as [lp|]; [|discriminate]. destruct (symbols lp) as [xs|]; [|discriminate].
        destruct (existsb reserved xs); [discriminate|].
        destruct (parse k (xs ++ env) st b) as [(eb, st1)|] eqn:E1; [|discriminate]. injection E as <- <-.
        apply andb_true_iff in HS as [HS1 HS2]. apply andb_true_iff in HC as [HC1 HC2].
        assert (OP : olds n0 xs).
        { intros y Hy. rewrite forallb_forall in HS1. specialize (HS1 y Hy). unfold binder_ok in HS1. now apply andb_true_iff in HS1. }
        destruct (IH _ _ _ _ _ _ _ E1 HS2 HN (seen_app _ _ _ _ OP HV) HC2) as (A1 & A2).
        split; [cbn; now rewrite HC1|intros y []]. }
      destruct (is_sym "if" h).
      { destruct l as [|c [|a [|b [|? ?]]]]; try discriminate.
        apply andb_true_iff in HS as [HS HS3]. apply andb_true_iff in HS as [HS1 HS2].
        rewrite !andb_true_iff in HC. destruct HC as (((HC1 & HC2) & HC3) & HC4).
        pose proof (lets_old _ _ HS1) as O1. pose proof (lets_old _ _ HS2) as O2. pose proof (lets_old _ _ HS3) as O3.
        assert (O23 : olds n0 (lets ks a ++ lets ks b)) by (now apply olds_app).
        destruct (headed "if" c).
        - set (i := p_gen st) in *. set (j := S i) in *.
          apply parse_nested_if in E.
          destruct E as (k1 & k2 & ea & eb & ec & st1 & st2 & P1 & P2 & P3 & ->).
          pose proof (parse_mono _ _ _ _ _ _ P1) as L1. pose proof (parse_mono _ _ _ _ _ _ P2) as L2.
          pose proof (parse_mono _ _ _ _ _ _ P3) as L3. cbn [p_gen] in L1.
          assert (V1 : seen (NG j :: env) senv (S j)).
          { apply seen_gen; [subst i j; lia|]. eapply seen_mono; [|exact HV]. subst i j. lia. }
          assert (V3 : seen (NG i :: env) senv (p_gen st2)).
          { apply seen_gen; [subst i j; lia|]. eapply seen_mono; [|exact HV]. subst i j. lia. }
          destruct (IH _ _ _ _ _ _ _ P1 HS2 ltac:(cbn [p_gen]; subst i j; lia) V1 HC2) as (A1 & A2).
          destruct (IH _ _ _ _ _ _ _ P2 HS3 ltac:(subst i j; lia) (seen_mono _ _ _ _ L1 V1) HC3) as (B1 & B2).
          destruct (IH _ _ _ _ _ _ _ P3 HS1 ltac:(subst i j; lia) V3 HC1) as (C1 & C2). cbn [p_gen] in *.
          split.
          + cbn [esc binders distinct mem existsb negb andb app forallb map apart flat_map disj].
            rewrite A1, B1, C1.
            rewrite (notmem (NG i) env) by (eapply seen_fresh; [exact HN|exact HV]). reflexivity.
          + cbn. rewrite app_nil_r. intros y [<-|Hy]; [right; exists i; split; [reflexivity|subst i j; lia]|].
            destruct (C2 y Hy) as [I|(q & -> & Hq)]; [left; apply in_or_app; auto|].
            right. exists q. split; [reflexivity|subst i j; lia].
        - destruct (parse_list (parse k env) st [c; a; b]) as [(es, st1)|] eqn:E1; [|discriminate].
          assert (ES : exists x1 x2 x3, es = [x1; x2; x3]).
          { destruct es as [|? [|? [|? [|? ?]]]]; try discriminate. eauto. }
          destruct ES as (x1 & x2 & x3 & ->). injection E as <- <-.
          apply parse_list_app in E1. destruct E1 as (y1 & s1 & es1 & P1 & E1 & Q). injection Q as <- <-.
          apply parse_list_app in E1. destruct E1 as (y2 & s2 & es2 & P2 & E1 & Q). injection Q as <- <-.
          apply parse_list_app in E1. destruct E1 as (y3 & s3 & es3 & P3 & E1 & Q). injection Q as <- <-.
          apply parse_list_nil in E1. destruct E1 as (_ & ->).
          pose proof (parse_mono _ _ _ _ _ _ P1) as L1. pose proof (parse_mono _ _ _ _ _ _ P2) as L2.
          pose proof (parse_mono _ _ _ _ _ _ P3) as L3.
          destruct (IH _ _ _ _ _ _ _ P1 HS1 HN HV HC1) as (A1 & A2).
          destruct (IH _ _ _ _ _ _ _ P2 HS2 ltac:(lia) (seen_mono _ _ _ _ L1 HV) HC2) as (B1 & B2).
          destruct (IH _ _ _ _ _ _ _ P3 HS3 ltac:(lia) (seen_mono _ _ _ _ L2 (seen_mono _ _ _ _ L1 HV)) HC3) as (C1 & C2).
          assert (W23 : within (binders x2 ++ binders x3) (lets ks a ++ lets ks b) (p_gen s1) (p_gen s3)).
          { eapply within_app; [exact L2| | |exact B2|exact C2]; lia. }
          split.
          + cbn. rewrite A1, B1, C1. cbn.
            eapply within_disj; [exact HN| | |exact O1|exact O23|exact A2|exact W23|exact HC4]; lia.
          + cbn. eapply within_app; [exact L1| | |exact A2|exact W23]; lia. }
      destruct (is_sym "do" h).
      { destruct l as [|a [|b [|? ?]]]; try discriminate.
        apply andb_true_iff in HS as [HS1 HS2].
        rewrite !andb_true_iff in HC. destruct HC as ((HC1 & HC2) & HC4).
        pose proof (lets_old _ _ HS1) as O1. pose proof (lets_old _ _ HS2) as O2.
        destruct (parse_list (parse k env) st [a; b]) as [(es, st1)|] eqn:E1; [|discriminate].
        assert (ES : exists x1 x2, es = [x1; x2]).
        { destruct es as [|? [|? [|? ?]]]; try discriminate. eauto. }
        destruct ES as (x1 & x2 & ->). injection E as <- <-.
        apply parse_list_app in E1. destruct E1 as (y1 & s1 & es1 & P1 & E1 & Q). injection Q as <- <-.
        apply parse_list_app in E1. destruct E1 as (y2 & s2 & es2 & P2 & E1 & Q). injection Q as <- <-.
        apply parse_list_nil in E1. destruct E1 as (_ & ->).
        pose proof (parse_mono _ _ _ _ _ _ P1) as L1. pose proof (parse_mono _ _ _ _ _ _ P2) as L2.
        destruct (IH _ _ _ _ _ _ _ P1 HS1 HN HV HC1) as (A1 & A2).
        destruct (IH _ _ _ _ _ _ _ P2 HS2 ltac:(lia) (seen_mono _ _ _ _ L1 HV) HC2) as (B1 & B2).
        split.
        - cbn. rewrite A1, B1. cbn. eapply within_disj; [exact HN| | |exact O1|exact O2|exact A2|exact B2|exact HC4]; lia.
        - cbn. eapply within_app; [exact L1| | |exact A2|exact B2]; lia. }
      destruct (is_sym "let" h).
      { destruct l as [|y [|b [|c [|? ?]]]]; try discriminate; destruct y; try discriminate.
        apply andb_true_iff in HS as [HS HS3]. apply andb_true_iff in HS as [HS1 HS2].
        rewrite !andb_true_iff in HC. destruct HC as ((((HC1 & HC2) & HC3) & HC4) & HC5).
        pose proof (lets_old _ _ HS2) as O1. pose proof (lets_old _ _ HS3) as O2.
        assert (OX : older n0 x = true) by (unfold binder_ok in HS1; now apply andb_true_iff in HS1).
        destruct (reserved x); [discriminate|].
        destruct (parse k env st b) as [(eb, st1)|] eqn:E1; [|discriminate].
        destruct (parse k (x :: env) st1 c) as [(ec, st2)|] eqn:E2; [|discriminate]. injection E as <- <-.
        pose proof (parse_mono _ _ _ _ _ _ E1) as L1. pose proof (parse_mono _ _ _ _ _ _ E2) as L2.
        destruct (IH _ _ _ _ _ _ _ E1 HS2 HN HV HC2) as (A1 & A2).
        destruct (IH _ _ _ _ _ _ _ E2 HS3 ltac:(lia) (seen_cons _ _ _ _ OX (seen_mono _ _ _ _ L1 HV)) HC3) as (B1 & B2).
        split.
        - cbn [esc]. rewrite A1, B1. rewrite (notmem x env) by (eapply seen_notin; [exact OX|exact HV|now apply notmem_inv]).
          rewrite (notmem x (binders eb)) by (eapply within_notin; [exact HN|exact OX|exact A2|now apply notmem_inv]).
          cbn. eapply within_disj; [exact HN| | |exact O1|exact O2|exact A2|exact B2|exact HC5]; lia.
        - cbn. intros y [<-|Hy]; [left; now left|].
          destruct (within_app _ _ _ _ _ _ _ _ L1 (le_n _) L2 A2 B2 y Hy) as [I|G]; [left; now right|auto]. }
      (* application *)
      apply andb_true_iff in HS as [HS1 HS2]. apply andb_true_iff in HC as [HC1 HC2].
      cbn [forallb] in HC1. apply andb_true_iff in HC1 as [HC1 HC3].
      destruct (headed "lambda" h && match l with [a] => headed "if" a | _ => false end) eqn:EH.
      { apply andb_true_iff in EH as [EH1 EH2].
        assert (HS1' : src_ok n0 ks h = true) by (destruct h; try discriminate; exact HS1).
        pose proof (lets_old _ _ HS1') as O1.
        assert (O2 : olds n0 (flat_map (lets ks) l)).
        { intros y Hy. apply in_flat_map in Hy as (a & Ha & Hy). rewrite forallb_forall in HS2. exact (lets_old ks a (HS2 _ Ha) y Hy). }
        set (i := p_gen st) in *.
        apply parse_redex_if in E. destruct E as (k1 & k2 & eh & st1 & es & P1 & P2 & ->).
        pose proof (parse_mono _ _ _ _ _ _ P1) as L1. cbn [p_gen] in L1.
        assert (L2 : p_gen st1 <= p_gen st').
        { eapply parse_list_mono; [|exact P2]. intros ? ? ? ? _ HH. eapply parse_mono; exact HH. }
        destruct (IH _ _ _ _ _ _ _ P1 HS1' ltac:(cbn [p_gen]; subst i; lia)
          ltac:(eapply seen_mono; [|exact HV]; cbn; subst i; lia) HC1) as (A1 & A2). cbn [p_gen] in *.
        assert (V2 : seen (NG i :: env) senv (p_gen st1)).
        { apply seen_gen; [subst i; lia|]. eapply seen_mono; [|exact HV]. lia. }
        destruct (PL _ _ _ _ _ _ _ P2 HS2 ltac:(subst i; lia) V2 HC3) as (B1 & B2 & B3 & B4).
        cbn [map apart] in HC2. apply andb_true_iff in HC2 as [HC2 HC4].
        assert (D : forallb (disj (lets ks h)) (map (lets ks) l) = true) by exact HC2.
        split.
        - cbn [esc]. rewrite A1.
          rewrite (notmem (NG i) env) by (eapply seen_fresh; [exact HN|exact HV]).
          rewrite (notmem (NG i) (binders eh)) by (eapply within_gen_notin; [exact O1|exact HN| |exact A2]; lia).
          cbn [forallb esc andb map binders apart]. rewrite B1, (B3 HC4). cbn [andb].
          assert (Z : forallb (disj []) (map binders es) = true) by (apply forallb_forall; reflexivity). rewrite Z. cbn [andb app].
          apply disj_intro. intros y Hy1 Hy2. cbn [binders app] in Hy2. apply in_flat_map in Hy2 as (e & He & Hy2).
          specialize (B4 (binders eh) (lets ks h) (S i) (p_gen st1) ltac:(subst i; lia) ltac:(lia) O1 A2 D).
          rewrite forallb_forall in B4. specialize (B4 _ (in_map binders _ _ He)). eapply disj_spec; eauto.
        - cbn. intros y [<-|Hy]; [right; exists i; split; [reflexivity|lia]|].
          destruct (within_app _ _ _ _ _ _ _ _ L1 (le_n _) L2 A2 B2 y Hy) as [I|(q & -> & Hq)]; [left; exact I|].
          right. exists q. split; [reflexivity|subst i; lia]. }
      destruct (match h with SSym s => prim_of s | _ => None end) as [p|] eqn:EPr.
      { rewrite HS1 in E. destruct (parse_list (parse k env) st l) as [(es, st1)|] eqn:P2; [|discriminate]. injection E as <- <-.
        destruct (PL _ _ _ _ _ _ _ P2 HS2 HN HV HC3) as (B1 & B2 & B3 & B4).
        cbn [map apart] in HC2. apply andb_true_iff in HC2 as [_ HC4].
        assert (LH : lets ks h = []) by (destruct h; try discriminate; destruct ks; reflexivity). cbn [flat_map]. rewrite LH.
        split; [cbn; now rewrite B1, B3|exact B2]. }
      destruct (parse_list (parse k env) st (h :: l)) as [(es, st1)|] eqn:P2; [|discriminate].
      destruct es as [|eh es]; [discriminate|]. injection E as <- <-.
      destruct (PL _ _ _ _ _ _ _ P2 ltac:(cbn; now rewrite HS1, HS2) HN HV ltac:(cbn; now rewrite HC1, HC3)) as (B1 & B2 & B3 & B4).
      split; [|exact B2]. cbn [esc]. now rewrite B1, B3.
  Qed.
End ParseEsc.

Lemma esc_free_lam : forall env ps b, incl (free_vars (ELam ps b)) env -> incl (free_vars b) (ps ++ env).
Proof.
  intros env ps b H x Hx. apply in_or_app. destruct (mem_spec x ps) as [|N]; [auto|]. right. apply H. cbn. apply in_diff. auto.
Qed.
Lemma esc_free_let : forall env x b c, incl (free_vars (ELet x b c)) env -> incl (free_vars b) env /\ incl (free_vars c) (x :: env).
Proof.
  intros env x b c H. split; intros y Hy.
  - apply H. cbn. apply in_union. auto.
  - destruct (name_eqb_spec x y) as [->|N]; [now left|]. right. apply H. cbn. apply in_union. right. apply in_diff. split; [exact Hy|].
    intros [E|[]]. congruence.
Qed.
Lemma free_if : forall env a b c, incl (free_vars (EIf a b c)) env -> incl (free_vars a) env /\ incl (free_vars b) env /\ incl (free_vars c) env.
Proof. intros env a b c H. repeat split; intros y Hy; apply H; cbn -[unions]; apply in_unions; eexists; (split; [|exact Hy]); cbn; auto. Qed.
Lemma free_do : forall env a b, incl (free_vars (EDo a b)) env -> incl (free_vars a) env /\ incl (free_vars b) env.
Proof. intros env a b H. split; intros y Hy; apply H; cbn -[unions]; apply in_unions; eexists; (split; [|exact Hy]); cbn; auto. Qed.
Lemma free_prim : forall env p l, incl (free_vars (EPrim p l)) env -> forall e, In e l -> incl (free_vars e) env.
Proof. intros env p l H e He x Hx. apply H. cbn -[unions]. apply in_unions_map'. eauto. Qed.
Lemma free_app : forall env f l, incl (free_vars (EApp f l)) env -> forall e, In e (f :: l) -> incl (free_vars e) env.
Proof. intros env f l H e He x Hx. apply H. cbn -[unions]. apply in_unions_app. destruct He as [<-|He]; eauto. Qed.

Lemma esc_cc_ok : forall e env fvs, esc env e = true -> incl (free_vars e) env -> incl fvs env -> cc_ok fvs e = true.
Proof.
  induction e using exp_ind'; intros env fvs HU HF HI; cbn -[free_vars] in HU |- *; try discriminate; auto; rewrite ?andb_true_iff in HU.
  - destruct HU as (_ & HU). apply (IHe (ps ++ env)); [exact HU|now apply esc_free_lam|].
    intros x Hx. apply in_or_app. right. now apply HF.
  - destruct HU as (((U1 & U2) & U3) & _). apply free_if in HF. destruct HF as (F1 & F2 & F3).
    now rewrite (IHe1 env), (IHe2 env), (IHe3 env).
  - destruct HU as ((U1 & U2) & _). apply free_do in HF. destruct HF as (F1 & F2). now rewrite (IHe1 env), (IHe2 env).
  - destruct HU as ((((U0 & U1) & U2) & _) & _). apply esc_free_let in HF. destruct HF as (F1 & F2).
    apply notmem_inv in U0. rewrite (notmem x fvs) by (intro Hx; apply U0; now apply HI).
    rewrite (IHe1 env), (IHe2 (x :: env)); auto. intros y Hy. right. auto.
  - destruct HU as (U1 & _). apply forallb_forall. intros e He. rewrite Forall_forall in H. rewrite forallb_forall in U1.
    apply (H e He env); auto. eapply free_prim; eauto.
  - destruct HU as (U1 & _). cbn in U1. destruct U1 as (U0 & U1).
    rewrite (IHe env); auto; [|eapply free_app; eauto; now left]. cbn. apply forallb_forall. intros a Ha. rewrite Forall_forall in H.
    rewrite forallb_forall in U1. apply (H a Ha env); auto. eapply free_app; eauto. now right.
Qed.

Lemma binders_convert : forall e fvs, binders (closure_convert fvs e) = binders e.
Proof.
  induction e using exp_ind'; intros fvs; cbn -[free_vars]; auto.
  - unfold convert_var. destruct (index x fvs); reflexivity.
  - now rewrite IHe1, IHe2, IHe3.
  - now rewrite IHe1, IHe2.
  - now rewrite IHe1, IHe2.
  - induction H as [|a l Ha H IH]; cbn; [reflexivity|]. now rewrite Ha, IH.
  - rewrite IHe. f_equal. induction H as [|a l Ha H IH]; cbn; [reflexivity|]. now rewrite Ha, IH.
Qed.

(** the names an expression binds are not visible outside it *)
Lemma esc_binders : forall e env, esc env e = true -> forall x, In x (binders e) -> ~ In x env.
Proof.
  induction e using exp_ind'; intros env HU y Hy; cbn in HU, Hy; try contradiction; rewrite ?andb_true_iff in HU.
  - destruct HU as (((U1 & U2) & U3) & _). rewrite !in_app_iff in Hy. destruct Hy as [Hy|[Hy|Hy]]; eauto.
  - destruct HU as ((U1 & U2) & _). rewrite in_app_iff in Hy. destruct Hy as [Hy|Hy]; eauto.
  - destruct HU as ((((U0 & U1) & U2) & _) & _). destruct Hy as [<-|Hy]; [now apply notmem_inv|]. rewrite in_app_iff in Hy.
    destruct Hy as [Hy|Hy]; [eauto|]. intro N. apply (IHe2 _ U2 _ Hy). now right.
  - destruct HU as (U1 & _). rewrite Forall_forall in H. rewrite forallb_forall in U1. apply in_flat_map in Hy as (a & Ha & Hy). eapply H; eauto.
  - destruct HU as ((U0 & U1) & _). rewrite in_app_iff in Hy. destruct Hy as [Hy|Hy]; [eauto|].
    rewrite Forall_forall in H. rewrite forallb_forall in U1. apply in_flat_map in Hy as (a & Ha & Hy). eapply H; eauto.
Qed.

Lemma esc_seq_ok : forall l fvs env, forallb (esc env) l = true -> apart (map binders l) = true -> (forall e, In e l -> incl (free_vars e) env) ->
  forallb plain l = true -> seq_ok (map (closure_convert fvs) l) = true.
Proof.
  induction l as [|e l IH]; intros fvs env HU HA HF HP; cbn; [reflexivity|]. cbn in HU, HA, HP.
  apply andb_true_iff in HU as (U1 & U2). apply andb_true_iff in HA as (A1 & A2). apply andb_true_iff in HP as (P1 & P2).
  rewrite (IH fvs env); auto; [|intros a Ha; apply HF; now right]. rewrite andb_true_r. apply andb_true_iff.
  assert (IN : forall x, In x (flat_map binders (map (closure_convert fvs) l)) -> exists a, In a l /\ In x (binders a)).
  { intros x Hx. apply in_flat_map in Hx. destruct Hx as (a & Ha & Hx). apply in_map_iff in Ha. destruct Ha as (a' & <- & Ha).
    rewrite binders_convert in Hx. eauto. }
  rewrite forallb_forall in U2, A1, P2.
  split; apply disj_intro.
  - intros x Hx. rewrite in_app_iff, binders_convert. destruct (IN _ Hx) as (a & Ha & Hxa).
    intros [Hy|Hy].
    + apply convert_free in Hy; [|exact P1]. destruct Hy as (Hy & _). apply (HF e (or_introl eq_refl)) in Hy.
      exact (esc_binders a env (U2 a Ha) x Hxa Hy).
    + eapply disj_spec; [apply A1; apply in_map; exact Ha|exact Hy|exact Hxa].
  - intros x Hx Hy. rewrite binders_convert in Hx.
    apply in_flat_map in Hy. destruct Hy as (a & Ha & Hy). apply in_map_iff in Ha. destruct Ha as (a' & <- & Ha).
    apply convert_free in Hy; [|auto]. destruct Hy as (Hy & _). apply (HF a' (or_intror Ha)) in Hy.
    exact (esc_binders e env U1 x Hx Hy).
Qed.

Lemma convert_disj : forall env fvs a b, esc env a = true -> incl (free_vars b) env -> plain b = true ->
  disj (binders (closure_convert fvs a)) (free_vars (closure_convert fvs b)) = true.
Proof.
  intros env fvs a b U HI HP. apply disj_intro. intros x Hx Hy. rewrite binders_convert in Hx.
  apply convert_free in Hy; [|exact HP]. destruct Hy as (Hy & _). exact (esc_binders a env U x Hx (HI _ Hy)).
Qed.

Lemma esc_tl_ok : forall e fvs env, esc env e = true -> incl (free_vars e) env -> plain e = true -> tl_ok (closure_convert fvs e) = true.
Proof.
  induction e using exp_ind'; intros fvs env HU HF HP; cbn -[free_vars] in HP |- *; try discriminate; auto.
  - unfold convert_var. destruct (index x fvs); reflexivity.
  - cbn in HU. apply andb_true_iff in HU as (_ & HU). apply (IHe _ (ps ++ env)); [exact HU|now apply esc_free_lam|exact HP].
  - apply andb_true_iff in HP as [HP P3]. apply andb_true_iff in HP as [P1 P2]. cbn in HU. rewrite !andb_true_iff in HU.
    destruct HU as (((U1 & U2) & U3) & _). apply free_if in HF. destruct HF as (F1 & F2 & F3).
    now rewrite (IHe1 _ env), (IHe2 _ env), (IHe3 _ env), !(convert_disj env).
  - apply andb_true_iff in HP as [P1 P2]. cbn in HU. rewrite !andb_true_iff in HU.
    destruct HU as ((U1 & U2) & _). apply free_do in HF. destruct HF as (F1 & F2).
    now rewrite (IHe1 _ env), (IHe2 _ env), !(convert_disj env).
  - apply andb_true_iff in HP as [P1 P2]. cbn in HU. rewrite !andb_true_iff in HU. destruct HU as ((((U0 & U1) & U2) & _) & _).
    apply esc_free_let in HF. destruct HF as (F1 & F2).
    rewrite (IHe1 _ env), (IHe2 _ (x :: env)); auto. cbn. apply disj_intro. intros y Hy Hz.
    rewrite binders_convert in Hy. apply in_diff in Hz. destruct Hz as (Hz & Nx).
    apply convert_free in Hz; [|exact P2]. destruct Hz as (Hz & _). apply F2 in Hz.
    destruct Hz as [<-|Hz]; [apply Nx; now left|]. exact (esc_binders e1 env U1 y Hy Hz).
  - cbn in HU. apply andb_true_iff in HU as (U1 & U2). pose proof (free_prim _ _ _ HF) as F1.
    rewrite (esc_seq_ok args fvs env); auto. rewrite andb_true_r. apply forallb_forall. intros a Ha.
    apply in_map_iff in Ha. destruct Ha as (a' & <- & Ha). rewrite Forall_forall in H. rewrite forallb_forall in HP, U1.
    apply (H _ Ha _ env); auto.
  - apply andb_true_iff in HP as [P1 P2]. cbn [esc] in HU. apply andb_true_iff in HU as (U1 & U2). pose proof (free_app _ _ _ HF) as F1.
    assert (S1 : seq_ok (map (closure_convert fvs) (e :: args)) = true) by (apply (esc_seq_ok _ _ env); auto; cbn; now rewrite P1, P2).
    apply andb_true_iff. split; [|exact S1]. cbn [forallb] in U1. apply andb_true_iff in U1 as (U0 & U1).
    rewrite (IHe _ env); auto; [|apply F1; now left]. cbn. apply forallb_forall. intros a Ha.
    apply in_map_iff in Ha. destruct Ha as (a' & <- & Ha). rewrite Forall_forall in H. rewrite forallb_forall in P2, U1.
    apply (H _ Ha _ env); auto. apply F1. now right.
Qed.

Lemma old_intro : forall m e, plain e = true -> (forall x, In x (free_vars e) -> older m x = true) -> (forall x, In x (allb e) -> older m x = true) ->
  old m e = true.
Proof.
  intros m. induction e using exp_ind'; intros HP HF HA; cbn -[unions] in *; try discriminate; auto.
  - apply IHe; auto.
    + intros x Hx. destruct (mem_spec x ps) as [Hp|N]; [apply HA; apply in_or_app; auto|]. apply HF. apply in_diff. auto.
    + intros x Hx. apply HA. apply in_or_app. auto.
  - rewrite !andb_true_iff in *. destruct HP as ((P1 & P2) & P3).
    repeat split; [apply IHe1|apply IHe2|apply IHe3]; auto; intros x Hx;
      try (apply HF; apply in_unions; eexists; split; [|exact Hx]; cbn; auto; fail);
      apply HA; rewrite !in_app_iff; auto.
  - rewrite !andb_true_iff in *. destruct HP as (P1 & P2).
    repeat split; [apply IHe1|apply IHe2]; auto; intros x Hx;
      try (apply HF; apply in_unions; eexists; split; [|exact Hx]; cbn; auto; fail);
      apply HA; rewrite !in_app_iff; auto.
  - rewrite !andb_true_iff in *. destruct HP as (P1 & P2). repeat split; [apply HA; now left|apply IHe1|apply IHe2]; auto.
    + intros y Hy. apply HF. apply in_union. auto.
    + intros y Hy. apply HA. right. apply in_or_app. auto.
    + intros y Hy. destruct (name_eqb_spec x y) as [->|N]; [apply HA; now left|]. apply HF. apply in_union. right. apply in_diff.
      split; [exact Hy|cbn; intuition].
    + intros y Hy. apply HA. right. apply in_or_app. auto.
  - apply forallb_forall. intros a Ha. rewrite Forall_forall in H. rewrite forallb_forall in HP. apply H; auto.
    + intros x Hx. apply HF. apply in_unions_map'. eauto.
    + intros x Hx. apply HA. apply in_flat_map. eauto.
  - rewrite !andb_true_iff in *. destruct HP as (P1 & P2). split.
    + apply IHe; auto; intros x Hx; [apply HF; apply in_unions_app; auto|apply HA; apply in_or_app; auto].
    + apply forallb_forall. intros a Ha. rewrite Forall_forall in H. rewrite forallb_forall in P2. apply H; auto.
      * intros x Hx. apply HF. apply in_unions_app. eauto.
      * intros x Hx. apply HA. apply in_or_app. right. apply in_flat_map. eauto.
Qed.

Lemma old_convert : forall m e fvs, plain e = true -> old m e = true -> old m (closure_convert fvs e) = true.
Proof.
  intros m. induction e using exp_ind'; intros fvs HP HO; cbn -[free_vars] in *; try discriminate; auto.
  - unfold convert_var. destruct (index x fvs); auto.
  - apply andb_true_iff. split; [auto|]. apply forallb_forall. intros a Ha. apply in_map_iff in Ha. destruct Ha as (x & <- & Hx).
    unfold convert_var. destruct (index x fvs); [reflexivity|]. cbn. apply (old_free m (ELam ps e)); auto.
  - rewrite !andb_true_iff in *. intuition.
  - rewrite !andb_true_iff in *. intuition.
  - rewrite !andb_true_iff in *. intuition.
  - rewrite forallb_forall in *. intros a Ha. apply in_map_iff in Ha. destruct Ha as (a' & <- & Ha). rewrite Forall_forall in H. auto.
  - rewrite !andb_true_iff in *. destruct HP as (P1 & P2). destruct HO as (O1 & O2). split; [auto|].
    rewrite forallb_forall in *. intros a Ha. apply in_map_iff in Ha. destruct Ha as (a' & <- & Ha). rewrite Forall_forall in H. auto.
Qed.

Lemma etexts_convert : forall e fvs, etexts (closure_convert fvs e) = etexts e.
Proof.
  induction e using exp_ind'; intros fvs; cbn -[free_vars]; auto.
  - unfold convert_var. destruct (index x fvs); reflexivity.
  - now rewrite IHe1, IHe2, IHe3.
  - now rewrite IHe1, IHe2.
  - now rewrite IHe1, IHe2.
  - induction H as [|a l Ha H IH]; cbn; [reflexivity|]. now rewrite Ha, IH.
  - rewrite IHe. f_equal. induction H as [|a l Ha H IH]; cbn; [reflexivity|]. now rewrite Ha, IH.
Qed.

(** constants keep their text through tailify and liveness *)
Definition kfin (next : kont) : Prop :=
  forall s m t m', fin_simple (live_simple s) = true -> apply_k next s m = Some (t, m') -> fin_stm (live_stm t) = true.
Lemma kfin_id : kfin KId.
Proof. intros s m t m' H E. cbn in E. injection E as <- _. exact H. Qed.

Lemma tailify_fin : forall e, etexts e = true -> forall next m t m', kfin next -> tailify e next m = Some (t, m') ->
  fin_stm (live_stm t) = true.
Proof.
  set (Q := fun e => etexts e = true -> forall next m t m', kfin next -> tailify e next m = Some (t, m') -> fin_stm (live_stm t) = true).
  assert (L : forall l, Forall Q l -> forallb etexts l = true -> forall acc fin m t m',
     forallb fin_simple (map live_simple acc) = true ->
     (forall ss m t m', forallb fin_simple (map live_simple ss) = true -> fin ss m = Some (t, m') -> fin_stm (live_stm t) = true) ->
     tailify_l l acc fin m = Some (t, m') -> fin_stm (live_stm t) = true).
  { induction 1 as [|e l He _ IH]; intros HC acc fin m t m' HA HF E; cbn in E.
    - eapply HF; [|exact E]. rewrite forallb_forall in HA |- *. intros s Hs. apply HA. rewrite map_rev in Hs. now apply in_rev.
    - cbn in HC. apply andb_true_iff in HC as [HC1 HC2].
      eapply He; [exact HC1| |exact E]. intros s k t' k' HS E'. cbn in E'.
      eapply IH; [exact HC2| |exact HF|exact E']. cbn. now rewrite HS. }
  induction e using exp_ind'; intros HC next m t m' HK E; cbn in HC; try discriminate;
    try (cbn in E; eapply HK; [|exact E]; cbn; auto; fail).
  - cbn in E. destruct (tailify e KId m) as [(sb, n1)|] eqn:Eb; [|discriminate].
    destruct (simples frees) as [ss|] eqn:Es; [|discriminate]. eapply HK; [|exact E]. cbn. eapply IHe; [exact HC|exact kfin_id|exact Eb].
  - rewrite !andb_true_iff in HC. destruct HC as ((C1 & C2) & C3). cbn [tailify] in E. eapply IHe1; [exact C1| |exact E].
    intros s k t' k' HS E'. cbn in E'.
    destruct (tailify e2 next k) as [(sb, n1)|] eqn:Eb; [|discriminate].
    destruct (tailify e3 next n1) as [(sc, n2)|] eqn:Ec; [|discriminate]. injection E' as <- <-.
    cbn. rewrite HS, (IHe2 C2 _ _ _ _ HK Eb), (IHe3 C3 _ _ _ _ HK Ec). reflexivity.
  - apply andb_true_iff in HC as [C1 C2]. cbn [tailify] in E. eapply IHe1; [exact C1| |exact E].
    intros s k t' k' HS E'. cbn in E'.
    assert (X : exists t'', tailify e2 next k = Some (t'', k') /\ (t' = t'' \/ t' = TDo s t'')).
    { destruct s; unfold with_stm in E';
      try (destruct (tailify e2 next k) as [(t2, k2)|]; [|discriminate]; injection E' as <- <-); eauto. }
    destruct X as (t'' & E'' & TT). pose proof (IHe2 C2 _ _ _ _ HK E'') as F. destruct TT as [->| ->]; [exact F|].
    cbn. now rewrite HS, F.
  - apply andb_true_iff in HC as [C1 C2]. cbn [tailify] in E. eapply IHe1; [exact C1| |exact E].
    intros s k t' k' HS E'. cbn in E'. unfold with_stm in E'.
    destruct (tailify e2 next k) as [(t2, k2)|] eqn:Ec; [|discriminate]. injection E' as <- <-.
    cbn. now rewrite HS, (IHe2 C2 _ _ _ _ HK Ec).
  - rewrite tailify_prim in E. refine (L _ H HC [] _ m t m' eq_refl _ E).
    intros ss k t' k' HS E'. unfold with_stm in E'.
    destruct (apply_k next (SmVar (NG k)) (S k)) as [(t2, k2)|] eqn:Ek; [|discriminate]. injection E' as <- <-.
    cbn. rewrite HS. cbn. eapply HK; [|exact Ek]. reflexivity.
  - apply andb_true_iff in HC as [C1 C2]. rewrite tailify_app in E. eapply IHe; [exact C1| |exact E].
    intros s k t' k' HS E'. cbn in E'. refine (L _ H C2 [] _ k t' k' eq_refl _ E').
    intros ss k2 t2 k2' HS2 E2. destruct next as [|g].
    + injection E2 as <- <-. cbn. now rewrite HS, HS2.
    + unfold with_stm in E2. destruct (g (SmVar (NG k2)) (S k2)) as [(t3, k3)|] eqn:Eg; [|discriminate].
      injection E2 as <- <-. cbn. rewrite HS, HS2. cbn. rewrite andb_true_r. eapply (HK (SmVar (NG k2))); [reflexivity|exact Eg].
Qed.
