(** The compiler accepts every legal program: parse and tailify do not get
    stuck, and once the fuel is large enough more fuel changes nothing. *)
From Coq Require Import List ZArith Bool String Arith Lia.
From Verif Require Import CoreSpec CoreProofs TocModel TocSem TocClosure TocTail TocLive TocParse TocScope TocWhole.
Import ListNotations.
Local Open Scope list_scope.
Local Open Scope nat_scope.

(** * What is asked of the names of local variables

    None of them is the name of a form, of the source language or of the
    representation inside the compiler. *)
Local Open Scope string_scope.
Definition form_names : list name :=
  List.map NS ["quote"; "lambda"; "if"; "do"; "let"; "return"; "call"; "tailcall"; "continuation";
               "%const"; "%global"; "%builtin"; "%closure"; "%closure-ref"; "%continuation"].
Local Close Scope string_scope.
Definition no_form (x : name) : bool := negb (existsb (name_eqb x) form_names).

Lemma no_form_reserved : forall x, no_form x = true -> reserved x = false.
Proof.
  intros x H. unfold reserved. destruct (mem_spec x reserved_names) as [HI|]; [|reflexivity]. exfalso.
  unfold reserved_names in HI. cbn in HI.
  repeat (destruct HI as [<-|HI]; [vm_compute in H; discriminate H|]). exact HI.
Qed.
Lemma no_form_all : forall xs, forallb no_form xs = true -> existsb reserved xs = false.
Proof.
  induction xs as [|x xs IH]; intro H; [reflexivity|]. cbn [forallb existsb] in H |- *. apply andb_true_iff in H as [H1 H2].
  rewrite no_form_reserved, IH by assumption. reflexivity.
Qed.

(** * More fuel changes nothing *)
Lemma parse_list_more : forall (p q : pst -> sexp -> option (exp * pst)) l,
  (forall st x r, p st x = Some r -> q st x = Some r) ->
  forall st r, parse_list p st l = Some r -> parse_list q st l = Some r.
Proof.
  intros p q l H. induction l as [|x l IH]; intros st r E; [exact E|]. cbn in E |- *.
  destruct (p st x) as [(e, st1)|] eqn:E1; [|discriminate]. rewrite (H _ _ _ E1).
  destruct (parse_list p st1 l) as [(es, st2)|] eqn:E2; [|discriminate]. now rewrite (IH _ _ E2).
Qed.

Lemma parse_more1 : forall k env st x r, parse k env st x = Some r -> parse (S k) env st x = Some r.
Proof.
  induction k as [|k IH]; intros env st x r E; [discriminate|].
  assert (PL : forall env l st r, parse_list (parse k env) st l = Some r -> parse_list (parse (S k) env) st l = Some r).
  { intros env0 l st0 r0. apply parse_list_more. intros. now apply IH. }
  remember (S k) as k1 eqn:Hk. cbn [parse]. rewrite Hk in E. cbn [parse] in E.
  destruct x; try exact E.
  destruct (slist (SCons x1 x2)) as [[|h l]|]; try discriminate.
  destruct (is_sym "quote" h); [exact E|].
  destruct (is_sym "lambda" h).
  { destruct l as [|ps [|b [|? ?]]]; try discriminate. destruct (names_of ps) as [xs|]; [|discriminate].
    destruct (existsb reserved xs); [discriminate|].
    destruct (parse k (xs ++ env) st b) as [(eb, st1)|] eqn:E1; [|discriminate]. now rewrite (IH _ _ _ _ E1). }
  destruct (is_sym "if" h).
  { destruct l as [|c [|a [|b [|? ?]]]]; try discriminate. destruct (headed "if" c).
    - now apply IH.
    - destruct (parse_list (parse k env) st [c; a; b]) as [(es, st1)|] eqn:E1; [|discriminate]. now rewrite (PL _ _ _ _ E1). }
  destruct (is_sym "do" h).
  { destruct l as [|a [|b [|? ?]]]; try discriminate.
    destruct (parse_list (parse k env) st [a; b]) as [(es, st1)|] eqn:E1; [|discriminate]. now rewrite (PL _ _ _ _ E1). }
  destruct (is_sym "let" h).
  { destruct l as [|y [|b [|c [|? ?]]]]; try discriminate; destruct y; try discriminate.
    destruct (reserved x); [discriminate|].
    destruct (parse k env st b) as [(eb, st1)|] eqn:E1; [|discriminate]. rewrite (IH _ _ _ _ E1).
    destruct (parse k (x :: env) st1 c) as [(ec, st2)|] eqn:E2; [|discriminate]. now rewrite (IH _ _ _ _ E2). }
  destruct (headed "lambda" h && match l with [a] => headed "if" a | _ => false end); [now apply IH|].
  destruct (match h with SSym s => prim_of s | _ => None end) as [p|].
  { destruct (prim_arity p =? List.length l).
    - destruct (parse_list (parse k env) st l) as [(es, st1)|] eqn:E1; [|discriminate]. now rewrite (PL _ _ _ _ E1).
    - destruct (List.length l <? prim_arity p); [|discriminate]. cbn [temp_list] in E |- *. now apply IH. }
  destruct (parse_list (parse k env) st (h :: l)) as [(es, st1)|] eqn:E1; [|discriminate]. now rewrite (PL _ _ _ _ E1).
Qed.
Lemma parse_more : forall k k', k <= k' -> forall env st x r, parse k env st x = Some r -> parse k' env st x = Some r.
Proof. intros k k' H. induction H; intros env st x r E; [exact E|]. apply parse_more1. auto. Qed.

Theorem compile_more : forall k k' n e r, k <= k' -> compile k n e = Some r -> compile k' n e = Some r.
Proof.
  intros k k' n e r H E. unfold compile in *. destruct (parse k [] (mkP n []) e) as [(e1, st)|] eqn:E1; [|discriminate].
  now rewrite (parse_more _ _ H _ _ _ _ E1).
Qed.

(** * parse succeeds *)
Definition parses (k : nat) (x : sexp) : Prop := forall env st, exists r, parse k env st x = Some r.

Lemma parse_list_total : forall k env l, (forall x, In x l -> parses k x) ->
  forall st, exists es st', parse_list (parse k env) st l = Some (es, st') /\ List.length es = List.length l.
Proof.
  intros k env l. induction l as [|x l IH]; intros H st; [exists [], st; auto|]. cbn.
  destruct (H x (or_introl eq_refl) env st) as ((e & st1) & ->).
  destruct (IH (fun y Hy => H y (or_intror Hy)) st1) as (es & st2 & -> & L). exists (e :: es), st2. cbn. auto.
Qed.
Lemma parses_more : forall k k' x, k <= k' -> parses k x -> parses k' x.
Proof. intros k k' x H P env st. destruct (P env st) as (r & E). exists r. eapply parse_more; eauto. Qed.
Lemma parses_var : forall k x, parses (S k) (SSym x).
Proof. intros k x env st. cbn. destruct (mem x env); eauto. Qed.
Lemma parses_app_gen : forall k i r, (forall x, In x r -> parses k x) -> 0 < k -> parses (S k) (of_list (SSym (NG i) :: r)).
Proof.
  intros k i r H L env st. cbn [parse of_list].
  change (slist (SCons (SSym (NG i)) (of_list r))) with (slist (of_list (SSym (NG i) :: r))).
  rewrite slist_of_list. cbn [is_sym name_eqb headed andb prim_of].
  destruct (parse_list_total k env (SSym (NG i) :: r)) with (st := st) as (es & st1 & -> & Len).
  { intros x [<-|Hx]; [|now apply H]. destruct k; [lia|]. apply parses_var. }
  destruct es; [discriminate|]. eauto.
Qed.
Lemma parses_let_gen : forall k i b c, parses k b -> parses k c -> parses (S k) (of_list [ssym "let"; SSym (NG i); b; c]).
Proof.
  intros k i b c Hb Hc env st. cbn. destruct (Hb env st) as ((eb & st1) & ->).
  destruct (Hc (NG i :: env) st1) as ((ec & st2) & ->). eauto.
Qed.
Lemma parses_lam_gen : forall k i b, parses k b -> parses (S k) (of_list [ssym "lambda"; of_list [SSym (NG i)]; b]).
Proof. intros k i b Hb env st. cbn. destruct (Hb (NG i :: env) st) as ((eb & st1) & ->). eauto. Qed.
Lemma parses_if_gen : forall k i a b, 0 < k -> parses k a -> parses k b -> parses (S k) (of_list [ssym "if"; SSym (NG i); a; b]).
Proof.
  intros k i a b L Ha Hb env st. cbn [parse of_list].
  change (slist (SCons (ssym "if") (SCons (SSym (NG i)) (SCons a (SCons b SNil))))) with (Some [ssym "if"; SSym (NG i); a; b]).
  cbn -[parse_list parse].
  destruct (parse_list_total k env [SSym (NG i); a; b]) with (st := st) as (es & st1 & -> & Len).
  { intros x [<-|[<-|[<-|[]]]]; auto. destruct k; [lia|]. apply parses_var. }
  destruct es as [|e1 [|e2 [|e3 [|? ?]]]]; try discriminate. eauto.
Qed.

Theorem parse_total : forall n0 ks x, src_ok n0 ks x = true -> forallb no_form (locals ks x) = true ->
  parses (S (4 * ks)) x.
Proof.
  intros n0. induction ks as [|ks IH]; intros x HS HN; [discriminate|].
  assert (IHk : forall k x, S (4 * ks) <= k -> src_ok n0 ks x = true -> forallb no_form (locals ks x) = true -> parses k x).
  { intros k y L A B. eapply parses_more; [exact L|now apply IH]. }
  assert (LS : forall k l, S (4 * ks) <= k -> forallb (src_ok n0 ks) l = true -> forallb no_form (flat_map (locals ks) l) = true ->
     forall y, In y l -> parses k y).
  { intros k l L A B y Hy. rewrite forallb_forall in A. apply IHk; [exact L|now apply A|].
    rewrite forallb_forall in B |- *. intros z Hz. apply B. apply in_flat_map. eauto. }
  replace (4 * S ks) with (S (S (S (S (4 * ks))))) by lia.
  cbn [src_ok] in HS. cbn [locals] in HN. intros env st.
  remember (S (S (S (S (4 * ks))))) as k eqn:Hk. cbn [parse].
  destruct x as [z|y|s| | | |e1 e2]; cbn [view] in *; try (eexists; reflexivity).
  - destruct (mem y env); eauto.
  - destruct (slist (SCons e1 e2)) as [[|h l]|] eqn:Esl; try discriminate.
    destruct (is_sym "quote" h).
    { destruct l as [|c [|? ?]]; try discriminate. eauto. }
    destruct (is_sym "lambda" h).
    { destruct l as [|ps [|b [|? ?]]]; try discriminate. unfold names_of.
      destruct (slist ps) as [lp|]; [|discriminate]. destruct (symbols lp) as [xs|]; [|discriminate].
      rewrite forallb_app in HN. apply andb_true_iff in HN as [N1 N2]. apply andb_true_iff in HS as [S1 S2].
      rewrite (no_form_all _ N1). destruct (IHk k b ltac:(lia) S2 N2 (xs ++ env) st) as ((eb & st1) & ->). eauto. }
    destruct (is_sym "if" h).
    { destruct l as [|c [|a [|b [|? ?]]]]; try discriminate.
      apply andb_true_iff in HS as [HS S3]. apply andb_true_iff in HS as [S1 S2].
      rewrite !forallb_app in HN. apply andb_true_iff in HN as [N1 HN]. apply andb_true_iff in HN as [N2 N3].
      destruct (headed "if" c).
      - subst k. change (S (S (S (S (4 * ks))))) with (S (S (S (S (4 * ks))))).
        apply parses_let_gen.
        + apply parses_lam_gen. apply parses_if_gen; [lia| |]; (apply IHk; [lia|assumption|assumption]).
        + apply parses_app_gen; [|lia]. intros x [<-|[]]. apply IHk; [lia|assumption|assumption].
      - destruct (parse_list_total k env [c; a; b]) with (st := st) as (es & st1 & -> & Len).
        { intros x [<-|[<-|[<-|[]]]]; (apply IHk; [lia|assumption|assumption]). }
        destruct es as [|e3 [|e4 [|e5 [|? ?]]]]; try discriminate. eauto. }
    destruct (is_sym "do" h).
    { destruct l as [|a [|b [|? ?]]]; try discriminate.
      apply andb_true_iff in HS as [S1 S2]. rewrite forallb_app in HN. apply andb_true_iff in HN as [N1 N2].
      destruct (parse_list_total k env [a; b]) with (st := st) as (es & st1 & -> & Len).
      { intros x [<-|[<-|[]]]; (apply IHk; [lia|assumption|assumption]). }
      destruct es as [|e3 [|e4 [|? ?]]]; try discriminate. eauto. }
    destruct (is_sym "let" h).
    { destruct l as [|y [|b [|c [|? ?]]]]; try discriminate; destruct y; try discriminate.
      apply andb_true_iff in HS as [HS S3]. apply andb_true_iff in HS as [S1 S2].
      cbn [forallb] in HN. apply andb_true_iff in HN as [N1 HN]. rewrite forallb_app in HN. apply andb_true_iff in HN as [N2 N3].
      rewrite (no_form_reserved _ N1).
      destruct (IHk k b ltac:(lia) S2 N2 env st) as ((eb & st1) & ->).
      destruct (IHk k c ltac:(lia) S3 N3 (x :: env) st1) as ((ec & st2) & ->). eauto. }
    rewrite forallb_app in HN. apply andb_true_iff in HN as [N1 N2]. apply andb_true_iff in HS as [S1 S2].
    destruct (headed "lambda" h && match l with [a] => headed "if" a | _ => false end) eqn:EH.
    { apply andb_true_iff in EH as [EH _]. destruct h; try discriminate.
      subst k. apply parses_let_gen; [apply IHk; [lia|assumption|assumption]|].
      apply parses_app_gen; [|lia]. apply LS; [lia|assumption|assumption]. }
    destruct (match h with SSym s => prim_of s | _ => None end) as [p|].
    { rewrite S1. destruct (parse_list_total k env l) with (st := st) as (es & st1 & -> & Len); [|eauto].
      apply LS; [lia|assumption|assumption]. }
    destruct (parse_list_total k env (h :: l)) with (st := st) as (es & st1 & -> & Len).
    { intros x [<-|Hx]; [apply IHk; [lia|assumption|assumption]|]. revert x Hx. apply LS; [lia|assumption|assumption]. }
    destruct es; [discriminate|]. eauto.
Qed.

(** * tailify succeeds *)
Definition ktotal (next : kont) : Prop := forall s n, exists r, apply_k next s n = Some r.

Lemma simples_converted : forall fvs l, exists ss, simples (List.map (convert_var fvs) l) = Some ss.
Proof.
  intros fvs l. induction l as [|x l (ss & IH)]; [exists []; reflexivity|]. cbn. unfold convert_var at 1.
  destruct (index x fvs); cbn; rewrite IH; eauto.
Qed.

Lemma tailify_total : forall e, plain e = true -> forall fvs next n, ktotal next ->
  exists r, tailify (closure_convert fvs e) next n = Some r.
Proof.
  set (Q := fun e => plain e = true -> forall fvs next n, ktotal next -> exists r, tailify (closure_convert fvs e) next n = Some r).
  assert (L : forall l, Forall Q l -> forallb plain l = true -> forall fvs acc fin n,
     (forall ss n, exists r, fin ss n = Some r) -> exists r, tailify_l (List.map (closure_convert fvs) l) acc fin n = Some r).
  { induction 1 as [|e l He _ IH]; intros HP fvs acc fin n HF; cbn; [apply HF|].
    cbn in HP. apply andb_true_iff in HP as [P1 P2]. apply He; [exact P1|]. intros s m. cbn. now apply IH. }
  assert (WS : forall mk o, (exists r, o = Some r) -> exists r, with_stm mk o = Some r).
  { intros mk o ((s, m) & ->). cbn. eauto. }
  induction e using exp_ind'; intros HP fvs next n HK; cbn in HP; try discriminate; try (apply HK).
  - cbn. unfold convert_var. destruct (index x fvs); apply HK.
  - cbn [closure_convert tailify]. destruct (IHe HP (free_vars (ELam ps e)) KId n) as ((sb & n1) & ->).
    { intros s m. cbn. eauto. }
    destruct (simples_converted fvs (free_vars (ELam ps e))) as (ss & ->). apply HK.
  - rewrite !andb_true_iff in HP. destruct HP as ((P1 & P2) & P3). cbn [closure_convert tailify]. apply IHe1; [exact P1|].
    intros s m. cbn. destruct (IHe2 P2 fvs next m HK) as ((sb & n1) & ->). destruct (IHe3 P3 fvs next n1 HK) as ((sc & n2) & ->). eauto.
  - apply andb_true_iff in HP as [P1 P2]. cbn [closure_convert tailify]. apply IHe1; [exact P1|].
    intros s m. cbn. pose proof (IHe2 P2 fvs next m HK) as X. destruct s; auto.
  - apply andb_true_iff in HP as [P1 P2]. cbn [closure_convert tailify]. apply IHe1; [exact P1|].
    intros s m. cbn. apply WS. now apply IHe2.
  - cbn [closure_convert]. rewrite tailify_prim. apply (L args H HP). intros ss m. apply WS. apply HK.
  - apply andb_true_iff in HP as [P1 P2]. cbn [closure_convert]. rewrite tailify_app. apply IHe; [exact P1|].
    intros s m. apply (L args H P2). intros ss m1. destruct next as [|g]; [eauto|]. apply WS. apply (HK (SmVar (NG m1))).
Qed.

(** * The compiler *)
Theorem compile_total : forall n0 ks e, legal n0 ks e = true -> forallb no_form (locals ks e) = true ->
  exists fs gl, forall fuel, 4 * ks < fuel -> compile fuel n0 e = Some (fs, gl).
Proof.
  intros n0 ks e HL HN. unfold legal in HL. rewrite !andb_true_iff in HL. destruct HL as ((H1 & _) & _).
  destruct (parse_total n0 ks e H1 HN [] (mkP n0 [])) as ((e1 & st) & EP).
  destruct (tailify_total e1 (parse_plain _ _ _ _ _ _ EP) [] KId (p_gen st)) as ((t & m) & ET).
  { intros s k. cbn. eauto. }
  exists (collect_lambda_pass (live_stm t)), (p_globals st). intros fuel HF.
  apply (compile_more (S (4 * ks))); [lia|]. unfold compile. now rewrite EP, ET.
Qed.
