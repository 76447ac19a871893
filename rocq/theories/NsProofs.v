(** The renaming of names inside packages preserves meaning. *)
From Coq Require Import List ZArith Bool String Ascii Arith Lia.
From Verif Require Import CoreSpec TocModel TocSem CoreProofs TocParse TocParseSim EvalRel NsSpec NsModel.
Import ListNotations.
Local Open Scope list_scope.
Local Open Scope nat_scope.

(** * Shapes *)
Lemma some_inj : forall {A} (x y : A), Some x = Some y -> x = y.
Proof. congruence. Qed.
Lemma is_sym_eq : forall s h, is_sym s h = true -> h = ssym s.
Proof. intros s [z|x|t| | | |a d] H; try discriminate. cbn in H. destruct (name_eqb_spec x (NS s)); [subst; reflexivity|discriminate]. Qed.
Lemma slist_some : forall e l, slist e = Some l -> e = of_list l.
Proof.
  induction e; intros l H; cbn in H; try discriminate.
  - injection H as <-. reflexivity.
  - destruct (slist e2) as [r|]; [|discriminate]. injection H as <-. cbn. now rewrite (IHe2 r).
Qed.
Lemma symbols_some : forall l xs, symbols l = Some xs -> l = map SSym xs.
Proof.
  induction l as [|[z|x|t| | | |a d] l IH]; intros xs H; cbn in H; try discriminate.
  - now injection H as <-.
  - destruct (symbols l) as [ys|]; [|discriminate]. injection H as <-. cbn. now rewrite (IH ys).
Qed.
Lemma strings_some : forall l ss, strings l = Some ss -> the_strings l = Some ss.
Proof. intros l ss H. exact H. Qed.
Lemma the_symbols_map : forall xs, the_symbols (map SSym xs) = xs.
Proof. induction xs; cbn; congruence. Qed.
Lemma cells_of_list : forall l, cells (of_list l) = l.
Proof. induction l; cbn; congruence. Qed.

Definition atom (e : sexp) : Prop := match e with SSym _ | SCons _ _ => False | _ => True end.
Definition call_head (h : sexp) (n : nat) : Prop :=
  is_sym "quote" h = false /\ is_sym "lambda" h = false /\ is_sym "if" h = false /\ is_sym "do" h = false /\
  is_sym "let" h = false /\ (is_sym "def" h = true -> n <> 2) /\ (is_sym "ns" h = true -> n <> 3).

Inductive shape : sexp -> nform -> Prop :=
| sh_atom e : atom e -> shape e (NCore (FConst e))
| sh_quote s : shape (of_list [ssym "quote"; s]) (NCore (FConst s))
| sh_var x : shape (SSym x) (NCore (FVar x))
| sh_lam ps b : shape (of_list [ssym "lambda"; of_list (map SSym ps); b]) (NCore (FLam ps b))
| sh_if a b c : shape (of_list [ssym "if"; a; b; c]) (NCore (FIf a b c))
| sh_do a b : import_of a = None -> shape (of_list [ssym "do"; a; b]) (NCore (FDo a b))
| sh_let x b c : shape (of_list [ssym "let"; SSym x; b; c]) (NCore (FLet x b c))
| sh_app f args : call_head f (List.length args) -> shape (of_list (f :: args)) (NCore (FApp f args))
| sh_bad e : shape e (NCore FBad)
| sh_def x b : shape (of_list [ssym "def"; SSym x; b]) (NDef x b)
| sh_ns p l ss b : the_strings l = Some ss -> shape (of_list [ssym "ns"; SStr p; of_list l; b]) (NNs p ss b)
| sh_import p b : shape (of_list [ssym "do"; of_list [ssym "import"; SStr p]; b]) (NImport p b).

Lemma import_of_some : forall a p, import_of a = Some p -> a = of_list [ssym "import"; SStr p].
Proof.
  intros a p H. unfold import_of in H. destruct (slist a) as [l|] eqn:E; [|discriminate]. apply slist_some in E. subst a.
  destruct l as [|h [|[z|x|t| | | |u v] [|? ?]]]; try discriminate.
  destruct (is_sym "import" h) eqn:Eh; [|discriminate]. injection H as <-. now rewrite (is_sym_eq _ _ Eh).
Qed.

Ltac sym_head h :=
  match goal with
  | H : is_sym _ h = true |- _ => apply is_sym_eq in H; subst h
  end.

Lemma view_shape : forall e,
  (forall h a b, slist e = Some [h; a; b] -> is_sym "do" h = false /\ is_sym "def" h = false) ->
  (forall h a b c, slist e = Some [h; a; b; c] -> is_sym "ns" h = false) -> shape e (NCore (view e)).
Proof.
  intros e H3 H4. destruct e as [z|x|s| | | |a d]; try (apply sh_atom; exact I); [apply sh_var|].
  destruct (slist (SCons a d)) as [l|] eqn:E; [|cbn [view]; rewrite E; apply sh_bad].
  pose proof (slist_some _ _ E) as E'. cbn [view]. rewrite E. rewrite E'.
  destruct l as [|h r]; [apply sh_bad|].
  destruct (is_sym "quote" h) eqn:Q.
  { sym_head h. destruct r as [|y [|? ?]]; try apply sh_bad. apply sh_quote. }
  destruct (is_sym "lambda" h) eqn:Q1.
  { sym_head h. destruct r as [|ps [|y [|? ?]]]; try apply sh_bad.
    destruct (slist ps) as [lp|] eqn:Ep; [|apply sh_bad]. destruct (symbols lp) as [xs|] eqn:Ex; [|apply sh_bad].
    rewrite (slist_some _ _ Ep), (symbols_some _ _ Ex). apply sh_lam. }
  destruct (is_sym "if" h) eqn:Q2.
  { sym_head h. destruct r as [|y1 [|y2 [|y3 [|? ?]]]]; try apply sh_bad. apply sh_if. }
  destruct (is_sym "do" h) eqn:Q3.
  { destruct r as [|y1 [|y2 [|? ?]]]; try apply sh_bad. destruct (H3 _ _ _ eq_refl). congruence. }
  destruct (is_sym "let" h) eqn:Q4.
  { sym_head h. destruct r as [|y1 [|y2 [|y3 [|? ?]]]]; try (destruct y1; apply sh_bad); try apply sh_bad.
    destruct y1; try apply sh_bad. apply sh_let. }
  apply sh_app. repeat split; auto.
  - intros D L. destruct r as [|y1 [|y2 [|? ?]]]; try discriminate. destruct (H3 _ _ _ eq_refl). congruence.
  - intros D L. destruct r as [|y1 [|y2 [|y3 [|? ?]]]]; try discriminate. pose proof (H4 _ _ _ _ eq_refl). congruence.
Qed.

Lemma nview_shape : forall e, shape e (nview e).
Proof.
  intro e. unfold nview. destruct (slist e) as [l|] eqn:E.
  2: { apply view_shape; intros; rewrite E in *; discriminate. }
  destruct l as [|h [|a [|b [|c [|? ?]]]]]; try (apply view_shape; intros; rewrite E in *; discriminate).
  - destruct (is_sym "def" h) eqn:D.
    { sym_head h. rewrite (slist_some _ _ E). destruct a; try apply sh_bad. apply sh_def. }
    destruct (is_sym "do" h) eqn:D2.
    { sym_head h. rewrite (slist_some _ _ E). destruct (import_of a) as [p|] eqn:I; [|now apply sh_do].
      rewrite (import_of_some _ _ I). apply sh_import. }
    apply view_shape; intros; rewrite E in *; [|discriminate].
    match goal with H : Some _ = Some _ |- _ => injection H as <- <- <- end. auto.
  - destruct (is_sym "ns" h) eqn:D.
    { sym_head h. rewrite (slist_some _ _ E). destruct a; try apply sh_bad.
      destruct (slist b) as [lb|] eqn:Eb; [|apply sh_bad]. destruct (strings lb) as [ss|] eqn:Es; [|apply sh_bad].
      rewrite (slist_some _ _ Eb). apply sh_ns. now apply strings_some. }
    apply view_shape; intros; rewrite E in *; [discriminate|].
    match goal with H : Some _ = Some _ |- _ => injection H as <- <- <- <- end. auto.
Qed.

(** * Resolution of one name *)
Section Ns.
  Context (gt : nat -> string) (exports : string -> list name).

  Lemma cooked_hash : forall s, symbol_cooked s = has_hash s.
  Proof. induction s as [|c s IH]; cbn; [reflexivity|]. rewrite IH. now destruct (Ascii.eqb c "#"). Qed.
  Lemma hash_app : forall a b, has_hash (a ++ b) = has_hash a || has_hash b.
  Proof. induction a as [|c a IH]; intro b; cbn; [reflexivity|]. rewrite IH. now rewrite orb_assoc. Qed.
  Lemma qualified_hash : forall p t, has_hash (p ++ ("#" ++ t)) = true.
  Proof. intros. rewrite hash_app. cbn. apply orb_true_r. Qed.

  Lemma var_with_ns_ok : forall c x, var_with_ns gt x (x_ns c) = defined_as gt c x.
  Proof.
    intros c x. unfold var_with_ns, defined_as. change (symbol_string gt x) with (text gt x). rewrite cooked_hash.
    destruct (String.eqb (x_ns c) ""); [reflexivity|]. cbn. destruct (has_hash (text gt x)); reflexivity.
  Qed.
  Lemma builtin_prim : forall x, builtin x = match prim_of x with Some _ => true | None => false end.
  Proof.
    intros [s|k]; [|reflexivity]. unfold builtin, prim_of. induction prim_names as [|(t, p) l IH]; cbn; [reflexivity|].
    destruct (String.eqb s t); cbn; auto.
  Qed.
  Lemma lookup_var_ok : forall x ns l, lookup_var gt exports x ns l =
    match List.find (fun p => existsb (name_eqb x) (exports p)) l with
    | Some p => qualified gt p x
    | None => var_with_ns gt x ns
    end.
  Proof.
    intros x ns l. induction l as [|p l IH]; cbn; [reflexivity|]. unfold mem. destruct (existsb (name_eqb x) (exports p)); auto.
  Qed.
  Lemma resolve_ok : forall c x,
    (if builtin x then x else lookup_var gt exports x (x_ns c) (x_imports c)) = global_of gt exports c x.
  Proof.
    intros c x. rewrite builtin_prim. unfold global_of. destruct (prim_of x); [reflexivity|]. rewrite lookup_var_ok.
    destruct (List.find _ _); [reflexivity|]. apply var_with_ns_ok.
  Qed.

  Definition hashed (y : name) : Prop := exists s, y = NS s /\ has_hash s = true.
  Lemma global_cases : forall c x, global_of gt exports c x = x \/ (hashed (global_of gt exports c x) /\ prim_of x = None).
  Proof.
    intros c x. unfold global_of. destruct (prim_of x); [now left|].
    assert (Q : forall p, hashed (qualified gt p x)) by (intro p; eexists; split; [reflexivity|apply qualified_hash]).
    destruct (List.find _ _); [right; auto|]. destruct (_ || _); auto.
  Qed.
  Lemma hashed_not_local : forall y, hashed y -> local_ok y = false.
  Proof. intros y (s & -> & H). cbn. now rewrite H. Qed.
  Lemma hashed_not_prim : forall y, hashed y -> prim_of y = None.
  Proof.
    intros y (s & -> & H). unfold prim_of. destruct (assoc_str s prim_names) eqn:E; [|reflexivity]. exfalso.
    assert (X : In s (map fst prim_names)).
    { revert E. induction prim_names as [|(t, q) l IH]; cbn; [discriminate|]. destruct (String.eqb_spec s t); [now left|right; auto]. }
    cbn in X. repeat (destruct X as [<-|X]; [discriminate H|]). exact X.
  Qed.
  Lemma hashed_not_form : forall y s, hashed y -> has_hash s = false -> is_sym s (SSym y) = false.
  Proof.
    intros y s (t & -> & H) Hs. cbn. destruct (String.eqb_spec t s); [congruence|reflexivity].
  Qed.

  (** * One step of the renaming *)
  Notation np := (nsparse gt exports).
  Lemma np_app : forall k env ns imps f args, call_head f (List.length args) ->
    np (S k) env ns imps (of_list (f :: args)) =
    match map_opt (np k env ns imps) (f :: args) with Some l => Some (of_list l) | None => None end.
  Proof.
    intros k env ns imps f args (Q & Q1 & Q2 & Q3 & Q4 & Q5 & Q6).
    assert (X : clause f (of_list args) = PRest).
    { unfold clause. rewrite Q, Q1, Q2, Q3, Q4. cbn [andb orb].
      destruct (is_sym "ns" f) eqn:D.
      - assert (D2 : is_sym "def" f = false) by (apply is_sym_eq in D; subst f; reflexivity). rewrite D2.
        destruct args as [|a1 [|a2 [|a3 [|a4 args]]]]; try reflexivity. exfalso. now apply Q6.
      - destruct (is_sym "def" f) eqn:D2; [|reflexivity].
        destruct args as [|a1 [|a2 [|a3 args]]]; try reflexivity. exfalso. now apply Q5. }
    cbn [of_list nsparse]. rewrite X. change (SCons f (of_list args)) with (of_list (f :: args)). rewrite cells_of_list. reflexivity.
  Qed.
  Lemma np_do : forall k env ns imps a b, import_of a = None ->
    np (S k) env ns imps (of_list [ssym "do"; a; b]) =
    match np k env ns imps a, np k env ns imps b with Some a1, Some b1 => Some (of_list [ssym "do"; a1; b1]) | _, _ => None end.
  Proof.
    intros k env ns imps a b H.
    assert (X : match map_opt (np k env ns imps) [a; b] with Some l => Some (SCons (ssym "do") (of_list l)) | None => None end =
      match np k env ns imps a, np k env ns imps b with Some a1, Some b1 => Some (of_list [ssym "do"; a1; b1]) | _, _ => None end).
    { cbn [map_opt]. destruct (np k env ns imps a); [|reflexivity]. destruct (np k env ns imps b); reflexivity. }
    rewrite <- X. clear X.
    assert (X : clause (ssym "do") (of_list [a; b]) = PMap).
    { unfold clause. cbn [ssym is_sym name_eqb String.eqb Ascii.eqb Bool.eqb andb orb two of_list].
      destruct a as [z|y|s| | | |a1 [z|y|s| | | |[z|y|s| | | |a2 a3] [z1|y1|s1| | | |a4 a5]]]; try reflexivity.
      destruct (is_sym "import" a1) eqn:E; [|reflexivity].
      exfalso. unfold import_of in H. cbn in H. rewrite E in H. discriminate. }
    change (of_list [ssym "do"; a; b]) with (SCons (ssym "do") (of_list [a; b])). cbn [nsparse]. rewrite X. reflexivity.
  Qed.

  Ltac np_eq := intros; cbn [of_list nsparse clause one two three ssym is_sym name_eqb String.eqb Ascii.eqb Bool.eqb andb orb cells map_opt].
  Lemma np_quote : forall k env ns imps s, np (S k) env ns imps (of_list [ssym "quote"; s]) = Some (of_list [ssym "quote"; s]).
  Proof. np_eq. reflexivity. Qed.
  Lemma np_lam : forall k env ns imps ps b, np (S k) env ns imps (of_list [ssym "lambda"; of_list (map SSym ps); b]) =
    match np k (ps ++ env) ns imps b with Some b1 => Some (of_list [ssym "lambda"; of_list (map SSym ps); b1]) | None => None end.
  Proof. np_eq. rewrite slist_of_list, the_symbols_map. reflexivity. Qed.
  Lemma np_if : forall k env ns imps a b c, np (S k) env ns imps (of_list [ssym "if"; a; b; c]) =
    match np k env ns imps a, np k env ns imps b, np k env ns imps c with
    | Some a1, Some b1, Some c1 => Some (of_list [ssym "if"; a1; b1; c1]) | _, _, _ => None end.
  Proof. np_eq. destruct (np k env ns imps a), (np k env ns imps b), (np k env ns imps c); reflexivity. Qed.
  Lemma np_let : forall k env ns imps x b c, np (S k) env ns imps (of_list [ssym "let"; SSym x; b; c]) =
    match np k env ns imps b, np k (x :: env) ns imps c with
    | Some b1, Some c1 => Some (of_list [ssym "let"; SSym x; b1; c1]) | _, _ => None end.
  Proof. np_eq. reflexivity. Qed.
  Lemma np_def : forall k env ns imps x b, np (S k) env ns imps (of_list [ssym "def"; SSym x; b]) =
    match np k env ns imps b with
    | Some b1 => Some (of_list [ssym "set"; of_list [ssym "quote"; SSym (var_with_ns gt x ns)]; b1]) | None => None end.
  Proof. np_eq. reflexivity. Qed.
  Lemma np_ns : forall k env ns imps p l ss b, the_strings l = Some ss ->
    np (S k) env ns imps (of_list [ssym "ns"; SStr p; of_list l; b]) = np k env p ss b.
  Proof. np_eq. rewrite slist_of_list, H. reflexivity. Qed.
  Lemma np_import : forall k env ns imps p b,
    np (S k) env ns imps (of_list [ssym "do"; of_list [ssym "import"; SStr p]; b]) =
    match np k env ns imps (of_list [ssym "import"; SStr p]), np k env ns (p :: imps) b with
    | Some a1, Some b1 => Some (of_list [ssym "do"; a1; b1]) | _, _ => None end.
  Proof. np_eq. reflexivity. Qed.

  (** * Related values *)
  Definition crelN (c1 : ncode) (c2 : scode) : Prop :=
    nc_ps c1 = sc_ps c2 /\ nc_env c1 = sc_env c2 /\ forallb local_ok (nc_ps c1 ++ nc_env c1) = true /\
    exists k env ks, (forall x, mem x env = mem x (nc_ps c1 ++ nc_env c1)) /\ scoped ks (nc_body c1) = true /\
      np k env (x_ns (nc_ctx c1)) (x_imports (nc_ctx c1)) (nc_body c1) = Some (sc_body c2).
  Definition selN (c1 : ncode) (c2 : scode) (k i j : nat) : Prop := i = j /\ i < List.length (nc_env c1).
  Definition n_arity (c : ncode) : nat := List.length (nc_ps c).
  Lemma crelN_arity : forall c1 c2, crelN c1 c2 -> n_arity c1 = s_arity c2.
  Proof. intros c1 c2 (H & _). unfold n_arity, s_arity. now rewrite H. Qed.

  Notation vrelN := (vrel crelN selN n_arity).
  Notation grelN := (grel crelN selN n_arity).
  Notation ropN := (rop crelN selN n_arity).
  Notation rresN := (rres crelN selN n_arity).
  Definition envN (rho : list (name * val ncode)) (rho2 : list (name * val scode)) : Prop :=
    Forall2 (fun p q => fst p = fst q /\ vrelN (snd p) (snd q)) rho rho2.

  Lemma envN_fst : forall rho rho2, envN rho rho2 -> map fst rho = map fst rho2.
  Proof. intros rho rho2 H. induction H as [|p q l1 l2 (H1 & _) _ IH]; cbn; congruence. Qed.
  Lemma envN_lookup : forall rho rho2 x, envN rho rho2 ->
    match lookup x rho, lookup x rho2 with Some v, Some w => vrelN v w | None, None => True | _, _ => False end.
  Proof.
    intros rho rho2 x H. induction H as [|(y, v) (z, w) l1 l2 (H1 & H2) _ IH]; cbn in *; [exact I|]. subst z.
    destruct (name_eqb x y); auto.
  Qed.
  Lemma mem_lookup : forall {A} x (rho : list (name * A)), mem x (map fst rho) = match lookup x rho with Some _ => true | None => false end.
  Proof. induction rho as [|(y, v) rho IH]; cbn; [reflexivity|]. destruct (name_eqb x y); auto. Qed.
  Lemma local_none : forall {A} x (rho : list (name * A)), forallb local_ok (map fst rho) = true -> local_ok x = false -> lookup x rho = None.
  Proof.
    intros A x rho H1 H2. destruct (lookup x rho) eqn:E; [|reflexivity]. apply lookup_in in E.
    rewrite forallb_forall in H1. rewrite (H1 _ E) in H2. discriminate.
  Qed.

  Lemma envN_combine : forall ps l1 l2, Forall2 vrelN l1 l2 -> envN (combine ps l1) (combine ps l2).
  Proof. intros ps l1 l2 H. revert ps. induction H; intros [|p ps]; cbn; constructor; auto. apply IHForall2. Qed.
  Lemma envN_captured : forall env vs1 vs2,
    (forall i, i < List.length env -> exists v1 v2, nth_error vs1 i = Some v1 /\ nth_error vs2 i = Some v2 /\ vrelN v1 v2) ->
    envN (combine env vs1) (combine env vs2) /\ List.length (combine env vs1) = List.length env.
  Proof.
    induction env as [|y env IH]; intros vs1 vs2 H; [split; [constructor|reflexivity]|].
    destruct (H 0 ltac:(cbn; lia)) as (v1 & v2 & E1 & E2 & R). destruct vs1 as [|w1 vs1]; [discriminate|]. destruct vs2 as [|w2 vs2]; [discriminate|].
    cbn in E1, E2. injection E1 as ->. injection E2 as ->.
    destruct (IH vs1 vs2) as (A & B).
    { intros i L. destruct (H (S i) ltac:(cbn; lia)) as (u1 & u2 & E1 & E2 & R2). cbn in E1, E2. eauto. }
    cbn. split; [constructor; [split; [reflexivity|exact R]|exact A]|now rewrite B].
  Qed.
  Lemma combine_fst : forall {A} (l1 : list name) (l2 : list A), List.length (combine l1 l2) = List.length l1 -> map fst (combine l1 l2) = l1.
  Proof. induction l1 as [|a l1 IH]; intros [|b l2] H; cbn in *; try congruence. f_equal. apply IH. lia. Qed.

  Lemma mem_app : forall x a b, mem x (a ++ b) = mem x a || mem x b.
  Proof. intros. unfold mem. apply existsb_app. Qed.
  Lemma find_none_app : forall {A} (f : A -> bool) l, find f l = None -> forall x, In x l -> f x = false.
  Proof. intros A f l H x Hx. exact (find_none f l H x Hx). Qed.

  Context (ar : arith) (strict : bool).

  Lemma view_call : forall f args, is_sym "quote" f = false -> is_sym "lambda" f = false -> is_sym "if" f = false ->
    is_sym "do" f = false -> is_sym "let" f = false -> view (of_list (f :: args)) = FApp f args.
  Proof.
    intros f args Q Q1 Q2 Q3 Q4. cbn [of_list view slist]. rewrite slist_of_list, Q, Q1, Q2, Q3, Q4. reflexivity.
  Qed.

  Lemma np_var : forall k env c x f', np k env (x_ns c) (x_imports c) (SSym x) = Some f' ->
    f' = if mem x env then SSym x else SSym (global_of gt exports c x).
  Proof.
    intros [|k] env c x f' E; [discriminate|]. cbn [nsparse] in E. destruct (mem x env); [congruence|].
    rewrite <- resolve_ok. destruct (builtin x); congruence.
  Qed.

  (** the operator of a call stays an operator *)
  Lemma np_head : forall k env c f f' ks n, call_head f n -> scoped ks f = true -> is_ns f = false ->
    np k env (x_ns c) (x_imports c) f = Some f' ->
    (is_sym "quote" f' = false /\ is_sym "lambda" f' = false /\ is_sym "if" f' = false /\ is_sym "do" f' = false /\ is_sym "let" f' = false) /\
    ((exists x, f = SSym x) \/ (forall y, f' <> SSym y) /\ forall y, f <> SSym y).
  Proof.
    intros [|k] env c f f' [|ks] n (Q & Q1 & Q2 & Q3 & Q4 & _) HS HN E; try discriminate.
    cbn [scoped] in HS. unfold is_ns in HN. pose proof (nview_shape f) as SH. destruct (nview f) as [[]| | |] eqn:EV; inversion SH; subst; try discriminate.
    - destruct s; try contradiction; cbn [nsparse] in E; injection E as <-; (split; [repeat split; assumption|right; split; intros y; discriminate]).
    - rewrite np_quote in E. injection E as <-. split; [repeat split; reflexivity|right; split; intros y; discriminate].
    - split; [|left; eauto]. apply np_var in E. subst f'. destruct (mem x env); [repeat split; assumption|].
      destruct (global_cases c x) as [->|(H & _)]; [repeat split; assumption|].
      repeat split; apply hashed_not_form; auto.
    - rewrite np_lam in E. destruct (np k _ _ _ b); [|discriminate]. injection E as <-. split; [repeat split; reflexivity|right; split; intros y; discriminate].
    - rewrite np_if in E. destruct (np k _ _ _ a); [|discriminate]. destruct (np k _ _ _ b); [|discriminate]. destruct (np k _ _ _ c0); [|discriminate].
      injection E as <-. split; [repeat split; reflexivity|right; split; intros y; discriminate].
    - rewrite np_do in E by assumption. destruct (np k _ _ _ a); [|discriminate]. destruct (np k _ _ _ b); [|discriminate].
      injection E as <-. split; [repeat split; reflexivity|right; split; intros y; discriminate].
    - rewrite np_let in E. destruct (np k _ _ _ b); [|discriminate]. destruct (np k _ _ _ c0); [|discriminate].
      injection E as <-. split; [repeat split; reflexivity|right; split; intros y; discriminate].
    - rewrite np_app in E by assumption. cbn [map_opt] in E. destruct (np k _ _ _ f0); [|discriminate]. destruct (map_opt _ args); [|discriminate].
      injection E as <-. split; [repeat split; reflexivity|right; split; intros y; discriminate].
    - rewrite np_def in E. destruct (np k _ _ _ e); [|discriminate].
      injection E as <-. split; [repeat split; reflexivity|right; split; intros y; discriminate].
    - rewrite np_import in E. destruct (np k _ _ _ _); [|discriminate]. destruct (np k _ _ _ e); [|discriminate].
      injection E as <-. split; [repeat split; reflexivity|right; split; intros y; discriminate].
  Qed.

  Lemma eval_call : forall n rho f args G, view (of_list (f :: args)) = FApp f args ->
    eval ar strict (S n) rho (of_list (f :: args)) G =
    match op_prim rho f with
    | Some p =>
        match ev_args (eval ar strict n rho) args G with
        | Some (l, G1) =>
            match use strict (value (VPrim p)) G1, use_all strict l G1 with
            | Some f, Some args =>
                match apply ar s_arity (fun c vs args G => result (eval ar strict n (combine (sc_ps c) args ++ combine (sc_env c) vs) (sc_body c) G)) n f args G1 with
                | Some (v, G1) => Some (value v, G1)
                | None => None
                end
            | _, _ => None
            end
        | None => None
        end
    | None =>
        match eval ar strict n rho f G with
        | Some (a, G1) =>
            match ev_args (eval ar strict n rho) args G1 with
            | Some (l, G2) =>
                match use strict a G2, use_all strict l G2 with
                | Some f, Some args =>
                    match apply ar s_arity (fun c vs args G => result (eval ar strict n (combine (sc_ps c) args ++ combine (sc_env c) vs) (sc_body c) G)) n f args G2 with
                    | Some (v, G1) => Some (value v, G1)
                    | None => None
                    end
                | _, _ => None
                end
            | None => None
            end
        | None => None
        end
    end.
  Proof. intros n rho f args G H. cbn [eval]. rewrite H. reflexivity. Qed.

  Notation ev := (neval gt exports ar strict).
  Theorem ns_sim : forall n c rho e G r, ev n c rho e G = Some r ->
    forall k ks env e' rho2 G2, np k env (x_ns c) (x_imports c) e = Some e' -> scoped ks e = true ->
      (forall x, mem x env = mem x (map fst rho)) -> forallb local_ok (map fst rho) = true ->
      envN rho rho2 -> grelN G G2 ->
      evt (fun m => eval ar strict m rho2 e' G2) (ropN r).
  Proof.
    induction n as [|n IH]; intros c rho e G r E k ks env e' rho2 G2 EP HS HM HL HE HG; [discriminate|].
    destruct k as [|k]; [discriminate|]. destruct ks as [|ks]; [discriminate|].
    assert (RUN : forall c1 c2 vs1 vs2 l1 l2 G1 G2 r, vrelN (VClo c1 vs1) (VClo c2 vs2) -> Forall2 vrelN l1 l2 ->
      List.length l1 = n_arity c1 -> grelN G1 G2 ->
      result (ev n (nc_ctx c1) (combine (nc_ps c1) l1 ++ combine (nc_env c1) vs1) (nc_body c1) G1) = Some r ->
      evt (fun m => result (eval ar strict m (combine (sc_ps c2) l2 ++ combine (sc_env c2) vs2) (sc_body c2) G2)) (rresN r)).
    { clear - IH. intros c1 c2 vs1 vs2 l1 l2 G1 G2 (v, G') HV HL HN HG E. inversion HV as [| | | | | | |? ? ? ? HC HC2| |]; subst.
      destruct HC as (P1 & P2 & P3 & k & env & ks & P4 & P5 & P6).
      destruct (envN_captured (nc_env c1) vs1 vs2) as (A1 & A2).
      { intros i L. destruct (HC2 i i) as (v1 & v2 & B1 & B2 & B3); [split; auto|eauto]. }
      assert (FST : map fst (combine (nc_ps c1) l1 ++ combine (nc_env c1) vs1) = nc_ps c1 ++ nc_env c1).
      { rewrite map_app, (combine_fst (nc_env c1)) by exact A2. rewrite combine_fst; [reflexivity|].
        rewrite combine_length, HN. unfold n_arity. lia. }
      eapply result_rel; [|exact E]. intros r0 E0.
      rewrite <- P1, <- P2.
      eapply IH; [exact E0|exact P6|exact P5| | | |exact HG].
      - intro x. rewrite FST. apply P4.
      - rewrite FST. exact P3.
      - apply Forall2_app; [now apply envN_combine|exact A1]. }
    assert (CALL := fun sn f1 f2 l1 l2 G1 G2 r => call_rel crelN selN n_arity s_arity ar crelN_arity
       (fun c vs args G => result (ev n (nc_ctx c) (combine (nc_ps c) args ++ combine (nc_env c) vs) (nc_body c) G))
       (fun m c vs args G => result (eval ar strict m (combine (sc_ps c) args ++ combine (sc_env c) vs) (sc_body c) G))
       RUN strict sn f1 f2 l1 l2 G1 G2 r).
    cbn [scoped] in HS. cbn [neval] in E. pose proof (nview_shape e) as SH. apply evt_S.
    destruct (nview e) as [[]| | |] eqn:EV; inversion SH; subst; try discriminate.
    - (* constant *) injection E as <-.
      assert (e' = s) as -> by (destruct s; try contradiction; cbn [nsparse] in EP; congruence).
      assert (view s = FConst s) as V by (destruct s; try contradiction; reflexivity).
      cbn [eval]. rewrite V. apply evt_const. split; [apply value_rel, quoted_rel|exact HG].
    - rewrite np_quote in EP. apply some_inj in EP; subst e'. injection E as <-. cbn. apply evt_const. split; [apply value_rel, quoted_rel|exact HG].
    - (* variable *) apply np_var in EP. subst e'. rewrite HM, mem_lookup. pose proof (envN_lookup _ _ x HE) as X.
      destruct (lookup x rho) as [v|] eqn:EL.
      + injection E as <-. cbn [eval view]. destruct (lookup x rho2); [|contradiction]. apply evt_const. split; [now apply value_rel|exact HG].
      + cbn [eval view]. destruct (lookup x rho2) eqn:EL2; [contradiction|]. set (y := global_of gt exports c x) in *.
        assert (lookup y rho2 = None) as ->.
        { destruct (global_cases c x) as [Y|(Y & _)]; fold y in Y; [now rewrite Y|].
          apply local_none; [rewrite <- (envN_fst _ _ HE); exact HL|now apply hashed_not_local]. }
        pose proof HG as ((_ & HT) & HG'). specialize (HG' y). destruct (g_val G y) as [v|]; [|discriminate]. injection E as <-.
        destruct (g_val G2 y) as [v2|]; [|contradiction]. apply evt_const. split; [split; [exact HG'|right; cbn; now rewrite HT]|exact HG].
    - (* lambda *) apply andb_true_iff in HS as (HS1 & HS2). rewrite np_lam in EP.
      destruct (np k (ps ++ env) (x_ns c) (x_imports c) b) as [b1|] eqn:EB; [|discriminate]. apply some_inj in EP; subst e'. injection E as <-.
      assert (V : view (of_list [ssym "lambda"; of_list (map SSym ps); b1]) = FLam ps b1).
      { cbn [of_list view slist ssym]. cbn [is_sym name_eqb String.eqb Ascii.eqb Bool.eqb]. rewrite slist_of_list.
        assert (symbols (map SSym ps) = Some ps) as -> by (clear; induction ps as [|p ps IH]; cbn; [reflexivity|now rewrite IH]). reflexivity. }
      cbn [eval]. rewrite V. apply evt_const. split; [|exact HG]. apply value_rel. constructor.
      + split; [reflexivity|]. split; [cbn; now apply envN_fst|]. cbn [nc_ps nc_env nc_ctx nc_body sc_body]. split; [now rewrite forallb_app, HS1, HL|].
        exists k, (ps ++ env), ks. split; [|auto]. intro x. now rewrite !mem_app, HM.
      + intros i j (<- & L). cbn in L. rewrite map_length in L. clear - HE L.
        revert i L. induction HE as [|p q l1 l2 (_ & H) HE IH]; intros [|i] L; cbn in *; try lia; [eauto|]. apply IH. lia.
    - (* if *) apply andb_true_iff in HS as (HS & HS3). apply andb_true_iff in HS as (HS1 & HS2). rewrite np_if in EP.
      destruct (np k env _ _ a) as [a1|] eqn:E1; [|discriminate]. destruct (np k env _ _ b) as [b1|] eqn:E2; [|discriminate].
      destruct (np k env _ _ c0) as [c1|] eqn:E3; [|discriminate]. apply some_inj in EP; subst e'.
      destruct (result (ev n c rho a G)) as [(t, G1)|] eqn:ER; [|discriminate].
      change (fun m => eval ar strict (S m) rho2 (of_list [ssym "if"; a1; b1; c1]) G2) with
        (fun m => match result (eval ar strict m rho2 a1 G2) with
          | Some (VTrue, G3) => eval ar strict m rho2 b1 G3 | Some (_, G3) => eval ar strict m rho2 c1 G3 | None => None end).
      assert (X : evt (fun m => result (eval ar strict m rho2 a1 G2)) (rresN (t, G1))).
      { eapply result_rel; [|exact ER]. intros r0 E0. eapply IH; eauto. }
      eapply evt_ext; [|eapply evt_bind with (g := fun m '(t, G3) => match t with VTrue => eval ar strict m rho2 b1 G3 | _ => eval ar strict m rho2 c1 G3 end); [exact X|]].
      { intro m. cbv beta. destruct (result (eval ar strict m rho2 a1 G2)) as [([], G3)|]; reflexivity. }
      intros (t2, G3) (HT & HG3). cbn in HT, HG3.
      destruct t; inversion HT; subst; eapply IH; eauto.
    - (* do *) apply andb_true_iff in HS as (HS1 & HS2). rewrite np_do in EP by assumption.
      destruct (np k env _ _ a) as [a1|] eqn:E1; [|discriminate]. destruct (np k env _ _ b) as [b1|] eqn:E2; [|discriminate]. apply some_inj in EP; subst e'.
      destruct (result (ev n c rho a G)) as [(t, G1)|] eqn:ER; [|discriminate].
      change (fun m => eval ar strict (S m) rho2 (of_list [ssym "do"; a1; b1]) G2) with
        (fun m => match result (eval ar strict m rho2 a1 G2) with Some (_, G3) => eval ar strict m rho2 b1 G3 | None => None end).
      assert (X : evt (fun m => result (eval ar strict m rho2 a1 G2)) (rresN (t, G1))).
      { eapply result_rel; [|exact ER]. intros r0 E0. eapply IH; eauto. }
      eapply evt_ext; [|eapply evt_bind with (g := fun m '(t, G3) => eval ar strict m rho2 b1 G3); [exact X|]].
      { intro m. cbv beta. destruct (result (eval ar strict m rho2 a1 G2)) as [(?, ?)|]; reflexivity. }
      intros (t2, G3) (HT & HG3). cbn in HT, HG3. eapply IH; eauto.
    - (* let *) apply andb_true_iff in HS as (HS & HS3). apply andb_true_iff in HS as (HS1 & HS2). rewrite np_let in EP.
      destruct (np k env _ _ b) as [b1|] eqn:E1; [|discriminate]. destruct (np k (x :: env) _ _ c0) as [c1|] eqn:E2; [|discriminate]. apply some_inj in EP; subst e'.
      destruct (result (ev n c rho b G)) as [(t, G1)|] eqn:ER; [|discriminate].
      change (fun m => eval ar strict (S m) rho2 (of_list [ssym "let"; SSym x; b1; c1]) G2) with
        (fun m => match result (eval ar strict m rho2 b1 G2) with Some (v, G3) => eval ar strict m ((x, v) :: rho2) c1 G3 | None => None end).
      assert (X : evt (fun m => result (eval ar strict m rho2 b1 G2)) (rresN (t, G1))).
      { eapply result_rel; [|exact ER]. intros r0 E0. eapply IH; eauto. }
      eapply evt_ext; [|eapply evt_bind with (g := fun m '(v, G3) => eval ar strict m ((x, v) :: rho2) c1 G3); [exact X|]].
      { intro m. cbv beta. destruct (result (eval ar strict m rho2 b1 G2)) as [(?, ?)|]; reflexivity. }
      intros (t2, G3) (HT & HG3). cbn in HT, HG3. eapply IH; [exact E|exact E2|exact HS3| | | |exact HG3].
      + intro y. change (name_eqb y x || mem y env = name_eqb y x || mem y (map fst rho)). now rewrite HM.
      + cbn. now rewrite HS1, HL.
      + constructor; [split; [reflexivity|exact HT]|exact HE].
    - (* call *) apply andb_true_iff in HS as (HS & HS3). apply andb_true_iff in HS as (HS1 & HS2). apply negb_true_iff in HS1.
      rewrite np_app in EP by assumption. cbn [map_opt] in EP.
      destruct (np k env _ _ f) as [f1|] eqn:E1; [|discriminate]. destruct (map_opt _ args) as [args1|] eqn:E2; [|discriminate]. apply some_inj in EP; subst e'.
      match goal with H : call_head f _ |- _ => rename H into HCH end.
      destruct (np_head _ _ _ _ _ _ _ HCH HS2 HS1 E1) as ((A1 & A2 & A3 & A4 & A5) & A6).
      assert (V : view (of_list (f1 :: args1)) = FApp f1 args1) by now apply view_call.
      change (SCons f1 (of_list args1)) with (of_list (f1 :: args1)).
      eapply evt_ext; [intro m; symmetry; apply eval_call; exact V|].
      assert (OP : op_prim rho f = op_prim rho2 f1).
      { destruct A6 as [(x & ->)|(A6 & A7)].
        - apply np_var in E1. subst f1. rewrite HM, mem_lookup. pose proof (envN_lookup _ _ x HE) as X. cbn [op_prim].
          destruct (lookup x rho) eqn:EL; cbn [op_prim].
          + destruct (lookup x rho2); [reflexivity|contradiction].
          + destruct (lookup x rho2) eqn:EL2; [contradiction|].
            destruct (global_cases c x) as [->|(Y & Z)]; [now rewrite EL2|].
            rewrite (local_none (global_of gt exports c x) rho2); [|rewrite <- (envN_fst _ _ HE); exact HL|now apply hashed_not_local].
            now rewrite Z, hashed_not_prim.
        - destruct f; cbn; try (now destruct f1; auto; exfalso; eapply A6); exfalso; eapply A7; reflexivity. }
      assert (ARGS : forall G1 G3 l G4, grelN G1 G3 -> ev_args (ev n c rho) args G1 = Some (l, G4) ->
        evt (fun m => ev_args (eval ar strict m rho2) args1 G3) (fun '(l2, G5) => Forall2 (orel crelN selN n_arity) l l2 /\ grelN G4 G5)).
      { intros G1 G3 l G4 HG1 EA. eapply (ev_args_rel _ _ _ (ev n c rho) (fun m => eval ar strict m rho2)); [|exact HG1|exact EA].
        clear - IH HS3 E2 HM HL HE. revert args1 E2. induction args as [|a args IHa]; intros args1 E2; cbn in E2, HS3.
        - injection E2 as <-. constructor.
        - apply andb_true_iff in HS3 as (HS1 & HS2). destruct (np k env _ _ a) as [a1|] eqn:E1; [|discriminate].
          destruct (map_opt _ args) as [r1|] eqn:E3; [|discriminate]. injection E2 as <-.
          constructor; [|now apply IHa]. intros G1 G2 r HG1 E0. eapply IH; eauto. }
      rewrite <- OP. destruct (op_prim rho f) as [p|].
      + destruct (ev_args (ev n c rho) args G) as [(l, G1)|] eqn:EA; [|discriminate].
        eapply evt_bind with (g := fun m '(l, G1) => match use strict (value (VPrim p)) G1, use_all strict l G1 with
            | Some f, Some args =>
                match apply ar s_arity (fun c vs args G => result (eval ar strict m (combine (sc_ps c) args ++ combine (sc_env c) vs) (sc_body c) G)) m f args G1 with
                | Some (v, G1) => Some (value v, G1)
                | None => None
                end
            | _, _ => None
            end); [eapply ARGS; eauto|].
        intros (l2, G3) (HL2 & HG3).
        refine (CALL n (value (VPrim p)) (value (VPrim p)) l l2 G1 G3 r _ HL2 HG3 E). apply value_rel. constructor.
      + destruct (ev n c rho f G) as [(a, G1)|] eqn:EF; [|discriminate].
        destruct (ev_args (ev n c rho) args G1) as [(l, G3)|] eqn:EA; [|discriminate].
        eapply evt_bind with (g := fun m '(a, G1) => match ev_args (eval ar strict m rho2) args1 G1 with
          | Some (l, G2) => match use strict a G2, use_all strict l G2 with
            | Some f, Some args =>
                match apply ar s_arity (fun c vs args G => result (eval ar strict m (combine (sc_ps c) args ++ combine (sc_env c) vs) (sc_body c) G)) m f args G2 with
                | Some (v, G1) => Some (value v, G1)
                | None => None
                end
            | _, _ => None
            end
          | None => None end); [eapply IH; eauto|].
        intros (a2, G4) (HA & HG4). cbn in HA, HG4.
        eapply evt_bind with (g := fun m '(l, G2) => match use strict a2 G2, use_all strict l G2 with
            | Some f, Some args =>
                match apply ar s_arity (fun c vs args G => result (eval ar strict m (combine (sc_ps c) args ++ combine (sc_env c) vs) (sc_body c) G)) m f args G2 with
                | Some (v, G1) => Some (value v, G1)
                | None => None
                end
            | _, _ => None
            end); [eapply ARGS; eauto|].
        intros (l2, G5) (HL2 & HG5). exact (CALL n a a2 l l2 G3 G5 r HA HL2 HG5 E).
    - (* def *) rewrite np_def in EP. destruct (np k env _ _ e0) as [b1|] eqn:E1; [|discriminate]. apply some_inj in EP; subst e'.
      destruct (result (ev n c rho e0 G)) as [(v, G1)|] eqn:ER; [|discriminate]. injection E as <-.
      unfold result in ER. destruct (ev n c rho e0 G) as [(a, G3)|] eqn:EE; [|discriminate]. injection ER as <- <-.
      destruct (IH _ _ _ _ _ EE _ _ _ _ _ _ E1 HS HM HL HE HG) as ((a2, G4) & m0 & ((HV & HF) & HG4) & EM). cbn in HV, HF, HG4.
      assert (SET : lookup (NS "set") rho2 = None) by (apply local_none; [rewrite <- (envN_fst _ _ HE); exact HL|reflexivity]).
      rewrite var_with_ns_ok. set (y := defined_as gt c x).
      exists (value (a_val a2), g_set G4 y (a_val a2)), (S m0). split.
      { split; [now apply value_rel|]. now apply g_set_rel. }
      intros [|m] L; [lia|].
      change (SCons (ssym "set") (SCons (SCons (ssym "quote") (SCons (SSym y) SNil)) (SCons b1 SNil))) with (of_list [ssym "set"; of_list [ssym "quote"; SSym y]; b1]).
      rewrite eval_call by reflexivity. cbn [op_prim ssym]. rewrite SET. cbn [prim_of].
      change (assoc_str "set" prim_names) with (Some PSet). cbn [ev_args].
      change (eval ar strict (S m) rho2 (of_list [ssym "quote"; SSym y]) G2) with (Some (value (VSym y : sval), G2)).
      cbn [ev_args]. rewrite (EM (S m)) by lia. cbn [use_all use value a_from a_val].
      assert (U : use strict a2 G4 = Some (a_val a2)).
      { destruct (eval_props _ _ _ _ _ _ _ _ (EM (S m) ltac:(lia))) as (_ & FR). unfold fresh in FR. unfold use.
        destruct (a_from a2) as [(z, j)|]; [|reflexivity]. destruct FR as (FR & _). rewrite FR, Nat.eqb_refl. now rewrite andb_false_r. }
      rewrite U. reflexivity.
    - (* ns *) match goal with H : the_strings _ = _ |- _ => rewrite (np_ns _ _ _ _ _ _ _ _ H) in EP end. apply (evt_S_inv (fun m => eval ar strict m rho2 e' G2)).
      eapply IH with (c := mkX p imports); eauto.
    - (* import *) rewrite np_import in EP. destruct (np k env _ _ (of_list _)) as [a1|] eqn:E1; [|discriminate].
      destruct (np k env _ _ e0) as [b1|] eqn:E2; [|discriminate]. apply some_inj in EP; subst e'.
      change (SCons (SSym (NS "import")) (SCons (SStr p) SNil)) with (of_list [ssym "import"; SStr p]) in E.
      destruct (result (ev n c rho (of_list [ssym "import"; SStr p]) G)) as [(t, G1)|] eqn:ER; [|discriminate].
      change (fun m => eval ar strict (S m) rho2 (of_list [ssym "do"; a1; b1]) G2) with
        (fun m => match result (eval ar strict m rho2 a1 G2) with Some (_, G3) => eval ar strict m rho2 b1 G3 | None => None end).
      assert (X : evt (fun m => result (eval ar strict m rho2 a1 G2)) (rresN (t, G1))).
      { eapply result_rel; [|exact ER]. intros r0 E0. eapply (IH _ _ _ _ _ E0 _ 2); eauto. }
      eapply evt_ext; [|eapply evt_bind with (g := fun m '(t, G3) => eval ar strict m rho2 b1 G3); [exact X|]].
      { intro m. cbv beta. destruct (result (eval ar strict m rho2 a1 G2)) as [(?, ?)|]; reflexivity. }
      intros (t2, G3) (HT & HG3). cbn in HT, HG3. eapply (IH (mkX (x_ns c) (p :: x_imports c))); eauto.
  Qed.
End Ns.

(** * The renaming succeeds on every scoped expression *)
Section Total.
  Context (gt : nat -> string) (exports : string -> list name).
  Notation np := (nsparse gt exports).

  Lemma np_total : forall ks e, scoped ks e = true -> forall k env ns imps, ks < k -> exists e', np k env ns imps e = Some e'.
  Proof.
    induction ks as [|ks IH]; intros e HS k env ns imps L; [discriminate|]. destruct k as [|k]; [lia|].
    assert (IH' : forall e, scoped ks e = true -> forall env ns imps, exists e', np k env ns imps e = Some e') by (intros; apply IH; [assumption|lia]).
    cbn [scoped] in HS. pose proof (nview_shape e) as SH.
    destruct (nview e) as [[]| | |] eqn:EV; inversion SH; subst; try discriminate; rewrite ?andb_true_iff in HS.
    - destruct s; try contradiction; cbn [nsparse]; eauto.
    - rewrite np_quote. eauto.
    - cbn [nsparse]. destruct (mem x env); [eauto|]. destruct (builtin x); eauto.
    - rewrite np_lam. destruct HS as (_ & HS). destruct (IH' _ HS (ps ++ env) ns imps) as (b1 & ->). eauto.
    - rewrite np_if. destruct HS as ((A1 & A2) & A3). destruct (IH' _ A1 env ns imps) as (? & ->).
      destruct (IH' _ A2 env ns imps) as (? & ->). destruct (IH' _ A3 env ns imps) as (? & ->). eauto.
    - rewrite np_do by assumption. destruct HS as (A1 & A2). destruct (IH' _ A1 env ns imps) as (? & ->).
      destruct (IH' _ A2 env ns imps) as (? & ->). eauto.
    - rewrite np_let. destruct HS as ((_ & A1) & A2). destruct (IH' _ A1 env ns imps) as (? & ->).
      destruct (IH' _ A2 (x :: env) ns imps) as (? & ->). eauto.
    - rewrite np_app by assumption. destruct HS as ((_ & A1) & A2). cbn [map_opt]. destruct (IH' _ A1 env ns imps) as (? & ->).
      assert (X : exists l, map_opt (np k env ns imps) args = Some l).
      { clear - IH' A2. induction args as [|a args IHa]; cbn in *; [eauto|]. apply andb_true_iff in A2 as (A & B).
        destruct (IH' _ A env ns imps) as (? & ->). destruct (IHa B) as (? & ->). eauto. }
      destruct X as (? & ->). eauto.
    - rewrite np_def. destruct (IH' _ HS env ns imps) as (? & ->). eauto.
    - match goal with H : the_strings _ = _ |- _ => rewrite (np_ns _ _ _ _ _ _ _ _ _ _ H) end. auto.
    - rewrite np_import. destruct (IH' _ HS env ns (p :: imps)) as (? & ->).
      assert (X : exists a, np k env ns imps (of_list [ssym "import"; SStr p]) = Some a).
      { destruct k as [|k]; [lia|]. rewrite np_app by (repeat split; discriminate). destruct k as [|k].
        - destruct ks; [discriminate|lia].
        - cbn [map_opt]. cbn [nsparse ssym]. destruct (mem (NS "import") env); [eauto|]. change (builtin (NS "import")) with false. eauto. }
      destruct X as (? & ->). eauto.
  Qed.
End Total.
