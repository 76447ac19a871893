(** The syntax tree of the C file that lib/toc.cora:257-605 writes, and that
    the text is the tokens of the tree. *)
From Coq Require Import List ZArith Bool String Ascii Arith Lia.
From Verif Require Import Base StrModel ReaderModel EmitModel EmitProps CoreSpec CoreProofs TocModel CSpec CParse GenModel GenCond GenLex.
Import ListNotations.
Local Open Scope string_scope.
Local Open Scope list_scope.
Local Open Scope nat_scope.

Definition obj : ctype := mkT "Obj" 0.
Definition aco : cexp := XId "co".
Definition agc : cexp := XArrow aco "gc".
Definition anum (n : nat) : cexp := XNum (Z.of_nat n).
Definition fun_id (label : nat) : string := string_of_list_ascii (list_ascii_of_string "clofun" ++ decs label).
Definition afun (label : nat) : cexp := XId (fun_id label).

(** the tokens of a tree, one constructor at a time *)
Lemma ux_id : forall x, ux (XId x) = [KId x]. Proof. reflexivity. Qed.
Lemma ux_anum : forall n, ux (anum n) = [KNum (Z.of_nat n)].
Proof. intro n. unfold anum. cbn [ux]. destruct (Z.ltb_spec (Z.of_nat n) 0); [lia|reflexivity]. Qed.
Lemma ux_xnum : forall n, ux (XNum (Z.of_nat n)) = [KNum (Z.of_nat n)]. Proof. exact ux_anum. Qed.
Lemma ux_zero : ux (XNum 0) = [KNum 0]. Proof. reflexivity. Qed.
Lemma ux_str : forall s, ux (XStr s) = [KStr s]. Proof. reflexivity. Qed.
Lemma ux_field : forall e f, ux (XField e f) = ux e ++ [DOT; KId f]. Proof. reflexivity. Qed.
Lemma ux_arrow : forall e f, ux (XArrow e f) = ux e ++ [ARROW; KId f]. Proof. reflexivity. Qed.
Lemma ux_idx : forall e i, ux (XIdx e i) = ux e ++ LB :: ux i ++ [RB]. Proof. reflexivity. Qed.
Lemma ux_call : forall e l, ux (XCall e l) = ux e ++ LP :: uxs l ++ [RP]. Proof. reflexivity. Qed.
Lemma ux_eq : forall a b, ux (XEq a b) = ux a ++ EQEQ :: ux b. Proof. reflexivity. Qed.
Lemma ux_mul : forall a b, ux (XMul a b) = ux a ++ STAR :: ux b. Proof. reflexivity. Qed.
Lemma ux_sizeof : forall t, ux (XSizeof t) = [KId "sizeof"; LP; KId t; RP]. Proof. reflexivity. Qed.
Lemma uxs_nil : uxs [] = []. Proof. reflexivity. Qed.
Lemma uxs_one : forall a, uxs [a] = ux a. Proof. intro a. apply app_nil_r. Qed.
Lemma uxs_two : forall a b l, uxs (a :: b :: l) = ux a ++ COMMA :: uxs (b :: l). Proof. reflexivity. Qed.
Lemma us_decl : forall x e, us (CDecl obj x e) = KId "Obj" :: KId x :: ASSIGN :: ux e ++ [SEMI]. Proof. reflexivity. Qed.
Lemma us_array : forall x z es, us (CArray obj x z es) = KId "Obj" :: KId x :: LB :: KNum z :: RB :: ASSIGN :: LC :: uxs es ++ [RC; SEMI].
Proof. reflexivity. Qed.
Lemma us_assign : forall l e, us (CAssign l e) = ux l ++ ASSIGN :: ux e ++ [SEMI]. Proof. reflexivity. Qed.
Lemma us_exp : forall e, us (CExp e) = ux e ++ [SEMI]. Proof. reflexivity. Qed.
Lemma us_if : forall c a b, us (CIf c a b) = KId "if" :: LP :: ux c ++ RP :: LC :: uss a ++ RC :: KId "else" :: LC :: uss b ++ [RC].
Proof. reflexivity. Qed.
Lemma us_return : us CReturn = [KId "return"; SEMI]. Proof. reflexivity. Qed.
Lemma us_switch : forall e l, us (CSwitch e l) = KId "switch" :: LP :: ux e ++ RP :: LC :: ucs l ++ [RC]. Proof. reflexivity. Qed.
Lemma uss_nil : uss [] = []. Proof. reflexivity. Qed.
Lemma uss_cons : forall a l, uss (a :: l) = us a ++ uss l. Proof. reflexivity. Qed.
Lemma uss_app : forall a b, uss (a ++ b) = uss a ++ uss b.
Proof. induction a as [|x a IH]; intro b; [reflexivity|]. cbn [app uss]. now rewrite IH, app_assoc. Qed.
Create HintDb tk.
Global Hint Rewrite ux_id ux_anum ux_xnum ux_zero ux_str ux_field ux_arrow ux_idx ux_call ux_eq ux_mul ux_sizeof uxs_nil uxs_one uxs_two us_decl us_array us_assign
  us_exp us_if us_return us_switch uss_nil uss_cons uss_app app_nil_r : tk.
Ltac toks := autorewrite with tk; cbn [app]; repeat (rewrite <- app_assoc; cbn [app]); try reflexivity.

Section Tree.
  Variable gs : nat -> bytes.
  Variable globals : list sexp.

  Definition abind (s : sexp) : cexp := XCall (XId "getBinding") [aco; XId "packageID"; XNum (symbol_offset_h 0 s globals)].
  Definition avar (x : name) : cexp := XId (cid gs x).

  Definition a_const (c : sexp) : cexp :=
    match c with
    | SSym _ => XField (abind c) "name"
    | SNum z => XCall (XId "MAKE_NUMBER") [XNum z]
    | SStr s => XCall (XId "makeCString") [agc; XStr s]
    | SNil => XId "Nil" | STrue => XId "True" | SFalse => XId "False"
    | SCons _ _ => XId ""
    end.
  Definition a_flat (s : simple) : cexp :=
    match s with
    | SmVar x => avar x
    | SmConst c => a_const c
    | SmGlob x => XCall (XId "globalRef") [aco; abind (SSym x)]
    | SmRef i => XCall (XId "closureRef") [XIdx (XId "R") (XNum 0); anum i]
    | SmClo _ _ _ | SmLab _ _ _ _ => XId ""
    end.
  Definition a_simple (s : simple) : cexp :=
    match s with
    | SmLab label na nf frees =>
        XCall (XId "makeNative") (agc :: anum nf :: afun label :: anum na :: anum (List.length frees) :: map a_flat frees)
    | _ => a_flat s
    end.
  Fixpoint a_save (acc : nat) (l : list name) : list cstmt :=
    match l with [] => [] | v :: r => CAssign (XIdx (XId "R") (anum acc)) (avar v) :: a_save (acc + 1) r end.
  Fixpoint a_recover (acc : nat) (l : list name) : list cstmt :=
    match l with [] => [] | v :: r => CDecl obj (cid gs v) (XIdx (XId "R") (anum acc)) :: a_recover (acc + 1) r end.
  Definition call_name (n : nat) : string :=
    match n with 0 => "coraCall0" | 1 => "coraCall1" | 2 => "coraCall2" | 3 => "coraCall3" | _ => "coraCall4" end.
  Definition a_call (f : simple) (args : list simple) : list cstmt :=
    let n := List.length args in
    if 4 <? n then
      [CArray obj "__args" (Z.of_nat n) (map a_simple args);
       CExp (XCall (XId "coraCall") [aco; a_simple f; anum n; XId "__args"])]
    else [CExp (XCall (XId (call_name n)) (aco :: a_simple f :: map a_simple args))].
  Definition a_pre (p : prim) : list cexp := match p with PSet | PGensym => [aco] | PCons => [agc] | _ => [] end.
  Fixpoint a_stm (self : nat) (t : stm) : list cstmt :=
    match t with
    | TLet x s k => CDecl obj (cid gs x) (a_simple s) :: a_stm self k
    | TPrim x p args k => CDecl obj (cid gs x) (XCall (XId (builtin_name p)) (a_pre p ++ map a_simple args)) :: a_stm self k
    | TIf s a b => [CIf (XEq (XId "True") (a_simple s)) (a_stm self a) (a_stm self b)]
    | TDo s k => CExp (a_simple s) :: a_stm self k
    | TRet s => [CExp (XCall (XId "coraReturn") [aco; a_simple s]); CReturn]
    | TTail f args => CAssign (XField (XArrow aco "ctx") "sp") (XId "R") :: a_call f args ++ [CReturn]
    | TJump f args label live =>
        a_save 1 live ++ CExp (XCall (XId "saveCont") [aco; afun self; anum label; XId "R"]) :: a_call f args ++ [CReturn]
    | TCall _ _ _ _ _ => []
    end.
  Definition a_cont (self : nat) (k : cont) : list cstmt :=
    CDecl obj (cid gs (k_var k)) (XArrow aco "res") :: a_recover 1 (k_live k) ++ a_stm self (k_body k).
  Fixpoint a_conts (self acc : nat) (l : list cont) : list (Z * list cstmt) :=
    match l with [] => [] | k :: r => (Z.of_nat acc, a_cont self k) :: a_conts self (acc + 1) r end.
  Definition a_params : list (ctype * string) := [(mkT "Cora" 1, "co"); (mkT "int" 0, "label"); (mkT "Obj" 1, "R")].
  Definition a_body (label : nat) (F : func) : list cstmt :=
    [CSwitch (XId "label") ((0%Z, a_recover 1 (f_ps F) ++ a_stm label (f_first F)) :: a_conts label 1 (f_conts F))].
  Definition a_fun (label : nat) (F : func) : cdecl := DFun (mkT "void" 0) (fun_id label) a_params (a_body label F).
  Definition a_proto (label : nat) : cdecl := DProto (mkT "void" 0) (fun_id label) a_params.

  Fixpoint a_symbols (acc : nat) (l : list sexp) : list cstmt :=
    match l with
    | [] => []
    | s :: r =>
        CAssign (XIdx (XId "__symbolTable") (anum acc))
          (XCall (XId "bindSymbol") [aco; XCall (XId "intern") [XStr (match s with SSym (NS x) => x | _ => "" end)]])
        :: a_symbols (acc + 1) r
    end.
  Definition a_alloc : cexp := XEq (XId "packageID") (XNum (-1)).
  Definition a_alloc_body : list cstmt := [CAssign (XId "packageID") (XCall (XId "packageIDAlloc") [])].
  Definition a_entry_rest (label : nat) : list cstmt :=
    CDecl (mkT "Binding" 1) "__symbolTable" (XCall (XId "malloc") [XMul (XSizeof "Binding") (anum (List.length globals))]) ::
    a_symbols 0 globals ++
    [CExp (XCall (XId "addPackage") [aco; XId "packageID"; XId "__symbolTable"]);
     CAssign (XField (XArrow aco "ctx") "fn") (afun label);
     CAssign (XField (XArrow aco "ctx") "label") (XNum 0)].
  Definition a_entry (label : nat) : cdecl :=
    DFun (mkT "void" 0) "entry" a_params (CIf a_alloc a_alloc_body [] :: a_entry_rest label).
  Definition a_file (label : nat) (bc : list (nat * func)) : list cdecl :=
    DVar (mkT "int" 0) "packageID" (XNum (-1)) :: map (fun c => a_proto (fst c)) bc ++
    a_entry label :: map (fun c => a_fun (fst c) (snd c)) bc.

  (** the tokens of the declarations; an [if] without [else] is the first
      statement of the entry function *)
  Definition t_params : list tok :=
    [KId "struct"; KId "Cora"; STAR; KId "co"; COMMA; KId "int"; KId "label"; COMMA; KId "Obj"; STAR; KId "R"; RP].
  Definition t_head (label : nat) : list tok := KId "static" :: KId "void" :: KId (fun_id label) :: LP :: t_params.
  Fixpoint t_protos (bc : list (nat * func)) : list tok :=
    match bc with [] => [] | (label, _) :: r => t_head label ++ SEMI :: t_protos r end.
  Fixpoint t_funs (bc : list (nat * func)) : list tok :=
    match bc with [] => [] | (label, F) :: r => t_head label ++ LC :: uss (a_body label F) ++ RC :: t_funs r end.
  Definition t_entry (label : nat) : list tok :=
    KId "void" :: KId "entry" :: LP :: t_params ++ LC ::
    KId "if" :: LP :: ux a_alloc ++ RP :: LC :: uss a_alloc_body ++ RC :: uss (a_entry_rest label) ++ [RC].
  Definition t_file (label : nat) (bc : list (nat * func)) : list tok :=
    KId "static" :: KId "int" :: KId "packageID" :: ASSIGN :: ux (XNum (-1)) ++ SEMI ::
    t_protos bc ++ t_entry label ++ t_funs bc.

  (** * The text of a tree *)
  Variable nfuns : nat.
  Variable U : list name.
  Hypothesis NM : forall x, mem x U = true -> name_ok gs x = true.

  Lemma mem_in : forall x l, mem x l = true <-> In x l.
  Proof.
    intros x l. unfold mem. rewrite existsb_exists. split.
    - intros (y & I & E). destruct (name_eqb_spec x y); [now subst|discriminate].
    - intro I. exists x. split; auto. now destruct (name_eqb_spec x x).
  Qed.

  Lemma L_gsym : forall x, mem x U = true -> L false false (gsym gs x) [KId (cid gs x)].
  Proof.
    intros x H. specialize (NM x H). unfold name_ok in NM. do 3 (apply andb_true_iff in NM as [NM _]).
    unfold cid. destruct (gsym gs x) as [b| |]; try discriminate. now apply L_ident.
  Qed.
  Lemma L_offset : forall s, L false false (symbol_offset s globals) (ux (XNum (symbol_offset_h 0 s globals))).
  Proof. intro s. apply L_printNum. Qed.
  Lemma ident_decs : forall p n, ident p = true -> ident (p ++ decs n) = true.
  Proof.
    intros p n H. destruct (decs_digits n) as (c & r & E & F & _). rewrite E. destruct p as [|a p]; [discriminate|].
    cbn [ident app] in *. apply andb_true_iff in H as [H1 H2]. rewrite H1. cbn [andb]. rewrite forallb_app, H2. cbn [andb].
    now apply digits_idchar.
  Qed.
  Lemma L_group : forall n, L false false (group_name n) [KId (fun_id n)].
  Proof. intro n. unfold group_name, str, num. cbn [cat]. apply L_ident. now apply ident_decs. Qed.

  Ltac lx :=
    lazymatch goal with
    | |- L _ _ (cat ?a ?b) _ => eapply L_cat; [lx|lx|reflexivity]
    | |- L _ _ (num _) _ => eapply L_num
    | |- L _ _ (group_name _) _ => eapply L_group
    | |- L _ _ (symbol_offset _ _) _ => eapply L_offset
    | |- L _ _ (gsym _ _) _ => eapply L_gsym; eassumption
    | |- L _ _ (generate_string_const _) _ => eapply L_string; assumption
    | |- L _ _ (Ok (printNum _)) _ => eapply L_printNum
    | |- L _ _ _ _ => first [eassumption | leaf]
    end.
  Ltac lq := eapply L_use; [lx|reflexivity|reflexivity|].

  Ltac tks := unfold a_const, a_flat, abind, avar, agc, aco, afun; toks.

  Lemma L_const : forall c, const_ok globals c = true -> L false false (gen_const globals c) (ux (a_const c)).
  Proof.
    intros c H. destruct c; cbn [gen_const const_ok] in *; try discriminate; lq; tks.
    now rewrite string_of_list_ascii_of_string.
  Qed.
  Lemma L_flat : forall s, capture_ok U s = true -> L false false (gen_simple gs globals s) (ux (a_flat s)).
  Proof. intros s H. destruct s; cbn [gen_simple capture_ok] in *; try discriminate; lq; tks. Qed.
  Lemma L_flats : forall l, forallb (capture_ok U) l = true -> l <> [] -> L false false (gen_list gs globals l) (uxs (map a_flat l)).
  Proof.
    induction l as [|a l IH]; intros H NE; [contradiction|]. cbn [forallb] in H. apply andb_true_iff in H as [H1 H2].
    cbn [gen_list map uxs]. pose proof (L_flat a H1) as A. destruct l as [|b l].
    - cbn [gen_list map]. rewrite !cat_nil_l. destruct A as (t & u & m & -> & A). cbn [cat]. rewrite !app_nil_r.
      exists t, u, m. auto.
    - specialize (IH H2 ltac:(discriminate)). lq. reflexivity.
  Qed.
  Lemma L_simple : forall s, simple_ok globals nfuns U s = true -> L false false (gen_simple gs globals s) (ux (a_simple s)).
  Proof.
    intros s H. destruct s; try discriminate.
    - now apply L_flat.
    - now apply L_const.
    - cbn [gen_simple a_simple a_flat]. lq. tks.
    - now apply L_flat.
    - cbn [simple_ok] in H. apply andb_true_iff in H as [_ H].
      change (gen_simple gs globals (SmLab label nargs nframe frees)) with
        (str "makeNative(co->gc, ";; num nframe;; str ", ";; group_name label;; str ", ";; num nargs;; str ", ";;
         num (List.length frees);;
         (match frees with [] => Ok [] | _ => str ", ";; gen_list gs globals frees end);; str ")").
      cbn [a_simple]. destruct frees as [|a l].
      + rewrite cat_nil_l. lq. cbn [map List.length]. tks.
      + pose proof (L_flats (a :: l) H ltac:(discriminate)) as A. lq.
        remember (map a_flat (a :: l)) as m eqn:E. destruct m as [|b m]; [discriminate|]. tks.
  Qed.
  Lemma L_simples : forall l, forallb (simple_ok globals nfuns U) l = true -> l <> [] ->
    L false false (gen_list gs globals l) (uxs (map a_simple l)).
  Proof.
    induction l as [|a l IH]; intros H NE; [contradiction|]. cbn [forallb] in H. apply andb_true_iff in H as [H1 H2].
    cbn [gen_list map uxs]. pose proof (L_simple a H1) as A. destruct l as [|b l].
    - cbn [gen_list map]. rewrite !cat_nil_l. destruct A as (t & u & m & -> & A). cbn [cat]. rewrite !app_nil_r.
      exists t, u, m. auto.
    - specialize (IH H2 ltac:(discriminate)). lq. reflexivity.
  Qed.

  Lemma L_save : forall l acc, forallb (fun x => mem x U) l = true -> L false true (save_to_frame gs acc l) (uss (a_save acc l)).
  Proof.
    induction l as [|v l IH]; intros acc H; cbn [save_to_frame a_save]; [leaf|].
    cbn [forallb] in H. apply andb_true_iff in H as [H1 H2]. specialize (IH (acc + 1) H2). lq. tks.
  Qed.
  Lemma L_recover : forall l acc, forallb (fun x => mem x U) l = true -> L false true (recover_from_frame gs acc l) (uss (a_recover acc l)).
  Proof.
    induction l as [|v l IH]; intros acc H; cbn [recover_from_frame a_recover]; [leaf|].
    cbn [forallb] in H. apply andb_true_iff in H as [H1 H2]. specialize (IH (acc + 1) H2). lq. tks.
  Qed.
  Lemma call_text : forall n, n <= 4 -> (str "coraCall";; num n) = str (call_name n).
  Proof. intros n H. do 5 (destruct n as [|n]; [reflexivity|]). lia. Qed.
  Lemma L_callname : forall n, L false false (str (call_name n)) [KId (call_name n)].
  Proof. intro n. do 4 (destruct n as [|n]; [leaf|]). leaf. Qed.
  Lemma L_call : forall f args, simple_ok globals nfuns U f = true -> forallb (simple_ok globals nfuns U) args = true ->
    L false true (gen_call gs globals f args) (uss (a_call f args)).
  Proof.
    intros f args Hf Ha. pose proof (L_simple f Hf) as A. unfold gen_call, a_call.
    destruct (Nat.ltb_spec 4 (List.length args)).
    - assert (NE : args <> []) by (intros ->; cbn in *; lia). pose proof (L_simples args Ha NE) as B. lq. tks.
    - pose proof (L_callname (List.length args)) as C. rewrite <- cat_assoc, call_text by assumption.
      destruct args as [|a1 args].
      + cbn [List.length Nat.ltb Nat.leb map] in *. rewrite cat_nil_l. lq. tks.
      + pose proof (L_simples (a1 :: args) Ha ltac:(discriminate)) as B.
        change (0 <? List.length (a1 :: args)) with true. cbn iota. rewrite cat_assoc. lq. 
        remember (map a_simple (a1 :: args)) as m eqn:E. destruct m as [|b m]; [discriminate|]. tks.
  Qed.

  Lemma L_prim : forall p args, forallb (simple_ok globals nfuns U) args = true -> List.length args = prim_arity p ->
    L false true (str (builtin_name p);; str (builtin_open p);; gen_list gs globals args;; str ")";; str ";";; nl)
      (ux (XCall (XId (builtin_name p)) (a_pre p ++ map a_simple args)) ++ [SEMI]).
  Proof.
    intros p args Ha E. destruct args as [|a l].
    - destruct p; cbn in E; try discriminate. cbn [gen_list map]. rewrite cat_nil_l. lq. reflexivity.
    - pose proof (L_simples (a :: l) Ha ltac:(discriminate)) as B.
      remember (map a_simple (a :: l)) as m eqn:Em. destruct m as [|b m]; [discriminate|].
      destruct p; cbn in E; try discriminate; cbn [a_pre]; lq; tks.
  Qed.

  Lemma L_stm : forall self t seen, stm_ok globals nfuns U seen t = true -> L false true (gen_stm gs globals self t) (uss (a_stm self t)).
  Proof.
    induction t; intros seen H; cbn [stm_ok] in H; try discriminate; cbn [gen_stm a_stm].
    - pose proof (L_simple s H) as A. lq. tks.
    - apply andb_true_iff in H as [H1 H2]. pose proof (L_call f args H1 H2) as A. lq. tks.
    - apply andb_true_iff in H as [H H3]. apply andb_true_iff in H as [H1 H2]. pose proof (L_call f args H1 H2) as A.
      pose proof (L_save live 1 H3) as B. lq. tks.
    - apply andb_true_iff in H as [H H5]. apply andb_true_iff in H as [H H4]. apply andb_true_iff in H as [H H3]. apply andb_true_iff in H as [H1 H2].
      pose proof (L_simple s H3) as A. specialize (IHt _ H5). lq. tks.
    - apply andb_true_iff in H as [H H6]. apply andb_true_iff in H as [H H5]. apply andb_true_iff in H as [H H4]. apply andb_true_iff in H as [H H3]. apply andb_true_iff in H as [H1 H2].
      apply Nat.eqb_eq in H5. pose proof (L_prim p args H3 H5) as A. specialize (IHt _ H6).
      assert (E : forall a b c d e f g, (a;; b;; c;; d;; e;; f;; g) = ((a;; b;; c;; d;; e;; f);; g)) by (intros; now rewrite !cat_assoc).
      rewrite (E (str (builtin_name p))). remember (str (builtin_name p);; str (builtin_open p);; gen_list gs globals args;; str ")";; str ";";; nl) as body eqn:Eb.
      lq. remember (XCall (XId (builtin_name p)) (a_pre p ++ map a_simple args)) as e eqn:Ee. tks.
    - apply andb_true_iff in H as [H H3]. apply andb_true_iff in H as [H1 H2].
      pose proof (L_simple s H1) as A. specialize (IHt1 _ H2). specialize (IHt2 _ H3). lq. tks.
    - apply andb_true_iff in H as [H1 H2]. pose proof (L_simple s H1) as A. specialize (IHt _ H2). lq. tks.
  Qed.

  Definition cont_ok (k : cont) : bool :=
    forallb (fun x => mem x U) (k_var k :: k_live k) && distinct (k_var k :: k_live k) &&
    stm_ok globals nfuns U (k_var k :: k_live k) (k_body k).
  Lemma L_cont : forall self k, cont_ok k = true -> L false true (gen_cont gs globals self k) (uss (a_cont self k)).
  Proof.
    intros self k H. unfold cont_ok in H. apply andb_true_iff in H as [H H3]. apply andb_true_iff in H as [H1 H2].
    cbn [forallb] in H1. apply andb_true_iff in H1 as [H0 H1].
    pose proof (L_recover (k_live k) 1 H1) as A. pose proof (L_stm self _ _ H3) as B. unfold gen_cont, a_cont. lq. tks.
  Qed.
  Lemma L_conts : forall self l acc, forallb cont_ok l = true -> L false true (gen_conts gs globals self acc l) (ucs (a_conts self acc l)).
  Proof.
    induction l as [|k l IH]; intros acc H; cbn [gen_conts a_conts]; [leaf|].
    cbn [forallb] in H. apply andb_true_iff in H as [H1 H2]. specialize (IH (acc + 1) H2). pose proof (L_cont self k H1) as A.
    remember (a_cont self k) as b. lq. cbn [ucs]. tks.
  Qed.
  Lemma L_top : forall label F, func_ok globals nfuns U F = true ->
    L false true (gen_toplevel_lambda gs globals label F) (t_head label ++ LC :: uss (a_body label F) ++ [RC]).
  Proof.
    intros label F H. unfold func_ok in H. apply andb_true_iff in H as [H H3]. apply andb_true_iff in H as [H H2]. apply andb_true_iff in H as [H1 H0].
    pose proof (L_recover (f_ps F) 1 H1) as A. pose proof (L_stm label _ _ H2) as B. pose proof (L_conts label (f_conts F) 1 H3) as C.
    unfold gen_toplevel_lambda, func_declare, a_body, t_head, t_params. rewrite !cat_assoc.
    remember (a_recover 1 (f_ps F)) as r. remember (a_stm label (f_first F)) as b. remember (a_conts label 1 (f_conts F)) as c.
    lq. tks. cbn [ucs]. tks.
  Qed.
  Lemma L_protos : forall bc, L false true (gen_protos bc) (t_protos bc).
  Proof.
    induction bc as [|(label, F) bc IH]; cbn [gen_protos t_protos]; [leaf|]. unfold func_declare. rewrite !cat_assoc. lq. reflexivity.
  Qed.
  Lemma L_tops : forall bc, forallb (fun c => func_ok globals nfuns U (snd c)) bc = true -> L false true (gen_lambdas gs globals bc) (t_funs bc).
  Proof.
    induction bc as [|(label, F) bc IH]; intro H; cbn [gen_lambdas t_funs]; [leaf|]. cbn [forallb snd] in H. apply andb_true_iff in H as [H1 H2].
    pose proof (L_top label F H1) as A. specialize (IH H2). lq. repeat (rewrite <- app_assoc; cbn [app]). reflexivity.
  Qed.
  Lemma L_symbols : forall l acc, forallb symbol_ok l = true -> L false true (gen_symbols gs acc l) (uss (a_symbols acc l)).
  Proof.
    induction l as [|s l IH]; intros acc H; cbn [gen_symbols a_symbols]; [leaf|]. cbn [forallb] in H. apply andb_true_iff in H as [H1 H2].
    specialize (IH (acc + 1) H2). destruct s; try discriminate. match goal with n : name |- _ => destruct n as [x|k]; [|discriminate] end. cbn [symbol_ok] in H1. apply andb_true_iff in H1 as [H0 H1].
    cbn [symbol_string name_text]. assert (E : List.length (list_ascii_of_string x) = String.length x) by (clear; induction x; cbn; congruence).
    rewrite E, H1. cbn [assertT]. pose proof (L_quoted _ H0) as Q. rewrite string_of_list_ascii_of_string in Q.
    assert (G : forall a b c d, (a;; b;; c;; d) = ((a;; b;; c);; d)) by (intros; now rewrite !cat_assoc).
    rewrite (G quo). remember (quo;; Ok (cstr (list_ascii_of_string x));; quo) as q. lq. tks.
  Qed.
  Lemma L_entry : forall label, forallb symbol_ok globals = true -> L false true (gen_entry gs globals label) (t_entry label).
  Proof.
    intros label H. pose proof (L_symbols globals 0 H) as A. unfold gen_entry, t_entry, t_params, a_entry_rest, a_alloc, a_alloc_body.
    remember (a_symbols 0 globals) as sy. lq.
    change (ux (XEq (XId "packageID") (XNum (-1)))) with [KId "packageID"; EQEQ; MINUS; KNum 1].
    change (uss (CDecl (mkT "Binding" 1) "__symbolTable" ?e :: ?l)) with (KId "Binding" :: STAR :: KId "__symbolTable" :: ASSIGN :: (ux e ++ [SEMI]) ++ uss l).
    tks.
  Qed.

  Lemma L_file : forall label F bc, forallb (fun c => func_ok globals nfuns U (snd c)) ((label, F) :: bc) = true ->
    forallb symbol_ok globals = true -> L false true (gen_c gs globals ((label, F) :: bc)) (t_file label ((label, F) :: bc)).
  Proof.
    intros label F bc H1 H2. pose proof (L_tops _ H1) as A. pose proof (L_entry label H2) as B. pose proof (L_protos ((label, F) :: bc)) as C.
    unfold gen_c, t_file.
    assert (G : L true true (str "#include ";; quo;; str "types.h";; quo;; nl;; str "#include ";; quo;; str "runtime.h";; quo;; nl;; nl) []) by leaf.
    assert (E : forall a b c d e f g h i j k r, (a;; b;; c;; d;; e;; f;; g;; h;; i;; j;; k;; r) = ((a;; b;; c;; d;; e;; f;; g;; h;; i;; j;; k);; r))
      by (intros; now rewrite !cat_assoc).
    rewrite (E (str "#include ")). clear E.
    remember (str "#include ";; quo;; str "types.h";; quo;; nl;; str "#include ";; quo;; str "runtime.h";; quo;; nl;; nl) as pre.
    remember (gen_protos ((label, F) :: bc)) as p1. remember (gen_lambdas gs globals ((label, F) :: bc)) as p2.
    lq. reflexivity.
  Qed.

  (** * The trees are well formed *)
  Lemma cid_usable : forall x, mem x U = true -> usable (cid gs x) = true.
  Proof.
    intros x H. specialize (NM x H). unfold name_ok in NM. do 2 (apply andb_true_iff in NM as [NM _]).
    now apply andb_true_iff in NM as [_ NM].
  Qed.
  Lemma starts_usable : forall x, starts_with "clofun" x = true -> usable x = true.
  Proof.
    intros x H. unfold usable.
    assert (N : forall l, forallb (fun k => negb (starts_with "clofun" k)) l = true -> in_names x l = false).
    { intros l A. unfold in_names. destruct (existsb (String.eqb x) l) eqn:E; [|reflexivity].
      apply existsb_exists in E as (k & I & E). apply String.eqb_eq in E. subst k. rewrite forallb_forall in A. apply A in I.
      rewrite H in I. discriminate. }
    rewrite !N by reflexivity. reflexivity.
  Qed.
  Lemma fun_id_starts : forall n, starts_with "clofun" (fun_id n) = true.
  Proof. intro n. reflexivity. Qed.
  Lemma fun_id_usable : forall n, usable (fun_id n) = true.
  Proof. intro n. apply starts_usable, fun_id_starts. Qed.

  Lemma forallb_map : forall {A B} (f : B -> bool) (g : A -> B) l, forallb f (map g l) = forallb (fun x => f (g x)) l.
  Proof. induction l as [|a l IH]; [reflexivity|]. cbn. now rewrite IH. Qed.
  Lemma wf_const : forall c b, const_ok globals c = true -> basis (a_const c) = true /\ wfx b (a_const c) = true.
  Proof. intros c b H. destruct c; try discriminate; split; reflexivity. Qed.
  Lemma wf_flat : forall s b, capture_ok U s = true -> basis (a_flat s) = true /\ wfx b (a_flat s) = true.
  Proof.
    intros s b H. destruct s; try discriminate; split; try reflexivity. cbn [a_flat avar wfx]. now apply cid_usable.
  Qed.
  Lemma wf_simple : forall s b, simple_ok globals nfuns U s = true -> basis (a_simple s) = true /\ wfx b (a_simple s) = true.
  Proof.
    intros s b H. destruct s; try discriminate.
    - now apply wf_flat.
    - now apply wf_const.
    - split; reflexivity.
    - split; reflexivity.
    - split; [reflexivity|]. cbn [simple_ok] in H. apply andb_true_iff in H as [_ H].
      cbn [a_simple wfx forallb basis agc aco afun anum]. rewrite fun_id_usable.
      change (usable "makeNative") with true. change (usable "co") with true. cbn [andb].
      rewrite forallb_map. rewrite forallb_forall in *. intros s I. now apply wf_flat, H.
  Qed.
  Lemma wf_simples : forall l, forallb (simple_ok globals nfuns U) l = true -> forallb (wfx true) (map a_simple l) = true.
  Proof. intros l H. rewrite forallb_map. rewrite forallb_forall in *. intros s I. now apply wf_simple, H. Qed.
  Lemma wf_save : forall l acc, forallb (fun x => mem x U) l = true -> forallb wfs (a_save acc l) = true.
  Proof.
    induction l as [|v l IH]; intros acc H; [reflexivity|]. cbn [forallb] in H. apply andb_true_iff in H as [H1 H2].
    cbn [a_save forallb wfs basis wfx avar anum]. rewrite cid_usable, IH by assumption. reflexivity.
  Qed.
  Lemma wf_recover : forall l acc, forallb (fun x => mem x U) l = true -> forallb wfs (a_recover acc l) = true.
  Proof.
    induction l as [|v l IH]; intros acc H; [reflexivity|]. cbn [forallb] in H. apply andb_true_iff in H as [H1 H2].
    cbn [a_recover forallb wfs basis wfx avar anum]. rewrite cid_usable, IH by assumption. reflexivity.
  Qed.
  Lemma wf_call : forall f args, simple_ok globals nfuns U f = true -> forallb (simple_ok globals nfuns U) args = true ->
    forallb wfs (a_call f args) = true.
  Proof.
    intros f args Hf Ha. pose proof (wf_simples args Ha) as A. destruct (wf_simple f true Hf) as (_ & B). unfold a_call.
    destruct (Nat.ltb_spec 4 (List.length args)).
    - cbn [forallb wfs wfx basis aco anum obj_type t_name obj]. rewrite A, B.
      destruct args; [cbn in *; lia|]. reflexivity.
    - cbn [forallb wfs wfx basis aco]. rewrite A, B.
      assert (Z : usable (call_name (List.length args)) = true) by (destruct (List.length args) as [|[|[|[|n]]]]; reflexivity).
      rewrite Z. reflexivity.
  Qed.
  Lemma wf_stm : forall self t seen, stm_ok globals nfuns U seen t = true -> forallb wfs (a_stm self t) = true.
  Proof.
    induction t; intros seen H; cbn [stm_ok] in H; try discriminate; cbn [a_stm].
    - destruct (wf_simple s true H) as (_ & B). cbn [forallb wfs wfx basis aco]. rewrite B. reflexivity.
    - apply andb_true_iff in H as [H1 H2]. pose proof (wf_call f args H1 H2) as A. cbn [forallb wfs wfx basis aco].
      rewrite forallb_app, A. reflexivity.
    - apply andb_true_iff in H as [H H3]. apply andb_true_iff in H as [H1 H2]. pose proof (wf_call f args H1 H2) as A.
      rewrite forallb_app, (wf_save live 1 H3). cbn [forallb wfs wfx basis aco afun anum andb]. rewrite fun_id_usable, forallb_app, A. reflexivity.
    - apply andb_true_iff in H as [H H5]. apply andb_true_iff in H as [H H4]. apply andb_true_iff in H as [H H3]. apply andb_true_iff in H as [H1 H2].
      destruct (wf_simple s true H3) as (_ & B). cbn [forallb wfs]. rewrite cid_usable, B, (IHt _ H5) by assumption. reflexivity.
    - apply andb_true_iff in H as [H H6]. apply andb_true_iff in H as [H H5]. apply andb_true_iff in H as [H H4]. apply andb_true_iff in H as [H H3]. apply andb_true_iff in H as [H1 H2].
      pose proof (wf_simples args H3) as A. cbn [forallb wfs wfx basis]. rewrite cid_usable, forallb_app, A, (IHt _ H6) by assumption.
      destruct p; reflexivity.
    - apply andb_true_iff in H as [H H3]. apply andb_true_iff in H as [H1 H2].
      destruct (wf_simple s false H1) as (_ & B). cbn [forallb wfs wfx]. rewrite B, (IHt1 _ H2), (IHt2 _ H3). reflexivity.
    - apply andb_true_iff in H as [H1 H2]. destruct (wf_simple s false H1) as (A & B). cbn [forallb wfs]. rewrite A, B, (IHt _ H2). reflexivity.
  Qed.
  Lemma wf_conts : forall self l acc, forallb cont_ok l = true -> forallb (fun c => forallb wfs (snd c)) (a_conts self acc l) = true.
  Proof.
    induction l as [|k l IH]; intros acc H; [reflexivity|]. cbn [forallb] in H. apply andb_true_iff in H as [H H4].
    unfold cont_ok in H. apply andb_true_iff in H as [H H3]. apply andb_true_iff in H as [H1 H2].
    cbn [forallb] in H1. apply andb_true_iff in H1 as [H0 H1].
    cbn [a_conts forallb snd a_cont wfs wfx basis aco]. rewrite cid_usable, forallb_app, (wf_recover _ _ H1), (wf_stm self _ _ H3), (IH _ H4) by assumption.
    reflexivity.
  Qed.
  Lemma wf_body : forall label F, func_ok globals nfuns U F = true -> forallb wfs (a_body label F) = true.
  Proof.
    intros label F H. unfold func_ok in H. apply andb_true_iff in H as [H H3]. apply andb_true_iff in H as [H H2]. apply andb_true_iff in H as [H1 H0].
    cbn [a_body forallb wfs wfx snd]. rewrite forallb_app, (wf_recover _ _ H1), (wf_stm label _ _ H2), (wf_conts label _ 1 H3). reflexivity.
  Qed.
  Lemma wf_symbols : forall l acc, forallb wfs (a_symbols acc l) = true.
  Proof. induction l as [|s l IH]; intro acc; [reflexivity|]. cbn [a_symbols forallb]. rewrite IH. reflexivity. Qed.
  Lemma wf_entry_rest : forall label, forallb wfs (a_entry_rest label) = true.
  Proof.
    intro label. unfold a_entry_rest. cbn [forallb wfs]. rewrite forallb_app, wf_symbols. cbn [forallb wfs basis wfx afun].
    rewrite fun_id_usable. reflexivity.
  Qed.

  (** * Reading the file *)
  Definition reads (r : list tok) (d : list cdecl) : Prop := forall n, 4 * List.length r + 4 <= n -> p_file n r = Some d.

  Lemma params_ok : forall n r, 3 <= n -> p_params n (t_params ++ r) = Some (a_params, r).
  Proof. intros n r H. do 3 (destruct n as [|n]; [lia|]). reflexivity. Qed.
  Lemma reads_nil : reads [] [].
  Proof. intros [|n] H; [cbn in H; lia|reflexivity]. Qed.
  Lemma reads_protos : forall bc r d, reads r d -> reads (t_protos bc ++ r) (map (fun c => a_proto (fst c)) bc ++ d).
  Proof.
    induction bc as [|(label, F) bc IH]; intros r d H; [exact H|]. specialize (IH r d H).
    cbn [t_protos map fst]. rewrite <- app_assoc. unfold t_head. cbn [app]. intros n L.
    cbn [List.length] in L. rewrite app_length in L. cbn [List.length t_params] in L.
    (destruct n as [|n]; [lia|]). cbn [p_file]. change (String.eqb "static" "static") with true. cbn iota.
    change (p_type (KId "void" :: KId (fun_id label) :: ?r)) with (Some (mkT "void" 0, KId (fun_id label) :: r)). cbn iota.
    rewrite fun_id_usable, params_ok by lia. rewrite (IH n) by lia. reflexivity.
  Qed.
  Lemma reads_funs : forall bc r d, forallb (fun c => func_ok globals nfuns U (snd c)) bc = true ->
    reads r d -> reads (t_funs bc ++ r) (map (fun c => a_fun (fst c) (snd c)) bc ++ d).
  Proof.
    induction bc as [|(label, F) bc IH]; intros r d H HR; [exact HR|]. cbn [forallb snd] in H. apply andb_true_iff in H as [H1 H2].
    specialize (IH r d H2 HR). pose proof (wf_body label F H1) as W. pose proof (uss_len _ W) as UL.
    cbn [t_funs map fst snd]. rewrite <- app_assoc. cbn [app]. rewrite <- app_assoc. unfold t_head. cbn [app]. intros n L.
    cbn [List.length] in L. rewrite app_length in L. cbn [List.length t_params] in L. rewrite app_length in L. cbn [List.length] in L.
    (destruct n as [|n]; [lia|]). cbn [p_file]. change (String.eqb "static" "static") with true. cbn iota.
    change (p_type (KId "void" :: KId (fun_id label) :: ?r)) with (Some (mkT "void" 0, KId (fun_id label) :: r)). cbn iota.
    rewrite fun_id_usable, params_ok by lia. rewrite (p_stmts_ok _ W n) by lia. rewrite (IH n) by lia. reflexivity.
  Qed.
  Lemma reads_entry : forall label r d, reads r d -> reads (t_entry label ++ r) (a_entry label :: d).
  Proof.
    intros label r d HR. pose proof (wf_entry_rest label) as W. pose proof (uss_len _ W) as UL.
    unfold t_entry. cbn [app]. rewrite <- app_assoc. cbn [app]. intros n L.
    cbn [List.length] in L. rewrite app_length in L. cbn [List.length t_params] in L.
    repeat (rewrite app_length in L; cbn [List.length] in L).
    (destruct n as [|n]; [lia|]). cbn [p_file]. change (String.eqb "void" "static") with false. cbn iota.
    change (p_type (KId "void" :: KId "entry" :: ?r)) with (Some (mkT "void" 0, KId "entry" :: r)). cbn iota.
    change (usable "entry") with true. cbn iota. rewrite params_ok by lia.
    assert (PI : forall k r0, 20 <= k -> match r0 with KId s :: LC :: _ => False | _ => True end ->
      p_stmt k (KId "if" :: LP :: ux a_alloc ++ RP :: LC :: uss a_alloc_body ++ RC :: r0) = Some (CIf a_alloc a_alloc_body [], r0)).
    { intros k r0 K HH. do 20 (destruct k as [|k]; [lia|]). destruct r0 as [|[] [|[] r0]]; try reflexivity. contradiction. }
    assert (ST : exists q, uss (a_entry_rest label) ++ RC :: r = KId "Binding" :: STAR :: q) by (eexists; reflexivity).
    assert (PS : p_stmts n (KId "if" :: LP :: ux a_alloc ++ RP :: LC :: uss a_alloc_body ++ RC :: uss (a_entry_rest label) ++ RC :: r) =
                 Some (CIf a_alloc a_alloc_body [] :: a_entry_rest label, r)).
    { destruct n as [|n]; [lia|]. cbn [p_stmts]. rewrite PI; [|lia|destruct ST as (q & ->); exact I].
      now rewrite (p_stmts_ok _ W n) by lia. }
    repeat (rewrite <- app_assoc; cbn [app]).
    rewrite PS, (HR n) by lia. reflexivity.
  Qed.
  Lemma reads_file : forall label bc, forallb (fun c => func_ok globals nfuns U (snd c)) bc = true ->
    reads (t_file label bc) (a_file label bc).
  Proof.
    intros label bc H. pose proof (reads_funs bc [] [] H reads_nil) as A. rewrite !app_nil_r in A.
    apply (reads_entry label) in A. apply (reads_protos bc) in A. unfold t_file, a_file. intros n L.
    cbn [List.length] in L. rewrite app_length in L. cbn [List.length ux app] in L.
    destruct n as [|n]; [lia|]. cbn [p_file]. change (String.eqb "static" "static") with true. cbn iota.
    change (p_type (KId "int" :: KId "packageID" :: ?r)) with (Some (mkT "int" 0, KId "packageID" :: r)). cbn iota.
    change (usable "packageID") with true. cbn iota.
    rewrite (p_exp_ok (XNum (-1)) eq_refl n) by (try reflexivity; cbn; lia).
    cbn [app]. rewrite (A n) by lia. reflexivity.
  Qed.

  Theorem file_text : forall label F bc, forallb (fun c => func_ok globals nfuns U (snd c)) ((label, F) :: bc) = true ->
    forallb symbol_ok globals = true ->
    exists b, gen_c gs globals ((label, F) :: bc) = Ok b /\ c_file b = Some (a_file label ((label, F) :: bc)).
  Proof.
    intros label F bc H1 H2. destruct (L_file label F bc H1 H2) as (b & t & m & E & R & T & _).
    exists b. split; [exact E|]. unfold c_file, lex. rewrite R, T. apply (reads_file label _ H1). lia.
  Qed.
End Tree.
