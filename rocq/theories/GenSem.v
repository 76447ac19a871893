(** A turn of the trampoline in the C file is the turn in the functions. *)
From Coq Require Import List ZArith Bool String Ascii Arith Lia.
From Verif Require Import Base StrModel ReaderModel EmitModel EmitProps CoreSpec CoreProofs TocModel TocSem TocMach CSpec CParse GenModel GenCond GenLex GenTree.
Import ListNotations.
Local Open Scope string_scope.
Local Open Scope list_scope.
Local Open Scope nat_scope.

(** the identifiers that must be visible where a function runs *)
Definition outer : list string :=
  ["packageID"; "getBinding"; "globalRef"; "closureRef"; "makeNative"; "makeCString";
   "Nil"; "True"; "False"; "ptr"; "scmCons"; "iscons"; "eq"; "fixnum"; "makeNumber"; "MAKE_NUMBER";
   "primSet"; "PRIM_CAR"; "PRIM_CDR"; "makeCons"; "PRIM_ISCONS"; "PRIM_ADD"; "PRIM_SUB"; "PRIM_MUL"; "primDiv";
   "PRIM_EQ"; "PRIM_GT"; "PRIM_LT"; "primGenSym"; "primIsSymbol"; "primNot"; "primIsNumber"; "primIsString";
   "coraReturn"; "saveCont"; "coraCall"; "coraCall0"; "coraCall1"; "coraCall2"; "coraCall3"; "coraCall4"].

Lemma in_names_in : forall x l, in_names x l = true <-> In x l.
Proof.
  intros x l. unfold in_names. rewrite existsb_exists. split.
  - intros (y & I & E). apply String.eqb_eq in E. now subst.
  - intro I. exists x. now rewrite String.eqb_refl.
Qed.

Lemma captured_hd : forall R R1 i, hd_error R = hd_error R1 -> captured R i = captured R1 i.
Proof. intros [|a R] [|b R1] i H; cbn in *; try discriminate; [reflexivity|]. injection H as ->. reflexivity. Qed.
Lemma save_hd : forall vs i R R1, 1 <= i -> save i vs R = Some R1 -> hd_error R1 = hd_error R.
Proof.
  induction vs as [|v vs IH]; intros i R R1 Hi E; cbn [save] in E; [now injection E as <-|].
  destruct (Nat.ltb_spec i (List.length R)) as [HL|]; [|discriminate]. apply IH in E; [|lia]. rewrite E. destruct i as [|i]; [lia|]. destruct R as [|a R]; [cbn in HL; lia|reflexivity].
Qed.
Lemma opts_len : forall {A B} (f : A -> option B) l vs, opts f l = Some vs -> List.length vs = List.length l.
Proof.
  induction l as [|a l IH]; intros vs E; cbn [opts] in E; [now injection E as <-|].
  destruct (f a), (opts f l); try discriminate. injection E as <-. cbn. now rewrite (IH l0).
Qed.
Lemma opts_ext : forall {A B} (f g : A -> option B) l, (forall a, In a l -> f a = g a) -> opts f l = opts g l.
Proof.
  induction l as [|a l IH]; intro H; [reflexivity|]. cbn [opts]. rewrite (H a (or_introl eq_refl)), IH; [reflexivity|].
  intros b I. apply H. now right.
Qed.

Section Sem.
  Variable gs : nat -> bytes.
  Variable globals : list sexp.
  Variable nfuns : nat.
  Variable U : list name.
  Variable d : list cdecl.
  Variable ar : arith.
  Hypothesis NM : forall x, mem x U = true -> name_ok gs x = true.
  Hypothesis INJ : forall x y, mem x U = true -> mem y U = true -> cid gs x = cid gs y -> x = y.
  Hypothesis SY : forallb symbol_ok globals = true.
  Hypothesis AD : forall lab, lab < nfuns -> address d (fun_id lab) = Some lab.

  Definition table : list name := map (fun s => match s with SSym x => x | _ => NS "" end) globals.

  Lemma cid_free : forall x, mem x U = true -> in_names (cid gs x) taken = false /\ starts_with "clofun" (cid gs x) = false.
  Proof.
    intros x H. specialize (NM x H). unfold name_ok in NM. apply andb_true_iff in NM as [NM N1]. apply andb_true_iff in NM as [_ N2].
    split; [now destruct (in_names (cid gs x) taken)|now destruct (starts_with "clofun" (cid gs x))].
  Qed.
  Lemma cid_not : forall x y, mem x U = true -> in_names y taken = true -> String.eqb y (cid gs x) = false.
  Proof.
    intros x y H T. destruct (String.eqb_spec y (cid gs x)) as [->|]; [|reflexivity]. destruct (cid_free x H). congruence.
  Qed.
  Lemma cid_not_r : forall x y, mem x U = true -> in_names y taken = true -> String.eqb (cid gs x) y = false.
  Proof. intros x y H T. rewrite String.eqb_sym. now apply cid_not. Qed.
  Lemma fun_id_not : forall n y, starts_with "clofun" y = false -> String.eqb (fun_id n) y = false.
  Proof.
    intros n y T. destruct (String.eqb_spec (fun_id n) y) as [<-|]; [|reflexivity]. discriminate.
  Qed.

  (** the environment of a C block and of the machine *)
  Definition base (env : list scope) : Prop :=
    find "co" env = Some CCo /\ find "R" env = Some CFrame /\
    (forall y, in_names y outer = true -> find y env = None) /\ (forall n, find (fun_id n) env = None).
  Definition obj_of (c : option cval) : option lval := match c with Some (CObj v) => Some v | _ => None end.
  Definition rel (P : name -> Prop) (sg : list (name * lval)) (env : list scope) : Prop :=
    base env /\ forall x, mem x U = true -> P x -> obj_of (find (cid gs x) env) = lookup x sg.
  Definition fresh_scope (seen : list name) (s : scope) : Prop :=
    find_in "__args" s = None /\ forall x, mem x U = true -> mem x seen = false -> find_in (cid gs x) s = None.

  Lemma outer_taken : forall y, in_names y outer = true -> in_names y taken = true.
  Proof.
    intros y H. apply in_names_in in H. 
    assert (A : forallb (fun y => in_names y taken) outer = true) by (vm_compute; reflexivity).
    rewrite forallb_forall in A. now apply A.
  Qed.

  Lemma find_add : forall y x v s r, find y (((x, v) :: s) :: r) = if String.eqb y x then Some v else find y (s :: r).
  Proof. intros. cbn [find find_in]. destruct (String.eqb y x); reflexivity. Qed.

  Lemma base_add : forall x v s r, mem x U = true -> base (s :: r) -> base (((cid gs x, v) :: s) :: r).
  Proof.
    intros x v s r H (A & B & C & D). repeat split.
    - now rewrite find_add, (cid_not x "co" H eq_refl).
    - now rewrite find_add, (cid_not x "R" H eq_refl).
    - intros y Hy. rewrite find_add, (cid_not x y H (outer_taken y Hy)). now apply C.
    - intro n. rewrite find_add, fun_id_not by (now apply cid_free). apply D.
  Qed.
  Lemma rel_raw : forall x v s r sg, mem x U = true -> rel (fun _ => True) sg (s :: r) ->
    rel (fun y => y <> x) sg (((cid gs x, v) :: s) :: r).
  Proof.
    intros x v s r sg H (A & B). split; [now apply base_add|]. intros y Hy N. rewrite find_add.
    destruct (String.eqb_spec (cid gs y) (cid gs x)) as [E|_]; [elim N; now apply INJ|]. now apply B.
  Qed.
  Lemma rel_bind : forall x v s r sg, mem x U = true -> rel (fun _ => True) sg (s :: r) ->
    rel (fun _ => True) ((x, v) :: sg) (((cid gs x, CObj v) :: s) :: r).
  Proof.
    intros x v s r sg H (A & B). split; [now apply base_add|]. intros y Hy _. rewrite find_add. cbn [lookup].
    destruct (name_eqb_spec y x) as [->|N]; [now rewrite String.eqb_refl|].
    destruct (String.eqb_spec (cid gs y) (cid gs x)) as [E|_]; [elim N; now apply INJ|]. now apply B.
  Qed.
  Lemma rel_args : forall v s r sg, rel (fun _ => True) sg (s :: r) -> rel (fun _ => True) sg ((("__args", v) :: s) :: r).
  Proof.
    intros v s r sg ((A & B & C & D) & E). split.
    - repeat split.
      + now rewrite find_add.
      + now rewrite find_add.
      + intros y Hy. rewrite find_add. destruct (String.eqb_spec y "__args") as [->|]; [discriminate|]. now apply C.
      + intro n. rewrite find_add, fun_id_not by reflexivity. apply D.
    - intros y Hy _. rewrite find_add, (cid_not_r y "__args" Hy eq_refl). now apply E.
  Qed.
  Lemma rel_block : forall P sg env, rel P sg env -> rel P sg ([] :: env).
  Proof. intros P sg env ((A & B & C & D) & E). split; [|exact E]. repeat split; assumption. Qed.
  Lemma fresh_add : forall x v seen s, mem x U = true -> fresh_scope seen s -> fresh_scope (x :: seen) ((cid gs x, v) :: s).
  Proof.
    intros x v seen s H (A & B). split.
    - cbn [find_in]. now rewrite (cid_not x "__args" H eq_refl).
    - intros y Hy N. cbn [find_in]. cbn [mem existsb] in N. apply orb_false_iff in N as [N1 N2].
      destruct (String.eqb_spec (cid gs y) (cid gs x)) as [E|_].
      + apply INJ in E; auto. subst y. destruct (name_eqb_spec x x); congruence.
      + now apply B.
  Qed.
  Lemma fresh_nil : fresh_scope [] [].
  Proof. split; [reflexivity|]. intros; reflexivity. Qed.

  (** * Expressions *)
  Lemma natural_anum : forall n, natural (anum n) = Some n.
  Proof. intro n. unfold anum, natural. destruct (Z.leb_spec 0 (Z.of_nat n)); [|lia]. now rewrite Nat2Z.id. Qed.

  Lemma offset_ok : forall x l k, (0 <= k)%Z -> forallb symbol_ok l = true -> existsb (sexp_eqb (SSym x)) l = true ->
    exists i, symbol_offset_h k (SSym x) l = (k + Z.of_nat i)%Z /\
      nth_error (map (fun s => match s with SSym x => x | _ => NS "" end) l) i = Some x.
  Proof.
    induction l as [|a l IH]; intros k K F H; [discriminate|]. cbn [forallb existsb symbol_offset_h] in *.
    apply andb_true_iff in F as [F1 F2]. destruct (sexp_eqb (SSym x) a) eqn:E.
    - exists 0. split; [lia|]. cbn. destruct a; try discriminate. cbn in E. f_equal.
      match type of E with name_eqb ?u ?v = true => destruct (name_eqb_spec u v); [now subst|discriminate] end.
    - cbn [orb] in H. destruct (IH (k + 1)%Z ltac:(lia) F2 H) as (i & A & B). exists (S i). split; [lia|exact B].
  Qed.

  Section Exp.
    Variable P : name -> Prop.
    Variable sg : list (name * lval).
    Variable env : list scope.
    Variable R : slots.
    Variable G : store lcode.
    Variable res : lval.
    Hypothesis RL : rel P sg env.
    Notation cev := (c_eval d table res env R G).

    Lemma free_outer : forall y, in_names y outer = true -> free env y = true.
    Proof. intros y H. destruct RL as ((_ & _ & C & _) & _). unfold free. now rewrite C. Qed.
    Lemma co_ok : is_co env aco = true.
    Proof. destruct RL as ((A & _) & _). unfold is_co, aco. now rewrite A. Qed.
    Lemma gc_ok : is_gc env agc = true.
    Proof. unfold is_gc, agc. now rewrite co_ok. Qed.
    Lemma frame_ok : is_frame env (XId "R") = true.
    Proof. destruct RL as ((_ & A & _) & _). unfold is_frame. now rewrite A. Qed.

    Lemma binding_ok : forall x, global_ok globals x = true -> binding table env (abind globals (SSym x)) = Some x.
    Proof.
      intros x H. unfold binding, abind, calls. rewrite String.eqb_refl, (free_outer "getBinding" eq_refl), co_ok, (free_outer "packageID" eq_refl).
      change (String.eqb "packageID" "packageID") with true. cbn [andb].
      destruct (offset_ok x globals 0 ltac:(lia) SY H) as (i & E & N). rewrite E, Z.add_0_l.
      change (XNum (Z.of_nat i)) with (anum i). now rewrite natural_anum.
    Qed.

    Lemma var_eval : forall x, mem x U = true -> P x -> cev (avar gs x) = lookup x sg.
    Proof.
      intros x H HP. cbn [c_eval avar]. destruct RL as (_ & E). rewrite <- (E x H HP).
      destruct (find (cid gs x) env) as [[]|]; try reflexivity. cbn [obj_of].
      now rewrite !(fun y T => cid_not_r x y H T) by reflexivity.
    Qed.
    Lemma const_eval : forall c, const_ok globals c = true -> cev (a_const globals c) = if has_text c then Some (quoted c) else None.
    Proof.
      intros c H. destruct c; try discriminate; cbn [const_ok] in H.
      - unfold a_const. cbn [c_eval]. rewrite (free_outer "MAKE_NUMBER" eq_refl), (free_outer "makeNumber" eq_refl), H. reflexivity.
      - cbn [c_eval a_const]. change (String.eqb "name" "name") with true. cbn iota. now rewrite (binding_ok _ H).
      - unfold a_const. cbn [c_eval]. rewrite (free_outer "makeCString" eq_refl), gc_ok. reflexivity.
      - unfold a_const. cbn [c_eval]. destruct RL as ((_ & _ & C & _) & _). now rewrite (C "True" eq_refl).
      - unfold a_const. cbn [c_eval]. destruct RL as ((_ & _ & C & _) & _). now rewrite (C "False" eq_refl).
      - unfold a_const. cbn [c_eval]. destruct RL as ((_ & _ & C & _) & _). now rewrite (C "Nil" eq_refl).
    Qed.
    Lemma ref_eval : forall i, cev (a_flat gs globals (SmRef i)) = captured R i.
    Proof.
      intro i. unfold a_flat. cbn [c_eval]. rewrite (free_outer "closureRef" eq_refl), frame_ok, natural_anum. reflexivity.
    Qed.
    Definition known (s : simple) : Prop := forall x, mentions x s = true -> P x.
    Lemma capture_eval : forall s, capture_ok U s = true -> known s -> cev (a_flat gs globals s) = free_x sg R s.
    Proof.
      intros s H K. destruct s; try discriminate.
      - apply var_eval; [exact H|]. apply K. cbn. now destruct (name_eqb_spec x x).
      - apply ref_eval.
    Qed.
    Definition known_all (frees : list simple) : Prop :=
      forall x, existsb (fun s => match s with SmVar y => name_eqb x y | _ => false end) frees = true -> P x.
    Lemma captures_eval : forall frees, forallb (capture_ok U) frees = true -> known_all frees ->
      (fix evals (l : list cexp) : option (list lval) :=
        match l with
        | [] => Some []
        | a :: r => match cev a with
                    | Some v => match evals r with Some vs => Some (v :: vs) | None => None end
                    | None => None
                    end
        end) (map (a_flat gs globals) frees) = opts (free_x sg R) frees.
    Proof.
      induction frees as [|s l IH]; intros H K; [reflexivity|]. cbn [forallb map opts] in *. apply andb_true_iff in H as [H1 H2].
      rewrite capture_eval; [|exact H1|].
      - rewrite IH; [|exact H2|]; [destruct (free_x sg R s); reflexivity|]. intros x Hx. apply K. cbn [existsb]. rewrite Hx. apply orb_true_r.
      - intros x Hx. apply K. cbn [existsb]. destruct s; try discriminate; cbn [mentions] in Hx; rewrite Hx; reflexivity.
    Qed.
    Lemma simple_eval : forall s, simple_ok globals nfuns U s = true -> known s -> cev (a_simple gs globals s) = x_simple sg R s G.
    Proof.
      intros s H K. destruct s; try discriminate.
      - now apply capture_eval.
      - now apply const_eval.
      - unfold a_simple, a_flat. cbn [c_eval]. rewrite (free_outer "globalRef" eq_refl), co_ok, (binding_ok _ H). reflexivity.
      - apply ref_eval.
      - cbn [simple_ok] in H. apply andb_true_iff in H as [H1 H2]. apply Nat.ltb_lt in H1.
        unfold a_simple. cbn [c_eval]. rewrite (free_outer "makeNative" eq_refl), gc_ok, !natural_anum, (captures_eval frees H2 K).
        unfold fun_name, afun, free. destruct RL as ((_ & _ & _ & D) & _). rewrite D, (AD label H1). cbn [x_simple].
        change (negb true) with false. change (String.eqb "makeNative" "makeNative") with true. cbn iota.
        destruct (opts (free_x sg R) frees) as [vs|] eqn:E; [|reflexivity].
        now rewrite <- (opts_len _ _ _ E), Nat.eqb_refl.
    Qed.
    Lemma simples_eval : forall l, forallb (simple_ok globals nfuns U) l = true -> (forall s, In s l -> known s) ->
      c_evals d table res env R G (map (a_simple gs globals) l) = opts (fun s => x_simple sg R s G) l.
    Proof.
      induction l as [|s l IH]; intros H K; [reflexivity|]. cbn [forallb map opts c_evals] in *. apply andb_true_iff in H as [H1 H2].
      rewrite simple_eval, IH; [destruct (x_simple sg R s G); reflexivity|exact H2|intros; apply K; now right|exact H1|apply K; now left].
    Qed.
    Lemma prim_init : forall p args, forallb (simple_ok globals nfuns U) args = true -> (forall s, In s args -> known s) ->
      c_init d table res env R G ar (XCall (XId (builtin_name p)) (a_pre p ++ map (a_simple gs globals) args)) =
      match opts (fun s => x_simple sg R s G) args with Some vs => prim_sem ar p vs G | None => None end.
    Proof.
      intros p args H K. pose proof (simples_eval args H K) as E.
      assert (M : forallb (free env) macro_names = true).
      { apply forallb_forall. intros y I. apply free_outer. apply in_names_in.
        assert (A : forallb (fun y => in_names y outer) macro_names = true) by (vm_compute; reflexivity).
        rewrite forallb_forall in A. apply in_names_in. now apply A. }
      unfold c_init. destruct p; cbn [builtin_name a_pre app];
        lazymatch goal with |- context [prim_call ?f] => let r := eval vm_compute in (prim_call f) in change (prim_call f) with r end; cbn iota;
        lazymatch goal with |- context [free env ?f] => rewrite (free_outer f eq_refl) end; rewrite M; cbn [andb];
        rewrite ?co_ok, ?gc_ok, E; reflexivity.
    Qed.
    Lemma init_eval : forall s, simple_ok globals nfuns U s = true -> known s ->
      c_init d table res env R G ar (a_simple gs globals s) = match x_simple sg R s G with Some v => Some (v, G) | None => None end.
    Proof.
      intros s H K. rewrite <- (simple_eval s H K). destruct s; try discriminate; try reflexivity.
      destruct s; try discriminate; reflexivity.
    Qed.
  End Exp.

  (** * Statements *)
  Variable res : lval.
  Notation exec := (c_exec d table res ar).
  Notation execs := (c_execs d table res ar).

  Lemma execs_eq : forall l st,
    (fix execs (l : list cstmt) (s : cst) {struct l} : option (bool * cst) :=
      match l with
      | [] => Some (false, s)
      | t :: r => match exec t s with
                  | Some (true, s1) => Some (true, s1)
                  | Some (false, s1) => execs r s1
                  | None => None
                  end
      end) l st = execs l st.
  Proof. induction l as [|t l IH]; intro st; [reflexivity|]. cbn [c_execs]. destruct (exec t st) as [[[] s1]|]; auto. Qed.

  Definition blk (l : list cstmt) (st : cst) : option (bool * cst) :=
    match execs l (with_env st ([] :: c_env st)) with
    | Some (b, s1) => Some (b, with_env s1 (tl (c_env s1)))
    | None => None
    end.
  Lemma exec_if : forall x y a b st, exec (CIf (XEq x y) a b) st =
    match c_eval d table res (c_env st) (c_R st) (c_G st) x, c_eval d table res (c_env st) (c_R st) (c_G st) y with
    | Some v, Some w =>
        match same_word v w with Some true => blk a st | Some false => blk b st | None => None end
    | _, _ => None
    end.
  Proof. intros. unfold blk. cbn [c_exec]. rewrite !execs_eq. reflexivity. Qed.

  Fixpoint from (z : Z) (on : bool) (l : list (Z * list cstmt)) (st : cst) : option (bool * cst) :=
    match l with
    | [] => Some (false, st)
    | (k, b) :: r =>
        if on || (k =? z)%Z then
          match blk b st with
          | Some (true, s1) => Some (true, s1)
          | Some (false, s1) => from z true r s1
          | None => None
          end
        else from z false r st
    end.
  Lemma exec_switch : forall x cases st, exec (CSwitch (XId x) cases) st =
    match find x (c_env st) with Some (CInt z) => from z false cases st | _ => None end.
  Proof.
    intros x cases st. cbn [c_exec]. destruct (find x (c_env st)) as [[]|]; try reflexivity.
    match goal with |- ?F false cases st = _ => enough (Q : forall l on s, F on l s = from z on l s) by apply Q end.
    clear st cases. induction l as [|(k, b) l IH]; intros on st; [reflexivity|].
    cbn [from]. unfold blk at 1. rewrite execs_eq.
    destruct (on || (k =? z)%Z); [|apply IH].
    destruct (execs b (with_env st ([] :: c_env st))) as [[[] s1]|]; auto.
  Qed.

  Definition agrees (R : slots) (self : nat) (o : option (bool * cst)) (x : option (xfer * store lcode)) : Prop :=
    match x with
    | None => o = None
    | Some (XRet v, G) => exists st, o = Some (true, st) /\ c_act st = Some (ARet v) /\ c_G st = G /\ c_conts st = []
    | Some (XTail f vs, G) => exists st, o = Some (true, st) /\ c_act st = Some (ACall f vs) /\ c_G st = G /\ c_conts st = [] /\ c_sp st = true
    | Some (TocMach.XCall saved l f vs, G) =>
        match save 1 saved R with
        | None => o = None
        | Some R1 => exists st, o = Some (true, st) /\ c_act st = Some (ACall f vs) /\ c_G st = G /\ c_conts st = [(self, l, R1)]
        end
    end.
  Lemma agrees_blk : forall R self l st x, agrees R self (execs l (with_env st ([] :: c_env st))) x -> agrees R self (blk l st) x.
  Proof.
    intros R self l st x H. unfold blk.
    destruct x as [[[v|f vs|saved lab f vs] G]|]; cbn [agrees] in *.
    - destruct H as (s' & -> & A). eexists; split; [reflexivity|]. exact A.
    - destruct H as (s' & -> & A). eexists; split; [reflexivity|]. exact A.
    - destruct (save 1 saved R).
      + destruct H as (s' & -> & A). eexists; split; [reflexivity|]. exact A.
      + now rewrite H.
    - now rewrite H.
  Qed.

  Definition all_known (sg : list (name * lval)) : forall s, known (fun _ => True) s := fun _ _ _ => I.

  Section Call.
    Variable sg : list (name * lval).
    Variable st : cst.
    Variable s0 : scope.
    Variable r0 : list scope.
    Hypothesis ENV : c_env st = s0 :: r0.
    Hypothesis RL : rel (fun _ => True) sg (c_env st).
    Hypothesis AR : find_in "__args" s0 = None.
    Hypothesis NA : c_act st = None.

    Lemma call_ok : forall f args, simple_ok globals nfuns U f = true -> forallb (simple_ok globals nfuns U) args = true ->
      match x_simple sg (c_R st) f (c_G st), opts (fun s => x_simple sg (c_R st) s (c_G st)) args with
      | Some fv, Some vs =>
          exists st1, execs (a_call gs globals f args ++ [CReturn]) st = Some (true, st1) /\ c_act st1 = Some (ACall fv vs) /\
            c_G st1 = c_G st /\ c_conts st1 = c_conts st /\ c_sp st1 = c_sp st
      | _, _ => execs (a_call gs globals f args ++ [CReturn]) st = None
      end.
    Proof.
      intros f args Hf Ha.
      pose proof (simple_eval (fun _ => True) sg (c_env st) (c_R st) (c_G st) res RL f Hf (all_known sg f)) as Ef.
      pose proof (simples_eval (fun _ => True) sg (c_env st) (c_R st) (c_G st) res RL args Ha (fun s _ => all_known sg s)) as Ea.
      unfold a_call. destruct (Nat.ltb_spec 4 (List.length args)) as [L|L].
      - cbn [app c_execs]. cbn [c_exec obj t_name t_stars]. change (String.eqb "Obj" "Obj" && (0 =? 0)) with true. cbn iota.
        unfold declare. rewrite ENV, AR.
        pose proof (rel_args CRaw s0 r0 sg ltac:(rewrite <- ENV; exact RL)) as RR.
        rewrite (simples_eval (fun _ => True) sg _ (c_R st) (c_G st) res RR args Ha (fun s _ => all_known sg s)).
        destruct (opts (fun s => x_simple sg (c_R st) s (c_G st)) args) as [vs|] eqn:EO;
          [|destruct (x_simple sg (c_R st) f (c_G st)); reflexivity].
        rewrite (opts_len _ _ _ EO), Z.eqb_refl.
        pose proof (rel_args (CArr vs) s0 r0 sg ltac:(rewrite <- ENV; exact RL)) as R2.
        cbn [c_exec c_effect with_env c_env c_R c_G].
        rewrite (free_outer _ sg _ R2 "coraCall" eq_refl), (co_ok _ sg _ R2).
        change (String.eqb "coraCall" "coraReturn") with false. change (String.eqb "coraCall" "saveCont") with false.
        change (String.eqb "coraCall" "coraCall") with true. cbn [andb].
        rewrite (simple_eval (fun _ => True) sg _ (c_R st) (c_G st) res R2 f Hf (all_known sg f)), natural_anum.
        rewrite find_add, String.eqb_refl.
        destruct (x_simple sg (c_R st) f (c_G st)) as [fv|].
        + rewrite (opts_len _ _ _ EO), Nat.eqb_refl. unfold act. cbn [c_act with_env]. rewrite NA. eexists; split; [reflexivity|]. cbn. auto.
        + cbn [c_eval]. rewrite (free_outer _ sg _ R2 "coraCall" eq_refl). reflexivity.
      - cbn [app c_execs]. cbn [c_exec]. unfold c_effect.
        set (n := List.length args) in *.
        assert (C : in_names (call_name n) outer = true /\ call_n (call_name n) = Some n /\ String.eqb (call_name n) "coraReturn" = false /\
           String.eqb (call_name n) "saveCont" = false /\ String.eqb (call_name n) "coraCall" = false /\
           forall e, c_eval d table res (c_env st) (c_R st) (c_G st) (XCall (XId (call_name n)) e) = None).
        { clearbody n. assert (N : n = 0 \/ n = 1 \/ n = 2 \/ n = 3 \/ n = 4) by lia.
          destruct N as [->|[->|[->|[->| ->]]]]; (do 5 (split; [reflexivity|])); intro e; cbn [call_name c_eval];
            match goal with |- context [free ?env ?y] => destruct (free env y); reflexivity end. }
        destruct C as (C1 & C2 & C3 & C4 & C5 & C6).
        rewrite (free_outer _ sg _ RL _ C1), (co_ok _ sg _ RL), C2, C3, C4, C5, C6. cbn [andb].
        rewrite Ef, Ea. destruct (x_simple sg (c_R st) f (c_G st)) as [fv|]; [|reflexivity].
        destruct (opts (fun s => x_simple sg (c_R st) s (c_G st)) args) as [vs|] eqn:EO; [|reflexivity].
        rewrite (opts_len _ _ _ EO). fold n. rewrite Nat.eqb_refl. unfold act. rewrite NA. eexists; split; [reflexivity|]. cbn. auto.
    Qed.
  End Call.

  Lemma save_ok : forall sg live acc st rest, rel (fun _ => True) sg (c_env st) -> forallb (fun x => mem x U) live = true ->
    execs (a_save gs acc live ++ rest) st =
    match opts (fun x => lookup x sg) live with
    | Some vs => match save acc vs (c_R st) with
                 | Some R1 => execs rest (mkC (c_env st) R1 (c_G st) (c_conts st) (c_sp st) (c_act st))
                 | None => None
                 end
    | None => None
    end.
  Proof.
    induction live as [|x l IH]; intros acc st rest RL H; cbn [a_save app opts].
    - destruct st; reflexivity.
    - cbn [forallb] in H. apply andb_true_iff in H as [H1 H2]. cbn [c_execs c_exec].
      rewrite (frame_ok _ sg _ RL), natural_anum, (var_eval _ sg _ (c_R st) (c_G st) res RL x H1 I).
      destruct (lookup x sg) as [v|]; [|reflexivity]. unfold set_slot.
      destruct (acc <? List.length (c_R st)) eqn:L.
      + rewrite (IH (acc + 1) _ rest) by assumption. cbn [c_env c_R c_G c_conts c_sp c_act].
        destruct (opts (fun x => lookup x sg) l) as [vs|]; [|reflexivity]. cbn [save]. rewrite L. now rewrite Nat.add_1_r.
      + destruct (opts (fun x => lookup x sg) l) as [vs|]; [|reflexivity]. cbn [save]. now rewrite L.
  Qed.

  Lemma x_simple_hd : forall sg R R1 s G, hd_error R = hd_error R1 -> x_simple sg R s G = x_simple sg R1 s G.
  Proof.
    intros sg R R1 s G H. destruct s; cbn [x_simple]; try reflexivity.
    - now apply captured_hd.
    - rewrite (opts_ext (free_x sg R) (free_x sg R1)); [reflexivity|]. intros a _. destruct a; cbn [free_x]; try reflexivity. now apply captured_hd.
  Qed.
  Lemma same_true : forall w : lval, same_word VTrue w = Some (match w with VTrue => true | _ => false end).
  Proof. intros []; reflexivity. Qed.

  Lemma mentions_not : forall x s, mentions x s = false -> known (fun y => y <> x) s.
  Proof. intros x s H y Hy ->. congruence. Qed.

  Lemma do_effect : forall sg st s, rel (fun _ => True) sg (c_env st) -> simple_ok globals nfuns U s = true ->
    c_effect d table res st (a_simple gs globals s) = None.
  Proof.
    intros sg st s RL H. destruct s; try discriminate; try reflexivity.
    - destruct s; try discriminate; try reflexivity; unfold a_simple, a_flat, a_const, c_effect.
      + cbn [is_co]. now rewrite andb_false_r.
      + cbn [is_co agc]. now rewrite andb_false_r.
    - unfold a_simple, a_flat, c_effect. destruct (free (c_env st) "globalRef" && is_co (c_env st) aco); reflexivity.
    - unfold a_simple, a_flat, c_effect. cbn [is_co]. now rewrite andb_false_r.
    - unfold a_simple, c_effect. cbn [is_co agc]. now rewrite andb_false_r.
  Qed.

  Lemma stm_sem : forall self t seen sg st s0 r0, self < nfuns -> stm_ok globals nfuns U seen t = true ->
    c_env st = s0 :: r0 -> rel (fun _ => True) sg (c_env st) -> fresh_scope seen s0 ->
    c_conts st = [] -> c_act st = None ->
    agrees (c_R st) self (execs (a_stm gs globals self t) st) (block ar sg (c_R st) t (c_G st)).
  Proof.
    induction t; intros seen sg st s0 r0 SF H ENV RL FR NC NA; cbn [stm_ok] in H; try discriminate; cbn [a_stm block].
    - (* return *)
      cbn [c_execs c_exec c_effect]. rewrite (free_outer _ sg _ RL "coraReturn" eq_refl), (co_ok _ sg _ RL).
      change (String.eqb "coraReturn" "coraReturn") with true. cbn [andb].
      rewrite (simple_eval _ sg _ (c_R st) (c_G st) res RL s H (all_known sg s)).
      destruct (x_simple sg (c_R st) s (c_G st)) as [v|]; cbn [agrees].
      + unfold act. rewrite NA. eexists; split; [reflexivity|]. cbn. auto.
      + cbn [c_eval]. rewrite (free_outer _ sg _ RL "coraReturn" eq_refl). reflexivity.
    - (* tail call *)
      apply andb_true_iff in H as [H1 H2].
      cbn [c_execs]. cbn [c_exec]. rewrite (co_ok _ sg _ RL), (frame_ok _ sg _ RL).
      change (String.eqb "ctx" "ctx") with true. change (String.eqb "sp" "sp") with true. cbn [andb].
      pose proof (call_ok sg (mkC (c_env st) (c_R st) (c_G st) (c_conts st) true (c_act st)) s0 r0 ENV RL (proj1 FR) NA f args H1 H2) as C.
      cbn [c_R c_G c_conts c_sp c_act c_env] in C.
      destruct (x_simple sg (c_R st) f (c_G st)) as [fv|]; [|exact C].
      destruct (opts (fun s => x_simple sg (c_R st) s (c_G st)) args) as [vs|]; [|exact C].
      destruct C as (st1 & E & A1 & A2 & A3 & A4). cbn [agrees]. exists st1. rewrite A3, A4. auto.
    - (* call *)
      apply andb_true_iff in H as [H H3]. apply andb_true_iff in H as [H1 H2].
      rewrite (save_ok sg live 1 st _ RL H3).
      destruct (opts (fun x => lookup x sg) live) as [saved|]; [|reflexivity].
      destruct (save 1 saved (c_R st)) as [R1|] eqn:SV.
      + cbn [c_execs]. cbn [c_exec c_effect c_env]. rewrite (free_outer _ sg _ RL "saveCont" eq_refl), (co_ok _ sg _ RL), (frame_ok _ sg _ RL).
        change (String.eqb "saveCont" "coraReturn") with false. change (String.eqb "saveCont" "saveCont") with true. cbn [andb].
        unfold fun_name, afun, free. destruct RL as ((RA & RB & RC & RD) & RE). rewrite RD, (AD self SF), natural_anum.
        assert (RL : rel (fun _ => True) sg (c_env st)) by (split; [repeat split; assumption|assumption]).
        cbn [c_env c_R c_G c_conts c_sp c_act]. rewrite NC.
        pose proof (call_ok sg (mkC (c_env st) R1 (c_G st) [(self, label, R1)] (c_sp st) (c_act st)) s0 r0 ENV RL (proj1 FR) NA f args H1 H2) as C.
        cbn [c_R c_G c_conts c_sp c_act c_env] in C.
        pose proof (save_hd _ _ _ _ (le_n 1) SV) as HD.
        rewrite (x_simple_hd sg R1 (c_R st) f _ HD) in C.
        rewrite (opts_ext (fun s => x_simple sg R1 s (c_G st)) (fun s => x_simple sg (c_R st) s (c_G st)) args
                   (fun s _ => x_simple_hd sg R1 (c_R st) s _ HD)) in C.
        destruct (x_simple sg (c_R st) f (c_G st)) as [fv|]; [|exact C].
        destruct (opts (fun s => x_simple sg (c_R st) s (c_G st)) args) as [vs|]; [|exact C].
        cbn [agrees]. rewrite SV. destruct C as (st1 & E & A1 & A2 & A3 & A4). exists st1. auto.
      + destruct (x_simple sg (c_R st) f (c_G st)) as [fv|]; [|reflexivity].
        destruct (opts (fun s => x_simple sg (c_R st) s (c_G st)) args) as [vs|]; [|reflexivity].
        cbn [agrees]. now rewrite SV.
    - (* let *)
      apply andb_true_iff in H as [H H5]. apply andb_true_iff in H as [H H4]. apply andb_true_iff in H as [H H3]. apply andb_true_iff in H as [H1 H2].
      apply negb_true_iff in H2. apply negb_true_iff in H4.
      cbn [c_execs]. cbn [c_exec obj t_name t_stars]. change (String.eqb "Obj" "Obj" && (0 =? 0)) with true. cbn iota.
      unfold declare. rewrite ENV in *. rewrite (proj2 FR x H1 H2).
      rewrite (init_eval (fun y => y <> x) sg _ (c_R st) (c_G st) res (rel_raw x CRaw s0 r0 sg H1 RL) s H3 (mentions_not x s H4)).
      destruct (x_simple sg (c_R st) s (c_G st)) as [v|]; [|reflexivity].
      eapply (IHt (x :: seen) ((x, v) :: sg) (mkC (((cid gs x, CObj v) :: s0) :: r0) (c_R st) (c_G st) (c_conts st) (c_sp st) (c_act st)));
        [exact SF|exact H5|reflexivity|apply rel_bind; assumption|apply fresh_add; assumption|exact NC|exact NA].
    - (* primitive *)
      apply andb_true_iff in H as [H H6]. apply andb_true_iff in H as [H H5]. apply andb_true_iff in H as [H H4]. apply andb_true_iff in H as [H H3]. apply andb_true_iff in H as [H1 H2].
      apply negb_true_iff in H2. apply negb_true_iff in H4.
      cbn [c_execs]. cbn [c_exec obj t_name t_stars]. change (String.eqb "Obj" "Obj" && (0 =? 0)) with true. cbn iota.
      unfold declare. rewrite ENV in *. rewrite (proj2 FR x H1 H2).
      rewrite (prim_init (fun y => y <> x) sg _ (c_R st) (c_G st) res (rel_raw x CRaw s0 r0 sg H1 RL) p args H3).
      2:{ intros s Is. apply mentions_not. destruct (mentions x s) eqn:E; [|reflexivity].
          rewrite <- H4. symmetry. apply existsb_exists. eauto. }
      destruct (opts (fun s => x_simple sg (c_R st) s (c_G st)) args) as [vs|]; [|reflexivity].
      destruct (prim_sem ar p vs (c_G st)) as [(v, G1)|]; [|reflexivity].
      eapply (IHt (x :: seen) ((x, v) :: sg) (mkC (((cid gs x, CObj v) :: s0) :: r0) (c_R st) G1 (c_conts st) (c_sp st) (c_act st)));
        [exact SF|exact H6|reflexivity|apply rel_bind; assumption|apply fresh_add; assumption|exact NC|exact NA].
    - (* if *)
      apply andb_true_iff in H as [H H3]. apply andb_true_iff in H as [H1 H2].
      cbn [c_execs]. rewrite exec_if.
      rewrite (simple_eval _ sg _ (c_R st) (c_G st) res RL s H1 (all_known sg s)).
      change (c_eval d table res (c_env st) (c_R st) (c_G st) (XId "True")) with
        (c_eval d table res (c_env st) (c_R st) (c_G st) (a_const globals STrue)).
      rewrite (const_eval _ sg _ (c_R st) (c_G st) res RL STrue eq_refl). cbn [has_text quoted].
      assert (W : forall o x, agrees (c_R st) self o x ->
        agrees (c_R st) self (match o with Some (true, s1) => Some (true, s1) | Some (false, s1) => Some (false, s1) | None => None end) x).
      { intros o x0 A. destruct o as [[[] ?]|]; exact A. }
      assert (A : forall l t0, stm_ok globals nfuns U [] t0 = true ->
        (forall seen sg st s0 r0, self < nfuns -> stm_ok globals nfuns U seen t0 = true -> c_env st = s0 :: r0 -> rel (fun _ => True) sg (c_env st) ->
           fresh_scope seen s0 -> c_conts st = [] -> c_act st = None -> agrees (c_R st) self (execs l st) (block ar sg (c_R st) t0 (c_G st))) ->
        agrees (c_R st) self (blk l st) (block ar sg (c_R st) t0 (c_G st))).
      { intros l t0 Ht IH. apply agrees_blk.
        apply (IH [] sg (with_env st ([] :: c_env st)) [] (c_env st) SF Ht eq_refl (rel_block _ _ _ RL) fresh_nil NC NA). }
      destruct (x_simple sg (c_R st) s (c_G st)) as [v|]; [|reflexivity]. rewrite same_true.
      destruct v; apply W; first [apply (A _ t1 H2 IHt1)|apply (A _ t2 H3 IHt2)].
    - (* do *)
      apply andb_true_iff in H as [H1 H2]. cbn [c_execs]. cbn [c_exec]. rewrite (do_effect sg st s RL H1).
      rewrite (simple_eval _ sg _ (c_R st) (c_G st) res RL s H1 (all_known sg s)).
      destruct (x_simple sg (c_R st) s (c_G st)) as [v|]; [|reflexivity]. now apply (IHt seen sg st s0 r0).
  Qed.
End Sem.
