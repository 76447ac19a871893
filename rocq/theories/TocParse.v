(** parse preserves meaning: the answer of the source evaluator is what the
    parsed expression gives. *)
From Coq Require Import List ZArith Bool String Arith Lia.
From Verif Require Import CoreSpec CoreProofs TocModel TocSem TocClosure TocTail.
Import ListNotations.
Local Open Scope list_scope.
Local Open Scope nat_scope.

(** * What is asked of the source

    Symbols made by gensym in the source are older than the counter [n0];
    local variables are not called like a primitive; a primitive in operator
    position is given exactly the arguments it takes. *)
Definition binder_ok (n0 : nat) (x : name) : bool :=
  older n0 x && match prim_of x with None => true | Some _ => false end.

Fixpoint src_ok (n0 : nat) (fuel : nat) (e : sexp) : bool :=
  match fuel with
  | O => false
  | S k =>
      match view e with
      | FConst _ => true
      | FVar x => older n0 x
      | FLam ps b => forallb (binder_ok n0) ps && src_ok n0 k b
      | FIf a b c => src_ok n0 k a && src_ok n0 k b && src_ok n0 k c
      | FDo a b => src_ok n0 k a && src_ok n0 k b
      | FLet x b c => binder_ok n0 x && src_ok n0 k b && src_ok n0 k c
      | FApp f args =>
          match match f with SSym x => prim_of x | _ => None end with
          | Some p => prim_arity p =? List.length args
          | None => src_ok n0 k f
          end && forallb (src_ok n0 k) args
      | FBad => false
      end
  end.

(** * Running only moves the settings of global variables forward *)
Definition grows {C} (G G' : store C) : Prop :=
  forall x, g_ver G x <= g_ver G' x /\ (g_ver G x = g_ver G' x -> g_val G' x = g_val G x).

Lemma grows_refl : forall {C} (G : store C), grows G G.
Proof. intros C G x. auto. Qed.
Lemma grows_trans : forall {C} (G1 G2 G3 : store C), grows G1 G2 -> grows G2 G3 -> grows G1 G3.
Proof.
  intros C G1 G2 G3 H1 H2 x. destruct (H1 x) as (A1 & B1). destruct (H2 x) as (A2 & B2). split; [lia|].
  intro E. rewrite B2, B1 by lia. reflexivity.
Qed.

Lemma prim_grows : forall {C} ar p args (G : store C) v G', prim_sem ar p args G = Some (v, G') -> grows G G'.
Proof.
  intros C ar p args G v G' E.
  assert (Q : forall (o : option (val C)), match o with Some v => Some (v, G) | None => None end = Some (v, G') -> grows G G').
  { intros [w|] Ew; [|discriminate]. injection Ew as _ <-. apply grows_refl. }
  destruct p; destruct args as [|a [|b [|c l]]]; cbn in E; try discriminate;
    repeat match type of E with
    | match ?X with _ => _ end = _ => destruct X; try discriminate
    end;
    try (injection E as _ <-; apply grows_refl);
    injection E as _ <-; intro y; cbn; try (auto; fail).
  destruct (name_eqb y x); split; auto. intro K. exfalso. lia.
Qed.

Lemma apply_grows : forall {C} ar (arity : C -> nat) run n f args (G : store C) v G',
  (forall c vs args G v G', run c vs args G = Some (v, G') -> grows G G') ->
  apply ar arity run n f args G = Some (v, G') -> grows G G'.
Proof.
  intros C ar arity run n. induction n as [|n IH]; intros f args G v G' HR E; [discriminate|]. cbn [apply] in E.
  destruct (need arity f) as [rq|]; [|discriminate].
  destruct (List.length args <? rq); [injection E as _ <-; apply grows_refl|].
  destruct (exact ar run f (firstn rq args) G) as [(w, G1)|] eqn:Ex; [|discriminate].
  assert (X : grows G G1).
  { clear - HR Ex. revert Ex. generalize (firstn rq args). induction f; intros l Ex; cbn in Ex; try discriminate; eauto using prim_grows. }
  destruct (skipn rq args) as [|y l]; [injection E as _ <-; exact X|].
  eapply grows_trans; [exact X|eapply IH; eauto].
Qed.

(** an operand whose provenance is right, now or later *)
Definition fresh (G : store scode) (a : operand) : Prop :=
  match a_from a with
  | None => True
  | Some (x, k) => g_ver G x = k /\ g_val G x = Some (a_val a)
  end.
Definition tracked (G : store scode) (a : operand) : Prop :=
  match a_from a with
  | None => True
  | Some (x, k) => k <= g_ver G x /\ (g_ver G x = k -> g_val G x = Some (a_val a))
  end.
Lemma fresh_tracked : forall G a, fresh G a -> tracked G a.
Proof. intros G a. unfold fresh, tracked. destruct (a_from a) as [(x, k)|]; [|auto]. intros (<- & H). auto. Qed.
Lemma tracked_grows : forall G G' a, grows G G' -> tracked G a -> tracked G' a.
Proof.
  intros G G' a HG. unfold tracked. destruct (a_from a) as [(x, k)|]; [|auto]. intros (L & H).
  destruct (HG x) as (A & B). split; [lia|]. intro E. rewrite B by lia. apply H. lia.
Qed.

Lemma eval_props : forall ar strict n rho e G a G', eval ar strict n rho e G = Some (a, G') -> grows G G' /\ fresh G' a.
Proof.
  intros ar strict n. induction n as [|n IH]; intros rho e G a G' E; [discriminate|].
  assert (RES : forall rho e G v G1, result (eval ar strict n rho e G) = Some (v, G1) -> grows G G1).
  { intros rho0 e0 G0 v G1 E0. unfold result in E0. destruct (eval ar strict n rho0 e0 G0) as [(b, G2)|] eqn:E1; [|discriminate].
    injection E0 as _ <-. eapply IH; eauto. }
  assert (ARGS : forall rho l G la G1, ev_args (eval ar strict n rho) l G = Some (la, G1) -> grows G G1).
  { intros rho0 l. induction l as [|e0 l IHl]; intros G0 la G1 E0; cbn in E0; [injection E0 as _ <-; apply grows_refl|].
    destruct (eval ar strict n rho0 e0 G0) as [(b, G2)|] eqn:E1; [|discriminate].
    destruct (ev_args (eval ar strict n rho0) l G2) as [(lb, G3)|] eqn:E2; [|discriminate]. injection E0 as _ <-.
    eapply grows_trans; [eapply IH; eauto|eauto]. }
  assert (CALL : forall f args G0, match use strict f G0, use_all strict args G0 with
        | Some f, Some args =>
            match apply ar (fun c => List.length (sc_ps c)) (fun c vs args G => result (eval ar strict n (combine (sc_ps c) args ++ combine (sc_env c) vs) (sc_body c) G)) n f args G0 with
            | Some (v, G1) => Some (value v, G1)
            | None => None
            end
        | _, _ => None
        end = Some (a, G') -> grows G0 G' /\ fresh G' a).
  { intros f args G0 E0. destruct (use strict f G0); [|discriminate]. destruct (use_all strict args G0); [|discriminate].
    match type of E0 with match ?X with _ => _ end = _ => destruct X as [(vv, G5)|] eqn:E5; [|discriminate] end.
    injection E0 as <- <-. split; [|exact I]. eapply apply_grows; [|exact E5]. intros c0 vs0 args0 G6 w0 G7 E6. exact (RES _ _ _ _ _ E6). }
  cbn [eval] in E. destruct (view e).
  - injection E as <- <-. split; [apply grows_refl|exact I].
  - destruct (lookup x rho); [injection E as <- <-; split; [apply grows_refl|exact I]|].
    destruct (g_val G x) as [v|] eqn:Ev; [|discriminate]. injection E as <- <-. split; [apply grows_refl|].
    cbn. auto.
  - injection E as <- <-. split; [apply grows_refl|exact I].
  - destruct (result (eval ar strict n rho a0 G)) as [(t, G1)|] eqn:E1; [|discriminate]. pose proof (RES _ _ _ _ _ E1) as R1.
    assert (X : eval ar strict n rho b G1 = Some (a, G') \/ eval ar strict n rho c G1 = Some (a, G')) by (destruct t; auto).
    destruct X as [X|X]; apply IH in X; destruct X; (split; [|assumption]); eapply grows_trans; eauto.
  - destruct (result (eval ar strict n rho a0 G)) as [(t, G1)|] eqn:E1; [|discriminate]. pose proof (RES _ _ _ _ _ E1) as R1.
    apply IH in E; destruct E; (split; [|assumption]); eapply grows_trans; eauto.
  - destruct (result (eval ar strict n rho b G)) as [(t, G1)|] eqn:E1; [|discriminate]. pose proof (RES _ _ _ _ _ E1) as R1.
    apply IH in E; destruct E; (split; [|assumption]); eapply grows_trans; eauto.
  - destruct (op_prim rho f).
    + destruct (ev_args (eval ar strict n rho) args G) as [(l, G1)|] eqn:E1; [|discriminate].
      apply CALL in E. destruct E. split; [|assumption]. eapply grows_trans; eauto.
    + destruct (eval ar strict n rho f G) as [(b, G1)|] eqn:E0; [|discriminate].
      destruct (ev_args (eval ar strict n rho) args G1) as [(l, G2)|] eqn:E1; [|discriminate].
      apply CALL in E. destruct E. split; [|assumption]. eapply grows_trans; [eapply IH; eauto|eapply grows_trans; eauto].
  - discriminate.
Qed.

Lemma ev_args_props : forall ar strict n rho l G la G', ev_args (eval ar strict n rho) l G = Some (la, G') ->
  grows G G' /\ Forall (tracked G') la.
Proof.
  intros ar strict n rho l. induction l as [|e l IH]; intros G la G' E; cbn in E.
  - injection E as <- <-. split; [apply grows_refl|constructor].
  - destruct (eval ar strict n rho e G) as [(b, G2)|] eqn:E1; [|discriminate].
    destruct (ev_args (eval ar strict n rho) l G2) as [(lb, G3)|] eqn:E2; [|discriminate]. injection E as <- <-.
    destruct (eval_props _ _ _ _ _ _ _ _ E1) as (A & B). destruct (IH _ _ _ E2) as (A2 & B2).
    split; [eapply grows_trans; eauto|]. constructor; [|exact B2].
    eapply tracked_grows; [exact A2|]. now apply fresh_tracked.
Qed.

(** A run that is never stuck on a reset global is a run of the language. *)
Theorem strict_run : forall ar n rho e G r, eval ar true n rho e G = Some r -> eval ar false n rho e G = Some r.
Proof.
  assert (USE : forall (a : operand) G v, use true a G = Some v -> use false a G = Some v).
  { intros a G v. unfold use. destruct (a_from a) as [(x, k)|]; [|auto]. destruct (true && _); [discriminate|auto]. }
  assert (USES : forall (l : list operand) G vs, use_all true l G = Some vs -> use_all false l G = Some vs).
  { induction l as [|a l IH]; intros G vs E; cbn in *; [auto|]. destruct (use true a G) as [v|] eqn:E1; [|discriminate].
    rewrite (USE _ _ _ E1). destruct (use_all true l G) as [ws|] eqn:E2; [|discriminate]. now rewrite (IH _ _ E2). }
  assert (EX : forall {C} ar (run1 run2 : C -> list (val C) -> list (val C) -> store C -> option (val C * store C)) f args G r,
     (forall c vs args G r, run1 c vs args G = Some r -> run2 c vs args G = Some r) ->
     exact ar run1 f args G = Some r -> exact ar run2 f args G = Some r).
  { intros C ar run1 run2 f. induction f; intros l G r H E; cbn in *; auto. }
  assert (AP : forall {C} ar (arity : C -> nat) (run1 run2 : C -> list (val C) -> list (val C) -> store C -> option (val C * store C)) n f args G r,
     (forall c vs args G r, run1 c vs args G = Some r -> run2 c vs args G = Some r) ->
     apply ar arity run1 n f args G = Some r -> apply ar arity run2 n f args G = Some r).
  { intros C ar arity run1 run2 n. induction n as [|n IH]; intros f args G r H E; [discriminate|]. cbn [apply] in *.
    destruct (need arity f); [|discriminate]. destruct (List.length args <? n0); [auto|].
    destruct (exact ar run1 f (firstn n0 args) G) as [(v, G1)|] eqn:E1; [|discriminate].
    rewrite (EX _ _ _ _ _ _ _ _ H E1). destruct (skipn n0 args); [auto|]. eauto. }
  intros ar n. induction n as [|n IH]; intros rho e G r E; [discriminate|].
  assert (RES : forall rho e G r, result (eval ar true n rho e G) = Some r -> result (eval ar false n rho e G) = Some r).
  { intros rho0 e0 G0 r0 E0. unfold result in *. destruct (eval ar true n rho0 e0 G0) as [p|] eqn:E1; [|discriminate].
    now rewrite (IH _ _ _ _ E1). }
  assert (ARGS : forall rho l G r, ev_args (eval ar true n rho) l G = Some r -> ev_args (eval ar false n rho) l G = Some r).
  { intros rho0 l. induction l as [|e0 l IHl]; intros G0 r0 E0; cbn in *; [auto|].
    destruct (eval ar true n rho0 e0 G0) as [(b, G2)|] eqn:E1; [|discriminate]. rewrite (IH _ _ _ _ E1).
    destruct (ev_args (eval ar true n rho0) l G2) as [(lb, G3)|] eqn:E2; [|discriminate]. now rewrite (IHl _ _ E2). }
  assert (CALL : forall f args G0 r,
     match use true f G0, use_all true args G0 with
        | Some f, Some args =>
            match apply ar (fun c => List.length (sc_ps c)) (fun c vs args G => result (eval ar true n (combine (sc_ps c) args ++ combine (sc_env c) vs) (sc_body c) G)) n f args G0 with
            | Some (v, G1) => Some (value v, G1)
            | None => None
            end
        | _, _ => None
        end = Some r ->
     match use false f G0, use_all false args G0 with
        | Some f, Some args =>
            match apply ar (fun c => List.length (sc_ps c)) (fun c vs args G => result (eval ar false n (combine (sc_ps c) args ++ combine (sc_env c) vs) (sc_body c) G)) n f args G0 with
            | Some (v, G1) => Some (value v, G1)
            | None => None
            end
        | _, _ => None
        end = Some r).
  { intros f args G0 r0 E0. destruct (use true f G0) as [fv|] eqn:E1; [|discriminate]. rewrite (USE _ _ _ E1).
    destruct (use_all true args G0) as [vs|] eqn:E2; [|discriminate]. rewrite (USES _ _ _ E2).
    match type of E0 with match ?X with _ => _ end = _ => destruct X as [(v, G5)|] eqn:E5; [|discriminate] end.
    match goal with |- match ?Y with _ => _ end = _ => assert (Y = Some (v, G5)) as -> end; [|exact E0].
    eapply AP; [|exact E5]. intros c0 vs0 args0 G6 r6 E6. exact (RES _ _ _ _ E6). }
  cbn [eval] in *. destruct (view e); auto.
  - destruct (result (eval ar true n rho a G)) as [(t, G1)|] eqn:E1; [|discriminate]. rewrite (RES _ _ _ _ E1).
    destruct t; auto.
  - destruct (result (eval ar true n rho a G)) as [(t, G1)|] eqn:E1; [|discriminate]. rewrite (RES _ _ _ _ E1). auto.
  - destruct (result (eval ar true n rho b G)) as [(t, G1)|] eqn:E1; [|discriminate]. rewrite (RES _ _ _ _ E1). auto.
  - destruct (op_prim rho f).
    + destruct (ev_args (eval ar true n rho) args G) as [(l, G1)|] eqn:E1; [|discriminate]. rewrite (ARGS _ _ _ _ E1). auto.
    + destruct (eval ar true n rho f G) as [(b, G1)|] eqn:E0; [|discriminate]. rewrite (IH _ _ _ _ E0).
      destruct (ev_args (eval ar true n rho) args G1) as [(l, G2)|] eqn:E1; [|discriminate]. rewrite (ARGS _ _ _ _ E1). auto.
Qed.

(** * Inverting parse *)
Lemma parse_list_app : forall ps st x r es st', parse_list ps st (x :: r) = Some (es, st') ->
  exists e st1 es1, ps st x = Some (e, st1) /\ parse_list ps st1 r = Some (es1, st') /\ es = e :: es1.
Proof.
  intros ps st x r es st' E. cbn in E. destruct (ps st x) as [(e, st1)|]; [|discriminate].
  destruct (parse_list ps st1 r) as [(es1, st2)|] eqn:E2; [|discriminate]. injection E as <- <-. eauto 7.
Qed.
Lemma parse_list_nil : forall ps st es st', parse_list ps st [] = Some (es, st') -> es = [] /\ st' = st.
Proof. intros ps st es st' E. cbn in E. injection E as <- <-. auto. Qed.

Lemma parse_gen_var : forall k env st i e st', parse k env st (SSym (NG i)) = Some (e, st') -> In (NG i) env ->
  e = EVar (NG i) /\ st' = st.
Proof.
  intros [|k] env st i e st' E H; [discriminate|]. cbn in E.
  destruct (mem_spec (NG i) env); [|contradiction]. injection E as <- <-. auto.
Qed.

Lemma parse_let_gen : forall k env st i b c x st',
  parse (S k) env st (of_list [ssym "let"; SSym (NG i); b; c]) = Some (x, st') ->
  exists eb st1 ec, parse k env st b = Some (eb, st1) /\ parse k (NG i :: env) st1 c = Some (ec, st') /\ x = ELet (NG i) eb ec.
Proof.
  intros k env st i b c x st' E. cbn in E.
  destruct (parse k env st b) as [(eb, st1)|]; [|discriminate].
  destruct (parse k (NG i :: env) st1 c) as [(ec, st2)|] eqn:E2; [|discriminate]. injection E as <- <-. eauto 7.
Qed.
Lemma parse_lam_gen : forall k env st i b x st',
  parse (S k) env st (of_list [ssym "lambda"; of_list [SSym (NG i)]; b]) = Some (x, st') ->
  exists eb, parse k (NG i :: env) st b = Some (eb, st') /\ x = ELam [NG i] eb.
Proof.
  intros k env st i b x st' E. cbn in E.
  destruct (parse k (NG i :: env) st b) as [(eb, st1)|]; [|discriminate]. injection E as <- <-. eauto.
Qed.
Lemma slist_of_list : forall l, slist (of_list l) = Some l.
Proof. induction l as [|a l IH]; cbn; [reflexivity|]. now rewrite IH. Qed.
Lemma parse_app_gen : forall k env st i r x st', In (NG i) env ->
  parse (S k) env st (of_list (SSym (NG i) :: r)) = Some (x, st') ->
  exists es, parse_list (parse k env) st r = Some (es, st') /\ x = EApp (EVar (NG i)) es.
Proof.
  intros k env st i r x st' HI E. cbn [parse of_list] in E.
  change (slist (SCons (SSym (NG i)) (of_list r))) with (slist (of_list (SSym (NG i) :: r))) in E.
  rewrite slist_of_list in E. cbn [is_sym name_eqb headed andb prim_of] in E.
  destruct (parse_list (parse k env) st (SSym (NG i) :: r)) as [(es, st1)|] eqn:E1; [|discriminate].
  apply parse_list_app in E1. destruct E1 as (e & st2 & es1 & A & B & ->).
  injection E as <- <-. apply parse_gen_var in A; [|exact HI]. destruct A as (-> & ->). eauto.
Qed.
Lemma parse_if_gen : forall k env st i a b x st', In (NG i) env ->
  parse (S k) env st (of_list [ssym "if"; SSym (NG i); a; b]) = Some (x, st') ->
  exists ea st1 eb, parse k env st a = Some (ea, st1) /\ parse k env st1 b = Some (eb, st') /\ x = EIf (EVar (NG i)) ea eb.
Proof.
  intros k env st i a b x st' HI E. cbn [parse of_list] in E.
  change (slist (SCons (ssym "if") (SCons (SSym (NG i)) (SCons a (SCons b SNil))))) with (Some [ssym "if"; SSym (NG i); a; b]) in E.
  cbn -[parse_list parse] in E.
  destruct (parse_list (parse k env) st [SSym (NG i); a; b]) as [(es, st1)|] eqn:E1; [|discriminate].
  apply parse_list_app in E1. destruct E1 as (e1 & s1 & es1 & A1 & E1 & ->).
  apply parse_list_app in E1. destruct E1 as (e2 & s2 & es2 & A2 & E1 & ->).
  apply parse_list_app in E1. destruct E1 as (e3 & s3 & es3 & A3 & E1 & ->).
  apply parse_list_nil in E1. destruct E1 as (-> & ->). injection E as <- <-.
  apply parse_gen_var in A1; [|exact HI]. destruct A1 as (-> & ->). eauto 7.
Qed.

(** the rewritten forms *)
Lemma parse_nested_if : forall k env st i j c a b x st',
  parse k env st (of_list [ssym "let"; SSym (NG i);
     of_list [ssym "lambda"; of_list [SSym (NG j)]; of_list [ssym "if"; SSym (NG j); a; b]]; of_list [SSym (NG i); c]]) = Some (x, st') ->
  exists k1 k2 ea eb ec st1 st2,
    parse k1 (NG j :: env) st a = Some (ea, st1) /\ parse k1 (NG j :: env) st1 b = Some (eb, st2) /\
    parse k2 (NG i :: env) st2 c = Some (ec, st') /\
    x = ELet (NG i) (ELam [NG j] (EIf (EVar (NG j)) ea eb)) (EApp (EVar (NG i)) [ec]).
Proof.
  intros k env st i j c a b x st' E. destruct k as [|k]; [discriminate|].
  apply parse_let_gen in E. destruct E as (eb & st1 & ec & E1 & E2 & ->).
  destruct k as [|k]; [discriminate|]. apply parse_lam_gen in E1. destruct E1 as (b' & E1 & ->).
  destruct k as [|k].
  - discriminate.
  - apply parse_if_gen in E1; [|now left]. destruct E1 as (ea & st2 & eb' & A & B & ->).
    apply parse_app_gen in E2; [|now left]. destruct E2 as (es & E2 & ->).
    apply parse_list_app in E2. destruct E2 as (e1 & s1 & es1 & A1 & E2 & ->).
    apply parse_list_nil in E2. destruct E2 as (-> & ->).
    exists k, (S k), ea, eb', e1, st2, st1. auto.
Qed.
Lemma parse_redex_if : forall k env st i h r x st',
  parse k env st (of_list [ssym "let"; SSym (NG i); h; of_list (SSym (NG i) :: r)]) = Some (x, st') ->
  exists k1 k2 eh st1 es,
    parse k1 env st h = Some (eh, st1) /\ parse_list (parse k2 (NG i :: env)) st1 r = Some (es, st') /\
    x = ELet (NG i) eh (EApp (EVar (NG i)) es).
Proof.
  intros k env st i h r x st' E. destruct k as [|k]; [discriminate|].
  apply parse_let_gen in E. destruct E as (eb & st1 & ec & E1 & E2 & ->).
  destruct k as [|k]; [discriminate|].
  apply parse_app_gen in E2; [|now left]. destruct E2 as (es & E2 & ->).
  exists (S k), k, eb, st1, es. auto.
Qed.

(** the counter only goes up *)
Lemma parse_list_mono : forall ps l, (forall st x e st', In x l -> ps st x = Some (e, st') -> p_gen st <= p_gen st') ->
  forall st es st', parse_list ps st l = Some (es, st') -> p_gen st <= p_gen st'.
Proof.
  intros ps l. induction l as [|x l IH]; intros H st es st' E.
  - apply parse_list_nil in E. destruct E as (_ & ->). lia.
  - apply parse_list_app in E. destruct E as (e & st1 & es1 & A & B & _).
    apply H in A; [|now left]. apply IH in B; [lia|]. intros st0 y e0 st0' Hy E0. exact (H _ _ _ _ (or_intror Hy) E0).
Qed.
Lemma add_symbol_gen : forall s st, p_gen (add_symbol s st) = p_gen st.
Proof. intros s st. unfold add_symbol. destruct (existsb _ _); reflexivity. Qed.

Lemma parse_mono : forall k env st x e st', parse k env st x = Some (e, st') -> p_gen st <= p_gen st'.
Proof.
  induction k as [|k IH]; intros env st x e st' E; [discriminate|].
  assert (PL : forall env l st es st', parse_list (parse k env) st l = Some (es, st') -> p_gen st <= p_gen st').
  { intros env0 l st0 es st0' E0. eapply parse_list_mono; [|exact E0]. intros. eapply IH; eauto. }
  cbn [parse] in E. destruct x; try (injection E as _ <-; lia).
  - destruct (mem x env); injection E as _ <-; [lia|rewrite add_symbol_gen; lia].
  - destruct (slist (SCons x1 x2)) as [[|h r]|]; try discriminate.
    destruct (is_sym "quote" h).
    { destruct r as [|c [|? ?]]; try discriminate. injection E as _ <-. rewrite add_symbol_gen. lia. }
    destruct (is_sym "lambda" h).
    { destruct r as [|ps [|b [|? ?]]]; try discriminate. destruct (names_of ps) as [xs|]; [|discriminate].
      destruct (existsb reserved xs); [discriminate|].
      destruct (parse k (xs ++ env) st b) as [(eb, st1)|] eqn:E1; [|discriminate]. injection E as _ <-. eauto. }
    destruct (is_sym "if" h).
    { destruct r as [|c [|a [|b [|? ?]]]]; try discriminate. destruct (headed "if" c).
      - apply IH in E. cbn [p_gen] in E. lia.
      - destruct (parse_list (parse k env) st [c; a; b]) as [(es, st1)|] eqn:E1; [|discriminate].
        destruct es as [|? [|? [|? [|? ?]]]]; try discriminate. injection E as _ <-. eauto. }
    destruct (is_sym "do" h).
    { destruct r as [|a [|b [|? ?]]]; try discriminate.
      destruct (parse_list (parse k env) st [a; b]) as [(es, st1)|] eqn:E1; [|discriminate].
      destruct es as [|? [|? [|? ?]]]; try discriminate. injection E as _ <-. eauto. }
    destruct (is_sym "let" h).
    { destruct r as [|y [|b [|c [|? ?]]]]; try discriminate; destruct y; try discriminate.
      destruct (reserved x); [discriminate|].
      destruct (parse k env st b) as [(eb, st1)|] eqn:E1; [|discriminate].
      destruct (parse k (x :: env) st1 c) as [(ec, st2)|] eqn:E2; [|discriminate]. injection E as _ <-.
      apply IH in E1. apply IH in E2. lia. }
    destruct (headed "lambda" h && match r with [a] => headed "if" a | _ => false end).
    { apply IH in E. cbn [p_gen] in E. lia. }
    destruct (match h with SSym s => prim_of s | _ => None end) as [p|].
    { destruct (prim_arity p =? List.length r).
      - destruct (parse_list (parse k env) st r) as [(es, st1)|] eqn:E1; [|discriminate]. injection E as _ <-. eauto.
      - destruct (List.length r <? prim_arity p); [|discriminate]. cbn [temp_list] in E. apply IH in E. cbn [p_gen] in E. lia. }
    destruct (parse_list (parse k env) st (h :: r)) as [(es, st1)|] eqn:E1; [|discriminate].
    destruct es; [discriminate|]. injection E as _ <-. eauto.
Qed.

(** what parse makes has no closures yet *)
Lemma parse_plain : forall k env st x e st', parse k env st x = Some (e, st') -> plain e = true.
Proof.
  induction k as [|k IH]; intros env st x e st' E; [discriminate|].
  assert (PL : forall env l st es st', parse_list (parse k env) st l = Some (es, st') -> forallb plain es = true).
  { intros env0 l. induction l as [|y l IHl]; intros st0 es st0' E0.
    - apply parse_list_nil in E0. destruct E0 as (-> & _). reflexivity.
    - apply parse_list_app in E0. destruct E0 as (e0 & s1 & es1 & A & B & ->). cbn. now rewrite (IH _ _ _ _ _ A), (IHl _ _ _ B). }
  cbn [parse] in E. destruct x; try (injection E as <- _; reflexivity).
  - destruct (mem x env); injection E as <- _; reflexivity.
  - destruct (slist (SCons x1 x2)) as [[|h r]|]; try discriminate.
    destruct (is_sym "quote" h).
    { destruct r as [|c [|? ?]]; try discriminate. injection E as <- _. reflexivity. }
    destruct (is_sym "lambda" h).
    { destruct r as [|ps [|b [|? ?]]]; try discriminate. destruct (names_of ps) as [xs|]; [|discriminate].
      destruct (existsb reserved xs); [discriminate|].
      destruct (parse k (xs ++ env) st b) as [(eb, st1)|] eqn:E1; [|discriminate]. injection E as <- _. cbn. eauto. }
    destruct (is_sym "if" h).
    { destruct r as [|c [|a [|b [|? ?]]]]; try discriminate. destruct (headed "if" c); [eauto|].
      destruct (parse_list (parse k env) st [c; a; b]) as [(es, st1)|] eqn:E1; [|discriminate].
      destruct es as [|? [|? [|? [|? ?]]]]; try discriminate. injection E as <- _. apply PL in E1. cbn in E1 |- *.
      rewrite !andb_true_iff in *. tauto. }
    destruct (is_sym "do" h).
    { destruct r as [|a [|b [|? ?]]]; try discriminate.
      destruct (parse_list (parse k env) st [a; b]) as [(es, st1)|] eqn:E1; [|discriminate].
      destruct es as [|? [|? [|? ?]]]; try discriminate. injection E as <- _. apply PL in E1. cbn in E1 |- *.
      rewrite !andb_true_iff in *. tauto. }
    destruct (is_sym "let" h).
    { destruct r as [|y [|b [|c [|? ?]]]]; try discriminate; destruct y; try discriminate.
      destruct (reserved x); [discriminate|].
      destruct (parse k env st b) as [(eb, st1)|] eqn:E1; [|discriminate].
      destruct (parse k (x :: env) st1 c) as [(ec, st2)|] eqn:E2; [|discriminate]. injection E as <- _.
      cbn. now rewrite (IH _ _ _ _ _ E1), (IH _ _ _ _ _ E2). }
    destruct (headed "lambda" h && match r with [a] => headed "if" a | _ => false end); [eauto|].
    destruct (match h with SSym s => prim_of s | _ => None end) as [p|].
    { destruct (prim_arity p =? List.length r).
      - destruct (parse_list (parse k env) st r) as [(es, st1)|] eqn:E1; [|discriminate]. injection E as <- _. cbn. eauto.
      - destruct (List.length r <? prim_arity p); [|discriminate]. cbn [temp_list] in E. eauto. }
    destruct (parse_list (parse k env) st (h :: r)) as [(es, st1)|] eqn:E1; [|discriminate].
    destruct es; [discriminate|]. injection E as <- _. apply PL in E1. cbn in E1. exact E1.
Qed.
