(** C42: what the partial evaluator does to the meaning of a program. *)
From Coq Require Import List ZArith Bool String Arith.
From Verif Require Import CoreSpec CoreProofs TocModel TocParseSim TocWhole TocProps PevalModel PevalSpec PevalRel PevalSim PevalProofs.
Import ListNotations.
Local Open Scope list_scope.
Local Open Scope nat_scope.

Local Notation Y s := (SSym (NS s)).
Local Notation N z := (SNum z%Z).
Local Notation L := of_list.

(** * Programs whose meaning is changed *)

(** [simplified_wrongly B e e' v w]: peval turns [e] into [e']; the first gives
    [v], the second [w]. *)
Definition simplified_wrongly (B : base) (e e' : sexp) (v w : sval) : Prop :=
  exists n G G', peval std n [] e = Some e' /\
    program std false n e (init B 0) = Some (v, G) /\ program std false n e' (init B 0) = Some (w, G').
Ltac simplified_badly :=
  exists 30; do 2 eexists; split; [vm_compute; reflexivity|]; split; [vm_compute; reflexivity|]; vm_compute; reflexivity.
Local Notation letx x b c := (L [Y "let"; Y x; b; c]).
Local Notation setq x e := (L [Y "set"; L [Y "quote"; Y x]; e]).
Local Notation lam ps b := (L [Y "lambda"; L ps; b]).

(** a local variable that holds the value of a global variable is replaced by
    the global variable: (let x y (do (set 'y 2) x)) with y = 1 *)
Theorem peval_global_refuted :
  simplified_wrongly (glob "y" 1) (letx "x" (Y "y") (L [Y "do"; setq "y" (N 2); Y "x"]))
    (L [Y "do"; setq "y" (N 2); Y "y"]) (VNum 1) (VNum 2).
Proof. simplified_badly. Qed.

(** so tvar of lib/infer.cora:23-26, called with 1000 in the counter, returns
    1001 when it is compiled, not 1000 *)
Theorem peval_tvar_refuted :
  simplified_wrongly (glob "*tvar*" 1000) (L [lam [] (letx "ret" (Y "*tvar*") (L [Y "do"; setq "*tvar*" (L [Y "+"; Y "ret"; N 1]); Y "ret"]))])
    (L [Y "do"; setq "*tvar*" (L [Y "+"; Y "*tvar*"; N 1]); Y "*tvar*"]) (VNum 1000) (VNum 1001).
Proof. simplified_badly. Qed.

(** the variable that is substituted is captured by an inner let:
    (let x y (let y (times y 5) (times x y))) with y = 1 *)
Theorem peval_capture_refuted :
  simplified_wrongly (glob "y" 1) (letx "x" (Y "y") (letx "y" (L [Y "*"; Y "y"; N 5]) (L [Y "*"; Y "x"; Y "y"])))
    (letx "y" (L [Y "*"; Y "y"; N 5]) (L [Y "*"; Y "y"; Y "y"])) (VNum 5) (VNum 25).
Proof. simplified_badly. Qed.

(** a function that is substituted captures another variable:
    (let f (lambda () y) ((lambda (y) (f)) (times y 5))) with y = 1 *)
Theorem peval_capture_function_refuted :
  simplified_wrongly (glob "y" 1) (letx "f" (lam [] (Y "y")) (L [lam [Y "y"] (L [Y "f"]); L [Y "*"; Y "y"; N 5]]))
    (L [lam [Y "y"] (Y "y"); L [Y "*"; Y "y"; N 5]]) (VNum 1) (VNum 5).
Proof. simplified_badly. Qed.

(** an effect in a pair whose other half is taken is lost:
    (do (car (cons 1 (set 'y 5))) y) *)
Theorem peval_effect_refuted :
  simplified_wrongly (glob "y" 1) (L [Y "do"; L [Y "car"; L [Y "cons"; N 1; setq "y" (N 5)]]; Y "y"])
    (L [Y "do"; N 1; Y "y"]) (VNum 5) (VNum 1).
Proof. simplified_badly. Qed.
(** (do (cons? (cons 1 (set 'y 5))) y) *)
Theorem peval_effect_cons_refuted :
  simplified_wrongly (glob "y" 1) (L [Y "do"; L [Y "cons?"; L [Y "cons"; N 1; setq "y" (N 5)]]; Y "y"])
    (L [Y "do"; STrue; Y "y"]) (VNum 5) (VNum 1).
Proof. simplified_badly. Qed.

(** a local function called like a primitive is taken for the primitive:
    ((lambda (car) (car (cons 1 2))) (lambda (x) 7)) *)
Theorem peval_local_primitive_refuted :
  simplified_wrongly no_globals (L [lam [Y "car"] (L [Y "car"; L [Y "cons"; N 1; N 2]]); lam [Y "x"] (N 7)])
    (L [lam [Y "car"] (N 1); lam [Y "x"] (N 7)]) (VNum 7) (VNum 1).
Proof. simplified_badly. Qed.

(** the operands of a call are simplified a second time with the substitutions
    that were already made: (let x y (let y 5 ((lambda (p) x) (times 1 2)))) gives
    the inner y *)
Theorem peval_second_pass_refuted :
  simplified_wrongly (glob "y" 1) (letx "x" (Y "y") (letx "y" (N 5) (L [lam [Y "p"] (Y "x"); L [Y "*"; N 1; N 2]])))
    (L [lam [Y "p"] (N 5); L [Y "*"; N 1; N 2]]) (VNum 1) (VNum 5).
Proof. simplified_badly. Qed.


(** * The meaning of a careful run *)
Lemma pv_looks : forall ar v w, pv ar v w -> looks s_arity s_arity v w.
Proof.
  intro ar. fix IH 3. intros v w H. destruct H; try constructor.
  - now apply IH.
  - now apply IH.
  - reflexivity.
  - now apply IH.
  - clear H H1 H2. induction H0 as [|x y l l2 X F IHF]; constructor; [now apply IH|exact IHF].
Qed.
Lemma grel_same : forall ar G G', grel ar G G' -> same_globals s_arity s_arity G G'.
Proof.
  intros ar G G' ((N & _) & H). split; [exact N|]. intro x. specialize (H x).
  destruct (g_val G x), (g_val G' x); auto. eapply pv_looks; eauto.
Qed.
Lemma grel_init : forall ar B g, grel ar (init B g) (init B g).
Proof.
  intros. split; [split; reflexivity|]. intro x. cbn. destruct (B x) as [[q|p]|]; [apply quoted_rel|constructor|exact I].
Qed.
Fixpoint looks_refl {C} (a : C -> nat) (v : val C) : looks a a v v.
Proof.
  destruct v; constructor; try apply looks_refl; try reflexivity. induction args; constructor; [apply looks_refl|assumption].
Qed.
Lemma same_globals_refl : forall {C} (a : C -> nat) G, same_globals a a G G.
Proof. intros C a G. split; [reflexivity|]. intro x. destruct (g_val G x); [apply looks_refl|exact I]. Qed.

Lemma step_program : forall ar e e' B g n v G, step ar [] e e' -> wf e = true ->
  program ar false n (show e) (init B g) = Some (v, G) ->
  exists m v' G', (forall m', m <= m' -> program ar false m' (show e') (init B g) = Some (v', G')) /\
    looks s_arity s_arity v v' /\ same_globals s_arity s_arity G G'.
Proof.
  intros ar e1 e2 B g n v G H W E.
  unfold program in E. destruct (eval ar false n [] (show e1) (init B g)) as [(a, G1)|] eqn:E1; [|discriminate].
  cbn in E. injection E as <- <-.
  assert (W2 : wf e2 = true) by (eapply step_wf; eauto).
  destruct (sim ar n [] e1 e2 (fv e2) [] [] (init B g) (init B g) (a, G1)) as ((a2, G2) & m & (RV & RG) & EM); auto.
  - apply t_step with []; [exact H|]. intro x. cbn. split; [intros []|congruence].
  - repeat split; cbn; intros; auto; discriminate.
  - apply grel_init.
  - exists m, (a_val a2), G2. split; [intros m' L; unfold program; now rewrite EM by exact L|].
    split; [eapply pv_looks; exact RV|eapply grel_same; exact RG].
Qed.
Lemma steps_program : forall ar e e' B g n v G, steps ar [] e e' -> wf e = true ->
  program ar false n (show e) (init B g) = Some (v, G) ->
  exists m v' G', (forall m', m <= m' -> program ar false m' (show e') (init B g) = Some (v', G')) /\
    looks s_arity s_arity v v' /\ same_globals s_arity s_arity G G'.
Proof.
  intros ar e e' B g n v G H. revert n v G. induction H as [e|e1 e2 e3 H1 H2 IH]; intros n v G W E.
  - eapply step_program; eauto. constructor.
  - destruct (step_program ar e1 e2 B g n v G H1 W E) as (m & v2 & G2 & EM & LV & LG).
    assert (W2 : wf e2 = true) by (eapply step_wf; eauto).
    destruct (IH m v2 G2 W2 (EM m (le_n m))) as (m3 & v3 & G3 & EP & LV2 & LG2).
    exists m3, v3, G3. split; [exact EP|]. split; [eapply looks_trans; eauto|eapply same_globals_trans; eauto].
Qed.

(** The statement wanted is this one for every expression and without
    [careful], and it is false by the examples above.  It holds of the
    expressions in whose simplification no variable is captured, no variable
    that is substituted is global, no operand with an effect is dropped, and no
    local variable has the name of a primitive: the simplified expression has
    the value of the original, or a function with as many parameters, and the
    same global variables are set. *)
Theorem peval_partial : forall ar n e e', wf e = true -> careful ar n [] [] e = Some e' ->
  peval ar n [] (show e) = Some (show e') /\
  forall B g k v G, program ar false k (show e) (init B g) = Some (v, G) ->
    exists m v' G', (forall m', m <= m' -> program ar false m' (show e') (init B g) = Some (v', G')) /\
      looks s_arity s_arity v v' /\ same_globals s_arity s_arity G G'.
Proof.
  intros ar n e e' W H. split.
  - change (@nil (sexp * sexp)) with (shows []). eapply mirror; eauto. intros x r E. discriminate.
  - intros B g k v G E. apply chain in H. rewrite subst_nil in H. eapply steps_program; eauto.
Qed.
Print Assumptions peval_partial.

(** (let k 3 (let f (lambda (p q) (if (not false) (cons (+ k 1) (cons p q)) y))
      (do (set 'y k) (f (car (cons 5 k)) (times y 2))))) *)
Definition demo : cx :=
  KT (NS "k") (KC (SNum 3%Z))
    (KT (NS "f") (KL [NS "p"; NS "q"]
        (KI (KA (KV (NS "not")) [KC SFalse])
            (KA (KV (NS "cons")) [KA (KV (NS "+")) [KV (NS "k"); KC (SNum 1%Z)]; KA (KV (NS "cons")) [KV (NS "p"); KV (NS "q")]])
            (KV (NS "y"))))
      (KD (KA (KV (NS "set")) [KQ (Y "y"); KV (NS "k")])
          (KA (KV (NS "f")) [KA (KV (NS "car")) [KA (KV (NS "cons")) [KC (SNum 5%Z); KV (NS "k")]];
                             KA (KV (NS "*")) [KV (NS "y"); KC (SNum 2%Z)]]))).
(** it becomes (do (set 'y 3) ((lambda (q) (cons 4 (cons 5 q))) (times y 2))) *)
Example peval_demo : exists e', careful std 12 [] [] demo = Some e' /\ wf demo = true /\
  show e' = L [Y "do"; setq "y" (N 3);
               L [lam [Y "q"] (L [Y "cons"; N 4; L [Y "cons"; N 5; Y "q"]]); L [Y "*"; Y "y"; N 2]]] /\
  exists G, program std false 30 (show demo) (init (glob "y" 1) 0) = Some (VCons (VNum 4) (VCons (VNum 5) (VNum 6)), G).
Proof.
  eexists. split; [vm_compute; reflexivity|]. split; [vm_compute; reflexivity|]. split; [vm_compute; reflexivity|].
  eexists. vm_compute. reflexivity.
Qed.
