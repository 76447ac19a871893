(** Theorems of record about the interpreter behind the prompt (C55). *)
From Coq Require Import List ZArith Bool String Arith Lia.
From Verif Require Import CoreSpec TocModel TocSem CoreProofs TocWhole TocProps NsSpec NsModel NsProofs NsProps
  ReplSpec ReplModel ReplProofs.
Import ListNotations.
Local Open Scope list_scope.
Local Open Scope nat_scope.

(** What the prompt computes is what the program means: whatever value the
    interpreter gives for an expression, the language gives the same one and
    the same global variables.

    The full statement has no conditions.  Proved for expressions without
    package forms, imports and doubled parameters ([plain]), when no imported
    package exports the name of a primitive, the global variables that are
    named like a primitive hold it or nothing, and the run sets none of them. *)
Theorem interpreter_partial : forall gt exports imported ar k e B g n v G,
  plain k e = true ->
  (forall p x q, In p imported -> prim_of x = Some q -> ~ In x (exports p)) ->
  (forall x q, prim_of x = Some q -> B x = None \/ B x = Some (inr q)) ->
  interp gt exports imported ar n e [] (init B g) = Some (v, G) ->
  (forall x q, prim_of x = Some q -> g_ver G x = 0) ->
  exists m v' G',
    (forall m', m <= m' -> result (neval gt exports ar false m' (mkX "" imported) [] e (init B g)) = Some (v', G')) /\
    looks i_arity n_arity v v' /\ same_globals i_arity n_arity G G'.
Proof.
  intros gt exports imported ar k e B g n v G HP HX HB E HV.
  destruct (interp_sim gt exports imported ar HX n e [] (init B g) v G E k [] (init B g)) as ((a, G') & m & (R1 & R2) & EM).
  - exact HP.
  - intro x. exact I.
  - apply init_rel.
  - intros x q Hq. cbn. destruct (HB x q Hq) as [-> | ->]; auto.
  - intros x q Hq. cbn. eauto.
  - exists m, (a_val a), G'. split; [intros m' L; rewrite (EM m' L); reflexivity|]. cbn in R1, R2.
    split; [exact (vrel_looks _ _ _ _ (crelI_arity imported) _ _ R1)|exact (grel_looks _ _ _ _ (crelI_arity imported) _ _ R2)].
Qed.

(** The prompt carries out every run in which calls have the right number of
    arguments and primitives are in their place ([careful_run]). *)
Theorem interpreter_runs_partial : forall gt exports imported ar k e B g n v G,
  plain k e = true ->
  (forall p x q, In p imported -> prim_of x = Some q -> ~ In x (exports p)) ->
  careful_run gt exports ar n (mkX "" imported) [] e (init B g) = Some (v, G) ->
  exists m v' G',
    (forall m', m <= m' -> interp gt exports imported ar m' e [] (init B g) = Some (v', G')) /\
    looks n_arity i_arity v v' /\ same_globals n_arity i_arity G G'.
Proof.
  intros gt exports imported ar k e B g n v G HP HX E.
  destruct (careful_sim gt exports imported ar HX n [] e (init B g) (v, G) E k [] (init B g)) as ((v', G') & m & (R1 & R2) & EM).
  - exact HP.
  - intro x. exact I.
  - apply init_rel.
  - exists m, v', G'. split; [exact EM|]. cbn in R1, R2.
    split; [exact (vrel_looks _ _ _ _ (crelX_arity imported) _ _ R1)|exact (grel_looks _ _ _ _ (crelX_arity imported) _ _ R2)].
Qed.

(** Those runs are runs of the language. *)
Theorem careful_is_run : forall gt exports ar n c rho e G v G1,
  careful_run gt exports ar n c rho e G = Some (v, G1) ->
  result (neval gt exports ar false (S n) c rho e G) = Some (v, G1).
Proof. intros. now apply careful_in_language. Qed.

Local Notation Y s := (SSym (NS s)).
Local Notation N z := (SNum z%Z).
Local Notation "'L' l" := (of_list l) (at level 9, l at level 0).
Local Notation Q s := (of_list [SSym (NS "quote"); s]).
Local Open Scope string_scope.

(** The globals set by lib/eval.cora:5-20: every primitive except integer?. *)
Definition loaded : base := fun x =>
  match prim_of x with
  | Some PIsInt => None
  | Some p => Some (inr p)
  | None => if name_eqb x (NS "b#g") then Some (inl (SNum 7)) else None
  end.

(** (do (def fn (lambda (x y) (if (< x 1) y (fn (- x 1) (cons (car (cons g '())) y)))))
      (fn 2 (let cons (lambda (a b) a) (cons '() 0))))  with b imported *)
Definition demo_prompt : sexp :=
  L [Y "do"; L [Y "def"; Y "fn"; L [Y "lambda"; L [Y "x"; Y "y"];
        L [Y "if"; L [Y "<"; Y "x"; N 1]; Y "y";
           L [Y "fn"; L [Y "-"; Y "x"; N 1]; L [Y "cons"; L [Y "car"; L [Y "cons"; Y "g"; Q SNil]]; Y "y"]]]]];
     L [Y "fn"; N 2; L [Y "let"; Y "cons"; L [Y "lambda"; L [Y "a"; Y "b"]; Y "a"]; L [Y "cons"; Q SNil; N 0]]]].

Example interpreter_example :
  plain 20 demo_prompt = true /\
  (match interp gname ab ["b"] std 40 demo_prompt [] (init loaded 0) with
   | Some (v, G) => v = VCons (VNum 7) (VCons (VNum 7) VNil) /\ forallb (fun p => g_ver G (NS (fst p)) =? 0)%nat prim_names = true
   | None => False
   end) /\
  (match careful_run gname ab std 40 (mkX "" ["b"]) [] demo_prompt (init loaded 0) with
   | Some (v, G) => v = VCons (VNum 7) (VCons (VNum 7) VNil) /\ g_val G (NS "fn") <> None
   | None => False
   end).
Proof. vm_compute. repeat split; discriminate. Qed.
Example interpreter_hypotheses :
  (forall p x q, In p ["b"] -> prim_of x = Some q -> ~ In x (ab p)) /\
  (forall x q, prim_of x = Some q -> loaded x = None \/ loaded x = Some (inr q)).
Proof.
  split.
  - intros p x q [<-|[]] E H. cbn in H. destruct H as [<-|[<-|[]]]; discriminate.
  - intros x q E. unfold loaded. rewrite E. destruct q; auto.
Qed.

Print Assumptions interpreter_partial.
Print Assumptions interpreter_runs_partial.
Print Assumptions careful_is_run.

(** Without the conditions: at the prompt the expression stops with an error
    although the language gives it a value, *)
Definition stops (imported : list string) (e : sexp) : Prop :=
  (exists n a G, neval gname ab std false n (mkX "" imported) [] e (init loaded 0) = Some (a, G)) /\
  forall m, interp gname ab imported std m e [] (init loaded 0) = None.
Ltac stop := split; [exists 20; do 2 eexists; vm_compute; reflexivity|intros [|[|[|[|m]]]]; reflexivity].

(** a function with fewer arguments than it needs: ((lambda (x y) x) 1) *)
Theorem prompt_short_call_refuted : stops [] (L [L [Y "lambda"; L [Y "x"; Y "y"]; Y "x"]; N 1]).
Proof. stop. Qed.
(** with more: ((lambda (x) (lambda (y) y)) 1 2) *)
Theorem prompt_long_call_refuted :
  stops [] (L [L [Y "lambda"; L [Y "x"]; L [Y "lambda"; L [Y "y"]; Y "y"]]; N 1; N 2]).
Proof. stop. Qed.
(** (integer? 3), which the compiler knows and lib/eval.cora does not define *)
Theorem prompt_integer_refuted : stops [] (L [Y "integer?"; N 3]).
Proof. stop. Qed.
(** (ns "p" () 1) *)
Theorem prompt_package_refuted : stops [] (L [Y "ns"; SStr "p"; SNil; N 1]).
Proof. stop. Qed.

(** or the prompt gives another value. *)
Definition differs (e : sexp) (v : val icode) (w : val ncode) : Prop :=
  exists n G a G', interp gname ab [] std n e [] (init loaded 0) = Some (v, G) /\
    neval gname ab std false n (mkX "" []) [] e (init loaded 0) = Some (a, G') /\ a_val a = w.
Ltac differ := exists 20; do 3 eexists; split; [vm_compute; reflexivity|]; split; [vm_compute; reflexivity|]; reflexivity.

(** a redefined primitive: (do (def not (lambda (x) x)) (not true)) *)
Theorem prompt_redefined_refuted :
  differs (L [Y "do"; L [Y "def"; Y "not"; L [Y "lambda"; L [Y "x"]; Y "x"]]; L [Y "not"; STrue]]) VTrue VFalse.
Proof. differ. Qed.
(** a doubled parameter: ((lambda (x x) x) 1 2) *)
Theorem prompt_doubled_refuted :
  differs (L [L [Y "lambda"; L [Y "x"; Y "x"]; Y "x"]; N 1; N 2]) (VNum 2) (VNum 1).
Proof. differ. Qed.
