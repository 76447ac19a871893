(** Operands and calls under the value relation of CoreProofs.v: what two
    evaluators of S-expressions have in common. *)
From Coq Require Import List ZArith Bool String Arith Lia.
From Verif Require Import CoreSpec TocModel TocSem CoreProofs.
Import ListNotations.
Local Open Scope list_scope.
Local Open Scope nat_scope.

Section Rel.
  Context {C1 C2 : Type} (crel : C1 -> C2 -> Prop) (sel : C1 -> C2 -> nat -> nat -> nat -> Prop).
  Context (ar1 : C1 -> nat) (ar2 : C2 -> nat).
  Notation vrel := (vrel crel sel ar1).
  Notation grel := (grel crel sel ar1).
  Notation rres := (rres crel sel ar1).

  (** the second operand may have forgotten where its value was read *)
  Definition orel (a1 : opnd C1) (a2 : opnd C2) : Prop :=
    vrel (a_val a1) (a_val a2) /\ (a_from a2 = None \/ a_from a1 = a_from a2).
  Definition rop (r1 : opnd C1 * store C1) (r2 : opnd C2 * store C2) : Prop :=
    orel (fst r1) (fst r2) /\ grel (snd r1) (snd r2).

  Lemma value_rel : forall v1 v2, vrel v1 v2 -> orel (value v1) (value v2).
  Proof. intros. split; [exact H|now left]. Qed.

  Lemma use_rel : forall strict a1 a2 G1 G2 v, orel a1 a2 -> grel G1 G2 -> use strict a1 G1 = Some v ->
    exists v2, use strict a2 G2 = Some v2 /\ vrel v v2.
  Proof.
    intros strict a1 a2 G1 G2 v (HV & HF) ((_ & HT) & _) E. unfold use in *.
    assert (EV : Some (a_val a1) = Some v) by (destruct (a_from a1) as [(x, k)|]; [destruct (strict && _); [discriminate|]|]; exact E).
    injection EV as <-. destruct HF as [HF|HF]; [rewrite HF; eauto|]. rewrite <- HF.
    destruct (a_from a1) as [(x, k)|]; [|eauto].
    rewrite <- HT. destruct (strict && _); [discriminate|]. eauto.
  Qed.
  Lemma use_all_rel : forall strict l1 l2 G1 G2 vs, Forall2 orel l1 l2 -> grel G1 G2 -> use_all strict l1 G1 = Some vs ->
    exists vs2, use_all strict l2 G2 = Some vs2 /\ Forall2 vrel vs vs2.
  Proof.
    intros strict l1 l2 G1 G2 vs H HG. revert vs. induction H as [|a1 a2 l1 l2 HA HL IH]; intros vs E; cbn in *.
    - injection E as <-. exists []. auto.
    - destruct (use strict a1 G1) as [v|] eqn:E1; [|discriminate].
      destruct (use_all strict l1 G1) as [ws|] eqn:E2; [|discriminate]. injection E as <-.
      destruct (use_rel _ _ _ _ _ _ HA HG E1) as (v2 & -> & R). destruct (IH _ eq_refl) as (ws2 & -> & R2). eauto.
  Qed.

  Lemma result_rel : forall (o1 : option (opnd C1 * store C1)) (o2 : nat -> option (opnd C2 * store C2)) v G,
    (forall r, o1 = Some r -> evt o2 (rop r)) -> result o1 = Some (v, G) ->
    evt (fun m => result (o2 m)) (rres (v, G)).
  Proof.
    intros [(a, G1)|] o2 v G H E; [|discriminate]. cbn in E. injection E as <- <-.
    destruct (H _ eq_refl) as ((a2, G2) & m & ((HV & HF) & HG) & E). cbn in HV, HG.
    exists (a_val a2, G2), m. split; [split; auto|]. intros m' L. rewrite (E m' L). reflexivity.
  Qed.

  Lemma ev_args_rel : forall {E1 E2} (ev1 : E1 -> store C1 -> option (opnd C1 * store C1))
      (ev2 : nat -> E2 -> store C2 -> option (opnd C2 * store C2)) es1 es2,
    Forall2 (fun e1 e2 => forall G1 G2 r, grel G1 G2 -> ev1 e1 G1 = Some r -> evt (fun m => ev2 m e2 G2) (rop r)) es1 es2 ->
    forall G1 G2 l1 G1', grel G1 G2 -> ev_args ev1 es1 G1 = Some (l1, G1') ->
    evt (fun m => ev_args (ev2 m) es2 G2) (fun '(l2, G2') => Forall2 orel l1 l2 /\ grel G1' G2').
  Proof.
    intros E1 E2 ev1 ev2 es1 es2 F. induction F as [|e1 e2 es1 es2 H F IH]; intros G1 G2 l1 G1' HG E; cbn in E.
    - injection E as <- <-. apply evt_const. auto.
    - destruct (ev1 e1 G1) as [(a1, G3)|] eqn:E1'; [|discriminate].
      destruct (ev_args ev1 es1 G3) as [(r1, G4)|] eqn:E2'; [|discriminate]. injection E as <- <-.
      cbn [ev_args].
      eapply evt_bind with (g := fun m '(a, G) => match ev_args (ev2 m) es2 G with Some (la, G2') => Some (a :: la, G2') | None => None end);
        [eapply H; eauto|].
      intros (a2, G5) (HA & HG5). cbn in HA, HG5.
      eapply evt_bind with (g := fun m '(la, G2') => Some (a2 :: la, G2')); [eapply IH; eauto|].
      intros (la, G6) (HL & HG6). apply evt_const. split; [constructor; auto|exact HG6].
  Qed.

  Context (ar : arith) (crel_arity : forall c1 c2, crel c1 c2 -> ar1 c1 = ar2 c2).
  Context (run1 : C1 -> list (val C1) -> list (val C1) -> store C1 -> option (val C1 * store C1)).
  Context (run2 : nat -> C2 -> list (val C2) -> list (val C2) -> store C2 -> option (val C2 * store C2)).
  Hypothesis run_rel : forall c1 c2 vs1 vs2 l1 l2 G1 G2 r,
    vrel (VClo c1 vs1) (VClo c2 vs2) -> Forall2 vrel l1 l2 -> List.length l1 = ar1 c1 -> grel G1 G2 ->
    run1 c1 vs1 l1 G1 = Some r -> evt (fun m => run2 m c2 vs2 l2 G2) (rres r).

  Lemma call_rel : forall strict n f1 f2 l1 l2 G1 G2 r, orel f1 f2 -> Forall2 orel l1 l2 -> grel G1 G2 ->
    match use strict f1 G1, use_all strict l1 G1 with
    | Some f, Some args =>
        match apply ar ar1 run1 n f args G1 with Some (v, G) => Some (value v, G) | None => None end
    | _, _ => None
    end = Some r ->
    evt (fun m => match use strict f2 G2, use_all strict l2 G2 with
                  | Some f, Some args =>
                      match apply ar ar2 (run2 m) m f args G2 with Some (v, G) => Some (value v, G) | None => None end
                  | _, _ => None
                  end) (rop r).
  Proof.
    intros strict n f1 f2 l1 l2 G1 G2 r HF HL HG E.
    destruct (use strict f1 G1) as [f|] eqn:E1; [|discriminate].
    destruct (use_all strict l1 G1) as [args|] eqn:E2; [|discriminate].
    destruct (use_rel _ _ _ _ _ _ HF HG E1) as (f' & -> & RF).
    destruct (use_all_rel _ _ _ _ _ _ HL HG E2) as (args' & -> & RL).
    destruct (apply ar ar1 run1 n f args G1) as [(v, G)|] eqn:E3; [|discriminate]. injection E as <-.
    destruct (apply_rel crel sel ar1 ar2 ar crel_arity run1 run2 run_rel _ _ _ _ _ _ _ _ RF RL HG E3)
      as ((v2, G3) & m & (HV & HG3) & EM). cbn in HV, HG3.
    exists (value v2, G3), m. split; [split; [now apply value_rel|exact HG3]|].
    intros m' L. now rewrite (EM m' L).
  Qed.
End Rel.
