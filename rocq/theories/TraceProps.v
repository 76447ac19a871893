(** C60: the tracer (src/trace.h, src/trace.c, lib/trace.c, tools/trace.go). *)
From Coq Require Import List ZArith Bool Lia.
From Verif Require Import TraceModel TraceSpec TraceProofs.
Import ListNotations.
Local Open Scope list_scope.
Local Open Scope Z_scope.

Lemma fits_short : forall e, fits e -> Z.of_nat (length (name e)) <= buffer_size - 16.
Proof. intros e (_ & H & _). unfold buffer_size. lia. Qed.

Lemma sessions_fit : forall l on acc, Forall fits (emitted l) -> Forall (Forall fits) acc -> Forall (Forall fits) (sessions l on acc).
Proof.
  induction l as [|[| |e] l IH]; intros on acc F A; cbn in F |- *; auto.
  inversion F as [|? ? F1 F2]; subst. apply IH; [exact F2|]. destruct on; [|exact A]. destruct acc as [|s more]; [exact A|].
  inversion A as [|? ? A1 A2]; subst. constructor; [|exact A2]. apply Forall_app. auto.
Qed.

(** Any number of sessions of any length: every file written reads back as
    exactly the events of its session, in order.
    Full statement: for events of all names and for all uses of trace-enable.
    Both are refuted below. *)
Theorem trace_roundtrip_partial : forall l, closed l false -> Forall fits (emitted l) ->
  exists t, trun l tracer_start = Some t /\ map read_trace (files t) = map Some (sessions l false []).
Proof.
  intros l C F. destruct (sessions_end l false [] tracer_start) as (t & R & E); [|exact C| |].
  - split; [reflexivity|]. split; [cbn; unfold buffer_size; lia|reflexivity].
  - eapply Forall_impl; [|exact F]. apply fits_short.
  - exists t. split; [exact R|]. rewrite E, map_map. pose proof (sessions_fit l false [] F (Forall_nil _)) as S. clear -S.
    induction S as [|s r Hs Hr IH]; cbn [map]; [reflexivity|]. rewrite read_trace_enc by exact Hs. f_equal. exact IH.
Qed.

(** No use of the tracer writes past the buffer, as long as no name is as
    long as the buffer. *)
Theorem trace_in_bounds : forall l, Forall (fun e => Z.of_nat (length (name e)) <= buffer_size - 16) (emitted l) ->
  exists t, trun l tracer_start = Some t /\ Z.of_nat (length (buf t)) <= buffer_size.
Proof. intros l F. apply no_overflow; [cbn; unfold buffer_size; lia|cbn; discriminate|exact F]. Qed.

(** A function that is traced still does what it did: a call enters the
    same function, between events that match and fit the format. *)
Fixpoint inside (f : fn) : nat := match f with Plain n => n | Wrap f _ => inside f end.
Theorem traced_same : forall f t s0 s1 b n a, 0 <= t < 2 ^ 16 -> 0 <= s0 < 2 ^ 64 -> 0 <= s1 < 2 ^ 64 ->
  enter f t s0 s1 = Some (b, n, a) -> n = inside f /\ balanced (b ++ a) /\ Forall fits (b ++ a).
Proof.
  intros f t s0 s1 b n a Ht H0 H1. revert b n a. induction f as [m|f IH s]; intros b n a H; cbn [enter] in H.
  - inversion H; subst. cbn. repeat constructor.
  - destruct (Nat.ltb_spec (length s) 255); [|discriminate].
    destruct (enter f t s0 s1) as [[[b' n'] a']|]; [|discriminate]. inversion H; subst.
    destruct (IH _ _ _ eq_refl) as (E & B & F). split; [exact E|].
    replace ((mkEvent 66 s t 0 s0 :: b') ++ a' ++ [mkEvent 69 s t 0 s1]) with (mkEvent 66 s t 0 s0 :: (b' ++ a') ++ [mkEvent 69 s t 0 s1])
      by (cbn; rewrite <- app_assoc; reflexivity).
    split; [constructor; [exact B|constructor]|].
    constructor; [|apply Forall_app; split; [exact F|constructor; [|constructor]]]; (split; [cbn; auto|]; cbn [ph name tid eid ts]; lia).
Qed.
(** Every call can be traced: names the tracer accepts are short. *)
Theorem traced_enters : forall f t s0 s1 b n a s, enter f t s0 s1 = Some (b, n, a) -> (length s < 255)%nat ->
  exists b' a', enter (Wrap f s) t s0 s1 = Some (b', n, a').
Proof.
  intros f t s0 s1 b n a s H L. cbn [enter]. destruct (Nat.ltb_spec (length s) 255); [|lia]. rewrite H. eauto.
Qed.
(** untrace undoes trace, and neither changes other names. *)
Lemma list_eqb_spec : forall a b, reflect (a = b) (list_eqb a b).
Proof. intros. unfold list_eqb. destruct (list_eq_dec Z.eq_dec a b); constructor; assumption. Qed.
Theorem untrace_trace : forall g s f, g s = Some f ->
  exists g1 g2, trace s g = Some g1 /\ g1 s = Some (Wrap f s) /\ (forall x, x <> s -> g1 x = g x) /\ untrace s g1 = Some g2 /\ (forall x, g2 x = g x).
Proof.
  intros g s f H. unfold trace. rewrite H.
  assert (R : list_eqb s s = true) by (destruct (list_eqb_spec s s); congruence).
  assert (E : gset g s (Wrap f s) s = Some (Wrap f s)) by (unfold gset; rewrite R; reflexivity).
  eexists. eexists. split; [reflexivity|]. split; [exact E|]. split.
  - intros x Hx. unfold gset. destruct (list_eqb_spec x s); [contradiction|reflexivity].
  - unfold untrace. rewrite E, R. split; [reflexivity|]. intros x. unfold gset. destruct (list_eqb_spec x s); [subst; auto|reflexivity].
Qed.
(** untrace leaves a function that is not traced alone. *)
Theorem untrace_plain : forall g s n, g s = Some (Plain n) -> untrace s g = Some g.
Proof. intros g s n H. unfold untrace. rewrite H. reflexivity. Qed.

(** A name of 256 bytes has length 0 in its header; the file is not readable. *)
Theorem trace_long_name_refuted : exists e t, Z.of_nat (length (name e)) = 256 /\
  trun [TEnable; TEmit e; TDisable] tracer_start = Some t /\ map read_trace (files t) = [None].
Proof.
  exists (mkEvent 66 (repeat 97 256) 1 0 5). eexists. split; [vm_compute; reflexivity|]. split; [vm_compute; reflexivity|]. vm_compute. reflexivity.
Qed.
(** An event whose name is as long as the buffer is written past it. *)
Theorem trace_overflow_refuted : exists e, trun [TEnable; TEmit e] tracer_start = None.
Proof.
  exists (mkEvent 66 (repeat 97 (Z.to_nat buffer_size)) 1 0 5). cbn [trun tstep enable]. unfold emit. cbn [opened buf name flush files].
  rewrite repeat_length, Z2Nat.id by (unfold buffer_size; lia). vm_compute. reflexivity.
Qed.
(** trace-enable while tracing drops what has not been written yet. *)
Theorem trace_enable_twice_refuted : exists e t, fits e /\
  trun [TEnable; TEmit e; TEnable; TDisable] tracer_start = Some t /\ sessions [TEnable; TEmit e; TEnable; TDisable] false [] = [[]; [e]] /\
  map read_trace (files t) = [Some []; Some []].
Proof.
  exists (mkEvent 66 [97] 1 0 5). eexists. split; [split; [cbn; auto|cbn; lia]|]. split; [vm_compute; reflexivity|]. split; [reflexivity|]. vm_compute. reflexivity.
Qed.

Example two_sessions : list top :=
  [TEmit (mkEvent 66 [97] 1 0 1); TEnable; TEmit (mkEvent 66 [97; 98] 1 0 5); TEmit (mkEvent 69 [97; 98] 1 0 700); TDisable; TEnable; TEmit (mkEvent 66 [] 65535 7 9); TDisable].
Example two_sessions_used : closed two_sessions false /\ Forall fits (emitted two_sessions) /\
  sessions two_sessions false [] = [[mkEvent 66 [] 65535 7 9]; [mkEvent 66 [97; 98] 1 0 5; mkEvent 69 [97; 98] 1 0 700]].
Proof.
  split; [cbn; auto|]. split; [repeat constructor; cbn; intuition lia|reflexivity].
Qed.
Example traced_twice : enter (Wrap (Wrap (Plain 3) [97]) [98]) 1 10 20 =
  Some ([mkEvent 66 [98] 1 0 10; mkEvent 66 [97] 1 0 10], 3%nat, [mkEvent 69 [97] 1 0 20; mkEvent 69 [98] 1 0 20]).
Proof. reflexivity. Qed.

Print Assumptions trace_roundtrip_partial.
Print Assumptions trace_in_bounds.
Print Assumptions traced_same.
Print Assumptions traced_enters.
Print Assumptions untrace_trace.
Print Assumptions untrace_plain.
Print Assumptions trace_long_name_refuted.
Print Assumptions trace_overflow_refuted.
Print Assumptions trace_enable_twice_refuted.
