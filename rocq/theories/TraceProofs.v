(** Lemmas on TraceModel. *)
From Coq Require Import List ZArith Bool Lia.
From Verif Require Import TraceModel TraceSpec.
Import ListNotations.
Local Open Scope list_scope.
Local Open Scope Z_scope.

Lemma le_length : forall n v, length (le n v) = n.
Proof. induction n; intros v; cbn; auto. Qed.

Lemma unle_le : forall n v, 0 <= v < 2 ^ (8 * Z.of_nat n) -> unle (le n v) = v.
Proof.
  induction n as [|n IH]; intros v H.
  - cbn in *. lia.
  - cbn [le unle]. rewrite IH.
    + rewrite (Z.div_mod v 256) at 3 by lia. lia.
    + replace (8 * Z.of_nat (S n)) with (8 + 8 * Z.of_nat n) in H by lia. rewrite Z.pow_add_r in H by lia.
      change (2 ^ 8) with 256 in H. split; [apply Z.div_pos; lia|]. apply Z.div_lt_upper_bound; lia.
Qed.

Lemma encode_length : forall e, length (encode e) = (16 + length (name e))%nat.
Proof. intros e. unfold encode. rewrite !app_length, !le_length. cbn. lia. Qed.

Lemma known_phase_in : forall b, In b [66; 69; 98; 101; 115; 102] -> known_phase b = true.
Proof. intros b H. unfold known_phase. apply existsb_exists. exists b. split; [exact H|apply Z.eqb_refl]. Qed.

Lemma decode1_encode : forall e r, fits e -> decode1 (encode e ++ r) = Some (e, r).
Proof.
  intros [p n t i s] r (F1 & F2 & F3 & F4 & F5). cbn [ph name tid eid ts] in *.
  pose proof (unle_le 2 t F3) as U2. pose proof (unle_le 4 i F4) as U4. pose proof (unle_le 8 s F5) as U8.
  unfold encode. cbn [ph name tid eid ts le app] in *. unfold decode1. rewrite (known_phase_in _ F1).
  rewrite Z.mod_small by lia. rewrite Nat2Z.id, app_length.
  destruct (Nat.leb_spec (length n) (length n + length r)); [|lia].
  rewrite firstn_app, Nat.sub_diag, firstn_all, app_nil_r, skipn_app, Nat.sub_diag, skipn_all. cbn [app skipn].
  assert (X : forall a b c, a = t -> b = i -> c = s -> Some (mkEvent p n a b c, r) = Some (mkEvent p n t i s, r)) by congruence.
  apply X; assumption.
Qed.

Definition enc (es : list event) : list byte := flat_map encode es.
Lemma enc_app : forall a b, enc (a ++ b) = enc a ++ enc b.
Proof. intros. apply flat_map_app. Qed.

Lemma decode_enc : forall es n, Forall fits es -> (length es < n)%nat -> decode n (enc es) = Some es.
Proof.
  induction es as [|e es IH]; intros n F H; (destruct n as [|n]; [lia|]); [reflexivity|].
  inversion F as [|? ? F1 F2]; subst. change (enc (e :: es)) with (encode e ++ enc es). cbn [decode].
  destruct (encode e ++ enc es) as [|x l] eqn:E.
  - apply (f_equal (@length _)) in E. rewrite app_length, encode_length in E. cbn in E. lia.
  - rewrite <- E, decode1_encode by exact F1. rewrite IH; [reflexivity|exact F2|cbn in H; lia].
Qed.
Lemma enc_length : forall es, (length es <= length (enc es))%nat.
Proof.
  induction es as [|e es IH]; [cbn; lia|]. change (enc (e :: es)) with (encode e ++ enc es). rewrite app_length, encode_length. cbn [length]. lia.
Qed.
Lemma read_trace_enc : forall es, Forall fits es -> read_trace (enc es) = Some es.
Proof. intros es F. unfold read_trace. apply decode_enc; [exact F|]. pose proof (enc_length es). lia. Qed.

Definition tinv (on : bool) (acc : list (list event)) (t : tracer) : Prop :=
  opened t = on /\ Z.of_nat (length (buf t)) <= buffer_size /\
  if on then exists s more f, acc = s :: more /\ files t = f :: map enc more /\ f ++ buf t = enc s else files t = map enc acc.

Lemma emit_ok : forall e on acc t, tinv on acc t -> Z.of_nat (length (name e)) <= buffer_size - 16 ->
  exists t', emit e t = Some t' /\ tinv on (match on, acc with true, s :: more => (s ++ [e]) :: more | _, _ => acc end) t'.
Proof.
  intros e on acc [fs op b] (I1 & I2 & I3) L. cbn in I1, I2, I3. subst op. unfold emit. cbn [opened buf files].
  destruct on; [|exists (mkTracer fs false b); split; [reflexivity|split; [reflexivity|split; [exact I2|exact I3]]]].
  destruct I3 as (s & more & f & -> & -> & E).
  destruct (Z.leb_spec buffer_size (Z.of_nat (length b) + (16 + Z.of_nat (length (name e))))); cbn [flush opened files buf length].
  - destruct (Z.leb_spec (Z.of_nat 0 + (16 + Z.of_nat (length (name e)))) buffer_size); [|lia].
    eexists. split; [reflexivity|]. split; [reflexivity|]. cbn [buf app files]. rewrite encode_length. split; [lia|].
    exists (s ++ [e]), more, (f ++ b). split; [reflexivity|]. split; [reflexivity|]. rewrite enc_app, E. unfold enc at 3. cbn [flat_map]. rewrite app_nil_r. reflexivity.
  - destruct (Z.leb_spec (Z.of_nat (length b) + (16 + Z.of_nat (length (name e)))) buffer_size); [|lia].
    eexists. split; [reflexivity|]. split; [reflexivity|]. cbn [buf files]. rewrite app_length, encode_length. split; [lia|].
    exists (s ++ [e]), more, f. split; [reflexivity|]. split; [reflexivity|]. rewrite app_assoc, enc_app, E. cbn. rewrite app_nil_r. reflexivity.
Qed.

Lemma sessions_end : forall l on acc t, tinv on acc t -> closed l on -> Forall (fun e => Z.of_nat (length (name e)) <= buffer_size - 16) (emitted l) ->
  exists t', trun l t = Some t' /\ files t' = map enc (sessions l on acc).
Proof.
  induction l as [|[| |e] l IH]; intros on acc t I C F; cbn in C, F |- *.
  - subst on. exists t. split; [reflexivity|]. apply I.
  - destruct C as (-> & C). apply (IH true ([] :: acc)); [|exact C|exact F].
    destruct I as (_ & _ & I). split; [reflexivity|]. cbn. split; [unfold buffer_size; lia|]. exists [], acc, []. rewrite I. auto.
  - apply (IH false acc); [|exact C|exact F]. destruct I as (I1 & I2 & I3). split; [reflexivity|]. unfold disable, flush. rewrite I1.
    destruct on; [|cbn; auto]. destruct I3 as (s & more & f & -> & E1 & E2). rewrite E1. cbn. split; [unfold buffer_size; lia|]. rewrite E2. reflexivity.
  - inversion F as [|? ? F1 F2]; subst. destruct (emit_ok e on acc t I F1) as (t' & -> & I'). apply (IH _ _ _ I' C F2).
Qed.

Lemma no_overflow : forall l t, Z.of_nat (length (buf t)) <= buffer_size -> (opened t = true -> files t <> []) ->
  Forall (fun e => Z.of_nat (length (name e)) <= buffer_size - 16) (emitted l) -> exists t', trun l t = Some t' /\ Z.of_nat (length (buf t')) <= buffer_size.
Proof.
  induction l as [|[| |e] l IH]; intros t L O F; cbn in F |- *.
  - eauto.
  - apply IH; [unfold buffer_size; cbn; lia|cbn; discriminate|exact F].
  - apply IH; [|cbn; discriminate|exact F]. unfold disable, flush. destruct (opened t), (files t); cbn [buf files opened]; try exact L. unfold buffer_size. cbn. lia.
  - inversion F as [|? ? F1 F2]; subst. change (Z.of_nat (length (name e)) <= buffer_size - 16) in F1. unfold emit. destruct (opened t) eqn:Eo; [|apply IH; auto; congruence].
    destruct (files t) as [|f fs] eqn:Ef; [exfalso; apply O; reflexivity|]. unfold flush. rewrite Eo, Ef.
    destruct (Z.leb_spec buffer_size (Z.of_nat (length (buf t)) + (16 + Z.of_nat (length (name e))))); cbn [buf files opened length].
    + destruct (Z.leb_spec (Z.of_nat 0 + (16 + Z.of_nat (length (name e)))) buffer_size); [|lia].
      apply IH; [cbn [buf app]; rewrite encode_length; lia|cbn; discriminate|exact F2].
    + destruct (Z.leb_spec (Z.of_nat (length (buf t)) + (16 + Z.of_nat (length (name e)))) buffer_size); [|lia].
      apply IH; [cbn [buf]; rewrite app_length, encode_length; lia|cbn; rewrite Ef; discriminate|exact F2].
Qed.

Lemma balanced_app : forall a b, balanced a -> balanced b -> balanced (a ++ b).
Proof.
  intros a b A B. induction A as [|n t i s0 s1 x y X IHX Y IHY]; [exact B|].
  cbn. rewrite <- app_assoc. cbn. constructor; assumption.
Qed.
