(** Proofs about NaN boxing and arithmetic. *)
From Coq Require Import ZArith Bool Lia.
From Verif Require Import Base NumModel.
Open Scope Z_scope.
Local Ltac Zify.zify_post_hook ::= Z.div_mod_to_equations.

Lemma land_field : forall x s n, 0 <= s -> 0 <= n ->
  Z.land x (Z.ones n * 2^s) = ((x / 2^s) mod 2^n) * 2^s.
Proof.
  intros x s n Hs Hn.
  rewrite <- Z.shiftl_mul_pow2 by lia.
  rewrite <- (Z.shiftl_mul_pow2 ((x / 2^s) mod 2^n)) by lia.
  rewrite <- Z.land_ones by lia.
  rewrite <- Z.shiftr_div_pow2 by lia.
  apply Z.bits_inj'. intros i Hi.
  rewrite Z.land_spec, !Z.shiftl_spec by lia.
  destruct (Z_lt_le_dec i s).
  - rewrite !(Z.testbit_neg_r _ (i - s)) by lia. now rewrite andb_false_r.
  - rewrite Z.land_spec, Z.shiftr_spec by lia.
    now replace (i - s + s) with i by lia.
Qed.

Lemma OBJ_MASK_eq : OBJ_MASK = Z.ones 12 * 2^51.
Proof. reflexivity. Qed.
Lemma MASK_eq : MASK = Z.ones 15 * 2^48.
Proof. reflexivity. Qed.

Lemma isobj_iff : forall x, isobj x = true <-> (x / 2^51) mod 2^12 = 4095.
Proof.
  intro x. unfold isobj. rewrite Z.eqb_eq, OBJ_MASK_eq, land_field by lia.
  change (Z.ones 12) with 4095. lia.
Qed.

Lemma isNumber_isobj : forall x, isNumber x = negb (isobj x).
Proof. reflexivity. Qed.

Lemma ptr_eq : forall o, ptr o = o mod 2^48.
Proof.
  intro o. unfold ptr. change (Z.shiftl 1 48 - 1) with (Z.ones 48).
  apply Z.land_ones. lia.
Qed.

Lemma tag_eq : forall o, tag o = (o / 2^48) mod 8.
Proof.
  intro o. unfold tag. change 7 with (Z.ones 3). rewrite Z.land_ones by lia.
  rewrite Z.shiftr_div_pow2 by lia. reflexivity.
Qed.

Lemma lor_add : forall a b, Z.land a b = 0 -> Z.lor a b = a + b.
Proof.
  intros a b H. rewrite <- Z.lxor_lor by assumption.
  symmetry. apply Z.add_nocarry_lxor. assumption.
Qed.

Lemma land_disjoint : forall a b n, 0 <= n -> 0 <= b < 2^n -> Z.land (a * 2^n) b = 0.
Proof.
  intros a b n Hn Hb. apply Z.bits_inj'. intros i Hi.
  rewrite Z.land_spec, Z.bits_0.
  destruct (Z_lt_le_dec i n).
  - rewrite Z.mul_pow2_bits_low by lia. reflexivity.
  - destruct (Z.eq_dec b 0) as [->|].
    + rewrite Z.bits_0. apply andb_false_r.
    + rewrite (Z.bits_above_log2 b i); [apply andb_false_r|lia|].
      apply Z.log2_lt_pow2; [lia|].
      apply Z.lt_le_trans with (2^n); [lia|]. apply Z.pow_le_mono_r; lia.
Qed.

Lemma box_eq : forall p t, 0 <= p < 2^48 -> 0 <= t < 8 ->
  Z.lor (Z.lor (Z.shiftl t 48) OBJ_MASK) p = OBJ_MASK + t * 2^48 + p.
Proof.
  intros p t Hp Ht.
  assert (H1 : Z.lor (Z.shiftl t 48) OBJ_MASK = t * 2^48 + OBJ_MASK).
  { rewrite Z.shiftl_mul_pow2 by lia.
    apply lor_add. rewrite Z.land_comm, OBJ_MASK_eq.
    apply land_disjoint; lia. }
  rewrite H1.
  assert (H2 : t * 2^48 + OBJ_MASK = (t + 4095 * 8) * 2^48).
  { rewrite OBJ_MASK_eq. change (Z.ones 12) with 4095. change (2^51) with (8 * 2^48). ring. }
  rewrite lor_add. { lia. }
  rewrite H2. apply land_disjoint; lia.
Qed.

Lemma makeNaNPtr_ok : forall p t, 0 <= p < 2^48 -> 0 <= t < 8 ->
  makeNaNPtr p t = Ok (OBJ_MASK + t * 2^48 + p).
Proof.
  intros p t Hp Ht. unfold makeNaNPtr, assertT.
  rewrite Z.shiftr_div_pow2 by lia. rewrite Z.div_small by lia.
  cbn [Z.eqb]. rewrite box_eq by lia. reflexivity.
Qed.

Lemma boxed_isobj : forall p t, 0 <= p < 2^48 -> 0 <= t < 8 ->
  isobj (OBJ_MASK + t * 2^48 + p) = true.
Proof. intros p t Hp Ht. apply isobj_iff. unfold OBJ_MASK. lia. Qed.

Lemma boxed_ptr : forall p t, 0 <= p < 2^48 -> 0 <= t < 8 ->
  ptr (OBJ_MASK + t * 2^48 + p) = p.
Proof. intros p t Hp Ht. rewrite ptr_eq. unfold OBJ_MASK. lia. Qed.

Lemma boxed_tag : forall p t, 0 <= p < 2^48 -> 0 <= t < 8 ->
  tag (OBJ_MASK + t * 2^48 + p) = t.
Proof. intros p t Hp Ht. rewrite tag_eq. unfold OBJ_MASK. lia. Qed.

Lemma masked_tag_iff : forall v t, 0 <= t < 8 ->
  masked_tag v t = true <-> (v / 2^48) mod 2^15 = 4095 * 8 + t.
Proof.
  intros v t Ht. unfold masked_tag. rewrite Z.eqb_eq, MASK_eq, land_field by lia.
  pose proof (box_eq 0 t ltac:(lia) Ht) as E. rewrite Z.lor_0_r in E. rewrite E.
  unfold OBJ_MASK. lia.
Qed.

Lemma boxed_masked : forall p t u, 0 <= p < 2^48 -> 0 <= t < 8 -> 0 <= u < 8 ->
  masked_tag (OBJ_MASK + t * 2^48 + p) u = (t =? u).
Proof.
  intros p t u Hp Ht Hu. apply eq_true_iff_eq.
  rewrite masked_tag_iff, Z.eqb_eq by lia. unfold OBJ_MASK. lia.
Qed.

Lemma masked_isobj : forall v t, 0 <= t < 8 -> masked_tag v t = true -> isobj v = true.
Proof.
  intros v t Ht H. apply masked_tag_iff in H; [|lia]. apply isobj_iff. lia.
Qed.

(** ** doubles of integers *)

Lemma i2d_shape : forall v, v <> 0 -> Z.abs v < 2^52 * 2 \/ Z.abs v = 2^53 ->
  exists e m, i2d v = (if v <? 0 then 2^63 else 0) + (e + 1023) * 2^52 + m /\
    0 <= e <= 53 /\ 0 <= m < 2^52 /\
    (e <= 52 -> Z.abs v * 2^(52 - e) = m + 2^52) /\ (e = 53 -> m = 0 /\ Z.abs v = 2^53).
Proof.
  intros v Hv Hr. unfold i2d.
  destruct (Z.eqb_spec v 0); [lia|].
  assert (Ha : 0 < Z.abs v) by lia.
  pose proof (Z.log2_spec (Z.abs v) Ha) as Hl.
  pose proof (Z.log2_nonneg (Z.abs v)) as Hn.
  destruct Hr as [Hr|Hr].
  - assert (He : Z.log2 (Z.abs v) <= 52).
    { apply Z.lt_succ_r. apply Z.log2_lt_pow2; [lia|]. exact Hr. }
    remember (Z.log2 (Z.abs v)) as e eqn:Ee.
    destruct (Z.leb_spec e 52); [|lia].
    exists e, (Z.abs v * 2^(52 - e) - 2^52).
    assert (E1 : 2^52 = 2^e * 2^(52 - e)) by (rewrite <- Z.pow_add_r by lia; f_equal; lia).
    assert (E2 : 2^Z.succ e = 2 * 2^e) by (rewrite Z.pow_succ_r; lia).
    assert (0 < 2^(52 - e)) by (apply Z.pow_pos_nonneg; lia).
    repeat split; try lia; try nia.
  - rewrite Hr. change (Z.log2 (2^53)) with 53. cbn [Z.leb].
    change (53 <=? 52) with false. cbv iota zeta.
    change (2^53 / 2^(53-52)) with (2^52).
    change (2^53 mod 2^(53-52)) with 0. cbn [Z.eqb orb andb].
    change (2^(53-52-1) <? 0) with false. change (0 =? 2^(53-52-1)) with false.
    cbn [orb andb].
    exists 53, 0. rewrite Z.sub_diag. repeat split; lia.
Qed.

(** general shape for every int64 *)
Lemma i2d_bounds : forall v, v <> 0 -> Z.abs v <= 2^63 ->
  exists F, i2d v = (if v <? 0 then 2^63 else 0) + F /\
    1023 * 2^52 <= F <= 1087 * 2^52.
Proof.
  intros v Hv Hr. unfold i2d.
  destruct (Z.eqb_spec v 0); [lia|].
  assert (Ha : 0 < Z.abs v) by lia.
  pose proof (Z.log2_spec (Z.abs v) Ha) as Hl.
  pose proof (Z.log2_nonneg (Z.abs v)) as Hn.
  assert (He : Z.log2 (Z.abs v) <= 63).
  { apply Z.lt_succ_r. apply Z.log2_lt_pow2; [lia|].
    change (Z.succ 63) with 64. lia. }
  remember (Z.log2 (Z.abs v)) as e eqn:Ee.
  assert (E2 : 2^Z.succ e = 2 * 2^e) by (rewrite Z.pow_succ_r; lia).
  destruct (Z.leb_spec e 52).
  - assert (E1 : 2^52 = 2^e * 2^(52 - e)) by (rewrite <- Z.pow_add_r by lia; f_equal; lia).
    assert (0 < 2^(52 - e)) by (apply Z.pow_pos_nonneg; lia).
    eexists. split. { rewrite <- Z.add_assoc. reflexivity. }
    assert (0 <= Z.abs v * 2^(52 - e) - 2^52 < 2^52) by nia.
    lia.
  - assert (E1 : 2^e = 2^52 * 2^(e - 52)) by (rewrite <- Z.pow_add_r by lia; f_equal; lia).
    assert (Hp : 0 < 2^(e - 52)) by (apply Z.pow_pos_nonneg; lia).
    cbv zeta.
    set (q := Z.abs v / 2^(e - 52)).
    assert (Hq : 2^52 <= q < 2^53).
    { subst q. split.
      - apply Z.div_le_lower_bound; lia.
      - apply Z.div_lt_upper_bound; [lia|]. change (2^53) with (2 * 2^52). nia. }
    change (2^53) with (2 * 2^52) in Hq.
    assert (He' : e = 63 -> Z.abs v = 2^63).
    { intros ->. lia. }
    assert (Hz : e = 63 -> q = 2^52 /\ Z.abs v mod 2^(e - 52) = 0).
    { intro H63. subst q. rewrite (He' H63), H63. split; reflexivity. }
    eexists. split. { rewrite <- Z.add_assoc. reflexivity. }
    destruct (Z.eq_dec e 63) as [E63|].
    + destruct (Hz E63) as [Hq1 Hq2]. rewrite Hq2.
      assert (Hh : 0 < 2^(e - 52 - 1)) by (apply Z.pow_pos_nonneg; lia).
      destruct (Z.ltb_spec (2^(e-52-1)) 0); [lia|].
      destruct (Z.eqb_spec 0 (2^(e-52-1))); [lia|]. cbn [orb andb]. lia.
    + destruct (_ || _); lia.
Qed.

Lemma i2d_range : forall v, Z.abs v <= 2^63 -> 0 <= i2d v < 2^64.
Proof.
  intros v Hr. destruct (Z.eq_dec v 0) as [->|Hv].
  - cbn. lia.
  - destruct (i2d_bounds v Hv Hr) as (F & -> & HF). destruct (v <? 0); lia.
Qed.

Lemma i2d_isobj : forall v, Z.abs v <= 2^63 -> isobj (i2d v) = false.
Proof.
  intros v Hr. apply not_true_is_false. intro H. apply isobj_iff in H.
  destruct (Z.eq_dec v 0) as [->|Hv].
  - cbn in H. lia.
  - destruct (i2d_bounds v Hv Hr) as (F & E & HF). rewrite E in H.
    destruct (v <? 0); lia.
Qed.

Lemma makeNumber_ok : forall v, Z.abs v <= 2^63 -> makeNumber v = Ok (i2d v).
Proof.
  intros v Hr. unfold makeNumber, assertT. rewrite isNumber_isobj, i2d_isobj by assumption.
  reflexivity.
Qed.

Lemma dclassify_i2d : forall v, Z.abs v <= 2^53 -> dclassify (i2d v) = DInt v.
Proof.
  intros v Hr. destruct (Z.eq_dec v 0) as [->|Hv]; [reflexivity|].
  assert (Hr' : Z.abs v < 2^52 * 2 \/ Z.abs v = 2^53) by (change (2^53) with (2^52*2) in *; lia).
  destruct (i2d_shape v Hv Hr') as (e & m & E & He & Hm & H1 & H2).
  rewrite E. unfold dclassify.
  set (S := if v <? 0 then 2^63 else 0) in *.
  assert (HS : S = 0 /\ 0 < v \/ S = 2^63 /\ v < 0).
  { subst S. destruct (Z.ltb_spec v 0); lia. }
  clearbody S.
  assert (HE : ((S + (e + 1023) * 2^52 + m) / 2^52) mod 2^11 = e + 1023).
  { clear H1 H2 E. destruct HS as [[-> _]|[-> _]]; lia. }
  assert (HM : (S + (e + 1023) * 2^52 + m) mod 2^52 = m).
  { clear H1 H2 E HE. destruct HS as [[-> _]|[-> _]]; lia. }
  rewrite HE, HM.
  destruct (Z.eqb_spec (e + 1023) 2047); [lia|].
  destruct (Z.eqb_spec (e + 1023) 0); [lia|].
  assert (Hb : Z.testbit (S + (e + 1023) * 2^52 + m) 63 = (v <? 0)).
  { rewrite Z.testbit_eqb by lia. clear H1 H2 E HE HM.
    destruct HS as [[-> ?]|[-> ?]].
    - destruct (Z.ltb_spec v 0); [lia|]. apply Z.eqb_neq.
      assert ((0 + (e + 1023) * 2^52 + m) / 2^63 = 0) as -> by (apply Z.div_small; lia).
      cbn. lia.
    - destruct (Z.ltb_spec v 0); [|lia]. apply Z.eqb_eq.
      assert ((2^63 + (e + 1023) * 2^52 + m) / 2^63 = 1) as ->.
      { symmetry. apply Z.div_unique with ((e + 1023) * 2^52 + m); lia. }
      reflexivity. }
  rewrite Hb. cbv zeta.
  destruct (Z.eq_dec e 53) as [->|He53].
  - destruct (H2 eq_refl) as [-> Ha].
    change (0 <=? 53 + 1023 - 1075) with true. cbv iota.
    change ((0 + 2^52) * 2^(53 + 1023 - 1075)) with (2^53).
    destruct (Z.ltb_spec v 0); f_equal; lia.
  - specialize (H1 ltac:(lia)).
    destruct (Z.leb_spec 0 (e + 1023 - 1075)).
    + assert (e = 52) as -> by lia. cbn in H1. change (2^(52+1023-1075)) with 1.
      destruct (Z.ltb_spec v 0); f_equal; lia.
    + replace (- (e + 1023 - 1075)) with (52 - e) by lia.
      rewrite <- H1.
      assert (0 < 2^(52 - e)) by (apply Z.pow_pos_nonneg; lia).
      rewrite Z.mod_mul by lia. cbn [Z.eqb]. rewrite Z.div_mul by lia.
      destruct (Z.ltb_spec v 0); f_equal; lia.
Qed.

Lemma fixnum_i2d : forall v, Z.abs v <= 2^53 -> fixnum (i2d v) = Ok v.
Proof.
  intros v Hr. unfold fixnum. rewrite isNumber_isobj, i2d_isobj by lia.
  cbn [negb]. rewrite dclassify_i2d by assumption.
  unfold int64_ok. destruct (Z.leb_spec (-2^63) v); [|lia].
  destruct (Z.ltb_spec v (2^63)); [|lia]. reflexivity.
Qed.

Lemma isfixnum_i2d : forall v, Z.abs v <= 2^53 -> isfixnum (i2d v) = true.
Proof.
  intros v Hr. unfold isfixnum. rewrite isNumber_isobj, i2d_isobj by lia.
  rewrite dclassify_i2d by assumption. reflexivity.
Qed.

Lemma i2d_inj : forall v w, Z.abs v <= 2^53 -> Z.abs w <= 2^53 -> i2d v = i2d w -> v = w.
Proof.
  intros v w Hv Hw E. pose proof (fixnum_i2d v Hv) as H. rewrite E, fixnum_i2d in H by assumption.
  congruence.
Qed.

Lemma prim_arith_ok : forall f a b, Z.abs a <= 2^53 -> Z.abs b <= 2^53 -> Z.abs (f a b) <= 2^53 ->
  prim_arith f (i2d a) (i2d b) = Ok (i2d (f a b)).
Proof.
  intros f a b Ha Hb Hc. unfold prim_arith. rewrite !fixnum_i2d by assumption. cbn [obind].
  unfold chk64, int64_ok.
  destruct (Z.leb_spec (-2^63) (f a b)); [|lia].
  destruct (Z.ltb_spec (f a b) (2^63)); [|lia]. cbn [andb obind].
  apply makeNumber_ok. lia.
Qed.

(** what "/" computes *)
Lemma i2d_pos_mono_range : forall a, 1 <= a <= 2^53 ->
  1023 * 2^52 <= i2d a <= 1076 * 2^52.
Proof.
  intros a Ha. destruct (i2d_shape a ltac:(lia)) as (e & m & E & He & Hm & H1 & H2).
  { change (2^53) with (2^52*2) in Ha. lia. }
  rewrite E. destruct (Z.ltb_spec a 0); [lia|]. clear H1.
  destruct (Z.eq_dec e 53) as [->|]; [destruct (H2 eq_refl)|]; lia.
Qed.

Lemma i2d_mono : forall a b, 1 <= a -> a < b -> b <= 2^53 -> i2d a < i2d b.
Proof.
  intros a b Ha Hab Hb.
  destruct (i2d_shape a ltac:(lia)) as (e & m & E & He & Hm & H1 & H2).
  { change (2^53) with (2^52*2) in Hb. lia. }
  destruct (i2d_shape b ltac:(lia)) as (e' & m' & E' & He' & Hm' & H1' & H2').
  { change (2^53) with (2^52*2) in Hb. lia. }
  rewrite E, E'. destruct (Z.ltb_spec a 0); [lia|]. destruct (Z.ltb_spec b 0); [lia|].
  destruct (Z.eq_dec e 53) as [He53|].
  { destruct (H2 He53). lia. }
  specialize (H1 ltac:(lia)).
  destruct (Z.eq_dec e' 53) as [He53'|].
  { lia. }
  specialize (H1' ltac:(lia)).
  rewrite Z.abs_eq in H1, H1' by lia.
  destruct (Z_lt_le_dec e e'); [lia|].
  destruct (Z.eq_dec e e') as [->|].
  { assert (0 < 2^(52 - e')) by (apply Z.pow_pos_nonneg; lia). nia. }
  exfalso.
  assert (Hp : 0 < 2^(52 - e)) by (apply Z.pow_pos_nonneg; lia).
  assert (Hq : 2^(52 - e') = 2^(e - e') * 2^(52 - e)).
  { rewrite <- Z.pow_add_r by lia. f_equal. lia. }
  assert (2 <= 2^(e - e')).
  { change 2 with (2^1) at 1. apply Z.pow_le_mono_r; lia. }
  nia.
Qed.

Lemma primDiv_pos : forall a b, 1 <= a <= 2^53 -> 1 <= b <= 2^53 ->
  primDiv (i2d a) (i2d b) = Ok (i2d (if b <=? a then 1 else 0)).
Proof.
  intros a b Ha Hb. unfold primDiv. rewrite !isfixnum_i2d by lia. cbn [andb].
  pose proof (i2d_pos_mono_range a Ha). pose proof (i2d_pos_mono_range b Hb).
  destruct (Z.eqb_spec (i2d b) 0); [lia|].
  assert (Hq : i2d a / i2d b = if b <=? a then 1 else 0).
  { destruct (Z.leb_spec b a).
    - destruct (Z.eq_dec a b) as [->|].
      + apply Z.div_same. lia.
      + pose proof (i2d_mono b a ltac:(lia) ltac:(lia) ltac:(lia)).
        symmetry. apply Z.div_unique with (i2d a - i2d b); lia.
    - pose proof (i2d_mono a b ltac:(lia) ltac:(lia) ltac:(lia)).
      apply Z.div_small. lia. }
  rewrite Hq. destruct (b <=? a); reflexivity.
Qed.
