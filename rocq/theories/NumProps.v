(** C01-C04: boxed values and integer arithmetic. *)
From Coq Require Import ZArith Bool Lia.
From Verif Require Import Base NumModel NumProofs.
Open Scope Z_scope.

(** C01.  A boxed pointer gives its parts back, is not a number, and satisfies
    exactly the masked predicate of its tag. *)
Theorem boxed_pointer_roundtrip : forall p t, 0 <= p < 2^48 -> 0 <= t < 8 ->
  exists o, makeNaNPtr p t = Ok o /\ 0 <= o < 2^64 /\
    ptr o = p /\ tag o = t /\ isNumber o = false /\ isobj o = true /\
    (iscobj o = true <-> t = TAG_COBJ) /\
    (isBytes o = true <-> t = TAG_BYTES) /\
    (iscons o = true <-> t = TAG_CONS) /\
    (isScmHead o = true <-> 4 <= t).
Proof.
  intros p t Hp Ht. exists (OBJ_MASK + t * 2^48 + p).
  split; [now apply makeNaNPtr_ok|].
  split; [unfold OBJ_MASK; lia|].
  split; [now apply boxed_ptr|].
  split; [now apply boxed_tag|].
  split; [now rewrite isNumber_isobj, boxed_isobj|].
  split; [now apply boxed_isobj|].
  unfold iscobj, isBytes, iscons, isScmHead, TAG_COBJ, TAG_BYTES, TAG_CONS.
  rewrite !boxed_masked, boxed_isobj, boxed_tag by lia.
  rewrite !Z.eqb_eq. cbn [andb]. rewrite Z.leb_le. repeat split; auto.
Qed.
Print Assumptions boxed_pointer_roundtrip.
Example boxed_pointer_roundtrip_ex :
  makeNaNPtr 0x7f12deadbee8 TAG_CONS = Ok 0x7FFD7f12deadbee8.
Proof. vm_compute. reflexivity. Qed.

(** pointers that do not fit are rejected, not truncated *)
Theorem oversized_pointer_traps : forall p t, 2^48 <= p -> makeNaNPtr p t = Trap.
Proof.
  intros p t Hp. unfold makeNaNPtr, assertT.
  rewrite Z.shiftr_div_pow2 by lia.
  destruct (Z.eqb_spec (p / 2^48) 0) as [E|]; [|reflexivity].
  exfalso. pose proof (Z.div_le_mono (2^48) p (2^48) ltac:(lia) Hp).
  rewrite Z.div_same in H; lia.
Qed.
Print Assumptions oversized_pointer_traps.

Theorem boxed_pointer_injective : forall p t p' t' o,
  0 <= p < 2^48 -> 0 <= t < 8 -> 0 <= p' < 2^48 -> 0 <= t' < 8 ->
  makeNaNPtr p t = Ok o -> makeNaNPtr p' t' = Ok o -> p = p' /\ t = t'.
Proof.
  intros p t p' t' o Hp Ht Hp' Ht'. rewrite !makeNaNPtr_ok by assumption.
  intros E E'. apply Ok_inj in E. apply Ok_inj in E'. lia.
Qed.
Print Assumptions boxed_pointer_injective.

(** Numbers made from int64 values are numbers and nothing else. *)
Theorem number_is_not_an_object : forall v, - 2^63 <= v < 2^63 ->
  exists o, makeNumber v = Ok o /\ 0 <= o < 2^64 /\
    isNumber o = true /\ isobj o = false /\ iscons o = false /\ isBytes o = false /\
    iscobj o = false /\ isScmHead o = false /\ isboolean o = false /\
    o <> Nil /\ o <> Undef.
Proof.
  intros v Hv. exists (i2d v).
  assert (Hr : Z.abs v <= 2^63) by lia.
  pose proof (i2d_isobj v Hr) as Ho.
  assert (Hm : forall t, 0 <= t < 8 -> masked_tag (i2d v) t = false).
  { intros t Ht. apply not_true_is_false. intro H. apply masked_isobj in H; [congruence|assumption]. }
  split; [now apply makeNumber_ok|].
  split; [now apply i2d_range|].
  split; [now rewrite isNumber_isobj, Ho|].
  split; [exact Ho|].
  split; [apply Hm; unfold TAG_CONS; lia|].
  split; [apply Hm; unfold TAG_BYTES; lia|].
  split; [apply Hm; unfold TAG_COBJ; lia|].
  split; [unfold isScmHead; now rewrite Ho|].
  assert (Hi : forall k, k = Nil \/ k = Undef \/ k = True_ \/ k = False_ -> i2d v <> k).
  { intros k Hk E. rewrite E in Ho. destruct Hk as [->|[->|[->| ->]]]; vm_compute in Ho; discriminate. }
  split; [|split; apply Hi; auto].
  unfold isboolean. apply orb_false_iff. rewrite !Z.eqb_neq. split; apply Hi; auto.
Qed.
Print Assumptions number_is_not_an_object.
Example number_is_not_an_object_ex : makeNumber (-12345) = Ok 0xC0C81C8000000000.
Proof. vm_compute. reflexivity. Qed.

Theorem immediates_distinct :
  Undef <> Nil /\ Undef <> True_ /\ Undef <> False_ /\ Nil <> True_ /\ Nil <> False_ /\
  True_ <> False_ /\
  (forall p t o, 0 <= p < 2^48 -> 0 <= t < 8 -> t <> TAG_IMMED -> makeNaNPtr p t = Ok o ->
     o <> Undef /\ o <> Nil /\ o <> True_ /\ o <> False_).
Proof.
  repeat (split; [vm_compute; discriminate|]).
  intros p t o Hp Ht Hn E. rewrite makeNaNPtr_ok in E by assumption. apply Ok_inj in E; subst.
  assert (Hk : forall k, tag k = TAG_IMMED -> OBJ_MASK + t * 2^48 + p <> k).
  { intros k Hk E. rewrite <- E, boxed_tag in Hk by assumption. contradiction. }
  repeat split; apply Hk; reflexivity.
Qed.
Print Assumptions immediates_distinct.

(** C01, the predicate [vector?]: it inspects the tag bits without checking that
    the value is an object, so for some integers it loads from address 0. *)
Theorem vector_predicate_safe_partial : forall mem v, Z.abs v <= 2^63 ->
  tag (i2d v) <> TAG_PTR -> isvector mem (i2d v) = Ok false.
Proof.
  intros mem v Hv Ht. unfold isvector. destruct (Z.eqb_spec (tag (i2d v)) TAG_PTR); congruence.
Qed.
Print Assumptions vector_predicate_safe_partial.
Example vector_predicate_safe_ex : tag (i2d 30) <> TAG_PTR.
Proof. vm_compute. discriminate. Qed.

Theorem vector_predicate_safe_refuted : exists n, 0 <= n <= 2^53 /\
  forall mem, mem 0 = None -> isvector mem (i2d n) = UB.
Proof.
  exists 31. split; [lia|]. intros mem H. unfold isvector.
  change (tag (i2d 31) =? TAG_PTR) with true. cbv iota.
  change (ptr (i2d 31)) with 0. now rewrite H.
Qed.
Print Assumptions vector_predicate_safe_refuted.

(** C02 *)
Theorem integer_roundtrip : forall v, - 2^53 <= v <= 2^53 ->
  exists o, makeNumber v = Ok o /\ isfixnum o = true /\ fixnum o = Ok v.
Proof.
  intros v Hv. exists (i2d v). assert (Z.abs v <= 2^53) by lia.
  split; [apply makeNumber_ok; lia|].
  split; [now apply isfixnum_i2d|now apply fixnum_i2d].
Qed.
Print Assumptions integer_roundtrip.
Example integer_roundtrip_ex : fixnum (i2d (-9007199254740991)) = Ok (-9007199254740991).
Proof. vm_compute. reflexivity. Qed.

Theorem integer_representation_injective : forall v w o,
  - 2^53 <= v <= 2^53 -> - 2^53 <= w <= 2^53 ->
  makeNumber v = Ok o -> makeNumber w = Ok o -> v = w.
Proof.
  intros v w o Hv Hw. rewrite !makeNumber_ok by lia. intros E E'.
  apply Ok_inj in E. apply Ok_inj in E'. apply i2d_inj; [lia|lia|congruence].
Qed.
Print Assumptions integer_representation_injective.

(** the bound is sharp: the very next integer is merged with its neighbour *)
Theorem integer_roundtrip_beyond_2_53_refuted :
  exists v, 2^53 < v < 2^63 /\
    exists o, makeNumber v = Ok o /\ makeNumber (v - 1) = Ok o.
Proof. exists (2^53 + 1). split; [lia|]. exists (i2d (2^53)). split; vm_compute; reflexivity. Qed.
Print Assumptions integer_roundtrip_beyond_2_53_refuted.

(** an int64 whose boxed form cannot be read back at all *)
Theorem int64_max_unreadable_refuted :
  exists v o, - 2^63 <= v < 2^63 /\ makeNumber v = Ok o /\ fixnum o = UB.
Proof. exists (2^63 - 1), (i2d (2^63 - 1)). split; [lia|]. split; vm_compute; reflexivity. Qed.
Print Assumptions int64_max_unreadable_refuted.

(** C03 *)
Definition in53 (v : Z) := - 2^53 <= v <= 2^53.
Theorem add_exact : forall a b x y, in53 a -> in53 b -> in53 (a + b) ->
  makeNumber a = Ok x -> makeNumber b = Ok y -> PRIM_ADD x y = makeNumber (a + b).
Proof.
  unfold in53. intros a b x y Ha Hb Hc. rewrite !makeNumber_ok by lia. intros E E'.
  apply Ok_inj in E; subst. apply Ok_inj in E'; subst. apply prim_arith_ok; lia.
Qed.
Theorem sub_exact : forall a b x y, in53 a -> in53 b -> in53 (a - b) ->
  makeNumber a = Ok x -> makeNumber b = Ok y -> PRIM_SUB x y = makeNumber (a - b).
Proof.
  unfold in53. intros a b x y Ha Hb Hc. rewrite !makeNumber_ok by lia. intros E E'.
  apply Ok_inj in E; subst. apply Ok_inj in E'; subst. apply prim_arith_ok; lia.
Qed.
Theorem mul_exact : forall a b x y, in53 a -> in53 b -> in53 (a * b) ->
  makeNumber a = Ok x -> makeNumber b = Ok y -> PRIM_MUL x y = makeNumber (a * b).
Proof.
  unfold in53. intros a b x y Ha Hb Hc. rewrite !makeNumber_ok by lia. intros E E'.
  apply Ok_inj in E; subst. apply Ok_inj in E'; subst. apply prim_arith_ok; lia.
Qed.
Theorem compare_exact : forall a b x y, in53 a -> in53 b ->
  makeNumber a = Ok x -> makeNumber b = Ok y ->
  (PRIM_LT x y = Ok True_ <-> a < b) /\ (PRIM_LT x y = Ok False_ <-> b <= a) /\
  (PRIM_GT x y = Ok True_ <-> a > b) /\ (PRIM_GT x y = Ok False_ <-> a <= b).
Proof.
  unfold in53. intros a b x y Ha Hb. rewrite !makeNumber_ok by lia. intros E E'.
  apply Ok_inj in E; subst. apply Ok_inj in E'; subst.
  assert (TF : True_ <> False_) by (vm_compute; discriminate).
  unfold PRIM_LT, PRIM_GT. rewrite !fixnum_i2d by lia. cbn [obind]. unfold mkbool.
  destruct (Z.ltb_spec a b), (Z.ltb_spec b a); repeat split; intros; try lia; try congruence.
Qed.
Print Assumptions add_exact.
Print Assumptions sub_exact.
Print Assumptions mul_exact.
Print Assumptions compare_exact.
Example arith_ex : PRIM_MUL (i2d (-94906265)) (i2d 94906265) = Ok (i2d (-9007199136250225)).
Proof. vm_compute. reflexivity. Qed.

(** the exported C helpers primAdd / primSub do not add and subtract *)
Theorem primAdd_exact_refuted : exists a b, in53 a /\ in53 b /\ in53 (a + b) /\
  primAdd (i2d a) (i2d b) <> makeNumber (a + b).
Proof. exists 1, 1. unfold in53. repeat split; try lia. vm_compute. discriminate. Qed.
Print Assumptions primAdd_exact_refuted.

(** what they do compute: the sum and the difference of the two patterns as 64-bit words *)
Theorem primAdd_is_word_sum : forall x y r, primAdd x y = Ok r ->
  0 <= r < 2^64 /\ exists k, x + y = k * 2^64 + r.
Proof.
  unfold primAdd. intros x y r H. destruct (isfixnum x && isfixnum y); [|discriminate].
  injection H as <-. split; [apply Z.mod_pos_bound; lia|].
  exists ((x + y) / 2^64). rewrite Z.mul_comm. apply Z.div_mod. lia.
Qed.
Theorem primSub_is_word_difference : forall x y r, primSub x y = Ok r ->
  0 <= r < 2^64 /\ exists k, x - y = k * 2^64 + r.
Proof.
  unfold primSub. intros x y r H. destruct (isfixnum x && isfixnum y); [|discriminate].
  injection H as <-. split; [apply Z.mod_pos_bound; lia|].
  exists ((x - y) / 2^64). rewrite Z.mul_comm. apply Z.div_mod. lia.
Qed.
Print Assumptions primAdd_is_word_sum.
Print Assumptions primSub_is_word_difference.
Example word_sum_ex : primAdd (i2d (-1)) (i2d (-1)) = Ok (2 * i2d (-1) - 2^64) /\
  primSub (i2d 1) (i2d 2) = Ok (i2d 1 - i2d 2 + 2^64).
Proof. split; vm_compute; reflexivity. Qed.

(** C04: the exported negation answers on the two booleans only *)
Theorem not_right : forall x,
  match primNot x with
  | Ok r => (x = True_ /\ r = False_) \/ (x = False_ /\ r = True_)
  | Trap => x <> True_ /\ x <> False_
  | UB => False
  end.
Proof.
  intros x. unfold primNot. destruct (Z.eqb_spec x True_) as [->|H1]; [now left|].
  destruct (Z.eqb_spec x False_) as [->|H2]; [now right|]. now split.
Qed.
Print Assumptions not_right.
Example not_ex : primNot True_ = Ok False_ /\ primNot False_ = Ok True_ /\ primNot (i2d 0) = Trap.
Proof. repeat split; vm_compute; reflexivity. Qed.

(** C04: "/" is not division. *)
Theorem division_refuted : exists a b q, b <> 0 /\ a = b * q /\ in53 a /\ in53 b /\ in53 q /\
  primDiv (i2d a) (i2d b) <> makeNumber q.
Proof.
  exists 10, 2, 5. unfold in53. repeat split; try lia. vm_compute. discriminate.
Qed.
Print Assumptions division_refuted.

(** What it computes on positive integers: 1 if the dividend is at least the
    divisor, 0 otherwise. Hence the quotient is right exactly when it is 0 or 1. *)
Theorem division_on_positive_integers : forall a b x y, 1 <= a <= 2^53 -> 1 <= b <= 2^53 ->
  makeNumber a = Ok x -> makeNumber b = Ok y ->
  primDiv x y = makeNumber (if b <=? a then 1 else 0).
Proof.
  intros a b x y Ha Hb. rewrite !makeNumber_ok by lia. intros E E'.
  apply Ok_inj in E; subst. apply Ok_inj in E'; subst. rewrite primDiv_pos by assumption.
  destruct (b <=? a); reflexivity.
Qed.
Print Assumptions division_on_positive_integers.

Theorem division_quotient_partial : forall a b x y, 1 <= a <= 2^53 -> 1 <= b <= 2^53 ->
  makeNumber a = Ok x -> makeNumber b = Ok y ->
  (primDiv x y = makeNumber (a / b) <-> a < 2 * b).
Proof.
  intros a b x y Ha Hb Ea Eb.
  rewrite (division_on_positive_integers a b x y Ha Hb Ea Eb).
  assert (Hq : 0 <= a / b <= a).
  { split; [apply Z.div_pos; lia|]. apply Z.div_le_upper_bound; nia. }
  rewrite !makeNumber_ok by (destruct (b <=? a); lia).
  pose proof (Z.mul_div_le a b ltac:(lia)). pose proof (Z.mul_succ_div_gt a b ltac:(lia)).
  split.
  - intro E. apply Ok_inj in E. apply i2d_inj in E; [|destruct (b <=? a); lia|lia].
    destruct (Z.leb_spec b a); nia.
  - intro Hlt. do 2 f_equal. destruct (Z.leb_spec b a); nia.
Qed.
Print Assumptions division_quotient_partial.
Example division_partial_ex : primDiv (i2d 7) (i2d 5) = Ok (i2d 1).
Proof. vm_compute. reflexivity. Qed.

(** dividing by zero, which the code does not guard *)
Theorem division_by_zero_is_ub : forall a x y, in53 a -> makeNumber a = Ok x ->
  makeNumber 0 = Ok y -> primDiv x y = UB.
Proof.
  unfold in53. intros a x y Ha. rewrite !makeNumber_ok by lia. intros E E'.
  apply Ok_inj in E; subst. apply Ok_inj in E'; subst. unfold primDiv.
  rewrite !isfixnum_i2d by lia. reflexivity.
Qed.
Print Assumptions division_by_zero_is_ub.

(** The multiplication of the interpreter is exact within 2^53, like PRIM_MUL. *)
Theorem primMul_exact : forall a b x y, in53 a -> in53 b -> in53 (a * b) ->
  makeNumber a = Ok x -> makeNumber b = Ok y -> primMul x y = makeNumber (a * b).
Proof.
  unfold in53. intros a b x y Ha Hb Hc. rewrite !makeNumber_ok by lia. intros E E'.
  apply Ok_inj in E; subst. apply Ok_inj in E'; subst. unfold primMul.
  rewrite !isfixnum_i2d by lia. cbn [andb].
  pose proof (prim_arith_ok Z.mul a b ltac:(lia) ltac:(lia) ltac:(lia)) as P. exact P.
Qed.
Print Assumptions primMul_exact.
Example primMul_ex : primMul (i2d 12) (i2d (-11)) = Ok (i2d (-132)).
Proof. vm_compute. reflexivity. Qed.

(** Arithmetic and comparison of what is not an integer abort; nothing
    undefined happens and no number comes out. *)
Theorem fixnum_traps : forall o, fixnum o = Trap <-> isfixnum o = false.
Proof.
  intros o. unfold fixnum, isfixnum. destruct (isNumber o); cbn [andb]; [|tauto].
  destruct (dclassify o) as [z| |]; try (split; discriminate || reflexivity). destruct (int64_ok z); split; discriminate.
Qed.
Theorem no_number_no_arithmetic : forall a x o, in53 a -> makeNumber a = Ok x -> isfixnum o = false ->
  (forall y, PRIM_ADD o y = Trap /\ PRIM_SUB o y = Trap /\ PRIM_MUL o y = Trap /\ PRIM_GT o y = Trap /\ PRIM_LT o y = Trap /\
     primAdd o y = Trap /\ primSub o y = Trap /\ primMul o y = Trap /\ primDiv o y = Trap) /\
  PRIM_ADD x o = Trap /\ PRIM_SUB x o = Trap /\ PRIM_MUL x o = Trap /\ PRIM_GT x o = Trap /\ PRIM_LT x o = Trap /\
  primAdd x o = Trap /\ primSub x o = Trap /\ primMul x o = Trap /\ primDiv x o = Trap.
Proof.
  unfold in53. intros a x o Ha E N. rewrite makeNumber_ok in E by lia. apply Ok_inj in E. subst x.
  pose proof (proj2 (fixnum_traps o) N) as F. pose proof (fixnum_i2d a ltac:(lia)) as Fa. pose proof (isfixnum_i2d a ltac:(lia)) as Na.
  unfold PRIM_ADD, PRIM_SUB, PRIM_MUL, prim_arith, PRIM_GT, PRIM_LT, primAdd, primSub, primMul, primDiv.
  rewrite F, Fa, N, Na. cbn [obind andb]. auto 20.
Qed.
Print Assumptions fixnum_traps.
Print Assumptions no_number_no_arithmetic.
(** strings, symbols, true and one half *)
Example no_number_ex : isfixnum True_ = false /\ isfixnum Nil = false /\ isfixnum (2^62 - 2^53) = false.
Proof. vm_compute. auto. Qed.

(** vector? of a boxed pointer looks at the type of the object pointed to. *)
Theorem vector_predicate_right : forall mem p o t, 0 <= p < 2^48 -> makeNaNPtr p TAG_PTR = Ok o -> mem p = Some t ->
  (isvector mem o = Ok true <-> t = scmHeadVector) /\ (isvector mem o = Ok false <-> t <> scmHeadVector).
Proof.
  intros mem p o t Hp E M. rewrite makeNaNPtr_ok in E by (unfold TAG_PTR; lia). apply Ok_inj in E. subst o. unfold isvector.
  rewrite boxed_tag by (unfold TAG_PTR; lia). rewrite Z.eqb_refl. rewrite boxed_ptr by (unfold TAG_PTR; lia). rewrite M.
  destruct (Z.eqb_spec t scmHeadVector); split; split; try congruence; intros Q; apply Ok_inj in Q; congruence.
Qed.
Print Assumptions vector_predicate_right.
Example vector_predicate_ex : exists o, makeNaNPtr 4096 TAG_PTR = Ok o /\ isvector (fun a => if a =? 4096 then Some 5 else None) o = Ok true.
Proof. eexists. split; [vm_compute; reflexivity|vm_compute; reflexivity]. Qed.
