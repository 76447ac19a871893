(** C84: how much a program may allocate between two collections. *)
From Coq Require Import ZArith Bool List Lia.
From Verif Require Import Base StrModel StrProofs PaceModel.
Import ListNotations.
Local Open Scope Z_scope.

(** ** Specification *)

(** Sizes are those of objects: allocated ones take no negative number of
    bytes, and int is the type of a size. *)
Definition sizes_ok (e : event) : Prop :=
  match e with Alloc n => 0 <= n < 2^31 | Mark n => 0 < n < 2^31 | _ => True end.

(** [P] holds at every event of a history: of the state before it. *)
Fixpoint always (P : stats -> event -> Prop) (es : list event) (s : stats) : Prop :=
  match es with
  | [] => True
  | e :: es => P s e /\ match step s e with Ok s' => always P es s' | _ => True end
  end.

(** Every collection finds at most [L] bytes alive, and at most [A] bytes are
    allocated from the start of a collection to its end. *)
Definition within (L A : Z) (s : stats) (e : event) : Prop :=
  sizes_ok e /\ match e with Finish => state s = gcRunning /\ markSize s <= L /\ allocated s <= A | _ => allocated s < 2^62 /\ markSize s < 2^62 end.

(** The sizes the collector last found for the three generations add up to at
    least [M]. *)
Definition finds (M : Z) (s : stats) (e : event) : Prop :=
  match e with Finish => exists y m o, generations s = (y, m, o) /\ M <= y + m + o | _ => True end.

Fixpoint collections (es : list event) : Z :=
  match es with [] => 0 | Finish :: es => 1 + collections es | _ :: es => collections es end.

(** ** Rounding *)

Lemma rnd_error : forall n, 0 <= n -> n - n / 2^53 - 1 <= rnd n <= n + n / 2^53 + 1.
Proof.
  intros n H. unfold rnd. cbv zeta. destruct (Z.leb_spec (Z.log2 n - 52) 0); [pose proof (Z.div_pos n (2^53)); lia|].
  set (k := Z.log2 n - 52) in *.
  assert (N : 2^(k + 52) <= n).
  { destruct (Z.eq_dec n 0) as [->|]; [cbn in k; lia|]. destruct (Z.log2_spec n); [lia|]. now replace (k + 52) with (Z.log2 n) by lia. }
  assert (K : 2^k = 2 * 2^(k-1)) by (rewrite <- Z.pow_succ_r by lia; f_equal; lia).
  assert (B : 2^(k-1) <= n / 2^53).
  { apply Z.div_le_lower_bound; [lia|]. rewrite <- Z.pow_add_r by lia. now replace (53 + (k - 1)) with (k + 52) by lia. }
  pose proof (Z.div_mod n (2^k)) as D. pose proof (Z.mod_pos_bound n (2^k)) as R. assert (0 < 2^(k-1)) by (apply Z.pow_pos_nonneg; lia).
  destruct (Z.ltb_spec (2^(k-1)) (n mod 2^k)); cbn [orb]; [nia|].
  destruct (Z.eqb_spec (n mod 2^k) (2^(k-1))); cbn [andb]; [destruct (Z.odd (n / 2^k)); nia|nia].
Qed.

Lemma rnd_nonneg : forall n, 0 <= n -> 0 <= rnd n.
Proof.
  intros n H. unfold rnd. cbv zeta. destruct (Z.leb_spec (Z.log2 n - 52) 0); [assumption|].
  assert (0 < 2^(Z.log2 n - 52)) by (apply Z.pow_pos_nonneg; lia). pose proof (Z.div_pos n (2^(Z.log2 n - 52)) H H1).
  apply Z.mul_nonneg_nonneg; [|lia]. destruct (_ || _); lia.
Qed.

Lemma rnd_exact : forall m j, 0 <= m < 2^53 -> 0 <= j -> rnd (m * 2^j) = m * 2^j.
Proof.
  intros m j M J. destruct (Z.eq_dec m 0) as [->|N0]; [reflexivity|].
  unfold rnd. cbv zeta. rewrite Z.log2_mul_pow2 by lia. destruct (Z.leb_spec (j + Z.log2 m - 52) 0); [reflexivity|].
  assert (Z.log2 m < 53) by (apply Z.log2_lt_pow2; lia).
  set (k := j + Z.log2 m - 52) in *. assert (E : m * 2^j = (m * 2^(j - k)) * 2^k).
  { rewrite <- Z.mul_assoc, <- Z.pow_add_r by lia. do 2 f_equal. lia. }
  assert (0 < 2^k) by (apply Z.pow_pos_nonneg; lia). assert (0 < 2^(k-1)) by (apply Z.pow_pos_nonneg; lia).
  rewrite E, Z.mod_mul, Z.div_mul by lia.
  destruct (Z.ltb_spec (2^(k-1)) 0); [lia|]. destruct (Z.eqb_spec 0 (2^(k-1))); [lia|]. reflexivity.
Qed.
Lemma rnd_small : forall m, 0 <= m < 2^53 -> rnd m = m.
Proof. intros m H. rewrite <- (Z.mul_1_r m). exact (rnd_exact m 0 H (Z.le_refl 0)). Qed.

(** The weighted mean, up to less than a hundredth. *)
Lemma weigh_range : forall x p, 0 <= x < 2^42 -> 0 <= p < 2^42 ->
  exists z, weigh x p = z / 2^53 /\ D04 * x + D06 * p - 2^45 <= z <= D04 * x + D06 * p + 2^45.
Proof.
  intros x p X P. unfold weigh. rewrite (rnd_small x), (rnd_small p) by lia. eexists. split; [reflexivity|].
  pose proof (rnd_error (D04 * x) ltac:(unfold D04; lia)) as E1. pose proof (rnd_error (D06 * p) ltac:(unfold D06; lia)) as E2.
  assert (B1 : D04 * x / 2^53 <= 2^42) by (apply Z.div_le_upper_bound; unfold D04; lia).
  assert (B2 : D06 * p / 2^53 <= 2^42) by (apply Z.div_le_upper_bound; unfold D06; lia).
  assert (0 <= D04 * x / 2^53) by (apply Z.div_pos; unfold D04; lia). assert (0 <= D06 * p / 2^53) by (apply Z.div_pos; unfold D06; lia).
  assert (S0 : 0 <= rnd (D04 * x) + rnd (D06 * p)).
  { pose proof (rnd_nonneg (D04 * x) ltac:(unfold D04; lia)). pose proof (rnd_nonneg (D06 * p) ltac:(unfold D06; lia)). lia. }
  pose proof (rnd_error _ S0) as E3.
  assert (B3 : (rnd (D04 * x) + rnd (D06 * p)) / 2^53 <= 2^43) by (apply Z.div_le_upper_bound; unfold D04, D06 in *; lia).
  assert (0 <= (rnd (D04 * x) + rnd (D06 * p)) / 2^53) by (apply Z.div_pos; lia). lia.
Qed.

Lemma weigh_nonneg : forall x p, 0 <= x -> 0 <= p -> 0 <= weigh x p.
Proof.
  intros x p X P. unfold weigh. apply Z.div_pos; [|lia]. apply rnd_nonneg.
  pose proof (rnd_nonneg x X). pose proof (rnd_nonneg p P).
  pose proof (rnd_nonneg (D04 * rnd x) ltac:(unfold D04; lia)). pose proof (rnd_nonneg (D06 * rnd p) ltac:(unfold D06; lia)). lia.
Qed.

Lemma weigh_upper : forall x p M, 0 <= x <= M -> 0 <= p <= M -> M < 2^42 -> weigh x p <= M.
Proof.
  intros x p M X P B. destruct (weigh_range x p) as (z & -> & Z0); [lia..|].
  apply Z.lt_succ_r, Z.div_lt_upper_bound; [lia|]. unfold D04, D06 in *. lia.
Qed.

Lemma weigh_lower : forall x p M, M <= x < 2^42 -> 0 <= p < 2^42 -> 0 <= M -> (p <= M - 3 -> p + 1 <= weigh x p) /\ (M - 2 <= p -> M - 2 <= weigh x p).
Proof.
  intros x p M X P B. destruct (weigh_range x p) as (z & -> & Z0); [lia..|].
  split; intros H; apply Z.div_le_lower_bound; try lia; unfold D04, D06 in *; lia.
Qed.

Lemma next_size_val : forall base a prev, 0 <= prev < 2^42 ->
  next_size base a prev =
  let w := weigh ((base + a) mod 2^64) prev in
  if w <? 2^31 then Ok (Z.max MEM_BLOCK_SIZE (Z.min w (3 * prev / 2))) else UB.
Proof.
  intros base a prev P. unfold next_size. cbv zeta. set (x := (base + a) mod 2^64).
  assert (0 <= x) by (apply Z.mod_pos_bound; lia). pose proof (weigh_nonneg x prev H ltac:(lia)) as W.
  destruct (Z.ltb_spec (weigh x prev) (2^31)); [|reflexivity].
  rewrite (rnd_small prev), (rnd_small (weigh x prev)) by lia. rewrite rnd_exact by lia.
  assert (E : 3 * prev * 2^52 / 2^53 = 3 * prev / 2).
  { change (2^53) with (2 * 2^52). apply Z.div_mul_cancel_r; lia. }
  rewrite E. f_equal. pose proof (Z.div_mod (3 * prev) 2). pose proof (Z.mod_pos_bound (3 * prev) 2).
  destruct (Z.ltb_spec (3 * prev * 2^52) (weigh x prev * 2^53)).
  - rewrite Z.min_r by lia. destruct (Z.ltb_spec (3 * prev / 2) MEM_BLOCK_SIZE); lia.
  - rewrite Z.min_l by lia. destruct (Z.ltb_spec (weigh x prev) MEM_BLOCK_SIZE); lia.
Qed.

(** ** Histories *)

(** What holds in every state that can be reached. *)
Definition sane (s : stats) : Prop :=
  MEM_BLOCK_SIZE <= nextSize s < 2^31 /\ (prevTrigger s = nextSize s \/ prevTrigger s = 0 /\ nextSize s = MEM_BLOCK_SIZE).

Lemma finish_inv : forall s s', sane s -> gcFinish s = Ok s' ->
  exists y m o w, generations s = (y, m, o) /\ w < 2^31 /\
    w = weigh ((to_int32 ((y + m + o) mod 2^64) + ((allocated s + 3 * avg s) mod 2^64) / 4) mod 2^64) (prevTrigger s) /\
    nextSize s' = Z.max MEM_BLOCK_SIZE (Z.min w (3 * prevTrigger s / 2)) /\
    s' = mkS (allocated s) (nextSize s') (markSize s) y m o (((allocated s + 3 * avg s) mod 2^64) / 4) (nextSize s') ((version s + 2) mod 2^64) gcNone.
Proof.
  intros s s' (N & P) H. unfold gcFinish in H. destruct (state s); [discriminate|]. destruct (generations s) as ((y & m) & o) eqn:G.
  rewrite next_size_val in H by (unfold MEM_BLOCK_SIZE in *; lia). cbv zeta in H.
  match type of H with context [if ?v <? _ then _ else _] => set (w := v) in *; destruct (Z.ltb_spec w (2^31)) end; [|discriminate].
  cbn [obind] in H. injection H as <-. exists y, m, o, w.
  split; [reflexivity|]. split; [assumption|]. split; [reflexivity|]. cbn [nextSize]. split; reflexivity.
Qed.

Lemma sane_step : forall s e s', sane s -> step s e = Ok s' -> sane s'.
Proof.
  intros s e s' I H. destruct e; cbn [step] in H.
  - injection H as <-. exact I.
  - injection H as <-. unfold gcTriggerCheck. destruct (state s); [|exact I]. destruct (nextSize s <? allocated s); exact I.
  - unfold gcInuseSizeInc, assertT in H. destruct (0 <? size); [|discriminate]. injection H as <-. exact I.
  - destruct (finish_inv s s' I H) as (y & m & o & w & _ & W & _ & N & E). rewrite E. unfold sane in *. cbn [nextSize prevTrigger].
    rewrite N. unfold MEM_BLOCK_SIZE in *. split; [|now left]. lia.
Qed.

Lemma sane_init : sane gcInitStats.
Proof. unfold sane. cbn. unfold MEM_BLOCK_SIZE. lia. Qed.

Lemma sane_run : forall es s s', sane s -> run es s = Ok s' -> sane s'.
Proof.
  induction es as [|e es IH]; intros s s' I H; cbn [run] in H; [injection H as <-; exact I|].
  destruct (step s e) as [s1| |] eqn:E; try discriminate. cbn [obind] in H. eapply IH; [|exact H]. eapply sane_step; eauto.
Qed.

(** ** Theorems *)

(** Whatever happens, at least a block can be allocated between two
    collections, *)
Theorem trigger_at_least_a_block : forall es s, run es gcInitStats = Ok s -> 4096 <= nextSize s.
Proof. intros es s H. apply (sane_run _ _ _ sane_init) in H. apply H. Qed.

(** and a collection adds at most half to that amount. *)
Theorem trigger_grows_by_half : forall es s s', run es gcInitStats = Ok s -> step s Finish = Ok s' ->
  nextSize s' <= Z.max 4096 (3 * nextSize s / 2).
Proof.
  intros es s s' H F. apply (sane_run _ _ _ sane_init) in H. destruct (finish_inv s s' H F) as (y & m & o & w & _ & W & _ & N & _).
  rewrite N. destruct H as (B & [P|(P & Q)]); rewrite P; unfold MEM_BLOCK_SIZE in *; [lia|]. rewrite Q. cbn. lia.
Qed.

(** A collection starts at the first check after more than that was
    allocated, and not before. *)
Theorem collection_starts : forall s l, state s = gcNone -> 0 <= allocated s -> Forall (fun n => 0 <= n) l ->
  allocated s + fold_right Z.add 0 l < 2^64 ->
  exists s', run (map Alloc l ++ [Check]) s = Ok s' /\
    (state s' = gcRunning <-> nextSize s < allocated s + fold_right Z.add 0 l) /\ nextSize s' = nextSize s /\
    (state s' = gcRunning -> allocated s' = 0 /\ markSize s' = 0).
Proof.
  intros s l St A F B. revert s St A B. induction F as [|n l N F IH]; intros s St A B; cbn [map app run step obind fold_right] in *.
  - eexists. split; [reflexivity|]. unfold gcTriggerCheck. rewrite St.
    destruct (Z.ltb_spec (nextSize s) (allocated s)); cbn [state nextSize allocated markSize]; rewrite ?St; repeat split; intros; try congruence; lia.
  - assert (P : 0 <= fold_right Z.add 0 l) by (clear - F; induction F; cbn; lia).
    destruct (IH (allocDone s n)) as (s' & R & E1 & E2 & E3); cbn [allocDone state allocated nextSize] in *; rewrite ?Z.mod_small by lia; auto; try lia.
    exists s'. rewrite Z.mod_small in E1 by lia. rewrite <- Z.add_assoc in E1. auto.
Qed.

(** If no collection finds more than [L] bytes alive and no more than [A]
    bytes are allocated during one, the collector always finishes and the
    amount never exceeds [3 L + A] (or a block). *)
Definition inv (L A : Z) (s : stats) : Prop :=
  sane s /\ 0 <= young s <= L /\ 0 <= middle s <= L /\ 0 <= old s <= L /\ 0 <= avg s <= A /\
  0 <= allocated s /\ 0 <= markSize s /\ nextSize s <= Z.max MEM_BLOCK_SIZE (3 * L + A).

Lemma within_step : forall L A s e, 0 <= L -> 0 <= A -> 3 * L + A < 2^31 -> inv L A s -> within L A s e -> exists s', step s e = Ok s' /\ inv L A s'.
Proof.
  intros L A s e HL HA B (I & Y & M & O & V & Al & Mk & N) (Sz & W). destruct e; cbn [step].
  - eexists. split; [reflexivity|]. unfold inv, sane in *. cbn in *. rewrite Z.mod_small by lia. intuition lia.
  - eexists. split; [reflexivity|]. unfold gcTriggerCheck. destruct (state s); [|unfold inv; auto 10].
    destruct (nextSize s <? allocated s); [|unfold inv; auto 10]. unfold inv, sane in *. cbn in *. intuition lia.
  - unfold gcInuseSizeInc, assertT. cbn in Sz. destruct (Z.ltb_spec 0 size); [|lia]. eexists. split; [reflexivity|].
    unfold inv, sane in *. cbn in *. rewrite Z.mod_small by lia. intuition lia.
  - destruct W as (St & Wm & Wa). unfold gcFinish. rewrite St.
    assert (G : exists y m o, generations s = (y, m, o) /\ 0 <= y <= L /\ 0 <= m <= L /\ 0 <= o <= L).
    { unfold generations. destruct (_ =? 0); [|destruct (_ =? 0); [|destruct (_ =? 0)]]; repeat eexists; lia. }
    destruct G as (y & m & o & -> & Gy & Gm & Go).
    assert (BL : 0 <= to_int32 ((y + m + o) mod 2^64) <= 3 * L) by (rewrite Z.mod_small, to_int32_id by lia; lia).
    assert (BA : 0 <= ((allocated s + 3 * avg s) mod 2^64) / 4 <= A).
    { rewrite Z.mod_small by lia. split; [apply Z.div_pos; lia|apply Z.div_le_upper_bound; lia]. }
    set (a := ((allocated s + 3 * avg s) mod 2^64) / 4) in *. set (b := to_int32 ((y + m + o) mod 2^64)) in *.
    destruct I as (I1 & I2). assert (P : 0 <= prevTrigger s <= Z.max MEM_BLOCK_SIZE (3 * L + A)) by (unfold MEM_BLOCK_SIZE in *; lia).
    rewrite next_size_val by (unfold MEM_BLOCK_SIZE in *; lia). cbv zeta.
    pose proof (weigh_upper ((b + a) mod 2^64) (prevTrigger s) (Z.max MEM_BLOCK_SIZE (3 * L + A))) as U.
    rewrite Z.mod_small in * by lia. specialize (U ltac:(lia) P ltac:(unfold MEM_BLOCK_SIZE; lia)).
    destruct (Z.ltb_spec (weigh (b + a) (prevTrigger s)) (2^31)); [|unfold MEM_BLOCK_SIZE in *; lia]. cbn [obind].
    eexists. split; [reflexivity|]. unfold inv, sane. cbn [nextSize prevTrigger young middle old avg allocated markSize].
    unfold MEM_BLOCK_SIZE in *. repeat split; try lia.
Qed.

Theorem trigger_bounded : forall L A es, 0 <= L -> 0 <= A -> 3 * L + A < 2^31 -> always (within L A) es gcInitStats ->
  exists s, run es gcInitStats = Ok s /\ nextSize s <= Z.max 4096 (3 * L + A).
Proof.
  intros L A es HL HA B. assert (I : inv L A gcInitStats) by (unfold inv; pose proof sane_init; cbn in *; unfold MEM_BLOCK_SIZE in *; intuition lia).
  revert I. generalize gcInitStats as s. induction es as [|e es IH]; intros s I H; cbn [run always] in *.
  - exists s. split; [reflexivity|]. apply I.
  - destruct H as (W & H). destruct (within_step L A s e HL HA B I W) as (s1 & E & I1). rewrite E in *. cbn [obind]. apply IH; assumption.
Qed.

(** If the generations hold at least [M] bytes at every collection, the amount
    grows with every collection until it is [M], up to two bytes. *)
Theorem trigger_follows_heap : forall L A M es s, 0 <= L -> 0 <= A -> 3 * L + A < 2^31 -> 0 <= M -> always (within L A) es gcInitStats ->
  always (finds M) es gcInitStats -> run es gcInitStats = Ok s -> Z.min (M - 2) (4095 + collections es) <= nextSize s.
Proof.
  intros L A M es s HL HA B HM W F R.
  assert (G : forall es s0 s k, inv L A s0 -> 0 <= k -> (prevTrigger s0 = nextSize s0 \/ k = 0 /\ prevTrigger s0 = 0) -> Z.min (M - 2) (4095 + k) <= nextSize s0 ->
    always (within L A) es s0 -> always (finds M) es s0 -> run es s0 = Ok s -> Z.min (M - 2) (4095 + k + collections es) <= nextSize s).
  { clear es s W F R. induction es as [|e es IH]; intros s0 s k I K P N W F R; cbn [run always collections] in *.
    - injection R as <-. lia.
    - destruct W as (W0 & W), F as (F0 & F). destruct (within_step L A s0 e HL HA B I W0) as (s1 & E & I1). rewrite E in *. cbn [obind] in R.
      destruct e; cbn [step] in E.
      + injection E as <-. eapply IH with (k := k); eauto.
      + injection E as <-. eapply IH with (k := k); eauto; unfold gcTriggerCheck; destruct (state s0); auto; destruct (nextSize s0 <? allocated s0); auto.
      + unfold gcInuseSizeInc, assertT in E. destruct (0 <? size); [|discriminate]. injection E as <-. eapply IH with (k := k); eauto.
      + assert (X : Z.min (M - 2) (4095 + (k + 1)) <= nextSize s1 /\ prevTrigger s1 = nextSize s1).
        { pose proof I as (Sn & Y & Mi & O & V & Al & Mk & Nx). destruct (finish_inv s0 s1 Sn E) as (y & m & o & w & G & Hw & Ew & Nw & E1).
          split; [|rewrite E1; reflexivity]. destruct F0 as (y' & m' & o' & G' & Fm). rewrite G in G'. injection G' as <- <- <-.
          destruct W0 as (_ & St & Wm & Wa).
          assert (Gb : 0 <= y <= L /\ 0 <= m <= L /\ 0 <= o <= L).
          { unfold generations in G. destruct (_ =? 0); [|destruct (_ =? 0); [|destruct (_ =? 0)]]; injection G as <- <- <-; lia. }
          assert (BA : 0 <= ((allocated s0 + 3 * avg s0) mod 2^64) / 4 <= A).
          { rewrite Z.mod_small by lia. split; [apply Z.div_pos; lia|apply Z.div_le_upper_bound; lia]. }
          set (a := ((allocated s0 + 3 * avg s0) mod 2^64) / 4) in *.
          rewrite (Z.mod_small (y + m + o)), to_int32_id in Ew by lia. rewrite Z.mod_small in Ew by lia.
          destruct Sn as (Sn & _). unfold MEM_BLOCK_SIZE in *.
          destruct P as [P|(-> & P)].
          - rewrite P in *. destruct (weigh_lower (y + m + o + a) (nextSize s0) M) as (L1 & L2); [lia..|].
            rewrite <- Ew in L1, L2. rewrite Nw. pose proof (Z.div_le_lower_bound (3 * nextSize s0) 2 (nextSize s0 + 1)).
            destruct (Z_le_gt_dec (nextSize s0) (M - 3)); [specialize (L1 ltac:(lia)); lia|specialize (L2 ltac:(lia)); lia].
          - rewrite Nw. lia. }
        destruct X as (X1 & X2). replace (4095 + k + (1 + collections es)) with (4095 + (k + 1) + collections es) by lia.
        eapply IH with (k := k + 1); eauto. lia. }
  specialize (G es gcInitStats s 0). rewrite Z.add_0_r in G. apply G; auto; try lia.
  - unfold inv; pose proof sane_init; cbn in *; unfold MEM_BLOCK_SIZE in *; intuition lia.
  - cbn. unfold MEM_BLOCK_SIZE. lia.
Qed.

(** Every second collection measures the young generation, every fourth the
    middle one and every twelfth the old one instead; the others keep the
    sizes. *)
Theorem generation_measured : forall es s s', run es gcInitStats = Ok s -> step s Finish = Ok s' -> collections es < 2^62 ->
  let c := collections es + 1 in
  (young s', middle s', old s') =
  if c mod 12 =? 0 then (young s, middle s, markSize s)
  else if c mod 4 =? 0 then (young s, markSize s, old s)
  else if c mod 2 =? 0 then (markSize s, middle s, old s)
  else (young s, middle s, old s).
Proof.
  intros es s s' R F B. cbv zeta.
  assert (V : version s = 2 * (collections es + 1)).
  { assert (C : forall es, 0 <= collections es) by (induction es0 as [|[] es0 IH]; cbn [collections]; lia).
    assert (G : forall es s0 s k, 0 <= k -> version s0 = 2 * (k + 1) -> k + collections es < 2^62 -> run es s0 = Ok s -> version s = 2 * (k + collections es + 1)).
    { clear es s s' R F B. induction es as [|e es IH]; intros s0 s k K V B R; cbn [run collections] in *; [injection R as <-; lia|].
      destruct (step s0 e) as [s1| |] eqn:E; try discriminate. cbn [obind] in R. specialize (C es). destruct e; cbn [step] in E.
      - injection E as <-. now apply (IH (allocDone s0 size)).
      - injection E as <-. apply (IH (gcTriggerCheck s0)); auto. unfold gcTriggerCheck. destruct (state s0); auto. now destruct (nextSize s0 <? allocated s0).
      - unfold gcInuseSizeInc, assertT in E. destruct (0 <? size); [|discriminate]. injection E as <-. eapply IH; [| |exact B|exact R]; auto.
      - unfold gcFinish in E. destruct (state s0); [discriminate|]. destruct (generations s0) as ((y & m) & o).
        destruct (next_size _ _ _); try discriminate. cbn [obind] in E. injection E as <-.
        eapply (IH _ s (k + 1)) in R; [rewrite R; lia|lia| |lia]. cbn [version]. rewrite V, Z.mod_small by lia. lia. }
    rewrite (G es gcInitStats s 0); auto; lia. }
  assert (M : forall d, 0 < d -> (2 * (collections es + 1)) mod (2 * d) = 2 * ((collections es + 1) mod d)) by (intros d D; apply Z.mul_mod_distr_l; lia).
  apply (sane_run _ _ _ sane_init) in R. destruct (finish_inv s s' R F) as (y & m & o & w & G & _ & _ & _ & ->).
  cbn [young middle old]. rewrite <- G. unfold generations. rewrite V.
  pose proof (M 12 ltac:(lia)) as M12. pose proof (M 4 ltac:(lia)) as M4. pose proof (M 2 ltac:(lia)) as M2.
  change (2 * 12) with 24 in M12. change (2 * 4) with 8 in M4. change (2 * 2) with 4 in M2. rewrite M12, M4, M2.
  destruct (Z.eqb_spec ((collections es + 1) mod 12) 0), (Z.eqb_spec (2 * ((collections es + 1) mod 12)) 0); try lia; auto.
  destruct (Z.eqb_spec ((collections es + 1) mod 4) 0), (Z.eqb_spec (2 * ((collections es + 1) mod 4)) 0); try lia; auto.
  destruct (Z.eqb_spec ((collections es + 1) mod 2) 0), (Z.eqb_spec (2 * ((collections es + 1) mod 2)) 0); try lia; auto.
Qed.

(** Two collections; the second finds two gigabytes alive, its size wraps to a
    negative int and the conversion of the next amount to int is undefined. *)
Theorem two_gigabytes_refuted : exists es, Forall sizes_ok es /\ run es gcInitStats = UB /\
  always (within (2^31) 8192) es gcInitStats.
Proof.
  exists [Alloc 4097; Check; Finish; Alloc 4097; Check; Mark (2^31 - 1); Mark 1; Finish].
  split; [repeat constructor; cbn; lia|]. split; [vm_compute; reflexivity|]. vm_compute. intuition discriminate.
Qed.

(** The first collection of a program starts after one block. *)
Theorem first_collection : forall l, Forall (fun n => 0 <= n < 2^31) l -> fold_right Z.add 0 l < 2^64 ->
  exists s, run (map Alloc l ++ [Check]) gcInitStats = Ok s /\ (state s = gcRunning <-> 4096 < fold_right Z.add 0 l).
Proof.
  intros l F B. assert (F0 : Forall (fun n => 0 <= n) l) by (eapply Forall_impl; [|exact F]; cbn; lia).
  destruct (collection_starts gcInitStats l eq_refl ltac:(cbn; lia) F0 B) as (s & R & E & _). exists s. auto.
Qed.
Print Assumptions first_collection.

(** ** Examples *)

Definition round (mark : Z) : list event := [Alloc 100000000; Check; Mark mark; Finish].

Example rounds_within : always (within 1000000 0) (concat (repeat (round 1000000) 14)) gcInitStats.
Proof. vm_compute. intuition discriminate. Qed.
Example rounds_result : match run (concat (repeat (round 1000000) 14)) gcInitStats with Ok s => nextSize s | _ => 0 end = 797161.
Proof. vm_compute. reflexivity. Qed.

Print Assumptions trigger_at_least_a_block.
Print Assumptions trigger_grows_by_half.
Print Assumptions collection_starts.
Print Assumptions trigger_bounded.
Print Assumptions trigger_follows_heap.
Print Assumptions generation_measured.
Print Assumptions two_gigabytes_refuted.
