(** The small-object allocator and the gray queue: properties C30, C32, C33. *)
From Coq Require Import ZArith Bool List Lia Arith.
From Verif Require Import Base ListLib GcModel GcProofs AllocModel AllocProofs AllocInv AllocFlip.
Import ListNotations.
Open Scope Z_scope.
Open Scope out_scope.
Ltac Zify.zify_post_hook ::= Z.div_mod_to_equations.

(** ** every permitted step succeeds and keeps the invariant *)
(** what becomes of a header that is in use after the step *)
Definition keeps (s s' : ast) (o : aop) : Prop :=
  forall b off v, is_slot s b off -> b_mem (a_blk s b) off = CHdr true v -> inuse_h (a_g s') v = true ->
    is_slot s' b off /\ b_class (a_blk s' b) = b_class (a_blk s b) /\
    exists v', b_mem (a_blk s' b) off = CHdr true v' /\
      (v' = v \/ (exists m, o = AMark b off m /\ v' = fst (mark_ver (a_g s) v m)) \/
       (o = ABlack b off /\ v' = v / 64 * 64 + (v + 1) mod 64)).

Lemma slot_moves : forall s s' b off, is_slot s b off -> (a_n s <= a_n s')%nat -> b_class (a_blk s' b) = b_class (a_blk s b) -> is_slot s' b off.
Proof. intros s s' b off (A & B & C & D & E) Hn Hc. unfold is_slot. rewrite Hc. repeat split; auto. lia. Qed.

Lemma hdr_slot : forall ex q s b off t v, ainv ex q s -> (b < a_n s)%nat -> b_class (a_blk s b) <> 0 -> b_mem (a_blk s b) off = CHdr t v -> is_slot s b off.
Proof.
  intros ex q s b off t v I Hb Hc Em. destruct (i_mem _ _ _ I b Hb Hc) as (_ & M). specialize (M off). rewrite Em in M.
  destruct M as (A & B & C). repeat split; auto.
Qed.

Lemma mark_frame_keeps : forall s s' b off o v', is_slot s b off -> mark_frame s s' b off ->
  (forall v, b_mem (a_blk s b) off = CHdr true v -> inuse_h (a_g s) v = true -> b_mem (a_blk s' b) off = CHdr true (v' v) /\
      (v' v = v \/ (exists m, o = AMark b off m /\ v' v = fst (mark_ver (a_g s) v m)) \/
       (o = ABlack b off /\ v' v = v / 64 * 64 + (v + 1) mod 64))) ->
  keeps s s' o.
Proof.
  intros s s' b off o v' Hs (F1 & F2 & F3 & F4 & F5) H x ox v Hx Em Hu. rewrite F1 in Hu.
  destruct (F5 x) as (G1 & G2 & G3); [apply Hx|apply Hx|].
  split; [eapply slot_moves; eauto|]. split; [exact G1|].
  destruct (Nat.eq_dec x b) as [->|Hne]; [destruct (Z.eq_dec ox off) as [->|Hno]|].
  - destruct (H v Em Hu) as (A & B). eauto.
  - exists v. rewrite G3 by auto. auto.
  - exists v. rewrite G3 by auto. auto.
Qed.

Lemma enter_sweep : forall s, ainv noex [] (wph s PNone) -> ainv noex [] (wpg (wph s PSweep) 0 (hd_error (a_cls s 0))).
Proof.
  intros s I. pose proof (cls0 _ _ _ I) as C0. cbn in C0. rewrite C0. destruct I. constructor; auto.
  - intros _ i b off [[Hi _]|[-> Hb]]; [cbn in Hi; lia|]. cbn in Hb. rewrite C0 in Hb. destruct Hb.
  - intros _ b E. discriminate.
Qed.

Lemma astep_ok : forall q s o, ainv noex q s -> apermitted s o ->
  exists s' r q', astep s o = Ok (s', r) /\ ainv noex q' s' /\ keeps s s' o.
Proof.
  intros q s o I P. destruct o as [size| |b off minv|order|b off| |order]; cbn [apermitted astep] in *.
  - change sizeof_scmHead with 8 in P. change MEM_BLOCK_SIZE with 4096 in P.
    destruct (alloc_ok q s size I P) as (s' & b & off & c & E & I' & Eg & Ep & En & Hb & Hc & F1 & F2 & F3 & F4 & F5 & F6 & F7 & F8).
    rewrite E. cbn [obind]. exists s', (RSlot b off), q. split; [reflexivity|]. split; [exact I'|].
    intros x ox v Hx Em Hu. pose proof (F7 x (proj1 Hx) (proj1 (proj2 Hx))) as Ec.
    split; [eapply slot_moves; eauto|]. split; [exact Ec|].
    exists v. split; [|auto]. rewrite F6; [exact Em|].
    destruct (Nat.eq_dec x b) as [->|]; [|auto]. destruct (Z.eq_dec ox off) as [->|]; [|auto]. exfalso.
    rewrite Em in F4. destruct (inuse_at_h (a_g s) (CHdr true v)) as (u & E1 & E2 & _); [discriminate|].
    rewrite F4 in E1. apply Ok_inj in E1. subst u. destruct E2 as [E2 _]. specialize (E2 eq_refl). rewrite Eg in Hu. congruence.
  - destruct (gcQueueInit_ok q s I P) as (s1 & E & I1 & Eg & Ec & En & Eb). rewrite E. cbn [obind].
    exists (wph s1 PInc), RNone, []. split; [reflexivity|]. split; [exact I1|].
    intros x ox v Hx Em _. cbn [wph a_blk]. rewrite (Eb x (proj1 Hx) (proj1 (proj2 Hx))).
    split; [|eauto]. destruct Hx as (A & B & C & D & F). unfold is_slot. cbn [wph a_blk a_n]. rewrite (Eb x A B). repeat split; auto. lia.
  - destruct P as (P1 & P2 & P3).
    destruct (gcMarkSlot_ok q s b off minv I P1 P2 P3) as (s' & q' & E & I' & F & R). rewrite E. cbn [obind].
    exists s', RNone, q'. split; [reflexivity|]. split; [exact I'|].
    eapply mark_frame_keeps with (v' := fun v => fst (mark_ver (a_g s) v minv)); eauto.
    intros v Em Hu. rewrite Em, Hu in R. destruct R as [R _]. split; [exact R|]. right. left. eauto.
  - destruct P as (P1 & P2 & P3). unfold runIncremental1.
    pose proof (gcDequeue_ok q s I P1) as D. destruct q as [|x q].
    + destruct D as (s1 & E & I1 & O1 & O2 & O3 & O4 & O5). rewrite E. cbn [obind].
      assert (K : forall s2, a_g s2 = a_g s1 -> a_n s2 = a_n s1 -> a_blk s2 = a_blk s1 -> keeps s s2 (ARun order)).
      { intros s2 G1 G2 G3 b off v Hx Em _. rewrite G3, (O5 b (proj1 Hx) (proj1 (proj2 Hx))). split; [|eauto].
        destruct Hx as (A & B & C & H & F). unfold is_slot. rewrite G3, (O5 b A B). repeat split; auto. lia. }
      destruct (a_g s1 mod 30 =? 0).
      * eexists _, _, []. split; [reflexivity|]. split; [now apply enter_sweep|]. now apply K.
      * assert (Cn : a_n s1 = a_n s).
        { (* dequeuing creates no block *)
          clear - E. unfold gcDequeue in E. destruct (a_gray s) as [|h r]; [discriminate|].
          unfold blockReset, assertT, read_ptr in E.
          repeat match type of E with
          | context [if ?c then _ else _] => destruct c; cbn [obind] in E; try discriminate
          | context [match ?c with _ => _ end] => destruct c; cbn [obind] in E; try discriminate
          end; apply Ok_inj in E; injection E as <-; reflexivity. }
        destruct (gcFlipA_ok s1 order I1 P2) as (s2 & E2 & I2 & F1 & F2 & F3 & F4).
        { intro b. rewrite Cn. apply P3. }
        rewrite E2. cbn [obind]. eexists _, _, []. split; [reflexivity|]. split; [exact I2|].
        intros b off v Hx Em Hu. pose proof (O5 b (proj1 Hx) (proj1 (proj2 Hx))) as Eb.
        destruct (F4 b off v) as (C1 & C2).
        { rewrite Eb. apply Hx. } { destruct Hx. lia. } { now rewrite Eb. } { now rewrite <- F1. }
        rewrite Eb in C1, C2. split; [|split; [exact C1|exists v; rewrite C2; auto]].
        destruct Hx as (A & B & C & H & F). unfold is_slot. rewrite C1. repeat split; auto. lia.
    + destruct D as (s1 & E & I1 & O1 & O2 & O3 & O4 & O5). rewrite E. cbn [obind].
      eexists _, _, q. split; [reflexivity|]. split; [exact I1|].
      intros b off v Hx Em _. rewrite (O5 b (proj1 Hx) (proj1 (proj2 Hx))). split; [|eauto].
      destruct Hx as (A & B & C & H & F). unfold is_slot. rewrite (O5 b A B). repeat split; auto. lia.
  - destruct P as (P1 & P2 & v & P3 & P4 & P5).
    destruct (blacken_ok q s b off v I P1 P2 P3 P4 P5) as (s' & E & I' & F & R). rewrite E. cbn [obind].
    exists s', RNone, q. split; [reflexivity|]. split; [exact I'|].
    eapply mark_frame_keeps with (v' := fun v => v / 64 * 64 + (v + 1) mod 64); eauto.
    intros w Em Hu. assert (w = v) by congruence. subst w. split; [exact R|]. auto.
  - destruct P as (P1 & P2). unfold sweepStep.
    destruct (sweepSizeClass_ok 21 q s I P1) as (s' & E & I' & F1 & F2 & F3 & F4 & F5).
    { change sizeClassSZ with 19%nat in P2. lia. }
    rewrite E. cbn [obind]. exists s', RNone, q. split; [reflexivity|]. split; [exact I'|].
    intros b off v Hx Em Hu. rewrite F1 in Hu. destruct (F5 b) as (C1 & C2). split; [eapply slot_moves; eauto; lia|].
    split; [exact C1|]. exists v. split; [|auto]. specialize (C2 off). rewrite Em in C2.
    destruct C2 as [C2|(t & w & E1 & _ & E3)]; [exact C2|]. injection E1 as <- <-. rewrite E3 in Hu by reflexivity. discriminate.
  - destruct P as (P1 & P2 & P3 & P4).
    pose proof (i_q _ _ _ I) as Q. rewrite P1 in Q. destruct Q as [Q1 ->].
    destruct (gcFlipA_ok s order) as (s2 & E2 & I2 & F1 & F2 & F3 & F4); auto.
    { destruct I. constructor; auto; cbn [wph a_ph]; try discriminate; auto. }
    rewrite E2. cbn [obind]. exists s2, RNone, []. split; [reflexivity|]. split; [exact I2|].
    intros b off v Hx Em Hu. destruct (F4 b off v) as (C1 & C2); [apply Hx|apply Hx|exact Em|now rewrite <- F1|].
    split; [|split; [exact C1|exists v; rewrite C2; auto]].
    destruct Hx as (A & B & C & H & F). unfold is_slot. rewrite C1. repeat split; auto. lia.
Qed.

Lemma aexec_inv : forall s ops e, aexec s ops e -> forall q, ainv noex q s ->
  exists s' rs q', e = Ok (s', rs) /\ ainv noex q' s'.
Proof.
  intros s ops e H. induction H as [s|s o ops s1 r1 s2 rs P E H IH|s o ops s1 r1 e P E H IH N|s o ops P E|s o ops P E]; intros q I.
  - eauto 6.
  - destruct (astep_ok q s o I P) as (s1' & r' & q' & E' & I' & _). rewrite E in E'. apply Ok_inj in E'. injection E' as <- <-.
    destruct (IH q' I') as (s2' & rs' & q2 & E2 & I2). apply Ok_inj in E2. injection E2 as <- <-. eauto 6.
  - destruct (astep_ok q s o I P) as (s1' & r' & q' & E' & I' & _). rewrite E in E'. apply Ok_inj in E'. injection E' as <- <-.
    destruct (IH q' I') as (s2' & rs' & q2 & E2 & I2). exfalso. eapply N. exact E2.
  - destruct (astep_ok q s o I P) as (s1' & r' & q' & E' & _). congruence.
  - destruct (astep_ok q s o I P) as (s1' & r' & q' & E' & _). congruence.
Qed.

(** states the allocator can reach *)
Definition areach (s : ast) : Prop := exists ops rs, aexec ainit ops (Ok (s, rs)).

Lemma areach_inv : forall s, areach s -> exists q, ainv noex q s.
Proof.
  intros s (ops & rs & H). destruct (aexec_inv _ _ _ H [] ainv_init) as (s' & rs' & q & E & I).
  apply Ok_inj in E. injection E as <- <-. eauto.
Qed.

(** * C30 *)
(** No history of allocations, markings, sweeps and flips makes the allocator, the gray
    queue or the block lists hit an assertion or touch memory outside a block. *)
Theorem allocator_never_fails : forall ops e, aexec ainit ops e -> exists s rs, e = Ok (s, rs).
Proof. intros ops e H. destruct (aexec_inv _ _ _ H [] ainv_init) as (s & rs & q & -> & _). eauto. Qed.

(** an object in use: a slot whose header the collector considers in use *)
Definition live (s : ast) (b : nat) (off : Z) : Prop :=
  is_slot s b off /\ exists u, inuse_at (a_g s) (b_mem (a_blk s b) off) = Ok u /\ u <> 0.

(** the bytes [off, off+len) of two blocks do not overlap *)
Definition disjoint (b1 : nat) (o1 l1 : Z) (b2 : nat) (o2 l2 : Z) : Prop :=
  b1 <> b2 \/ o1 + l1 <= o2 \/ o2 + l2 <= o1.

Lemma live_hdr : forall q s b off, ainv noex q s -> live s b off ->
  exists v, b_mem (a_blk s b) off = CHdr true v /\ inuse_h (a_g s) v = true.
Proof.
  intros q s b off I ((Hb & Hc & _) & u & E & Hu).
  destruct (i_mem _ _ _ I b Hb Hc) as (_ & M). specialize (M off).
  destruct (inuse_at_h (a_g s) (b_mem (a_blk s b) off)) as (u' & E' & U & _).
  { intros x y Eq. now rewrite Eq in M. }
  rewrite E in E'. apply Ok_inj in E'. subst u'.
  destruct (b_mem (a_blk s b) off) as [|[|] v|]; try (exfalso; apply Hu; now apply U).
  exists v. split; [reflexivity|]. destruct (inuse_h (a_g s) v); [reflexivity|]. exfalso. apply Hu. now apply U.
Qed.

Theorem alloc_fresh : forall s size, areach s -> sizeof_scmHead < size < MEM_BLOCK_SIZE ->
  exists s' b off, gcAllocSmall s size = Ok (s', (b, off)) /\
    (* the slot lies in its block and holds the request *)
    is_slot s' b off /\ size <= b_class (a_blk s' b) /\
    (* it is now in use *)
    live s' b off /\
    (* it overlaps no object in use before, and those are untouched *)
    (forall b2 o2, live s b2 o2 ->
       disjoint b off (b_class (a_blk s' b)) b2 o2 (b_class (a_blk s b2)) /\
       live s' b2 o2 /\ b_class (a_blk s' b2) = b_class (a_blk s b2) /\ b_mem (a_blk s' b2) o2 = b_mem (a_blk s b2) o2) /\
    (* nor any block of the gray queue *)
    ~ In b (a_gray s').
Proof.
  intros s size Hr Hs. destruct (areach_inv s Hr) as (q & I).
  destruct (alloc_ok q s size I Hs) as (s' & b & off & c & E & I' & Eg & Ep & En & Hb & Hc & F1 & F2 & F3 & F4 & F5 & F6 & F7 & F8).
  exists s', b, off. split; [exact E|].
  assert (Hcn : b_class (a_blk s' b) <> 0) by (change sizeof_scmHead with 8 in Hs; lia).
  assert (SL : is_slot s' b off) by (eapply hdr_slot; eauto).
  split; [exact SL|]. split; [now rewrite Hc|]. split.
  { split; [exact SL|]. rewrite F5. destruct (inuse_at_h (a_g s') (CHdr true (new_version (a_g s) (a_ph s)))) as (u & U1 & U2 & _); [discriminate|].
    exists u. split; [exact U1|]. intros ->. destruct U2 as [U2 _]. specialize (U2 eq_refl).
    rewrite inuse_ahead in U2; [discriminate|]. rewrite Eg. pose proof (i_g _ _ _ I). unfold new_version. destruct (a_ph s); lia. }
  split; [|exact F8].
  intros b2 o2 L. destruct (live_hdr q s b2 o2 I L) as (v & Em & Hu). destruct L as (L1 & L2).
  pose proof (F7 b2 (proj1 L1) (proj1 (proj2 L1))) as Ec.
  assert (Hdiff : b2 <> b \/ o2 <> off).
  { destruct (Nat.eq_dec b2 b) as [->|]; [|auto]. destruct (Z.eq_dec o2 off) as [->|]; [|auto]. exfalso.
    destruct L2 as (u & U1 & U2). rewrite F4 in U1. apply Ok_inj in U1. congruence. }
  pose proof (F6 b2 o2 Hdiff) as Em'.
  assert (L1' : is_slot s' b2 o2) by (eapply slot_moves; eauto).
  split; [|split; [split; [exact L1'|now rewrite Eg, Em']|auto]].
  unfold disjoint. destruct (Nat.eq_dec b b2) as [<-|]; [|auto]. right. destruct Hdiff as [|Hd]; [contradiction|].
  rewrite <- Ec. destruct L1' as (_ & _ & A1 & A2 & A3). destruct SL as (_ & _ & B1 & B2 & B3). set (k := b_class (a_blk s' b)) in *.
  assert (0 < k) by (unfold k; change sizeof_scmHead with 8 in Hs; lia).
  assert ((o2 - off) mod k = 0) by (rewrite Zminus_mod, A2, B2; apply Zmod_0_l).
  destruct (Z_lt_le_dec o2 off).
  - right. destruct (Z_le_gt_dec (o2 + k) off) as [|G]; [auto|]. exfalso.
    assert ((off - o2) mod k = 0) by (rewrite Zminus_mod, A2, B2; apply Zmod_0_l). rewrite Z.mod_small in H1 by lia. lia.
  - left. destruct (Z_le_gt_dec (off + k) o2) as [|G]; [auto|]. exfalso. rewrite Z.mod_small in H0 by lia. lia.
Qed.

(** Between allocations: a step leaves alone every object whose version is in use
    afterwards, except that marking and scanning an object change its own version. *)
Theorem step_keeps_live : forall s o s' r b off v, areach s -> apermitted s o -> astep s o = Ok (s', r) ->
  is_slot s b off -> b_mem (a_blk s b) off = CHdr true v -> (exists u, inuse_at (a_g s') (CHdr true v) = Ok u /\ u <> 0) ->
  is_slot s' b off /\ b_class (a_blk s' b) = b_class (a_blk s b) /\
  exists v', b_mem (a_blk s' b) off = CHdr true v' /\
    (v' = v \/ (exists m, o = AMark b off m) \/ o = ABlack b off).
Proof.
  intros s o s' r b off v Hr P E Hs Em (u & U1 & U2). destruct (areach_inv s Hr) as (q & I).
  destruct (astep_ok q s o I P) as (s1 & r1 & q1 & E1 & _ & K). rewrite E in E1. apply Ok_inj in E1. injection E1 as <- <-.
  destruct (inuse_at_h (a_g s') (CHdr true v)) as (u' & V1 & V2 & _); [discriminate|]. rewrite U1 in V1. apply Ok_inj in V1. subst u'.
  destruct (K b off v Hs Em) as (A & B & v' & C & D).
  { destruct (inuse_h (a_g s') v); [reflexivity|]. exfalso. apply U2. now apply V2. }
  split; [exact A|]. split; [exact B|]. exists v'. split; [exact C|]. destruct D as [D|[(m & D & _)|(D & _)]]; eauto.
Qed.

(** When sweeping is over, every slot is unused or in use: nothing keeps a stale version
    that could be taken for a current one after the 6-bit counter wraps. *)
Theorem sweep_complete : forall s b off v, areach s -> a_ph s = PSweep -> (sizeClassSZ <= a_pos s)%nat ->
  is_slot s b off -> b_mem (a_blk s b) off = CHdr true v -> live s b off.
Proof.
  intros s b off v Hr Hp Hpos Hs Em. destruct (areach_inv s Hr) as (q & I). split; [exact Hs|]. rewrite Em.
  assert (Hu : inuse_h (a_g s) v = true).
  { destruct Hs as (Hb & Hc & _).
    destruct (i_mem _ _ _ I b Hb Hc) as ((i & Hi) & _).
    destruct (in_dec Nat.eq_dec b (a_cls s i)) as [Hin|Hin].
    - assert (i < 19)%nat by (destruct (class_cases i _ Hi Hc); lia). change sizeClassSZ with 19%nat in Hpos.
      destruct (i_sweep _ _ _ I Hp i b off) as [[]|S]; [left; split; [lia|exact Hin]|]. rewrite Em in S. exact S.
    - destruct (i_full _ _ _ I b Hb Hc) with (off := off) as [[]|S].
      + intros j Hj. destruct (i_cls _ _ _ I j b Hj) as (_ & Ej & _). assert (j = i) by (eapply class_inj; eauto). subst j. contradiction.
      + rewrite Em in S. apply S. }
  destruct (inuse_at_h (a_g s) (CHdr true v)) as (u & U1 & U2 & _); [discriminate|]. exists u. split; [exact U1|].
  intros ->. destruct U2 as [U2 _]. rewrite U2 in Hu by reflexivity. discriminate.
Qed.

(** The C code reads past the array of size classes in every step that ends a
    sweep, and only then. *)
Theorem sweep_reads_past : forall s s', sweepStep s = Ok s' -> (a_pos s < sizeClassSZ)%nat ->
  ((a_pos s' < sizeClassSZ)%nat -> sweepStep_std s = Ok s') /\
  ((sizeClassSZ <= a_pos s')%nat -> sweepStep_std s = UB).
Proof.
  unfold sweepStep, sweepStep_std. generalize 21%nat as f. induction f as [|f IH]; intros s s' E P; cbn [sweepSizeClass sweepSizeClass_std] in *; [discriminate|].
  destruct (Nat.ltb_spec (a_pos s) sizeClassSZ); [|lia]. destruct (a_pb s) as [b|].
  - rewrite E. split; [reflexivity|]. destruct (sweep_block (a_g s) (a_blk s b)); try discriminate. cbn [obind] in E. apply Ok_inj in E. subst s'. cbn [a_pos wpg]. lia.
  - unfold class_head. destruct (Nat.ltb_spec (S (a_pos s)) sizeClassSZ) as [L|L]; cbn [obind].
    + apply (IH _ s' E). exact L.
    + destruct f as [|f]; [discriminate|]. cbn [sweepSizeClass wpg a_pos] in E. destruct (Nat.ltb_spec (S (a_pos s)) sizeClassSZ); [lia|].
      apply Ok_inj in E. subst s'. cbn [a_pos wpg]. split; [lia|reflexivity].
Qed.

Fixpoint idle_run (ops : list aop) (s : ast) : option ast :=
  match ops with
  | [] => Some s
  | o :: ops =>
      if match o, a_ph s with AQInit, PNone => true | ARun [0%nat], PInc => Nat.eqb (a_n s) 1 | _, _ => false end
      then match astep s o with Ok (s1, _) => idle_run ops s1 | _ => None end
      else None
  end.
Lemma idle_run_exec : forall ops s s', idle_run ops s = Some s' -> exists rs, aexec s ops (Ok (s', rs)).
Proof.
  induction ops as [|o ops IH]; intros s s' E; cbn [idle_run] in E.
  - injection E as <-. exists []. constructor.
  - assert (P : match o, a_ph s with AQInit, PNone => true | ARun [0%nat], PInc => Nat.eqb (a_n s) 1 | _, _ => false end = true -> apermitted s o).
    { destruct o as [| | |order| | |]; try discriminate; destruct (a_ph s) eqn:Ph; try discriminate; cbn [apermitted]; auto.
      - destruct order as [|[|?] [|? ?]]; discriminate.
      - destruct order as [|[|?] [|? ?]]; try discriminate. intro N. apply Nat.eqb_eq in N. rewrite N. split; [exact Ph|]. split; [repeat constructor; intros []|].
        intro b. cbn [In]. lia.
      - destruct order as [|[|?] [|? ?]]; discriminate. }
    destruct (match o, a_ph s with AQInit, PNone => true | ARun [0%nat], PInc => Nat.eqb (a_n s) 1 | _, _ => false end); [|discriminate].
    destruct (astep s o) as [[s1 r1]| |] eqn:A; try discriminate. destruct (IH s1 s' E) as (rs & H). exists (r1 :: rs). econstructor; eauto.
Qed.

(** Fifteen collections of a program that has allocated nothing. *)
Theorem sweep_past_array_refuted : exists s, areach s /\ apermitted s ASweep /\ sweepStep_std s = UB.
Proof.
  set (ops := concat (repeat [AQInit; ARun [0%nat]] 15)).
  assert (C : match idle_run ops ainit with
    | Some s => match a_ph s with PSweep => Nat.ltb (a_pos s) sizeClassSZ && match sweepStep_std s with UB => true | _ => false end | _ => false end
    | None => false end = true) by (vm_compute; reflexivity).
  destruct (idle_run ops ainit) as [s|] eqn:E; [|discriminate]. exists s.
  destruct (idle_run_exec ops ainit s E) as (rs & X). split; [now exists ops, rs|]. clear E X. clearbody ops.
  destruct (a_ph s) eqn:Ph; try discriminate. apply andb_prop in C as (C1 & C2). apply Nat.ltb_lt in C1. split; [split; assumption|].
  destruct (sweepStep_std s); congruence.
Qed.
Print Assumptions sweep_reads_past.
Print Assumptions sweep_past_array_refuted.

(** the version written by marking a slot is the one of the collector model *)
Theorem mark_agrees : forall (s : st) a minv,
  let '(v, enq) := mark_ver (g s) (o_ver (heap s a)) minv in
  o_ver (heap (markObject s a minv) a) = v /\ queue (markObject s a minv) = queue s ++ (if enq then [a] else []).
Proof.
  intros s a minv. unfold mark_ver, markObject. cbv zeta. set (v := o_ver (heap s a)).
  assert (U : forall w, o_ver (upd (heap s) a (set_ver (heap s a) w) a) = w).
  { intro w. unfold upd. now rewrite Nat.eqb_refl. }
  destruct (is_odd v).
  - destruct (_ && _); cbn [with_obj heap queue]; rewrite ?app_nil_r, ?U; auto.
  - destruct (v mod 64 =? g s mod 64); destruct (negb (minv =? 0) && _); cbn [orb]; cbn [with_obj enqueue heap queue]; rewrite ?app_nil_r, ?U; auto.
Qed.
Print Assumptions allocator_never_fails.
Print Assumptions alloc_fresh.
Print Assumptions step_keeps_live.
Print Assumptions sweep_complete.
Print Assumptions mark_agrees.

(** ** a concrete history: three objects, one of them marked in a collection; after the flip
    the slot of another one is handed out again *)
Definition is_slotb (s : ast) (b : nat) (off : Z) : bool :=
  let c := b_class (a_blk s b) in
  Nat.ltb b (a_n s) && negb (c =? 0) && (0 <=? off) && (off mod c =? 0) && (off + c <=? MEM_BLOCK_SIZE).
Definition is_phase (p q : phase) : bool := match p, q with PNone, PNone | PInc, PInc | PSweep, PSweep => true | _, _ => false end.
Definition orderb (s : ast) (order : list nat) : bool := if list_eq_dec Nat.eq_dec order (seq 0 (a_n s)) then true else false.
Definition apermb (s : ast) (o : aop) : bool :=
  match o with
  | AAlloc size => (sizeof_scmHead <? size) && (size <? MEM_BLOCK_SIZE)
  | AQInit => is_phase (a_ph s) PNone
  | AMark b off minv => is_phase (a_ph s) PInc && is_slotb s b off && (minv =? 0)
  | ARun order => is_phase (a_ph s) PInc && orderb s order
  | ABlack b off => is_phase (a_ph s) PInc && is_slotb s b off &&
      match b_mem (a_blk s b) off with CHdr true v => (v mod 2 =? 1) && (0 <? (v - a_g s) mod 64) && ((v - a_g s) mod 64 <? 30) | _ => false end
  | ASweep => is_phase (a_ph s) PSweep && Nat.ltb (a_pos s) sizeClassSZ
  | ASweepFlip order => is_phase (a_ph s) PSweep && Nat.leb sizeClassSZ (a_pos s) && orderb s order
  end.
Lemma apermb_ok : forall s o, apermb s o = true -> apermitted s o.
Proof.
  assert (PH : forall p q, is_phase p q = true -> p = q) by (intros [] []; auto; discriminate).
  assert (OR : forall s l, orderb s l = true -> NoDup l /\ forall b, In b l <-> (b < a_n s)%nat).
  { intros s l H. unfold orderb in H. destruct (list_eq_dec _ _ _) as [->|]; [|discriminate].
    split; [apply seq_NoDup|]. intro b. rewrite in_seq. lia. }
  assert (SL : forall s b off, is_slotb s b off = true -> is_slot s b off).
  { intros s b off H. unfold is_slotb in H. cbv zeta in H. rewrite !andb_true_iff in H. destruct H as ((((A & B) & C) & D) & E).
    apply Nat.ltb_lt in A. apply negb_true_iff, Z.eqb_neq in B. apply Z.leb_le in C, E. apply Z.eqb_eq in D. repeat split; auto. }
  intros s [size| |b off minv|order|b off| |order] H; cbn [apermb apermitted] in *; rewrite ?andb_true_iff in H.
  - destruct H as [H1 H2]. apply Z.ltb_lt in H1, H2. auto.
  - auto.
  - destruct H as ((A & B) & C). apply Z.eqb_eq in C. auto.
  - destruct H as (A & B). apply OR in B. destruct B. auto.
  - destruct H as ((A & B) & C). split; [auto|]. split; [auto|]. destruct (b_mem (a_blk s b) off) as [|[|] v|]; try discriminate.
    rewrite !andb_true_iff in C. destruct C as ((C1 & C2) & C3). apply Z.eqb_eq in C1. apply Z.ltb_lt in C2, C3. eauto.
  - destruct H as (A & B). apply Nat.ltb_lt in B. auto.
  - destruct H as ((A & B) & C). apply Nat.leb_le in B. apply OR in C. destruct C. auto.
Qed.
Fixpoint arun (s : ast) (ops : list aop) : option (ast * list aout) :=
  match ops with
  | [] => Some (s, [])
  | o :: r => if apermb s o then match astep s o with
                                 | Ok (s1, x) => match arun s1 r with Some (s2, xs) => Some (s2, x :: xs) | None => None end
                                 | _ => None end
              else None
  end.
Lemma arun_ok : forall ops s x, arun s ops = Some x -> aexec s ops (Ok x).
Proof.
  induction ops as [|o ops IH]; intros s x H; cbn [arun] in H.
  - injection H as <-. constructor.
  - destruct (apermb s o) eqn:P; [|discriminate]. destruct (astep s o) as [[s1 y]| |] eqn:E; try discriminate.
    destruct (arun s1 ops) as [[s2 ys]|] eqn:E2; [|discriminate]. injection H as <-.
    econstructor; eauto. now apply apermb_ok.
Qed.

Definition demo_ops : list aop :=
  [AAlloc 24; AAlloc 24; AAlloc 100; AQInit; AMark 0 0 0; ARun [0; 1; 2]%nat; ABlack 0 0; ARun [0; 1; 2]%nat; AAlloc 24; AAlloc 40].
Example demo_history :
  match arun ainit demo_ops with
  | Some (s, rs) => rs = [RSlot 0 0; RSlot 0 24; RSlot 1 0; RNone; RNone; RDeq (Some (0%nat, 0)); RNone; RDeq None;
                          RSlot 0 24; RSlot 2 0]
  | None => False
  end.
Proof. vm_compute. reflexivity. Qed.
(** fifteen collections, the last of which sweeps *)
Definition demo_sweep : list aop :=
  AAlloc 24 :: AAlloc 24 :: concat (repeat [AQInit; ARun [0; 1]%nat] 15) ++ [AAlloc 100; ASweep; ASweep; ASweep].
Example demo_sweep_ok :
  match arun ainit demo_sweep with
  | Some (s, _) => a_ph s = PSweep /\ (sizeClassSZ <= a_pos s)%nat /\ a_g s = 30 /\ b_mem (a_blk s 0) 24 = CHdr false 2 /\ b_mem (a_blk s 1) 0 = CHdr true 32
  | None => False
  end.
Proof. vm_compute. repeat split; try reflexivity. Qed.
Example demo_live : exists s rs, aexec ainit demo_ops (Ok (s, rs)) /\ live s 0 0 /\ live s 0 24 /\ sizeof_scmHead < 24 < MEM_BLOCK_SIZE.
Proof.
  destruct (arun ainit demo_ops) as [[s rs]|] eqn:E; [|vm_compute in E; discriminate].
  exists s, rs. split; [now apply arun_ok|]. assert (Es : s = match arun ainit demo_ops with Some (s, _) => s | None => ainit end) by now rewrite E.
  subst s. clear E. repeat split; try (vm_compute; congruence); try (exists 1; split; [vm_compute; reflexivity|discriminate]);
    vm_compute; lia.
Qed.

(** * C32 *)
Theorem size_class_fits : forall size, 0 < size <= MEM_BLOCK_SIZE ->
  exists i c, getSlotBySize size = Ok i /\ nth_error sizeClass (Z.to_nat i) = Some c /\ size <= c /\
    forall c', In c' sizeClass -> size <= c' -> c <= c'.
Proof.
  intros size H. destruct (slot_spec size H) as (i & c & E & _ & Ec & F & M). exists (Z.of_nat i), c.
  rewrite Nat2Z.id. repeat split; auto. intros c' Hin Hle. apply In_nth_error in Hin. destruct Hin as (j & Hj). eauto.
Qed.
Theorem size_class_exact : forall i c, nth_error sizeClass i = Some c -> c <> 0 -> getSlotBySize c = Ok (Z.of_nat i).
Proof. intros i c H Hc. now destruct (class_cases i c H Hc) as (_ & E & _). Qed.
Example size_class_ex : getSlotBySize 129 = Ok 10 /\ nth_error sizeClass 10 = Some 192 /\ getSlotBySize 128 = Ok 9 /\ getSlotBySize 4095 = Ok 18.
Proof. vm_compute. auto. Qed.
Print Assumptions size_class_fits.
Print Assumptions size_class_exact.

(** * C33 *)
(** The users of the queue: enqueue, dequeue, and allocation, which takes blocks from the
    same pool. *)
Inductive qop := QEnq (b : nat) (off : Z) | QDeq | QAlloc (size : Z).
Fixpoint qrun (s : ast) (ops : list qop) : outcome (list (option (nat * Z))) :=
  match ops with
  | [] => Ok []
  | QEnq b off :: r => do! s1 <- gcEnqueue s b off; qrun s1 r
  | QDeq :: r => do! '(s1, x) <- gcDequeue s;
                 match x with
                 | Some _ => do! xs <- qrun s1 r; Ok (x :: xs)
                 | None => Ok [None]            (** the phase ends here *)
                 end
  | QAlloc size :: r => do! '(s1, _) <- gcAllocSmall s size; qrun s1 r
  end.
(** the specification: a list *)
Fixpoint fifo (q : list (nat * Z)) (ops : list qop) : list (option (nat * Z)) :=
  match ops with
  | [] => []
  | QEnq b off :: r => fifo (q ++ [(b, off)]) r
  | QDeq :: r => match q with [] => [None] | x :: q' => Some x :: fifo q' r end
  | QAlloc _ :: r => fifo q r
  end.
Definition qop_ok (o : qop) : Prop := match o with QAlloc size => sizeof_scmHead < size < MEM_BLOCK_SIZE | _ => True end.

Lemma qrun_fifo : forall ops s q, ainv noex q s -> a_ph s = PInc -> Forall qop_ok ops -> qrun s ops = Ok (fifo q ops).
Proof.
  induction ops as [|o ops IH]; intros s q I Hp Hok; [reflexivity|]. inversion Hok as [|? ? H1 H2]; subst. destruct o as [b off| |size]; cbn [qrun fifo].
  - destruct (gcEnqueue_ok q s b off I Hp) as (s1 & E & I1 & _ & P1 & _). rewrite E. cbn [obind]. apply IH; auto. congruence.
  - pose proof (gcDequeue_ok q s I Hp) as D. destruct q as [|x q].
    + destruct D as (s1 & E & _). rewrite E. reflexivity.
    + destruct D as (s1 & E & I1 & _ & P1 & _). rewrite E. cbn [obind]. rewrite (IH s1 q); auto. congruence.
  - destruct (alloc_ok q s size I H1) as (s1 & b & off & c & E & I1 & _ & P1 & _). rewrite E. cbn [obind]. apply IH; auto. congruence.
Qed.

Theorem gray_queue_fifo : forall s ops, areach s -> a_ph s = PNone -> Forall qop_ok ops ->
  (do! s1 <- gcQueueInit s; qrun (wph s1 PInc) ops) = Ok (fifo [] ops).
Proof.
  intros s ops Hr Hp Hok. destruct (areach_inv s Hr) as (q & I).
  destruct (gcQueueInit_ok q s I Hp) as (s1 & E & I1 & _). rewrite E. cbn [obind]. apply qrun_fifo; auto.
Qed.
Definition big_ops : list qop := map (fun i => QEnq 0 (Z.of_nat i)) (seq 0 600) ++ QAlloc 24 :: repeat QDeq 599 ++ [QEnq 7 0; QDeq; QDeq; QDeq].
Example gray_queue_ex : areach ainit /\ a_ph ainit = PNone /\ Forall qop_ok big_ops /\
  skipn 597 (fifo [] big_ops) = [Some (0%nat, 597); Some (0%nat, 598); Some (0%nat, 599); Some (7%nat, 0); None].
Proof.
  split; [exists [], []; constructor|]. split; [reflexivity|]. split; [|vm_compute; reflexivity].
  unfold big_ops. rewrite Forall_forall. intros x Hx. apply in_app_or in Hx. destruct Hx as [Hx|[<-|Hx]].
  - apply in_map_iff in Hx. destruct Hx as (i & <- & _). exact Logic.I.
  - cbn. unfold sizeof_scmHead, MEM_BLOCK_SIZE. lia.
  - apply in_app_or in Hx. destruct Hx as [Hx|Hx]; [apply repeat_spec in Hx; now subst x|].
    repeat (destruct Hx as [<-|Hx]; [exact Logic.I|]). destruct Hx.
Qed.
Print Assumptions gray_queue_fifo.
