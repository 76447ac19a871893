(** Marking terminates: a potential that pays for every scan. *)
From Coq Require Import ZArith Bool List Lia Arith.
From Verif Require Import Base ListLib GcModel GcProofs GcInv GcLive.
Import ListNotations.
Open Scope Z_scope.
Ltac Zify.zify_post_hook ::= Z.div_mod_to_equations.

Fixpoint sumZ (f : nat -> Z) (n : nat) : Z :=
  match n with O => 0 | S n' => sumZ f n' + f n' end.

Lemma sumZ_ext : forall f h n, (forall a, (a < n)%nat -> f a = h a) -> sumZ f n = sumZ h n.
Proof.
  intros f h n. induction n as [|n IH]; intro H; cbn [sumZ]; [reflexivity|].
  rewrite IH by (intros; apply H; lia). rewrite H by lia. reflexivity.
Qed.
Lemma sumZ_upd : forall f h a n, (a < n)%nat -> (forall x, x <> a -> h x = f x) -> sumZ h n = sumZ f n - f a + h a.
Proof.
  intros f h a n. induction n as [|n IH]; intros Ha H; cbn [sumZ]; [lia|].
  destruct (Nat.eq_dec a n) as [->|Hne].
  - rewrite (sumZ_ext h f n); [lia|]. intros x Hx. apply H. lia.
  - rewrite IH; [|lia|exact H]. rewrite (H n) by lia. lia.
Qed.
Lemma sumZ_extend : forall f n m, (n <= m)%nat -> (forall a, (n <= a)%nat -> f a = 0) -> sumZ f m = sumZ f n.
Proof.
  intros f n m Hle H. induction m as [|m IH].
  - replace n with 0%nat by lia. reflexivity.
  - destruct (Nat.eq_dec n (S m)) as [->|]; [reflexivity|]. cbn [sumZ]. rewrite IH by lia. rewrite H by lia. lia.
Qed.

Definition wt (s : st) (a : nat) : Z :=
  if o_used (heap s a) then (if D s a <=? 0 then 26 else if D s a <=? 24 then 25 - D s a else 0) else 0.
Definition phi (n : nat) (s : st) : Z := 2 * sumZ (wt s) n + Z.of_nat (length (queue s)).
Definition fin (n : nat) (s : st) : Prop := forall a, (n <= a)%nat -> o_used (heap s a) = false.

Lemma wt_nonneg : forall s a, 0 <= wt s a.
Proof. intros. unfold wt. destruct (o_used _); [|lia]. destruct (Z.leb_spec (D s a) 0); [lia|]. destruct (Z.leb_spec (D s a) 24); lia. Qed.
Lemma sumZ_nonneg : forall f n, (forall a, 0 <= f a) -> 0 <= sumZ f n.
Proof. intros f n H. induction n as [|n IH]; cbn [sumZ]; [lia|]. specialize (H n). lia. Qed.
Lemma phi_nonneg : forall n s, 0 <= phi n s.
Proof. intros. unfold phi. pose proof (sumZ_nonneg (wt s) n (wt_nonneg s)). lia. Qed.
Lemma phi_extend : forall n m s, (n <= m)%nat -> fin n s -> phi m s = phi n s.
Proof.
  intros n m s H F. unfold phi. rewrite (sumZ_extend (wt s) n m H); [reflexivity|].
  intros a Ha. unfold wt. now rewrite F.
Qed.

Lemma phi_regray : forall n s a v (b : bool), fin n s -> o_used (heap s a) = true -> 1 <= dist (g s) v <= 23 ->
  (D s a <= 0 \/ D s a < dist (g s) v) ->
  phi n (if b then with_obj s a (set_ver (heap s a) v) else enqueue (with_obj s a (set_ver (heap s a) v)) a) <= phi n s.
Proof.
  intros n s a v b F U Hd Hlt.
  assert (Ha : (a < n)%nat).
  { destruct (le_lt_dec n a) as [H|H]; [|exact H]. rewrite (F a H) in U. discriminate. }
  set (s1 := with_obj s a (set_ver (heap s a) v)).
  assert (E : sumZ (wt s1) n = sumZ (wt s) n - wt s a + wt s1 a).
  { apply sumZ_upd; [exact Ha|]. intros x Hx. unfold wt, D. assert (X : heap s1 x = heap s x) by (now apply upd_other). rewrite X. reflexivity. }
  assert (W : wt s1 a <= wt s a - 1).
  { assert (X : heap s1 a = set_ver (heap s a) v) by apply upd_same.
    unfold wt, D in *. rewrite X. change (g s1) with (g s). cbn [o_used o_ver set_ver]. rewrite U.
    destruct (Z.leb_spec (dist (g s) v) 0); [lia|]. destruct (Z.leb_spec (dist (g s) v) 24); [|lia].
    destruct (Z.leb_spec (dist (g s) (ver s a)) 0); [lia|]. destruct (Z.leb_spec (dist (g s) (ver s a)) 24); lia. }
  destruct b; unfold phi.
  - change (queue s1) with (queue s). lia.
  - assert (E2 : sumZ (wt (enqueue s1 a)) n = sumZ (wt s1) n) by reflexivity.
    rewrite E2. cbn [queue enqueue]. rewrite app_length. cbn [length]. change (queue s1) with (queue s). lia.
Qed.

Lemma phi_gcMark : forall n ex s v minv, fin n s -> qok ex s -> (g s) mod 2 = 0 -> minv_ok (g s) minv ->
  phi n (gcMark s v minv) <= phi n s.
Proof.
  intros n ex s [|a] minv F Q Hg Hm; [cbn; lia|]. unfold gcMark.
  destruct (is_inuse (g s) (heap s a)) eqn:Eu; [|lia]. pose proof (is_inuse_used _ _ Eu) as U.
  unfold markObject. cbv zeta.
  assert (Hmz : forall x, negb (minv =? 0) && x = true ->
     x = true /\ is_odd minv = true /\ 0 <= minv < 256 /\ 1 <= dist (g s) minv <= 23).
  { intros x H. apply andb_true_iff in H. destruct H as [H1 H2]. split; [exact H2|].
    destruct Hm as [-> |Hm]; [discriminate|exact Hm]. }
  destruct (is_odd (ver s a)) eqn:Eo.
  - destruct (negb (minv =? 0) && _) eqn:E; [|lia]. destruct (Hmz _ E) as (E2 & Mo & Mb & Md).
    apply Z.ltb_lt in E2.
    assert (Hin : In a (ex ++ queue s)) by (now apply (q_odd _ _ Q)).
    destruct (q_range _ _ Q a Hin) as [_ R].
    destruct (cmp_dist (g s) minv (ver s a)) as (A & _); [fold (D s a); lia|]. apply A in E2. fold (D s a) in E2.
    apply (phi_regray n s a minv true F U Md). lia.
  - assert (Hgen : 0 <= ver s a / 64 <= 3) by (pose proof (q_byte _ _ Q a); lia).
    destruct (nextVersion_spec (ver s a / 64) (g s) Hgen Hg) as (Nb & No & Nd).
    destruct (Z.eqb_spec (ver s a mod 64) (g s mod 64)) as [E1|E1].
    + assert (D0 : D s a = 0) by (unfold D, dist; lia). cbn [orb].
      destruct (negb (minv =? 0) && _) eqn:E.
      * destruct (Hmz _ E) as (E2 & Mo & Mb & Md). apply (phi_regray n s a minv false F U Md). lia.
      * apply (phi_regray n s a _ false F U Nd). lia.
    + cbn [orb]. destruct (negb (minv =? 0) && _) eqn:E; [|lia].
      destruct (Hmz _ E) as (E2 & Mo & Mb & Md). apply (phi_regray n s a minv false F U Md).
      destruct (Z_le_gt_dec (D s a) 0) as [Hz|Hz]; [now left|right].
      pose proof (dist_range (g s) (ver s a)) as R. fold (D s a) in R.
      apply Z.ltb_lt in E2. destruct (cmp_dist (g s) minv (ver s a)) as (A & _); [fold (D s a); lia|].
      apply A in E2. fold (D s a) in E2. lia.
Qed.

Lemma used_gcMark : forall s v minv x, o_used (heap (gcMark s v minv) x) = o_used (heap s x).
Proof.
  intros s [|a] minv x; [reflexivity|]. unfold gcMark, markObject. cbv zeta.
  repeat match goal with |- context [if ?b then _ else _] => destruct b end; cbn; try reflexivity;
    unfold upd; destruct (Nat.eqb_spec x a); subst; reflexivity.
Qed.

Lemma phi_gcMarkAll : forall vs n ex (L : nat -> Prop) s minv, fin n s -> qok ex s -> lok L s -> (g s) mod 2 = 0 -> minv_ok (g s) minv ->
  phi n (gcMarkAll s vs minv) <= phi n s.
Proof.
  induction vs as [|v vs IH]; intros n ex L s minv F Q HL Hg Hm; [cbn; lia|].
  change (gcMarkAll s (v :: vs) minv) with (gcMarkAll (gcMark s v minv) vs minv).
  destruct (gcMark_ok ex L s v minv Q HL Hg Hm) as (M1 & Q1 & _).
  pose proof (mrel_g _ _ _ _ M1) as Eg.
  pose proof (phi_gcMark n ex s v minv F Q Hg Hm).
  assert (phi n (gcMarkAll (gcMark s v minv) vs minv) <= phi n (gcMark s v minv)); [|lia].
  apply (IH n ex L); try congruence; auto.
  - intros a Ha. rewrite used_gcMark. now apply F.
  - eapply mrel_lok; eassumption.
Qed.

Lemma phi_same : forall n s s', g s' = g s -> queue s' = queue s ->
  (forall a, ver s' a = ver s a /\ o_used (heap s' a) = o_used (heap s a)) -> phi n s' = phi n s.
Proof.
  intros n s s' Eg Eq H. unfold phi. rewrite Eq. f_equal. f_equal. apply sumZ_ext. intros a _.
  unfold wt, D. destruct (H a) as [-> ->]. now rewrite Eg.
Qed.

Definition isStep (o : op) : Z := match o with OStep => 1 | _ => 0 end.
Definition isAlloc (o : op) : Z := match o with OAlloc _ _ _ _ => 1 | _ => 0 end.

Lemma fin_step_alloc : forall n s a m l f, fin n s -> (a < n)%nat -> fin n (alloc s a m l f).
Proof. intros n s a m l f F Ha x Hx. cbn. rewrite upd_other by lia. now apply F. Qed.

Lemma phi_step : forall n (L : nat -> Prop) s o s', inv L s -> ph s = PInc -> ph s' = PInc -> permitted s o -> step s o = Ok s' ->
  fin n s -> (forall a m l f, o = OAlloc a m l f -> (a < n)%nat) ->
  phi n s' + 3 * isStep o <= phi n s + 46 * isAlloc o /\ fin n s'.
Proof.
  intros n L s o s' HI Hph Hph' HP Hs F Ha. pose proof (proj1 HI) as C.
  pose proof (c_qok _ _ C) as Q. pose proof (c_even _ _ C) as Hg.
  destruct o as [a m l fields|a i|a i v|l|v|junk| |a|]; cbn [permitted step isStep isAlloc] in *.
  1-6, 8, 9: apply Ok_inj in Hs; subst s'.
  - specialize (Ha a m l fields eq_refl). split; [|now apply fin_step_alloc].
    unfold phi. set (s1 := alloc s a m l fields).
    assert (E : sumZ (wt s1) n = sumZ (wt s) n - wt s a + wt s1 a).
    { apply sumZ_upd; [exact Ha|]. intros x Hx. unfold wt, D. assert (X : heap s1 x = heap s x) by (now apply upd_other). rewrite X. reflexivity. }
    pose proof (wt_nonneg s a).
    assert (wt s1 a = 23).
    { destruct (alloc_version_spec s Hg) as (_ & _ & V). rewrite Hph in V.
      assert (X : heap s1 a = mkObj true (alloc_version s) m l false fields) by apply upd_same.
      unfold wt, D. rewrite X. change (g s1) with (g s). cbn [o_used o_ver]. rewrite V. reflexivity. }
    change (queue s1) with (queue s). lia.
  - split; [|exact F]. erewrite phi_same with (s := s); auto. lia.
  - destruct HP as (Hma & Hv & _). unfold store, writeBarrierForIncremental. rewrite Hph.
    set (old := nth i (o_fields (heap s a)) Imm). set (s1 := gcMark s old 0).
    destruct (gcMark_ok [] L s old 0 Q (c_lok _ _ C) Hg (minv_ok_0 _)) as (M1 & Q1 & _). fold s1 in M1, Q1.
    assert (P1 : phi n s1 <= phi n s) by (eapply phi_gcMark; eauto using minv_ok_0).
    assert (F1 : fin n s1) by (intros x Hx; unfold s1; rewrite used_gcMark; now apply F).
    set (s2 := with_obj s1 a _).
    assert (S2 : forall x, ver s2 x = ver s1 x /\ o_used (heap s2 x) = o_used (heap s1 x)).
    { intro x. cbn. unfold upd. destruct (Nat.eqb_spec x a); subst; auto. }
    assert (P2 : phi n s2 = phi n s1) by (apply phi_same; auto).
    assert (F2 : fin n s2) by (intros x Hx; rewrite (proj2 (S2 x)); now apply F1).
    assert (Q2 : qok [] s2) by (eapply qok_same with (s := s1); auto; intro x; apply S2).
    unfold writeBarrierForGeneration. destruct v as [|b]; [split; [lia|exact F2]|].
    destruct (_ <=? 0); [split; [lia|exact F2]|].
    set (s3 := add_rset s2 a).
    assert (S3 : forall x, ver s3 x = ver s2 x /\ o_used (heap s3 x) = o_used (heap s2 x)).
    { intro x. unfold s3, add_rset. destruct (o_inrset (heap s2 a)); [auto|]. cbn [heap]. unfold upd. destruct (Nat.eqb_spec x a); subst; auto. }
    assert (E3 : g s3 = g s2 /\ queue s3 = queue s2) by (unfold s3, add_rset; destruct (o_inrset (heap s2 a)); auto).
    destruct E3 as [Eg3 Eq3].
    assert (P3 : phi n s3 = phi n s2) by (apply phi_same; auto).
    assert (F3 : fin n s3) by (intros x Hx; rewrite (proj2 (S3 x)); now apply F2).
    assert (Q3 : qok [] s3) by (eapply qok_same with (s := s2); auto; intro x; apply S3).
    destruct (ph s2); [split; [lia|exact F3]| |split; [lia|exact F3]].
    destruct (_ && _); [split; [lia|exact F2]|].
    split; [|intros x Hx; rewrite used_gcMark; now apply F3].
    assert (phi n (gcMark s3 (Ptr b) 0) <= phi n s3); [|lia].
    eapply phi_gcMark; eauto using minv_ok_0. rewrite Eg3. cbn. rewrite (mrel_g _ _ _ _ M1). exact Hg.
  - split; [|exact F]. erewrite phi_same with (s := s); auto. lia.
  - split; [|intros x Hx; rewrite used_gcMark; now apply F].
    pose proof (phi_gcMark n [] s v 0 F Q Hg (minv_ok_0 _)). lia.
  - rewrite HP in Hph. discriminate.
  - rewrite HP in Hph. discriminate.
  - rewrite HP in Hph. discriminate.
  - unfold gcStep in Hs. destruct (queue s) as [|q rest] eqn:Eq.
    + destruct (g s mod 30 =? 0); apply Ok_inj in Hs; subst s'; discriminate.
    + destruct (is_odd (ver s q)) eqn:Hodd; [|discriminate]. apply Ok_inj in Hs. subst s'. clear Hph'.
      set (s1 := mkSt (g s) (ph s) (heap s) rest (rset s) (mut s)).
      assert (Q1 : qok [q] s1).
      { destruct Q as [A1 A2 A3 A4]. rewrite Eq in *. constructor; auto. }
      destruct (q_range _ _ Q1 q ltac:(now left)) as [Uq Rq]. change (D s1 q) with (D s q) in Rq.
      assert (Hmin : minv_ok (g s1) (ver s q)).
      { right. split; [exact Hodd|]. split; [apply (q_byte _ _ Q)|]. exact Rq. }
      destruct (gcMarkAll_ok (o_fields (heap s q)) [q] L s1 (ver s q) Q1 (c_lok _ _ C) Hg Hmin) as (M & Q2 & _).
      pose proof (phi_gcMarkAll (o_fields (heap s q)) n [q] L s1 (ver s q) F Q1 (c_lok _ _ C) Hg Hmin) as P2.
      set (s2 := gcMarkAll s1 (o_fields (heap s q)) (ver s q)) in *.
      pose proof (m_static _ _ _ _ M) as ST.
      assert (Hg2 : g s2 = g s) by apply ST.
      assert (Heven : (g s2) mod 2 = 0) by (rewrite Hg2; exact Hg).
      assert (Ho2 : is_odd (ver s2 q) = true) by (apply (q_odd _ _ Q2); now left).
      destruct (q_range _ _ Q2 q ltac:(now left)) as [Uq2 Rq2].
      destruct (blacken_spec (g s2) (ver s2 q) Heven (q_byte _ _ Q2 q) Ho2 Rq2) as (B1 & B2 & B3).
      set (v' := ver s2 q / 64 * 64 + (ver s2 q + 1) mod 64) in *.
      set (s3 := with_obj s2 q (set_ver (heap s2 q) v')).
      assert (Hq : (q < n)%nat).
      { destruct (le_lt_dec n q) as [H|H]; [|exact H]. change (heap s1 q) with (heap s q) in Uq. rewrite (F q H) in Uq. discriminate. }
      assert (E : sumZ (wt s3) n = sumZ (wt s2) n - wt s2 q + wt s3 q).
      { apply sumZ_upd; [exact Hq|]. intros x Hx. unfold wt, D. assert (X : heap s3 x = heap s2 x) by (now apply upd_other). rewrite X. reflexivity. }
      assert (W : wt s3 q = wt s2 q - 1).
      { assert (X : heap s3 q = set_ver (heap s2 q) v') by apply upd_same.
        assert (Y : D s3 q = D s2 q + 1) by (unfold D; rewrite X; exact B3).
        unfold wt. rewrite Y, X. cbn [o_used set_ver]. rewrite Uq2.
        destruct (Z.leb_spec (D s2 q + 1) 0); [lia|]. destruct (Z.leb_spec (D s2 q + 1) 24); [|lia].
        destruct (Z.leb_spec (D s2 q) 0); [lia|]. destruct (Z.leb_spec (D s2 q) 24); lia. }
      split.
      * unfold phi in *. change (queue s3) with (queue s2). change (wt s1) with (wt s) in P2. cbn [queue s1] in P2.
        cbn [length] in *. rewrite Eq. cbn [length]. lia.
      * intros x Hx. cbn. unfold upd. destruct (Nat.eqb_spec x q); [lia|]. destruct (st_obj _ _ ST x) as (-> & _). now apply F.
Qed.

(** finitely many slots are used in every reachable state *)
Lemma fin_init : fin 0 init.
Proof. intros a _. reflexivity. Qed.
