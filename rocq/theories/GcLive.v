(** Garbage is reclaimed and marking terminates: bounds on versions, full collections,
    and a potential that decreases with every scan. *)
From Coq Require Import ZArith Bool List Lia Arith.
From Verif Require Import Base ListLib GcModel GcProofs GcInv.
Import ListNotations.
Open Scope Z_scope.
Ltac Zify.zify_post_hook ::= Z.div_mod_to_equations.

(** ** no version goes beyond the next full collection *)
Definition TT (gv : Z) : Z := 24 * (gv / 24 + 1).

Lemma nextVersion_bound : forall gen gv, 0 <= gen <= 3 -> gv mod 2 = 0 ->
  gv + dist gv (nextVersion gen gv) <= TT gv - 1.
Proof.
  intros gen gv Hg Hv. unfold nextVersion.
  destruct (bump_loop_spec (Z.to_nat gen) gv Hv) as (j & -> & Hj & Hm).
  assert (E : dist gv ((if gen <? 3 then gen + 1 else gen) * 64 + (gv + j) mod 64) = j).
  { apply dist_eq; [lia|]. destruct (gen <? 3); lia. }
  rewrite E. unfold TT. destruct Hj as [-> | [-> | [-> | ->]]]; lia.
Qed.

Lemma markObject_bound : forall s a minv x, (g s) mod 2 = 0 -> 0 <= ver s a < 256 ->
  (minv = 0 \/ g s + dist (g s) minv <= TT (g s) - 1) ->
  ver (markObject s a minv) x = ver s x \/ g s + D (markObject s a minv) x <= TT (g s) - 1.
Proof.
  intros s a minv x Hg Hb Hm.
  assert (HR : forall v s', (s' = with_obj s a (set_ver (heap s a) v) \/ s' = enqueue (with_obj s a (set_ver (heap s a) v)) a) ->
     g s + dist (g s) v <= TT (g s) - 1 -> ver s' x = ver s x \/ g s + D s' x <= TT (g s) - 1).
  { intros v s' Hs Hv. unfold D.
    assert (Hx : ver s' x = (if Nat.eqb x a then v else ver s x) /\ g s' = g s).
    { destruct Hs as [-> | ->]; cbn; unfold upd; destruct (Nat.eqb_spec x a); subst; auto. }
    destruct Hx as [-> ->]. destruct (Nat.eqb x a); [now right|now left]. }
  pose proof (nextVersion_bound (ver s a / 64) (g s) ltac:(lia) Hg) as Hn.
  unfold markObject. cbv zeta.
  destruct (is_odd (ver s a)).
  - destruct (negb (minv =? 0) && _) eqn:E; [|now left].
    apply andb_true_iff in E. destruct E as [E _]. destruct (Z.eqb_spec minv 0); [discriminate|].
    destruct Hm as [|Hm]; [contradiction|]. eapply HR; [now left|exact Hm].
  - destruct (ver s a mod 64 =? g s mod 64); destruct (negb (minv =? 0) && _) eqn:E; cbn [orb].
    + apply andb_true_iff in E. destruct E as [E _]. destruct (Z.eqb_spec minv 0); [discriminate|].
      destruct Hm as [|Hm]; [contradiction|]. eapply HR; [right; reflexivity|exact Hm].
    + eapply HR; [right; reflexivity|exact Hn].
    + apply andb_true_iff in E. destruct E as [E _]. destruct (Z.eqb_spec minv 0); [discriminate|].
      destruct Hm as [|Hm]; [contradiction|]. eapply HR; [right; reflexivity|exact Hm].
    + now left.
Qed.

(** [bnd s s']: going from s to s', versions only changed to bounded ones *)
Definition bnd (s s' : st) : Prop := forall x, ver s' x = ver s x \/ g s + D s' x <= TT (g s) - 1.

Lemma bnd_trans : forall s1 s2 s3, g s2 = g s1 -> g s3 = g s2 -> bnd s1 s2 -> bnd s2 s3 -> bnd s1 s3.
Proof.
  intros s1 s2 s3 G1 G2 B1 B2 x. destruct (B2 x) as [E|E]; [|right; now rewrite <- G1].
  destruct (B1 x) as [E1|E1]; [left; congruence|right]. unfold D in *. rewrite E, G2. exact E1.
Qed.

Lemma gcMark_bound : forall s v minv, (g s) mod 2 = 0 -> (forall a, 0 <= ver s a < 256) ->
  (minv = 0 \/ g s + dist (g s) minv <= TT (g s) - 1) -> bnd s (gcMark s v minv).
Proof.
  intros s [|a] minv Hg Hb Hm x; [now left|]. unfold gcMark. destruct (is_inuse _ _); [|now left].
  apply markObject_bound; auto.
Qed.

Lemma gcMarkAll_bound : forall vs ex (L : nat -> Prop) s minv, qok ex s -> lok L s -> (g s) mod 2 = 0 -> minv_ok (g s) minv ->
  (minv = 0 \/ g s + dist (g s) minv <= TT (g s) - 1) -> bnd s (gcMarkAll s vs minv).
Proof.
  induction vs as [|v vs IH]; intros ex L s minv Q HL Hg Hm Hb; [now left|].
  change (gcMarkAll s (v :: vs) minv) with (gcMarkAll (gcMark s v minv) vs minv).
  destruct (gcMark_ok ex L s v minv Q HL Hg Hm) as (M1 & Q1 & _).
  pose proof (mrel_g _ _ _ _ M1) as Eg. pose proof (mrel_lok _ _ _ _ M1 HL) as HL1.
  destruct (gcMarkAll_ok vs ex L (gcMark s v minv) minv Q1 HL1) as (M2 & _); [congruence|congruence|].
  apply bnd_trans with (s2 := gcMark s v minv); [exact Eg|apply (mrel_g _ _ _ _ M2)| |].
  - apply gcMark_bound; auto. apply Q.
  - apply (IH ex L); auto; congruence.
Qed.

Lemma gcRSet_bound : forall (L : nat -> Prop) l s kept, qok [] s -> lok L s -> (g s) mod 2 = 0 ->
  bnd s (gcRSet s l kept) /\ g (gcRSet s l kept) = g s.
Proof.
  intros L. induction l as [|x l IH]; intros s kept Q HL Hg; cbn [gcRSet].
  - split; [intro; now left|reflexivity].
  - destruct (_ <=? _).
    + set (s1 := with_obj s x (set_inrset (heap s x) false)).
      assert (Hv : forall y, ver s1 y = ver s y) by (intro y; cbn; unfold upd; destruct (Nat.eqb_spec y x); subst; reflexivity).
      assert (Hu : forall y, o_used (heap s1 y) = o_used (heap s y)) by (intro y; cbn; unfold upd; destruct (Nat.eqb_spec y x); subst; reflexivity).
      destruct (IH s1 kept) as [B E].
      * eapply qok_same with (s := s); auto.
      * intros y Ly. unfold D. rewrite Hu, Hv. apply HL. exact Ly.
      * exact Hg.
      * split; [|exact E]. intro y. destruct (B y) as [H|H]; [left; now rewrite H|now right].
    + destruct (gcMarkAll_ok (o_fields (heap s x)) [] L s 0 Q HL Hg (minv_ok_0 _)) as (M1 & Q1 & _).
      pose proof (mrel_g _ _ _ _ M1) as Eg.
      destruct (IH _ (x :: kept) Q1 (mrel_lok _ _ _ _ M1 HL)) as [B E]; [congruence|].
      split; [|congruence]. eapply bnd_trans; [exact Eg|exact E| |exact B].
      eapply gcMarkAll_bound; eauto using minv_ok_0.
Qed.

(** last multiple of 30 below the version: when the last sweep happened *)
Definition SS (gv : Z) : Z := 30 * ((gv - 1) / 30).

Definition bound (s : st) : Z := match ph s with PNone => TT (g s - 2) | _ => TT (g s) end.
Lemma bound_le : forall s, bound s <= TT (g s).
Proof. intro s. unfold bound, TT. destruct (ph s); lia. Qed.

Record linv (L : nat -> Prop) (s : st) : Prop := {
  l_live : forall a, L a -> g s + D s a <= bound s;
  l_queue : forall a, In a (queue s) -> g s + D s a <= TT (g s) - 1;
  l_dead : forall a, o_used (heap s a) = true -> o_large (heap s a) = false ->
             L a \/ (D s a < 0 /\ SS (g s) <= g s + D s a)
}.

Lemma SS_range : forall gv, gv - 30 <= SS gv < gv.
Proof. intro. unfold SS. lia. Qed.

Lemma small_range : forall (L : nat -> Prop) s a, inv L s -> linv L s -> o_used (heap s a) = true -> o_large (heap s a) = false ->
  -30 <= D s a.
Proof.
  intros L s a [C _] B U S. destruct (l_dead _ _ B a U S) as [La|[H1 H2]].
  - destruct (c_lok _ _ C a La). lia.
  - pose proof (SS_range (g s)). lia.
Qed.

(** a pure marking transition *)
Lemma linv_mark : forall (L : nat -> Prop) s s', inv L s -> linv L s -> mrel [] L s s' -> qok [] s' -> bnd s s' ->
  (forall a, ~ L a -> o_used (heap s a) = true -> o_large (heap s a) = false -> ver s' a = ver s a) -> linv L (with_phase s' PInc).
Proof.
  intros L s s' HI B M Q Bd Hn. pose proof (m_static _ _ _ _ M) as ST. pose proof (st_g _ _ ST) as Eg.
  constructor; unfold bound; cbn [ph g queue heap with_phase]; rewrite ?Eg.
  - intros a La. change (D (with_phase s' PInc) a) with (D s' a). destruct (Bd a) as [E|E]; [|lia]. unfold D. rewrite E, Eg.
    pose proof (l_live _ _ B a La) as X. pose proof (bound_le s). unfold D in X. lia.
  - intros a Ha. change (D (with_phase s' PInc) a) with (D s' a). destruct (Bd a) as [E|E]; [|exact E].
    assert (In a (queue s)).
    { apply (q_odd _ _ (c_qok _ _ (proj1 HI))). rewrite <- E. now apply (q_odd _ _ Q). }
    unfold D. rewrite E, Eg. now apply (l_queue _ _ B).
  - intros a. destruct (st_obj _ _ ST a) as (-> & _ & -> & _). intros U S.
    destruct (l_dead _ _ B a U S) as [La|[H1 H2]]; [now left|].
    right. change (D (with_phase s' PInc) a) with (D s' a). unfold D. rewrite Eg, Hn; auto. intro La. destruct (c_lok _ _ (proj1 HI) a La). lia.
Qed.

(** marking never touches a slot that is not in use *)
Lemma markObject_other : forall s a minv x, x <> a -> heap (markObject s a minv) x = heap s x.
Proof.
  intros s a minv x Hx. unfold markObject. cbv zeta.
  repeat match goal with |- context [if ?b then _ else _] => destruct b end; cbn; try reflexivity; now apply upd_other.
Qed.
Lemma markObject_g : forall s a minv, g (markObject s a minv) = g s.
Proof.
  intros s a minv. unfold markObject. cbv zeta.
  repeat match goal with |- context [if ?b then _ else _] => destruct b end; reflexivity.
Qed.
Lemma gcMark_g : forall s v minv, g (gcMark s v minv) = g s.
Proof. intros s [|a] minv; [reflexivity|]. unfold gcMark. destruct (is_inuse _ _); [apply markObject_g|reflexivity]. Qed.
Lemma gcMark_free : forall s v minv x, is_inuse (g s) (heap s x) = false -> heap (gcMark s v minv) x = heap s x.
Proof.
  intros s [|a] minv x H; [reflexivity|]. unfold gcMark. destruct (is_inuse (g s) (heap s a)) eqn:E; [|reflexivity].
  apply markObject_other. intros ->. congruence.
Qed.
Lemma gcMarkAll_g : forall vs s minv, g (gcMarkAll s vs minv) = g s.
Proof.
  induction vs as [|v vs IH]; intros s minv; [reflexivity|].
  change (gcMarkAll s (v :: vs) minv) with (gcMarkAll (gcMark s v minv) vs minv). rewrite IH. apply gcMark_g.
Qed.
Lemma gcMarkAll_free : forall vs s minv x, is_inuse (g s) (heap s x) = false -> heap (gcMarkAll s vs minv) x = heap s x.
Proof.
  induction vs as [|v vs IH]; intros s minv x H; [reflexivity|].
  change (gcMarkAll s (v :: vs) minv) with (gcMarkAll (gcMark s v minv) vs minv).
  rewrite IH; [now apply gcMark_free|]. now rewrite gcMark_g, gcMark_free.
Qed.
Lemma inuse_set_inrset : forall gv o b, is_inuse gv (set_inrset o b) = is_inuse gv o.
Proof. reflexivity. Qed.
Lemma gcRSet_free : forall l s kept x, is_inuse (g s) (heap s x) = false -> ver (gcRSet s l kept) x = ver s x.
Proof.
  induction l as [|y l IH]; intros s kept x H; cbn [gcRSet]; [reflexivity|].
  destruct (_ <=? _).
  - rewrite IH; cbn; unfold upd; destruct (Nat.eqb_spec x y); subst; auto.
  - rewrite IH; rewrite ?gcMarkAll_g, gcMarkAll_free; auto.
Qed.

Lemma dead_free : forall (L : nat -> Prop) s a, inv L s -> linv L s -> ~ L a -> o_used (heap s a) = true -> o_large (heap s a) = false ->
  is_inuse (g s) (heap s a) = false.
Proof.
  intros L s a HI B Hn U S. pose proof (small_range L s a HI B U S) as R.
  destruct (l_dead _ _ B a U S) as [|[H _]]; [contradiction|].
  destruct (is_inuse (g s) (heap s a)) eqn:E; [|reflexivity].
  apply inuse_dist in E; [|fold (D s a); lia]. fold (D s a) in E. lia.
Qed.

Lemma with_phase_same : forall s p, ph s = p -> with_phase s p = s.
Proof. intros s p <-. now destruct s. Qed.

Lemma linv_gcMark : forall (L : nat -> Prop) s v, inv L s -> linv L s -> ph s = PInc -> linv L (gcMark s v 0).
Proof.
  intros L s v HI B E. pose proof (proj1 HI) as C.
  destruct (gcMark_ok [] L s v 0 (c_qok _ _ C) (c_lok _ _ C) (c_even _ _ C) (minv_ok_0 _)) as (M & Q & _).
  rewrite <- (with_phase_same (gcMark s v 0) PInc) by (now rewrite (mrel_ph _ _ _ _ M)).
  apply linv_mark with (s := s); auto.
  - apply gcMark_bound; auto; [apply C|apply (c_qok _ _ C)].
  - intros a Hn U S. rewrite gcMark_free; [reflexivity|]. eapply dead_free; eassumption.
Qed.

(** states that differ in nothing [linv] looks at *)
Lemma linv_same : forall (L : nat -> Prop) s s', g s' = g s -> (ph s' = ph s \/ ph s' <> PNone) -> queue s' = queue s ->
  (forall a, ver s' a = ver s a /\ (o_used (heap s' a) = true -> o_used (heap s a) = true) /\ o_large (heap s' a) = o_large (heap s a)) ->
  linv L s -> linv L s'.
Proof.
  intros L s s' Eg Ep Eq H [A B C].
  assert (Bd : bound s <= bound s').
  { unfold bound in *. rewrite Eg. destruct Ep as [-> |Ep]; [lia|]. destruct (ph s'); [contradiction| |]; destruct (ph s); unfold TT; lia. }
  assert (HD : forall a, D s' a = D s a) by (intro a; unfold D; now rewrite Eg, (proj1 (H a))).
  constructor; rewrite ?Eg, ?Eq; intro a; rewrite HD; auto.
  - intro La. specialize (A a La). lia.
  - destruct (H a) as (_ & U & ->). auto.
Qed.

Lemma linv_store : forall (L : nat -> Prop) s a i v, inv L s -> linv L s -> permitted s (OWrite a i v) -> linv L (store s a i v).
Proof.
  intros L s a i v HI B (Ha & Hv & _). unfold store, writeBarrierForIncremental.
  set (old := nth i (o_fields (heap s a)) Imm).
  set (s1 := match ph s with PInc => gcMark s old 0 | _ => s end).
  assert (H1 : inv L s1 /\ linv L s1 /\ mut s1 = mut s /\ ph s1 = ph s).
  { unfold s1. destruct (ph s) eqn:E; [exact (conj HI (conj B (conj eq_refl E)))| |exact (conj HI (conj B (conj eq_refl E)))].
    split; [now apply inv_markOld|]. split; [now apply linv_gcMark|].
    pose proof (proj1 HI) as C.
    destruct (gcMark_ok [] L s old 0 (c_qok _ _ C) (c_lok _ _ C) (c_even _ _ C) (minv_ok_0 _)) as (M & _).
    split; [apply (mrel_mut _ _ _ _ M)|now rewrite (mrel_ph _ _ _ _ M), E]. }
  destruct H1 as (I1 & B1 & Em & Eph). clearbody s1.
  set (s2 := with_obj s1 a _).
  assert (B2 : linv L s2).
  { apply linv_same with (s := s1); auto. intro x. cbn. unfold upd. destruct (Nat.eqb_spec x a); subst; auto. }
  unfold writeBarrierForGeneration. destruct v as [|b]; [exact B2|].
  destruct (_ <=? 0); [exact B2|].
  assert (B3 : linv L (add_rset s2 a)).
  { apply linv_same with (s := s2); auto; unfold add_rset; destruct (o_inrset (heap s2 a)); try reflexivity; try (left; reflexivity); auto.
    intro x. cbn [heap]. unfold upd. destruct (Nat.eqb_spec x a); subst; auto. }
  change (ph s2) with (ph s1). destruct (ph s1) eqn:E1; [exact B3| |exact B3].
  destruct (is_odd (ver s2 a) && _); [exact B2|].
  (* marking after add_rset; the state before is not [inv], but marking lemmas only need common *)
  pose proof (proj1 I1) as C1.
  assert (La : L a) by (apply (c_mut _ _ C1); rewrite Em; exact Ha).
  assert (Lb : L b) by (apply (c_mut _ _ C1); rewrite Em; now apply (Hv b)).
  assert (C2 : common L s2).
  { constructor; try apply C1.
    - intros x Lx. cbn. unfold D. cbn. unfold upd. destruct (Nat.eqb_spec x a); subst; now apply (c_lok _ _ C1).
    - intros x y Lx. cbn. unfold upd. destruct (Nat.eqb_spec x a) as [->|]; [|now apply (c_fields _ _ C1)].
      cbn. intro H. apply In_list_set_inv in H. destruct H as [H|H]; [now apply (c_fields _ _ C1 a)|congruence].
    - intros x Lx. cbn. unfold upd. destruct (Nat.eqb_spec x a) as [->|]; now apply (c_inrset _ _ C1).
    - eapply qok_same with (s := s1); try reflexivity; try apply C1; intro x; cbn; unfold upd; destruct (Nat.eqb_spec x a); subst; reflexivity. }
  destruct (add_rset_spec L s2 a C2 La) as (C3 & E3 & _). change (ph s2) with (ph s1) in E3. rewrite E1 in E3.
  set (s3 := add_rset s2 a) in *.
  destruct (gcMark_ok [] L s3 (Ptr b) 0 (c_qok _ _ C3) (c_lok _ _ C3) (c_even _ _ C3) (minv_ok_0 _)) as (M & Q & _).
  assert (Bd : bnd s3 (gcMark s3 (Ptr b) 0)) by (apply gcMark_bound; auto; [apply C3|apply (c_qok _ _ C3)]).
  pose proof (m_static _ _ _ _ M) as ST. pose proof (st_g _ _ ST) as Eg.
  pose proof (l_live _ _ B3) as LL. unfold bound in LL. rewrite E3 in LL.
  constructor; unfold bound; rewrite ?Eg, ?(st_ph _ _ ST), ?E3.
  - intros x Lx. destruct (Bd x) as [E|E]; [|lia]. unfold D. rewrite E, Eg. now apply LL.
  - intros x Hx. destruct (Bd x) as [E|E]; [|exact E].
    assert (In x (queue s3)).
    { apply (q_odd _ _ (c_qok _ _ C3)). rewrite <- E. now apply (q_odd _ _ Q). }
    unfold D. rewrite E, Eg. now apply (l_queue _ _ B3).
  - intros x. destruct (st_obj _ _ ST x) as (-> & _ & -> & _). intros U S.
    destruct (l_dead _ _ B3 x U S) as [Lx|[H1 H2]]; [now left|].
    right. unfold D. rewrite Eg. rewrite gcMark_free; [auto|].
    destruct (is_inuse (g s3) (heap s3 x)) eqn:Eu; [|reflexivity].
    pose proof (SS_range (g s3)). apply inuse_dist in Eu; [|fold (D s3 x); lia]. fold (D s3 x) in Eu. lia.
Qed.

Lemma linv_alloc : forall (L : nat -> Prop) s a m l fields, inv L s -> linv L s -> is_inuse (g s) (heap s a) = false ->
  linv (fun x => L x \/ x = a) (alloc s a m l fields).
Proof.
  intros L s a m l fields HI B Hn. pose proof (proj1 HI) as C.
  destruct (alloc_version_spec s (c_even _ _ C)) as (V1 & V2 & V3).
  set (s' := alloc s a m l fields).
  assert (Hoth : forall x, x <> a -> heap s' x = heap s x) by (intros x Hx; cbn; now apply upd_other).
  assert (Hsame : heap s' a = mkObj true (alloc_version s) m l false fields) by (cbn; now apply upd_same).
  assert (HDo : forall x, x <> a -> D s' x = D s x) by (intros x Hx; unfold D; now rewrite Hoth).
  assert (HDa : D s' a = match ph s with PNone => 0 | _ => 2 end) by (unfold D; rewrite Hsame; exact V3).
  constructor; change (g s') with (g s).
  - change (bound s') with (bound s). intros x Hx. destruct (Nat.eq_dec x a) as [->|Hne].
    + rewrite HDa. unfold bound. pose proof (c_even _ _ C). unfold TT. destruct (ph s); lia.
    + rewrite HDo by assumption. apply (l_live _ _ B). destruct Hx; [assumption|contradiction].
  - intros x Hx. change (queue s') with (queue s) in Hx.
    assert (x <> a) by (intros ->; revert Hx; apply not_inuse_not_queue; [apply C|exact Hn]).
    rewrite HDo by assumption. now apply (l_queue _ _ B).
  - intros x. destruct (Nat.eq_dec x a) as [->|Hne]; [left; now right|].
    rewrite (Hoth x Hne), (HDo x Hne). intros U S. destruct (l_dead _ _ B x U S); auto.
Qed.

Lemma linv_markRoot : forall (L : nat -> Prop) s junk, inv L s -> linv L s -> ph s = PNone -> linv L (gcMarkRoot s junk).
Proof.
  intros L s junk [C I] B E. pose proof (conj C I : inv L s) as HI. rewrite E in I. destruct I as (I1 & I2).
  unfold gcMarkRoot. set (s1 := mkSt (g s) (ph s) (heap s) [] (rset s) (mut s)).
  assert (Es : s1 = s) by (destruct s; cbn in *; unfold s1; cbn; congruence). rewrite Es. clear s1 Es.
  destruct (gcMarkAll_ok (mut s ++ junk) [] L s 0 (c_qok _ _ C) (c_lok _ _ C) (c_even _ _ C) (minv_ok_0 _)) as (M2 & Q2 & P2).
  pose proof (keepr_gcMarkAll (mut s ++ junk) s 0) as K2.
  pose proof (common_mrel L s _ C M2 Q2 K2) as C2.
  assert (Bd2 : bnd s (gcMarkAll s (mut s ++ junk) 0)).
  { eapply gcMarkAll_bound; eauto using minv_ok_0; apply C. }
  pose proof (gcMarkAll_free (mut s ++ junk) s 0) as F2.
  set (s2 := gcMarkAll s (mut s ++ junk) 0) in *.
  destruct (gcRSet_ok L (rset s2) s2 [] Q2 (c_lok _ _ C2) (c_even _ _ C2) (c_rset _ _ C2) (c_rset_nodup _ _ C2))
    as (M3 & Q3 & _).
  destruct (gcRSet_bound L (rset s2) s2 [] Q2 (c_lok _ _ C2) (c_even _ _ C2)) as [Bd3 Eg3].
  { apply linv_mark with (s := s); auto.
    - eapply mrel_trans; eassumption.
    - eapply bnd_trans; [apply (mrel_g _ _ _ _ M2)|exact Eg3|exact Bd2|exact Bd3].
    - intros a Hn U S. pose proof (dead_free L s a HI B Hn U S) as Hf.
      rewrite gcRSet_free; [now rewrite F2|]. rewrite (mrel_g _ _ _ _ M2), F2; auto. }
Qed.

Lemma linv_scan : forall (L : nat -> Prop) s q rest, inv L s -> linv L s -> ph s = PInc -> queue s = q :: rest ->
  linv L (let s2 := gcMarkAll (mkSt (g s) (ph s) (heap s) rest (rset s) (mut s)) (o_fields (heap s q)) (ver s q) in
         with_obj s2 q (set_ver (heap s2 q) ((ver s2 q / 64) * 64 + (ver s2 q + 1) mod 64))).
Proof.
  intros L s q rest HI B E Eq. pose proof (proj1 HI) as C. cbv zeta.
  assert (Hodd : is_odd (ver s q) = true).
  { apply (q_odd _ _ (c_qok _ _ C)). rewrite Eq. now left. }
  set (s1 := mkSt (g s) (ph s) (heap s) rest (rset s) (mut s)).
  assert (Q1 : qok [q] s1).
  { destruct (c_qok _ _ C) as [A1 A2 A3 A4]. rewrite Eq in *. constructor; auto. }
  destruct (q_range _ _ Q1 q ltac:(now left)) as [Uq Rq]. change (D s1 q) with (D s q) in Rq.
  assert (Hmin : minv_ok (g s1) (ver s q)).
  { right. split; [exact Hodd|]. split; [apply (q_byte _ _ (c_qok _ _ C))|]. exact Rq. }
  destruct (gcMarkAll_ok (o_fields (heap s q)) [q] L s1 (ver s q) Q1 (c_lok _ _ C) (c_even _ _ C) Hmin) as (M & Q2 & P).
  assert (Bq : g s + D s q <= TT (g s) - 1) by (apply (l_queue _ _ B); rewrite Eq; now left).
  assert (Bd : bnd s1 (gcMarkAll s1 (o_fields (heap s q)) (ver s q))).
  { eapply gcMarkAll_bound; eauto; [apply C|apply C]. }
  pose proof (gcMarkAll_free (o_fields (heap s q)) s1 (ver s q)) as F2.
  set (s2 := gcMarkAll s1 (o_fields (heap s q)) (ver s q)) in *.
  pose proof (m_static _ _ _ _ M) as ST.
  assert (Hg2 : g s2 = g s) by apply ST.
  assert (Heven : (g s2) mod 2 = 0) by (rewrite Hg2; apply C).
  assert (Ho2 : is_odd (ver s2 q) = true) by (apply (q_odd _ _ Q2); now left).
  destruct (q_range _ _ Q2 q ltac:(now left)) as [Uq2 Rq2].
  destruct (blacken_spec (g s2) (ver s2 q) Heven (q_byte _ _ Q2 q) Ho2 Rq2) as (B1 & B2 & B3).
  set (v' := ver s2 q / 64 * 64 + (ver s2 q + 1) mod 64) in *.
  set (s3 := with_obj s2 q (set_ver (heap s2 q) v')).
  assert (Hne : ~ In q (queue s2)).
  { pose proof (q_nodup _ _ Q2) as N. cbn in N. now inversion N. }
  assert (Hv3 : forall x, ver s3 x = if Nat.eqb x q then v' else ver s2 x).
  { intro x. cbn. unfold upd. destruct (Nat.eqb_spec x q); subst; reflexivity. }
  assert (HD3 : forall x, D s3 x = if Nat.eqb x q then D s2 q + 1 else D s2 x).
  { intro x. unfold D. rewrite Hv3. cbn [g with_obj s3]. destruct (Nat.eqb_spec x q); [exact B3|reflexivity]. }
  assert (HB2 : forall x, (L x -> g s + D s2 x <= TT (g s)) /\ (In x (q :: queue s2) -> g s + D s2 x <= TT (g s) - 1)).
  { intro x. destruct (Bd x) as [Ex|Ex].
    - assert (EDx : D s2 x = D s x) by (unfold D; now rewrite Ex, Hg2). rewrite EDx.
      split; [intro Lx; pose proof (l_live _ _ B x Lx); pose proof (bound_le s); lia|].
      intro Hin. apply (l_queue _ _ B). apply (q_odd _ _ (c_qok _ _ C)). change (ver s x) with (ver s1 x). rewrite <- Ex.
      now apply (q_odd _ _ Q2).
    - change (g s1) with (g s) in Ex. split; intro; lia. }
  constructor; unfold bound; change (g s3) with (g s2); change (ph s3) with (ph s2); rewrite Hg2, ?(st_ph _ _ ST); cbn [ph s1]; rewrite ?E.
  - intros x Lx. rewrite HD3. destruct (Nat.eqb_spec x q) as [->|].
    + destruct (HB2 q) as [_ H]. specialize (H ltac:(now left)). lia.
    + now apply HB2.
  - intros x Hx. change (queue s3) with (queue s2) in Hx. rewrite HD3. destruct (Nat.eqb_spec x q) as [->|]; [contradiction|].
    apply HB2. now right.
  - intros x U S.
    assert (US : o_used (heap s x) = true /\ o_large (heap s x) = false).
    { revert U S. cbn. unfold upd. destruct (st_obj _ _ ST x) as (A1 & _ & A2 & _). cbn in A1, A2.
      destruct (Nat.eqb_spec x q) as [->|]; cbn; rewrite A1, A2; auto. }
    destruct US as [U' S']. destruct (l_dead _ _ B x U' S') as [|[H1 H2]]; [now left|right].
    assert (x <> q) by (intros ->; lia).
    rewrite HD3. destruct (Nat.eqb_spec x q); [contradiction|]. unfold D. rewrite Hg2, F2; [exact (conj H1 H2)|].
    cbn. destruct (is_inuse (g s) (heap s x)) eqn:Eu; [|reflexivity].
    pose proof (SS_range (g s)). apply inuse_dist in Eu; [|fold (D s x); lia]. fold (D s x) in Eu. lia.
Qed.

Lemma TT_even : forall gv, TT gv mod 24 = 0.
Proof. intro. unfold TT. lia. Qed.

Lemma linv_flip : forall (L : nat -> Prop) s, inv L s -> linv L s -> ph s = PSweep ->
  (g s mod 30 <> 0 \/ forall a, o_used (heap s a) = true -> o_large (heap s a) = false -> 0 <= D s a) ->
  linv (fun a => L a /\ 0 < D s a) (gcFlip s).
Proof.
  intros L s HI B E Hs. pose proof (proj1 HI) as C. destruct HI as [_ I]. rewrite E in I. destruct I as (I1 & I2 & I3 & I4).
  pose proof (all_even s (c_qok _ _ C) I1) as Ev. pose proof (c_even _ _ C) as Eg.
  assert (HD : forall a, -30 <= D s a -> D (gcFlip s) a = D s a - 2).
  { intros a R. unfold D in *. cbn. apply dist_next. lia. }
  constructor; cbn [gcFlip g heap queue].
  - intros a [La Hd]. change (mkSt _ _ _ _ _ _) with (gcFlip s). rewrite HD by lia. pose proof (l_live _ _ B a La).
    unfold bound in *. rewrite E in *. cbn [ph gcFlip g]. replace (g s + 2 - 2) with (g s) by lia. lia.
  - rewrite I1. contradiction.
  - intros a U S. change (mkSt _ _ _ _ _ _) with (gcFlip s).
    destruct (l_dead _ _ B a U S) as [La|[H1 H2]].
    + destruct (c_lok _ _ C a La) as [_ R]. rewrite HD by lia.
      destruct (Z_lt_le_dec 0 (D s a)); [left; auto|right]. split; [lia|]. pose proof (SS_range (g s + 2)). unfold SS in *. lia.
    + pose proof (SS_range (g s)). rewrite HD by lia. right. split; [lia|].
      destruct Hs as [Hs|Hs]; [unfold SS in *; lia|]. specialize (Hs a U S). lia.
Qed.

Lemma linv_sweep_all : forall (L : nat -> Prop) s, linv L s -> linv L (sweep_all s).
Proof.
  intros L s B. apply linv_same with (s := s); auto. intro a. cbn.
  split; [apply sweep_obj_same|]. unfold sweep_obj. destruct (o_large (heap s a)) eqn:E.
  - destruct (_ =? _); cbn; auto. split; [discriminate|auto].
  - destruct (is_inuse _ _); cbn; auto. split; [discriminate|auto].
Qed.

Lemma linv_step : forall (L : nat -> Prop) s o s', inv L s -> linv L s -> permitted s o -> step s o = Ok s' ->
  linv (Lnext L s o) s'.
Proof.
  intros L s o s' HI B HP Hs. destruct o as [a m l fields|a i|a i v|l|v|junk| |a|]; cbn [permitted Lnext step] in *.
  1-6, 8, 9: apply Ok_inj in Hs; subst s'.
  - destruct HP. now apply linv_alloc.
  - apply linv_same with (s := s); auto.
  - now apply linv_store.
  - apply linv_same with (s := s); auto.
  - now apply linv_gcMark.
  - now apply linv_markRoot.
  - apply linv_same with (s := s); auto. intro x. cbn. unfold upd. destruct (Nat.eqb_spec x a) as [->|]; [|auto].
    split; [apply sweep_obj_same|]. unfold sweep_obj. destruct (o_large (heap s a)) eqn:E.
    + destruct (_ =? _); cbn; auto. split; [discriminate|auto].
    + destruct (is_inuse _ _); cbn; auto. split; [discriminate|auto].
  - apply linv_flip; [now apply inv_sweep_all|now apply linv_sweep_all|exact HP|].
    right. intros a. cbn. unfold sweep_obj. destruct (o_large (heap s a)) eqn:El.
    + destruct (_ =? _); cbn; congruence.
    + destruct (is_inuse (g s) (heap s a)) eqn:Eu; cbn; [|discriminate]. intros U _.
      pose proof (small_range L s a HI B U El) as R.
      apply inuse_dist in Eu; [|fold (D s a); lia].
      replace (D (sweep_all s) a) with (D s a); [unfold D; lia|].
      unfold D. cbn. now rewrite (proj1 (sweep_obj_same (g s) (heap s a))).
  - unfold gcStep in Hs. destruct (queue s) as [|q rest] eqn:Eq.
    + pose proof (inc_done L s HI HP Eq) as H.
      assert (B' : linv L (with_phase s PSweep)) by (apply linv_same with (s := s); auto; right; discriminate).
      destruct (Z.eqb_spec (g s mod 30) 0) as [Ez|Ez]; apply Ok_inj in Hs; subst s'.
      * exact B'.
      * apply (linv_flip L (with_phase s PSweep) H B' eq_refl). now left.
    + destruct (inv_scan L s q rest HI HP Eq) as [Ho _]. rewrite Ho in Hs. apply Ok_inj in Hs. subst s'.
      exact (linv_scan L s q rest HI B HP Eq).
Qed.

Lemma linv_init : linv (fun _ => False) init.
Proof. constructor; cbn; intros a H; try contradiction; discriminate. Qed.

(** ** a collection only marks what was reachable when it began *)
Section Reclaim.
Variable s0 : st.

(** [R]: reachable at the start, or allocated since *)
Record rinv (R : nat -> Prop) (s : st) : Prop := {
  r_mut : forall a, In (Ptr a) (mut s) -> R a;
  r_queue : forall a, In a (queue s) -> R a;
  r_fields : forall a b, R a -> In (Ptr b) (o_fields (heap s a)) -> R b;
  r_other : forall a, R a \/ (ver s a = ver s0 a /\ (o_used (heap s a) = true -> o_used (heap s0 a) = true) /\
              o_large (heap s a) = o_large (heap s0 a))
}.

Lemma rinv_markObject : forall (R : nat -> Prop) s a minv, rinv R s -> R a -> rinv R (markObject s a minv).
Proof.
  intros R s a minv [A B C E] Ra.
  assert (H : forall s', mut s' = mut s -> (forall x, In x (queue s') -> In x (queue s) \/ x = a) ->
     (forall x, o_fields (heap s' x) = o_fields (heap s x)) -> (forall x, x <> a -> heap s' x = heap s x) -> rinv R s').
  { intros s' H1 H2 H3 H4. constructor.
    - rewrite H1. exact A.
    - intros x Hx. destruct (H2 x Hx) as [| ->]; auto.
    - intros x y. rewrite H3. apply C.
    - intro x. destruct (Nat.eq_dec x a) as [->|Hx]; [now left|]. rewrite H4; auto. }
  apply H.
  - unfold markObject; cbv zeta; repeat match goal with |- context [if ?b then _ else _] => destruct b end; reflexivity.
  - unfold markObject; cbv zeta; repeat match goal with |- context [if ?b then _ else _] => destruct b end; cbn; auto;
      intros x Hx; apply in_app_or in Hx; destruct Hx as [Hx|[Hx|[]]]; auto.
  - intro x. unfold markObject; cbv zeta; repeat match goal with |- context [if ?b then _ else _] => destruct b end; cbn;
      unfold upd; destruct (Nat.eqb_spec x a); subst; reflexivity.
  - intros x Hx. now apply markObject_other.
Qed.
Lemma rinv_gcMark : forall (R : nat -> Prop) s v minv, rinv R s -> (forall a, v = Ptr a -> R a) -> rinv R (gcMark s v minv).
Proof.
  intros R s [|a] minv H Hv; [exact H|]. unfold gcMark. destruct (is_inuse _ _); [|exact H].
  apply rinv_markObject; auto.
Qed.
Lemma rinv_gcMarkAll : forall vs (R : nat -> Prop) s minv, rinv R s -> (forall a, In (Ptr a) vs -> R a) -> rinv R (gcMarkAll s vs minv).
Proof.
  induction vs as [|v vs IH]; intros R s minv H Hv; [exact H|].
  change (gcMarkAll s (v :: vs) minv) with (gcMarkAll (gcMark s v minv) vs minv).
  apply IH; [|intros; apply Hv; now right]. apply rinv_gcMark; [exact H|]. intros a ->. apply Hv. now left.
Qed.

(** a change that keeps versions and only removes [used] bits or changes one R object's fields *)
Lemma rinv_same : forall (R : nat -> Prop) s s', (forall a, In (Ptr a) (mut s') -> R a) ->
  (forall a, In a (queue s') -> In a (queue s)) ->
  (forall a b, R a -> In (Ptr b) (o_fields (heap s' a)) -> R b) ->
  (forall a, R a \/ (ver s' a = ver s a /\ (o_used (heap s' a) = true -> o_used (heap s a) = true) /\
     o_large (heap s' a) = o_large (heap s a))) -> rinv R s -> rinv R s'.
Proof.
  intros R s s' H1 H2 H3 H4 [A B C E]. constructor; auto.
  intros a. destruct (H4 a) as [|(X1 & X2 & X3)]; [auto|]. destruct (E a) as [|(Y1 & Y2 & Y3)]; [auto|].
  right. repeat split; try congruence. auto.
Qed.

Lemma rinv_store : forall (R : nat -> Prop) s a i v, rinv R s -> R a -> (forall b, v = Ptr b -> R b) -> rinv R (store s a i v).
Proof.
  intros R s a i v H Ra Rv. unfold store, writeBarrierForIncremental.
  set (old := nth i (o_fields (heap s a)) Imm).
  set (s1 := match ph s with PInc => gcMark s old 0 | _ => s end).
  assert (H1 : rinv R s1).
  { unfold s1. destruct (ph s); try exact H. apply rinv_gcMark; [exact H|]. intros b Eb.
    apply (r_fields _ _ H a b Ra). unfold old in Eb.
    destruct (nth_in_or_default i (o_fields (heap s a)) Imm) as [X|X]; [now rewrite <- Eb|congruence]. }
  clearbody s1. set (s2 := with_obj s1 a _).
  assert (H2 : rinv R s2).
  { apply rinv_same with (s := s1); auto.
    - apply H1.
    - intros x y Rx. cbn. unfold upd. destruct (Nat.eqb_spec x a) as [->|]; [|now apply (r_fields _ _ H1)].
      cbn. intro X. apply In_list_set_inv in X. destruct X as [X|X]; [now apply (r_fields _ _ H1 a)|auto].
    - intros x. right. cbn. unfold upd. destruct (Nat.eqb_spec x a) as [->|]; auto. }
  unfold writeBarrierForGeneration. destruct v as [|b]; [exact H2|]. destruct (_ <=? 0); [exact H2|].
  assert (H3 : rinv R (add_rset s2 a)).
  { unfold add_rset. destruct (o_inrset (heap s2 a)); [exact H2|]. apply rinv_same with (s := s2); auto.
    - apply H2.
    - intros x y Rx. cbn [heap]. intro X. apply (r_fields _ _ H2 x y Rx). revert X. unfold upd.
      destruct (Nat.eqb_spec x a) as [->|]; auto.
    - intros x. right. cbn [heap]. unfold upd. destruct (Nat.eqb_spec x a) as [->|]; auto. }
  destruct (ph s2); [exact H3| |exact H3]. destruct (is_odd (ver s2 a) && _); [exact H2|].
  apply rinv_gcMark; auto.
Qed.

Lemma rinv_alloc : forall (R : nat -> Prop) s a m l fields, rinv R s -> (forall b, In (Ptr b) fields -> R b) ->
  rinv (fun x => R x \/ x = a) (alloc s a m l fields).
Proof.
  intros R s a m l fields [A B C E] Hf. constructor; cbn.
  - intros x [X|X]; [right; congruence|left; auto].
  - intros x X. left. auto.
  - intros x y Rx. unfold upd. destruct (Nat.eqb_spec x a) as [->|Hne]; cbn; intro X; left; [auto|].
    destruct Rx as [Rx|]; [|contradiction]. eauto.
  - intros x. unfold upd. destruct (Nat.eqb_spec x a) as [->|Hne]; [auto|]. destruct (E x); auto.
Qed.

(** one step of the cycle, not a flip *)
Lemma rinv_step : forall (R : nat -> Prop) s o s', rinv R s -> ph s <> PNone -> permitted s o -> step s o = Ok s' -> g s' = g s ->
  exists R' : nat -> Prop, rinv R' s' /\ ph s' <> PNone /\
    (forall x, R' x -> R x \/ exists m l f, o = OAlloc x m l f).
Proof.
  intros R s o s' HR Hph HP Hs Hg.
  assert (K : forall s1, rinv R s1 -> ph s1 = ph s -> exists R' : nat -> Prop, rinv R' s1 /\ ph s1 <> PNone /\
    (forall x, R' x -> R x \/ exists m l f, o = OAlloc x m l f)).
  { intros s1 H E. exists R. rewrite E. auto. }
  destruct o as [a m l fields|a i|a i v|l|v|junk| |a|]; cbn [permitted step] in *.
  1-6, 8, 9: apply Ok_inj in Hs; subst s'.
  - destruct HP as [_ Hf]. exists (fun x => R x \/ x = a). split; [|split; [exact Hph|]].
    + apply rinv_alloc; [exact HR|]. intros b Hb. apply (r_mut _ _ HR). auto.
    + intros x [X| ->]; [now left|right; eauto].
  - apply K; [|reflexivity]. apply rinv_same with (s := s); auto.
    + cbn. intros b [X|X]; [|now apply (r_mut _ _ HR)].
      apply (r_fields _ _ HR a b); [now apply (r_mut _ _ HR)|].
      destruct (nth_in_or_default i (o_fields (heap s a)) Imm) as [Y|Y]; [now rewrite <- X|congruence].
    + apply (r_fields _ _ HR).
  - destruct HP as (Ha & Hv & _). apply K.
    + apply rinv_store; [exact HR|now apply (r_mut _ _ HR)|]. intros b E. apply (r_mut _ _ HR). rewrite <- E. now apply (Hv b).
    + unfold store, writeBarrierForIncremental, writeBarrierForGeneration.
      assert (PG : forall t w n, ph (gcMark t w n) = ph t).
      { intros t [|y] n; [reflexivity|]. unfold gcMark, markObject. cbv zeta.
        repeat match goal with |- context [if ?b then _ else _] => destruct b end; reflexivity. }
      assert (PA : forall t y, ph (add_rset t y) = ph t) by (intros t y; unfold add_rset; destruct (o_inrset _); reflexivity).
      destruct v as [|b].
      * cbn [ph with_obj]. destruct (ph s) eqn:X; [contradiction|rewrite PG; exact X|exact X].
      * set (s2 := with_obj _ a _).
        assert (E2 : ph s2 = ph s) by (cbn [ph with_obj s2]; destruct (ph s) eqn:X; auto; now rewrite PG, X).
        destruct (_ <=? 0); [exact E2|]. destruct (ph s2) eqn:E3; rewrite ?PA; [congruence| |congruence].
        destruct (_ && _); [congruence|]. rewrite PG, PA. congruence.
  - apply K; [|reflexivity]. apply rinv_same with (s := s); auto.
    + cbn. intros b X. apply (r_mut _ _ HR). auto.
    + apply (r_fields _ _ HR).
  - destruct HP as [_ Hv]. apply K.
    + apply rinv_gcMark; [exact HR|]. intros b ->. apply (r_mut _ _ HR). now apply (Hv b).
    + destruct v as [|y]; [reflexivity|]. unfold gcMark, markObject. cbv zeta.
      repeat match goal with |- context [if ?b then _ else _] => destruct b end; reflexivity.
  - contradiction.
  - apply K; [|reflexivity]. apply rinv_same with (s := s); auto.
    + apply HR.
    + intros x y Rx. cbn. unfold upd. destruct (Nat.eqb_spec x a) as [->|]; [|now apply (r_fields _ _ HR)].
      rewrite (proj1 (proj2 (sweep_obj_same (g s) (heap s a)))). now apply (r_fields _ _ HR).
    + intros x. right. cbn. unfold upd. destruct (Nat.eqb_spec x a) as [->|]; [|auto].
      split; [apply sweep_obj_same|]. unfold sweep_obj.
      destruct (o_large (heap s a)) eqn:E; [destruct (_ =? _)|destruct (is_inuse _ _)]; cbn; auto; split; auto; discriminate.
  - cbn in Hg. lia.
  - unfold gcStep in Hs. destruct (queue s) as [|q rest] eqn:Eq.
    + destruct (g s mod 30 =? 0); apply Ok_inj in Hs; subst s'.
      * exists R. split; [|split; [discriminate|auto]]. apply rinv_same with (s := s); auto; apply HR.
      * cbn in Hg. lia.
    + destruct (is_odd (ver s q)); [|discriminate]. apply Ok_inj in Hs. subst s'.
      assert (Rq : R q) by (apply (r_queue _ _ HR); rewrite Eq; now left).
      set (s1 := mkSt (g s) (ph s) (heap s) rest (rset s) (mut s)).
      assert (H1 : rinv R s1).
      { apply rinv_same with (s := s); auto; try apply HR. cbn. intros x Hx. rewrite Eq. now right. }
      assert (H2 : rinv R (gcMarkAll s1 (o_fields (heap s q)) (ver s q))).
      { apply rinv_gcMarkAll; [exact H1|]. intros b Hb. now apply (r_fields _ _ HR q). }
      assert (P2 : ph (gcMarkAll s1 (o_fields (heap s q)) (ver s q)) = ph s).
      { change (ph s) with (ph s1). generalize (o_fields (heap s q)) as vs. generalize (ver s q) as n. generalize s1 as t. clear.
        intros t n vs. revert t. induction vs as [|v vs IH]; intro t; [reflexivity|].
        change (gcMarkAll t (v :: vs) n) with (gcMarkAll (gcMark t v n) vs n). rewrite IH.
        destruct v as [|y]; [reflexivity|]. unfold gcMark, markObject. cbv zeta.
        repeat match goal with |- context [if ?b then _ else _] => destruct b end; reflexivity. }
      apply K; [|exact P2].
      apply rinv_same with (s := gcMarkAll s1 (o_fields (heap s q)) (ver s q)); auto.
      * apply H2.
      * intros x y Rx. cbn. unfold upd. destruct (Nat.eqb_spec x q) as [->|]; now apply (r_fields _ _ H2).
      * intros x. cbn. unfold upd. destruct (Nat.eqb_spec x q) as [->|]; auto.
Qed.
End Reclaim.

Lemma gcMark_mut : forall s v n, mut (gcMark s v n) = mut s.
Proof.
  intros s [|a] n; [reflexivity|]. unfold gcMark, markObject. cbv zeta.
  repeat match goal with |- context [if ?b then _ else _] => destruct b end; reflexivity.
Qed.

Lemma g_mono : forall s o s', step s o = Ok s' -> g s <= g s'.
Proof.
  intros s o s' H. destruct o as [a m l fields|a i|a i v|l|v|junk| |a|]; cbn [step] in H.
  1-6, 8, 9: apply Ok_inj in H; subst s'.
  - cbn. lia.
  - cbn. lia.
  - unfold store, writeBarrierForIncremental, writeBarrierForGeneration.
    assert (PA : forall t y, g (add_rset t y) = g t) by (intros t y; unfold add_rset; destruct (o_inrset _); reflexivity).
    set (s1 := match ph s with PInc => _ | _ => s end).
    assert (E1 : g s1 = g s) by (unfold s1; destruct (ph s); auto; apply gcMark_g).
    destruct v as [|b]; [cbn; lia|]. set (s2 := with_obj _ a _). assert (g s2 = g s) by (cbn; exact E1).
    destruct (_ <=? 0); [lia|]. destruct (ph s2); rewrite ?PA; try lia. destruct (_ && _); [lia|]. rewrite gcMark_g, PA. lia.
  - cbn. lia.
  - rewrite gcMark_g. lia.
  - unfold gcMarkRoot. cbn [g with_phase].
    assert (PR : forall l t k, g (gcRSet t l k) = g t).
    { induction l as [|x l IH]; intros t k; cbn [gcRSet]; [reflexivity|]. destruct (_ <=? _); rewrite IH; [reflexivity|apply gcMarkAll_g]. }
    rewrite PR, gcMarkAll_g. cbn. lia.
  - cbn. lia.
  - cbn. lia.
  - unfold gcStep in H. destruct (queue s) as [|q rest].
    + destruct (g s mod 30 =? 0); apply Ok_inj in H; subst s'; cbn; lia.
    + destruct (is_odd _); [|discriminate]. apply Ok_inj in H. subst s'. cbn [g with_obj]. rewrite gcMarkAll_g. cbn. lia.
Qed.

Lemma exec_g_mono : forall s ops r, exec s ops r -> forall s', r = Ok s' -> g s <= g s'.
Proof.
  intros s ops r H. induction H; intros t E; try discriminate.
  - apply Ok_inj in E. subst. lia.
  - pose proof (g_mono _ _ _ H0). specialize (IHexec t E). lia.
Qed.

Lemma rinv_exec : forall s0 ops s r, exec s ops r -> forall (R : nat -> Prop) s' a, rinv s0 R s -> ph s <> PNone -> r = Ok s' -> g s' = g s ->
  (forall m l f, ~ In (OAlloc a m l f) ops) -> ~ R a ->
  exists R' : nat -> Prop, rinv s0 R' s' /\ ph s' <> PNone /\ ~ R' a.
Proof.
  intros s0 ops s r H. induction H as [s|s o ops s1 r HP Hs Hr IH| |]; intros R s' a HR Hph E Hg Ha Hn; try discriminate.
  - apply Ok_inj in E. subst. eauto.
  - subst r. pose proof (g_mono _ _ _ Hs). pose proof (exec_g_mono _ _ _ Hr s' eq_refl).
    destruct (rinv_step s0 R s o s1 HR Hph HP Hs ltac:(lia)) as (R' & H1 & H2 & H3).
    apply (IH R' s' a); auto; [lia| |].
    + intros m l f X. apply (Ha m l f). now right.
    + intro X. destruct (H3 a X) as [|(m & l & f & Eo)]; [contradiction|]. subst o. apply (Ha m l f). now left.
Qed.
