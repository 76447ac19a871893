(** Every transition preserves the collector invariant. *)
From Coq Require Import ZArith Bool List Lia Arith.
From Verif Require Import Base ListLib GcModel GcProofs.
Import ListNotations.
Open Scope Z_scope.
Ltac Zify.zify_post_hook ::= Z.div_mod_to_equations.

Lemma minv_ok_0 : forall gv, minv_ok gv 0.
Proof. intro. now left. Qed.

Lemma mrel_g : forall ex (L : nat -> Prop) s s', mrel ex L s s' -> g s' = g s.
Proof. intros. apply (st_g _ _ (m_static _ _ _ _ H)). Qed.
Lemma mrel_ph : forall ex (L : nat -> Prop) s s', mrel ex L s s' -> ph s' = ph s.
Proof. intros. apply (st_ph _ _ (m_static _ _ _ _ H)). Qed.
Lemma mrel_mut : forall ex (L : nat -> Prop) s s', mrel ex L s s' -> mut s' = mut s.
Proof. intros. apply (st_mut _ _ (m_static _ _ _ _ H)). Qed.
Lemma mrel_fields : forall ex (L : nat -> Prop) s s' a, mrel ex L s s' -> o_fields (heap s' a) = o_fields (heap s a).
Proof. intros. apply (st_obj _ _ (m_static _ _ _ _ H) a). Qed.

(** ** remembered set scan *)
Lemma gcRSet_ok : forall (L : nat -> Prop) l s kept,
  qok [] s -> lok L s -> (g s) mod 2 = 0 -> (forall a, In a l -> L a) -> NoDup (kept ++ l) ->
  let s' := gcRSet s l kept in
  mrel [] L s s' /\ qok [] s' /\
  NoDup (rset s') /\
  (forall a, In a kept -> In a (rset s')) /\
  (forall a, In a (rset s') -> In a kept \/ (In a l /\ 0 < D s' a)) /\
  (forall a, In a l -> 0 < D s a ->
     In a (rset s') /\ forall c, In (Ptr c) (o_fields (heap s a)) -> L c -> 0 < D s' c) /\
  (forall a, ~ In a l -> o_inrset (heap s' a) = o_inrset (heap s a)) /\
  (forall a, In a l -> o_inrset (heap s a) = true -> (o_inrset (heap s' a) = true <-> In a (rset s'))).
Proof.
  intros L. induction l as [|x l IH]; intros s kept Q HL Hg Hl Nd; cbv zeta.
  - cbn [gcRSet]. rewrite app_nil_r in Nd.
    split; [|split; [|split; [|split; [|split; [|split; [|split]]]]]].
    + destruct (mrel_refl [] L s HL) as [A B C E]. destruct A. constructor; [constructor; assumption|exact B|exact C|exact E].
    + destruct Q. constructor; assumption.
    + now apply NoDup_rev.
    + intros a Ha. cbn. now apply -> in_rev.
    + intros a Ha. left. cbn in Ha. now apply in_rev.
    + contradiction.
    + reflexivity.
    + contradiction.
  - cbn [gcRSet].
    assert (Lx : L x) by (apply Hl; now left). destruct (HL x Lx) as [Ux Rx].
    assert (Nx : ~ In x l /\ ~ In x kept).
    { apply NoDup_remove_2 in Nd. rewrite in_app_iff in Nd. tauto. }
    destruct Nx as [Nxl Nxk].
    destruct (cmp_g (g s) (ver s x)) as (A & B & C); [fold (D s x); lia|]. fold (D s x) in A, B, C.
    destruct (Z.leb_spec 0 (versionCmp (g s mod 64) (ver s x mod 64))) as [Hc|Hc].
    + (* expired *)
      set (s1 := with_obj s x (set_inrset (heap s x) false)).
      assert (Hver : forall a, ver s1 a = ver s a).
      { intro a. cbn. unfold upd. destruct (Nat.eqb_spec a x); subst; reflexivity. }
      assert (M1 : mrel [] L s s1).
      { constructor.
        - constructor; auto. intro a. cbn. unfold upd. destruct (Nat.eqb_spec a x); subst; auto.
        - exists []. cbn. now rewrite app_nil_r.
        - intro a. left. apply Hver.
        - intros a La. unfold D. rewrite Hver. cbn [g with_obj s1]. destruct (HL a La) as [_ R]. unfold D in R. cbn. lia. }
      assert (Q1 : qok [] s1).
      { destruct Q as [Q1 Q2 Q3 Q4]. constructor.
        - intro a. rewrite Hver. apply Q1.
        - exact Q2.
        - intros a Ha. unfold D. rewrite Hver. destruct (st_obj _ _ (m_static _ _ _ _ M1) a) as (-> & _). apply Q3. exact Ha.
        - intro a. rewrite Hver. apply Q4. }
      assert (HD : forall a, D s1 a = D s a) by (intro a; unfold D; now rewrite Hver).
      destruct (IH s1 kept Q1 (mrel_lok _ _ _ _ M1 HL) Hg) as (I1 & I2 & I3 & I4 & I5 & I6 & I7 & I8).
      { intros a Ha. apply Hl. now right. }
      { eapply NoDup_remove_1; eassumption. }
      fold s1. split; [eapply mrel_trans; eassumption|]. split; [exact I2|]. split; [exact I3|]. split; [exact I4|].
      split; [|split; [|split]].
      * intros a Ha. destruct (I5 a Ha) as [|[]]; [now left|]. right. split; [now right|assumption].
      * intros a [<-|Ha] Hd; [lia|].
        rewrite <- HD in Hd. destruct (I6 a Ha Hd) as [J1 J2]. split; [exact J1|].
        intros c Hin. apply J2. rewrite (mrel_fields [] L s s1); assumption.
      * intros a Ha. rewrite I7 by (intro; apply Ha; now right). cbn. unfold upd.
        destruct (Nat.eqb_spec a x); [|reflexivity]. subst. exfalso. apply Ha. now left.
      * intros a [<-|Ha] Hr.
        -- rewrite I7 by exact Nxl. cbn. unfold upd. rewrite Nat.eqb_refl. cbn. split; [discriminate|].
           intro Hin. exfalso. destruct (I5 x Hin) as [|[]]; contradiction.
        -- apply I8; [exact Ha|]. cbn. unfold upd. destruct (Nat.eqb_spec a x); [subst; contradiction|exact Hr].
    + (* kept *)
      set (s1 := gcMarkAll s (o_fields (heap s x)) 0).
      destruct (gcMarkAll_ok (o_fields (heap s x)) [] L s 0 Q HL Hg (minv_ok_0 _)) as (M1 & Q1 & H1).
      fold s1 in M1, Q1, H1.
      destruct (keepr_gcMarkAll (o_fields (heap s x)) s 0) as [K1 K2]. fold s1 in K1, K2.
      pose proof (mrel_g _ _ _ _ M1) as Eg.
      destruct (IH s1 (x :: kept) Q1 (mrel_lok _ _ _ _ M1 HL)) as (I1 & I2 & I3 & I4 & I5 & I6 & I7 & I8).
      { now rewrite Eg. }
      { intros a Ha. apply Hl. now right. }
      { cbn. constructor; [|eapply NoDup_remove_1; eassumption]. rewrite in_app_iff. tauto. }
      fold s1. split; [eapply mrel_trans; eassumption|]. split; [exact I2|]. split; [exact I3|].
      split; [intros a Ha; apply I4; now right|].
      split; [|split; [|split]].
      * intros a Ha. destruct (I5 a Ha) as [[<-|]|[]]; [|now left|].
        -- right. split; [now left|]. apply C in Hc. destruct (m_mono _ _ _ _ M1 x Lx). destruct (m_mono _ _ _ _ I1 x Lx). lia.
        -- right. split; [now right|assumption].
      * intros a [<-|Ha] Hd.
        -- split; [apply I4; now left|]. intros c Hin Lc. destruct (H1 c Hin Lc) as [P _].
           destruct (m_mono _ _ _ _ I1 c Lc). lia.
        -- destruct (m_mono _ _ _ _ M1 a ltac:(apply Hl; now right)) as [G1 _].
           destruct (I6 a Ha ltac:(lia)) as [J1 J2]. split; [exact J1|].
           intros c Hin. apply J2. rewrite (mrel_fields [] L s s1); assumption.
      * intros a Ha. rewrite I7 by (intro; apply Ha; now right). apply K2.
      * intros a [<-|Ha] Hr.
        -- rewrite I7 by exact Nxl. rewrite K2. split; [intros _; apply I4; now left|auto].
        -- apply I8; [exact Ha|]. now rewrite K2.
Qed.

(** ** consequences of the common part *)
Lemma mut_inuse : forall (L : nat -> Prop) s a, inv L s -> In (Ptr a) (mut s) -> is_inuse (g s) (heap s a) = true.
Proof. intros L s a [C _] H. eapply L_inuse; [apply (c_lok _ _ C)|]. now apply (c_mut _ _ C). Qed.

Lemma all_even : forall s, qok [] s -> queue s = [] -> forall a, is_odd (ver s a) = false.
Proof.
  intros s Q E a. destruct (is_odd (ver s a)) eqn:Eo; [|reflexivity].
  apply (q_odd _ _ Q) in Eo. rewrite E in Eo. contradiction.
Qed.

(** common part through a marking step *)
Lemma common_mrel : forall (L : nat -> Prop) s s', common L s -> mrel [] L s s' -> qok [] s' -> keepr s s' -> common L s'.
Proof.
  intros L s s' C M Q [K1 K2]. pose proof (m_static _ _ _ _ M) as ST. constructor.
  - rewrite (st_g _ _ ST). apply C.
  - rewrite (st_g _ _ ST). apply C.
  - eapply mrel_lok; [exact M|apply C].
  - intros a b La. rewrite (mrel_fields _ _ _ _ a M). now apply (c_fields _ _ C).
  - rewrite (st_mut _ _ ST). apply C.
  - rewrite K1. apply C.
  - rewrite K1. apply C.
  - intros a La. rewrite K1, K2. now apply C.
  - exact Q.
Qed.

Lemma even_D_same : forall (L : nat -> Prop) s s' a, mrel [] L s s' -> qok [] s' -> is_odd (ver s' a) = false ->
  ver s' a = ver s a.
Proof.
  intros L s s' a M Q Ho. destruct (m_ver _ _ _ _ M a) as [|Hin]; [assumption|].
  apply (q_odd _ _ Q) in Hin. congruence.
Qed.

Lemma up_mono : forall x y, x <= y -> up x <= up y.
Proof. intros. unfold up. lia. Qed.

(** the incremental part through a marking step *)
Lemma inc_mrel : forall (L : nat -> Prop) s s', common L s -> inv_inc L s -> mrel [] L s s' -> qok [] s' -> keepr s s' ->
  inv_inc L s'.
Proof.
  intros L s s' C (I1 & I2 & I3) M Q [K1 K2]. pose proof (m_static _ _ _ _ M) as ST.
  assert (HP : forall c, L c -> (0 < D s c \/ prot L s (queue s) c) -> 0 < D s' c \/ prot L s' (queue s') c).
  { intros c Lc [H|H].
    - left. destruct (m_mono _ _ _ _ M c Lc). lia.
    - exact (prot_mrel [] L s s' c M (c_lok _ _ C) H). }
  split; [|split].
  - intros a Ha. rewrite K1 in Ha. specialize (I1 a Ha). destruct (m_mono _ _ _ _ M a); [now apply (c_rset _ _ C)|lia].
  - intros a c La Ho Hd Hc.
    pose proof (even_D_same L s s' a M Q Ho) as Ev. rewrite (mrel_fields _ _ _ _ a M) in Hc.
    assert (ED : D s' a = D s a) by (unfold D; now rewrite Ev, (st_g _ _ ST)).
    rewrite Ev in Ho. rewrite ED in Hd. destruct (I2 a c La Ho Hd Hc) as [J1 J2].
    assert (Lc : L c) by (eapply (c_fields _ _ C); eassumption).
    split; [now apply HP|]. rewrite K1, ED. destruct J2 as [J|[J|J]]; auto.
    right. left. destruct (m_mono _ _ _ _ M c Lc). pose proof (up_mono (D s c) (D s' c)). lia.
  - intros c Hc. rewrite (st_mut _ _ ST) in Hc. apply HP; [now apply (c_mut _ _ C)|now apply I3].
Qed.

(** ** the transitions *)
Lemma inv_init : inv (fun _ => False) init.
Proof.
  split.
  - constructor.
    + reflexivity.
    + cbn. lia.
    + intros a [].
    + intros a b [].
    + intros b [].
    + intros a [].
    + constructor.
    + intros a [].
    + constructor.
      * intro a. split; [discriminate|intros []].
      * constructor.
      * intros a [].
      * intro a. cbn. lia.
  - cbn. split; [reflexivity|]. intros a c [].
Qed.

Lemma inv_markOld : forall (L : nat -> Prop) s v, inv L s -> ph s = PInc -> inv L (gcMark s v 0).
Proof.
  intros L s v [C I] E. rewrite E in I.
  destruct (gcMark_ok [] L s v 0 (c_qok _ _ C) (c_lok _ _ C) (c_even _ _ C) (minv_ok_0 _)) as (M & Q & _).
  pose proof (keepr_gcMark s v 0) as K.
  split; [eapply common_mrel; eassumption|]. rewrite (mrel_ph _ _ _ _ M), E. eapply inc_mrel; eassumption.
Qed.

Lemma qok_same : forall ex s s', (forall a, ver s' a = ver s a) -> g s' = g s -> queue s' = queue s ->
  (forall a, o_used (heap s' a) = o_used (heap s a)) -> qok ex s -> qok ex s'.
Proof.
  intros ex s s' Hv Hg Hq Hu [Q1 Q2 Q3 Q4].
  constructor; rewrite ?Hq.
  - intro a. rewrite Hv. auto.
  - exact Q2.
  - intros a Ha. rewrite Hu. unfold D. rewrite Hv, Hg. apply Q3. exact Ha.
  - intro a. rewrite Hv. auto.
Qed.

Lemma inv_roots : forall (L : nat -> Prop) s l, inv L s -> (forall v, In v l -> In v (mut s)) ->
  inv L (mkSt (g s) (ph s) (heap s) (queue s) (rset s) l).
Proof.
  intros L s l [C I] H. split.
  - destruct C. constructor; cbn; auto.
    eapply qok_same with (s := s); auto.
  - cbn [ph]. destruct (ph s).
    + exact I.
    + destruct I as (I1 & I2 & I3). split; [exact I1|]. split.
      * intros a c La Ho Hd Hc. destruct (I2 a c La Ho Hd Hc) as [J1 J2]. split; [|exact J2].
        destruct J1 as [J|J]; [now left|right]. clear -J. induction J; [eapply prot_gray|eapply prot_white]; eassumption.
      * intros c Hc. destruct (I3 c (H _ Hc)) as [J|J]; [now left|right]. clear -J. induction J; [eapply prot_gray|eapply prot_white]; eassumption.
    + destruct I as (I1 & I2 & I3 & I4). split; [exact I1|]. split; [exact I2|]. split; [|exact I4].
      intros c Hc. apply I3. now apply H.
Qed.

Lemma prot_state : forall (L : nat -> Prop) s s' Q, (forall a, o_fields (heap s' a) = o_fields (heap s a)) ->
  (forall a, D s' a = D s a) -> forall c, prot L s Q c -> prot L s' Q c.
Proof.
  intros L s s' Q Hf Hd c J. induction J; [eapply prot_gray|eapply prot_white]; rewrite ?Hf, ?Hd; eassumption.
Qed.

(** anything the program can reach in one load is again fine *)
Lemma read_fine : forall (L : nat -> Prop) s a c, inv L s -> In (Ptr a) (mut s) -> In (Ptr c) (o_fields (heap s a)) ->
  L c /\ match ph s with PNone => True | PInc => 0 < D s c \/ prot L s (queue s) c | PSweep => 0 < D s c end.
Proof.
  intros L s a c [C I] Ha Hc. pose proof (c_mut _ _ C a Ha) as La.
  pose proof (c_fields _ _ C a c La Hc) as Lc. split; [exact Lc|].
  destruct (c_lok _ _ C a La) as [_ Ra]. destruct (c_lok _ _ C c Lc) as [_ Rc].
  destruct (ph s); [trivial| |].
  - destruct I as (I1 & I2 & I3). destruct (Z.eq_dec (D s c) 0) as [E|E]; [|left; lia].
    destruct (is_odd (ver s a)) eqn:Eo.
    + right. apply (q_odd _ _ (c_qok _ _ C)) in Eo. eapply prot_gray; eassumption.
    + destruct (I3 a Ha) as [J|J].
      * now destruct (I2 a c La Eo J Hc).
      * right. eapply prot_white; eassumption.
  - destruct I as (I1 & I2 & I3 & I4). apply (I4 a c La (I3 a Ha) Hc).
Qed.

Lemma inv_read : forall (L : nat -> Prop) s a i, inv L s -> In (Ptr a) (mut s) ->
  inv L (mkSt (g s) (ph s) (heap s) (queue s) (rset s) (nth i (o_fields (heap s a)) Imm :: mut s)).
Proof.
  intros L s a i HI Ha. set (v := nth i (o_fields (heap s a)) Imm).
  assert (Hv : forall c, v = Ptr c -> In (Ptr c) (o_fields (heap s a))).
  { intros c E. unfold v in E. destruct (nth_in_or_default i (o_fields (heap s a)) Imm) as [H|H]; [now rewrite <- E|congruence]. }
  assert (HR : forall c, v = Ptr c -> L c /\ match ph s with PNone => True | PInc => 0 < D s c \/ prot L s (queue s) c | PSweep => 0 < D s c end).
  { intros c E. apply (read_fine L s a c HI Ha). now apply Hv. }
  destruct HI as [C I]. set (s' := mkSt _ _ _ _ _ _).
  split.
  - destruct C. constructor; cbn; auto.
    + intros b [E|Hb]; [now apply HR|auto].
    + eapply qok_same with (s := s); auto.
  - cbn [ph s']. destruct (ph s).
    + exact I.
    + assert (HP : forall c, 0 < D s c \/ prot L s (queue s) c -> 0 < D s' c \/ prot L s' (queue s') c).
      { intros c [J|J]; [now left|right]. eapply prot_state with (s := s); auto. }
      destruct I as (I1 & I2 & I3). split; [exact I1|]. split.
      * intros x c La Ho Hd Hc. destruct (I2 x c La Ho Hd Hc) as [J1 J2]. split; [now apply HP|exact J2].
      * intros c [E|Hc]; apply HP; [now apply HR|now apply I3].
    + destruct I as (I1 & I2 & I3 & I4). split; [exact I1|]. split; [exact I2|]. split; [|exact I4].
      intros c [E|Hc]; [now apply (HR c)|now apply I3].
Qed.


Lemma alloc_version_spec : forall s, (g s) mod 2 = 0 ->
  0 <= alloc_version s < 256 /\ is_odd (alloc_version s) = false /\
  dist (g s) (alloc_version s) = match ph s with PNone => 0 | _ => 2 end.
Proof.
  intros s H. unfold alloc_version. split; [destruct (ph s); lia|]. split.
  - apply odd_false. destruct (ph s); lia.
  - unfold dist. destruct (ph s); lia.
Qed.

Lemma not_inuse_not_queue : forall s a, qok [] s -> is_inuse (g s) (heap s a) = false -> ~ In a (queue s).
Proof.
  intros s a Q H Hin. destruct (q_range _ _ Q a Hin) as [U R]. unfold D in R.
  assert (is_inuse (g s) (heap s a) = true); [|congruence]. apply inuse_dist; [lia|]. split; [exact U|lia].
Qed.

Lemma inv_alloc : forall (L : nat -> Prop) s a m l fields, inv L s ->
  is_inuse (g s) (heap s a) = false -> (forall b, In (Ptr b) fields -> In (Ptr b) (mut s)) ->
  inv (fun x => L x \/ x = a) (alloc s a m l fields).
Proof.
  intros L s a m l fields [C I] Hnu Hf. set (s' := alloc s a m l fields). set (L' := fun x => L x \/ x = a).
  assert (HnL : ~ L a).
  { intro H. rewrite (L_inuse L s a (c_lok _ _ C) H) in Hnu. discriminate. }
  assert (Hnq : ~ In a (queue s)) by (apply not_inuse_not_queue; [apply C|exact Hnu]).
  assert (Hnr : ~ In a (rset s)) by (intro H; apply HnL; now apply (c_rset _ _ C)).
  destruct (alloc_version_spec s (c_even _ _ C)) as (V1 & V2 & V3).
  assert (Hoth : forall x, x <> a -> heap s' x = heap s x) by (intros x Hx; cbn; now apply upd_other).
  assert (Hsame : heap s' a = mkObj true (alloc_version s) m l false fields) by (cbn; now apply upd_same).
  assert (HDo : forall x, x <> a -> D s' x = D s x) by (intros x Hx; unfold D; now rewrite Hoth).
  assert (HLo : forall x, L x -> x <> a) by (intros x Hx ->; contradiction).
  assert (HDa : D s' a = match ph s with PNone => 0 | _ => 2 end) by (unfold D; rewrite Hsame; exact V3).
  assert (HDL : forall x, L x -> D s' x = D s x) by (intros; apply HDo; auto).
  assert (HfL : forall c, In (Ptr c) fields -> L c) by (intros c Hc; apply (c_mut _ _ C); now apply Hf).
  assert (Q' : qok [] s').
  { destruct (c_qok _ _ C) as [Q1 Q2 Q3 Q4]. constructor.
    - intro x. change (queue s') with (queue s). destruct (Nat.eq_dec x a) as [->|Hx].
      + rewrite Hsame. cbn [o_ver]. rewrite V2. split; [discriminate|]. intro. contradiction.
      + rewrite (Hoth x Hx). apply Q1.
    - exact Q2.
    - intros x Hx. change (queue s') with (queue s) in Hx. assert (x <> a) by (intros ->; contradiction).
      rewrite (Hoth x) by assumption. rewrite HDo by assumption. now apply Q3.
    - intro x. destruct (Nat.eq_dec x a) as [->|Hx]; [rewrite Hsame; exact V1|rewrite (Hoth x Hx); apply Q4]. }
  split.
  - constructor.
    + apply C.
    + apply C.
    + intros x [Lx| ->].
      * rewrite (Hoth x) by auto. rewrite HDL by assumption. now apply (c_lok _ _ C).
      * rewrite Hsame, HDa. cbn. split; [reflexivity|]. destruct (ph s); lia.
    + intros x y [Lx| ->].
      * rewrite (Hoth x) by auto. intro H. left. now apply (c_fields _ _ C x).
      * rewrite Hsame. cbn [o_fields]. intro H. left. auto.
    + cbn. intros b [E|Hb]; [right; congruence|left; now apply (c_mut _ _ C)].
    + intros x Hx. left. now apply (c_rset _ _ C).
    + apply C.
    + intros x [Lx| ->].
      * rewrite (Hoth x) by auto. now apply (c_inrset _ _ C).
      * rewrite Hsame. cbn. split; [discriminate|]. intro. contradiction.
    + exact Q'.
  - change (ph s') with (ph s). destruct (ph s) eqn:Eph.
    + destruct I as (I1 & I2). split; [exact I1|]. intros x c [Lx| ->] Hc.
      * rewrite (Hoth x) in Hc by auto. rewrite !HDL; [now apply I2|eapply (c_fields _ _ C); eassumption|assumption].
      * left. rewrite Hsame in Hc. cbn [o_fields] in Hc. rewrite HDa, HDL by auto. apply (c_lok _ _ C). auto.
    + destruct I as (I1 & I2 & I3).
      assert (HP : forall c, prot L s (queue s) c -> prot L' s' (queue s') c).
      { intros c J. induction J as [q c Hq Hc Lq Lc D0|b c Hb IH Hc Lc D0].
        - eapply prot_gray with (q := q); [exact Hq| |now left|now left|now rewrite HDL]. rewrite (Hoth q); auto.
        - destruct (prot_L _ _ _ _ Hb). eapply prot_white with (b := b); [exact IH| |now left|now rewrite HDL].
          rewrite (Hoth b); auto. }
      assert (HPL : forall c, L c -> 0 < D s c \/ prot L s (queue s) c -> 0 < D s' c \/ prot L' s' (queue s') c).
      { intros c Lc [J|J]; [left; now rewrite HDL|right; now apply HP]. }
      split; [|split].
      * intros x Hx. change (rset s') with (rset s) in Hx. rewrite HDL by (now apply (c_rset _ _ C)). now apply I1.
      * intros x c [Lx| ->] Ho Hd Hc.
        -- rewrite (Hoth x) in Hc, Ho by auto. rewrite (HDL x Lx) in *. pose proof (c_fields _ _ C x c Lx Hc) as Lc.
           destruct (I2 x c Lx Ho Hd Hc) as [J1 J2]. split; [now apply HPL|]. now rewrite (HDL c Lc).
        -- rewrite Hsame in Hc. cbn [o_fields] in Hc. split; [apply HPL; auto|]. right. right. rewrite HDa. lia.
      * cbn [mut s' alloc]. intros c [E|Hc].
        -- left. injection E as <-. rewrite HDa. lia.
        -- apply HPL; [now apply (c_mut _ _ C)|now apply I3].
    + destruct I as (I1 & I2 & I3 & I4). split; [exact I1|]. split; [|split].
      * intros x Hx. change (rset s') with (rset s) in Hx. rewrite HDL by (now apply (c_rset _ _ C)). now apply I2.
      * cbn [mut s' alloc]. intros c [E|Hc].
        -- injection E as <-. rewrite HDa. lia.
        -- rewrite HDL by (now apply (c_mut _ _ C)). now apply I3.
      * intros x c [Lx| ->] Hd Hc.
        -- rewrite (Hoth x) in Hc by auto. rewrite (HDL x Lx) in *. pose proof (c_fields _ _ C x c Lx Hc) as Lc.
           rewrite (HDL c Lc). now apply I4.
        -- rewrite Hsame in Hc. cbn [o_fields] in Hc. rewrite HDa. rewrite (HDL c) by auto.
           assert (0 < D s c) by (apply I3; auto).
           assert (D s c mod 2 = 0); [|split; [|right]; lia].
           pose proof (all_even s (c_qok _ _ C) I1 c) as Ev. apply odd_false in Ev.
           pose proof (c_even _ _ C). unfold D, dist. lia.
Qed.

Lemma In_list_set_inv : forall (l : list value) i v c, In c (list_set l i v) -> In c l \/ c = v.
Proof.
  induction l as [|x l IH]; intros [|i] v c H; cbn in H; try contradiction.
  - destruct H as [<-|H]; [now right|left; now right].
  - destruct H as [<-|H]; [left; now left|]. destruct (IH i v c H); [left; now right|now right].
Qed.
Lemma In_list_set_keep : forall (l : list value) i v c, In c l -> In c (list_set l i v) \/ nth i l Imm = c.
Proof.
  induction l as [|x l IH]; intros [|i] v c H; cbn in H |- *; try contradiction.
  - destruct H as [<-|H]; [now right|left; now right].
  - destruct H as [<-|H]; [left; now left|]. destruct (IH i v c H); [left; now right|now right].
Qed.

Lemma add_rset_spec : forall (L : nat -> Prop) s a, common L s -> L a ->
  let s' := add_rset s a in
  common L s' /\ ph s' = ph s /\ queue s' = queue s /\ mut s' = mut s /\ g s' = g s /\
  (forall x, ver s' x = ver s x /\ o_fields (heap s' x) = o_fields (heap s x)) /\
  (forall x, In x (rset s') <-> In x (rset s) \/ x = a).
Proof.
  intros L s a C La. cbv zeta. unfold add_rset. destruct (o_inrset (heap s a)) eqn:E.
  - apply (c_inrset _ _ C a La) in E. split; [exact C|]. do 5 (split; [auto|]). intro x. split; [auto|]. intros [H| ->]; auto.
  - assert (Hn : ~ In a (rset s)) by (intro H; apply (c_inrset _ _ C a La) in H; congruence).
    set (s' := mkSt _ _ _ _ _ _).
    assert (Hv : forall x, ver s' x = ver s x /\ o_fields (heap s' x) = o_fields (heap s x) /\ o_used (heap s' x) = o_used (heap s x)).
    { intro x. cbn. unfold upd. destruct (Nat.eqb_spec x a); subst; auto. }
    split; [|do 4 (split; [reflexivity|]); split; [intro x; split; apply Hv|cbn; intuition]].
    constructor.
    + apply C.
    + apply C.
    + intros x Lx. destruct (c_lok _ _ C x Lx) as [U R]. destruct (Hv x) as (H1 & H2 & H3).
      rewrite H3. unfold D. rewrite H1. split; [exact U|exact R].
    + intros x y Lx. destruct (Hv x) as (H1 & -> & H3). now apply (c_fields _ _ C).
    + apply C.
    + cbn. intros x [<-|Hx]; [exact La|now apply (c_rset _ _ C)].
    + cbn. constructor; [exact Hn|apply C].
    + intros x Lx. cbn. unfold upd. destruct (Nat.eqb_spec x a) as [->|Hx].
      * cbn. split; auto.
      * rewrite (c_inrset _ _ C x Lx). intuition congruence.
    + eapply qok_same with (s := s); try reflexivity; try apply Hv. apply C.
Qed.

(** [edge_ok L s x c]: the condition the invariant puts on the reference from [x] to [c] *)
Definition edge_ok (L : nat -> Prop) (s : st) (x c : nat) : Prop :=
  match ph s with
  | PNone => D s x <= D s c \/ In x (rset s)
  | PInc => is_odd (ver s x) = false -> 0 < D s x ->
      (0 < D s c \/ prot L s (queue s) c) /\ (In x (rset s) \/ D s x <= up (D s c) \/ D s x <= 2)
  | PSweep => 0 < D s x -> 0 < D s c /\ (In x (rset s) \/ D s x <= D s c)
  end.
Definition glob_ok (L : nat -> Prop) (s : st) : Prop :=
  match ph s with
  | PNone => queue s = []
  | PInc => (forall a, In a (rset s) -> 0 < D s a) /\
            (forall c, In (Ptr c) (mut s) -> 0 < D s c \/ prot L s (queue s) c)
  | PSweep => queue s = [] /\ (forall a, In a (rset s) -> 0 < D s a) /\ (forall c, In (Ptr c) (mut s) -> 0 < D s c)
  end.
Lemma inv_split : forall (L : nat -> Prop) s, inv L s <->
  common L s /\ glob_ok L s /\ (forall x c, L x -> In (Ptr c) (o_fields (heap s x)) -> edge_ok L s x c).
Proof.
  intros L s. unfold inv, glob_ok, edge_ok, inv_none, inv_inc, inv_sweep.
  destruct (ph s); split.
  - intros (C & Q & I). split; [exact C|]. split; [exact Q|exact I].
  - intros (C & Q & I). split; [exact C|]. split; [exact Q|exact I].
  - intros (C & A & B & I). split; [exact C|]. split; [split; assumption|]. intros. eapply B; eassumption.
  - intros (C & (A & I) & B). split; [exact C|]. split; [exact A|]. split; [|exact I]. intros. eapply B; eassumption.
  - intros (C & Q & A & B & I). split; [exact C|]. split; [repeat split; assumption|]. intros. eapply I; eassumption.
  - intros (C & (Q & A & I) & B). split; [exact C|]. repeat (split; [assumption|]). intros. eapply B; eassumption.
Qed.

Lemma inv_write : forall (L : nat -> Prop) s a i v, inv L s -> In (Ptr a) (mut s) ->
  (forall b, v = Ptr b -> In v (mut s)) -> inv L (store s a i v).
Proof.
  intros L s a i v HI Ha Hv. unfold store, writeBarrierForIncremental.
  set (old := nth i (o_fields (heap s a)) Imm).
  set (s1 := match ph s with PInc => gcMark s old 0 | _ => s end).
  assert (H1 : inv L s1).
  { unfold s1. destruct (ph s) eqn:E; try exact HI. now apply inv_markOld. }
  assert (La : L a) by (apply (c_mut _ _ (proj1 HI)); exact Ha).
  (* facts about s1 *)
  assert (F1 : ph s1 = ph s /\ mut s1 = mut s /\ g s1 = g s /\ (forall x, o_fields (heap s1 x) = o_fields (heap s x)) /\
               (ph s = PInc -> forall c, old = Ptr c -> 0 < D s1 c)).
  { destruct HI as [C I]. unfold s1. destruct (ph s) eqn:E; try (rewrite ?E; repeat (split; [reflexivity|]); discriminate).
    destruct (gcMark_ok [] L s old 0 (c_qok _ _ C) (c_lok _ _ C) (c_even _ _ C) (minv_ok_0 _)) as (M & Q & P).
    split; [rewrite (mrel_ph _ _ _ _ M); exact E|]. split; [apply (mrel_mut _ _ _ _ M)|]. split; [apply (mrel_g _ _ _ _ M)|].
    split; [intro x; apply (mrel_fields _ _ _ _ x M)|]. intros _ c Ec. apply (P c Ec).
    apply (c_fields _ _ C a c La). unfold old in Ec.
    destruct (nth_in_or_default i (o_fields (heap s a)) Imm) as [H|H]; [now rewrite <- Ec|congruence]. }
  destruct F1 as (Fph & Fmut & Fg & Ff & Fold). clearbody s1.
  assert (Hvm : forall b, v = Ptr b -> In (Ptr b) (mut s1)) by (intros b E; rewrite Fmut, <- E; now apply (Hv b)).
  assert (Ham : In (Ptr a) (mut s1)) by now rewrite Fmut.
  assert (Hold : old = nth i (o_fields (heap s1 a)) Imm) by (unfold old; now rewrite Ff).
  clearbody old. clear Hv Ha HI Fmut Ff.
  apply inv_split in H1. destruct H1 as (C & G & E).
  assert (HvL : forall b, v = Ptr b -> L b) by (intros b Eb; apply (c_mut _ _ C); now apply Hvm).
  set (s2 := with_obj s1 a _).
  assert (Hf2 : forall x, o_fields (heap s2 x) = if Nat.eqb x a then list_set (o_fields (heap s1 a)) i v else o_fields (heap s1 x)).
  { intro x. cbn. unfold upd. destruct (Nat.eqb_spec x a); subst; reflexivity. }
  assert (Ho2 : forall x, ver s2 x = ver s1 x /\ o_used (heap s2 x) = o_used (heap s1 x) /\ o_inrset (heap s2 x) = o_inrset (heap s1 x)).
  { intro x. cbn. unfold upd. destruct (Nat.eqb_spec x a); subst; auto. }
  assert (HD2 : forall x, D s2 x = D s1 x) by (intro x; unfold D; now rewrite (proj1 (Ho2 x))).
  assert (C2 : common L s2).
  { constructor; try apply C.
    - intros x Lx. rewrite HD2. destruct (Ho2 x) as (_ & -> & _). now apply (c_lok _ _ C).
    - intros x y Lx. rewrite Hf2. destruct (Nat.eqb_spec x a) as [->|].
      + intro H. apply In_list_set_inv in H. destruct H as [H|H]; [now apply (c_fields _ _ C a)|now apply HvL].
      + now apply (c_fields _ _ C).
    - intros x Lx. destruct (Ho2 x) as (_ & _ & ->). now apply (c_inrset _ _ C).
    - eapply qok_same with (s := s1); try reflexivity; try apply Ho2. apply C. }
  (* protection survives the deletion because the old value was marked *)
  assert (HP : ph s1 = PInc -> forall c, 0 < D s1 c \/ prot L s1 (queue s1) c -> 0 < D s2 c \/ prot L s2 (queue s2) c).
  { intros Ep c [H|H]; [left; now rewrite HD2|]. rewrite Fph in Ep. specialize (Fold Ep).
    induction H as [q c Hq Hc Lq Lc D0|b c Hb IH Hc Lc D0].
    - right. eapply prot_gray with (q := q); [exact Hq| |exact Lq|exact Lc|now rewrite HD2].
      rewrite Hf2. destruct (Nat.eqb_spec q a) as [->|]; [|exact Hc].
      destruct (In_list_set_keep _ i v _ Hc) as [H|H]; [exact H|].
      rewrite <- Hold in H. specialize (Fold c H). lia.
    - right. destruct IH as [IH|IH]; [destruct (prot_L _ _ _ _ Hb); rewrite HD2 in IH; lia|].
      eapply prot_white with (b := b); [exact IH| |exact Lc|now rewrite HD2].
      rewrite Hf2. destruct (Nat.eqb_spec b a) as [->|]; [|exact Hc].
      destruct (In_list_set_keep _ i v _ Hc) as [H|H]; [exact H|].
      rewrite <- Hold in H. specialize (Fold c H). lia. }
  assert (G2 : glob_ok L s2).
  { unfold glob_ok in *. change (ph s2) with (ph s1). destruct (ph s1).
    - exact G.
    - destruct G as [Ga Gb]. split; [intros x Hx; rewrite HD2; now apply Ga|]. intros c Hc. apply HP; auto. 
    - destruct G as (Ga & Gb & Gc). split; [exact Ga|]. split; intros; rewrite HD2; [now apply Gb|now apply Gc]. }
  assert (E2 : forall x c, L x -> In (Ptr c) (o_fields (heap s2 x)) -> edge_ok L s2 x c \/ (x = a /\ v = Ptr c)).
  { intros x c Lx Hc. rewrite Hf2 in Hc.
    assert (Hc' : In (Ptr c) (o_fields (heap s1 x)) \/ (x = a /\ v = Ptr c)).
    { destruct (Nat.eqb_spec x a) as [->|]; [|now left]. apply In_list_set_inv in Hc. destruct Hc; [now left|right; auto]. }
    destruct Hc' as [Hc'|Hc']; [left|right; exact Hc']. specialize (E x c Lx Hc').
    unfold edge_ok in *. change (ph s2) with (ph s1). rewrite !HD2. change (rset s2) with (rset s1).
    destruct (ph s1); [exact E| |exact E]. destruct (Ho2 x) as (-> & _). intros O P. destruct (E O P) as [J1 J2].
    split; [rewrite <- (HD2 c); now apply HP|exact J2]. }
  (* the generation barrier *)
  unfold writeBarrierForGeneration. destruct v as [|b].
  - apply inv_split. split; [exact C2|]. split; [exact G2|]. intros x c Lx Hc. destruct (E2 x c Lx Hc) as [|[]]; [assumption|discriminate].
  - specialize (HvL b eq_refl). specialize (Hvm b eq_refl).
    destruct (c_lok _ _ C2 a La) as [_ Ra]. destruct (c_lok _ _ C2 b HvL) as [_ Rb].
    destruct (cmp_dist (g s2) (ver s2 a) (ver s2 b)) as (K1 & K2 & K3); [fold (D s2 a) (D s2 b); lia|].
    fold (D s2 a) (D s2 b) in K1, K2, K3.
    assert (Hmb : match ph s2 with PInc => 0 < D s2 b \/ prot L s2 (queue s2) b | PSweep => 0 < D s2 b | PNone => True end).
    { unfold glob_ok in G2. destruct (ph s2); [trivial|now apply G2|now apply G2]. }
    destruct (Z.leb_spec (versionCmp (ver s2 a mod 64) (ver s2 b mod 64)) 0) as [Hc|Hc].
    + assert (Hle : D s2 a <= D s2 b) by lia.
      apply inv_split. split; [exact C2|]. split; [exact G2|]. intros x c Lx Hin.
      destruct (E2 x c Lx Hin) as [|[-> Ec]]; [assumption|]. injection Ec as <-.
      unfold edge_ok. destruct (ph s2).
      * now left.
      * intros O P. split; [exact Hmb|]. right. left. unfold up. lia.
      * intros P. split; [exact Hmb|now right].
    + assert (Hgt : D s2 b < D s2 a) by lia.
      destruct (add_rset_spec L s2 a C2 La) as (C3 & Eph & Eq & Em & Eg & Ev & Er).
      set (s3 := add_rset s2 a) in *.
      assert (HD3 : forall x, D s3 x = D s2 x) by (intro x; unfold D; now rewrite (proj1 (Ev x)), Eg).
      assert (H3 : inv L s3).
      { apply inv_split. split; [exact C3|].
        assert (HP3 : forall c, 0 < D s2 c \/ prot L s2 (queue s2) c -> 0 < D s3 c \/ prot L s3 (queue s3) c).
        { intros c [H|H]; [left; now rewrite HD3|right]. rewrite Eq. eapply prot_state with (s := s2); auto. intro x; apply Ev. }
        split.
        - unfold glob_ok in *. rewrite Eph, Eq, Em. destruct (ph s2); [exact G2| |].
          + destruct G2 as [Ga Gb]. split.
            * intros x Hx. rewrite HD3. apply Er in Hx. destruct Hx as [Hx| ->]; [now apply Ga|lia].
            * intros c Hx. rewrite <- Eq. apply HP3. now apply Gb.
          + destruct G2 as (Ga & Gb & Gc). split; [exact Ga|]. split.
            * intros x Hx. rewrite HD3. apply Er in Hx. destruct Hx as [Hx| ->]; [now apply Gb|lia].
            * intros c Hx. rewrite HD3. now apply Gc.
        - intros x c Lx Hin. rewrite (proj2 (Ev x)) in Hin. destruct (E2 x c Lx Hin) as [H|[-> Ec]].
          + unfold edge_ok in *. rewrite Eph, !HD3, (proj1 (Ev x)). pose proof (Er x). destruct (ph s2).
            * tauto.
            * intros O P. destruct (H O P) as [J1 J2]. split; [rewrite <- (HD3 c); now apply HP3|tauto].
            * intros P. destruct (H P). tauto.
          + injection Ec as <-. unfold edge_ok. rewrite Eph, !HD3, (proj1 (Ev a)). pose proof (Er a). destruct (ph s2).
            * tauto.
            * intros O P. split; [rewrite <- (HD3 b); now apply HP3|tauto].
            * intros P. tauto. }
      destruct (ph s2) eqn:E2ph; [exact H3| |exact H3].
      destruct (is_odd (ver s2 a) && ((ver s2 b + 1) mod 64 =? ver s2 a mod 64)) eqn:Ecase.
      * apply andb_true_iff in Ecase. destruct Ecase as [Eodd _].
        apply inv_split. split; [exact C2|]. split; [exact G2|]. intros x c Lx Hin.
        destruct (E2 x c Lx Hin) as [|[-> Ec]]; [assumption|]. unfold edge_ok. rewrite E2ph. intros O. congruence.
      * apply inv_markOld; [exact H3|]. now rewrite Eph.
Qed.

Lemma inv_markRoot : forall (L : nat -> Prop) s junk, inv L s -> ph s = PNone -> inv L (gcMarkRoot s junk).
Proof.
  intros L s junk [C I] E. rewrite E in I. destruct I as (I1 & I2).
  unfold gcMarkRoot. set (s1 := mkSt (g s) (ph s) (heap s) [] (rset s) (mut s)).
  assert (Es : s1 = s) by (destruct s; cbn in *; unfold s1; cbn; congruence). rewrite Es. clear s1 Es.
  destruct (gcMarkAll_ok (mut s ++ junk) [] L s 0 (c_qok _ _ C) (c_lok _ _ C) (c_even _ _ C) (minv_ok_0 _)) as (M2 & Q2 & P2).
  pose proof (keepr_gcMarkAll (mut s ++ junk) s 0) as K2.
  pose proof (common_mrel L s _ C M2 Q2 K2) as C2. destruct K2 as [K2a K2b].
  set (s2 := gcMarkAll s (mut s ++ junk) 0) in *.
  destruct (gcRSet_ok L (rset s2) s2 [] Q2 (c_lok _ _ C2) (c_even _ _ C2) (c_rset _ _ C2) (c_rset_nodup _ _ C2))
    as (M3 & Q3 & N3 & _ & R3 & S3 & T3 & U3).
  set (s3 := gcRSet s2 (rset s2) []) in *.
  pose proof (mrel_trans _ _ _ _ _ M2 M3) as M.
  assert (C3 : common L s3).
  { pose proof (m_static _ _ _ _ M3) as ST. constructor.
    - rewrite (st_g _ _ ST). apply C2.
    - rewrite (st_g _ _ ST). apply C2.
    - eapply mrel_lok; [exact M3|apply C2].
    - intros a b La. rewrite (mrel_fields _ _ _ _ a M3). now apply (c_fields _ _ C2).
    - rewrite (st_mut _ _ ST). apply C2.
    - intros a Ha. destruct (R3 a Ha) as [[]|[H _]]. now apply (c_rset _ _ C2).
    - exact N3.
    - intros a La. destruct (in_dec Nat.eq_dec a (rset s2)) as [Hin|Hin].
      + apply U3; [exact Hin|]. now apply (c_inrset _ _ C2).
      + rewrite (T3 a Hin), (c_inrset _ _ C2 a La). split; [contradiction|].
        intro H. destruct (R3 a H) as [[]|[H' _]]. contradiction.
    - exact Q3. }
  split.
  - destruct C3. constructor; cbn; auto. eapply qok_same with (s := s3); auto.
  - cbn [ph with_phase]. split; [|split].
    + intros a Ha. destruct (R3 a Ha) as [[]|[_ H]]. exact H.
    + intros a c La Ho Hd Hc. change (is_odd (ver s3 a) = false) in Ho. change (0 < D s3 a) in Hd.
      change (In (Ptr c) (o_fields (heap s3 a))) in Hc.
      pose proof (even_D_same L s s3 a M Q3 Ho) as Ev.
      assert (ED : D s3 a = D s a) by (unfold D; now rewrite Ev, (mrel_g _ _ _ _ M)).
      rewrite (mrel_fields _ _ _ _ a M) in Hc.
      assert (Lc : L c) by (eapply (c_fields _ _ C); eassumption).
      change (D (with_phase s3 PInc) c) with (D s3 c). change (D (with_phase s3 PInc) a) with (D s3 a).
      change (rset (with_phase s3 PInc)) with (rset s3).
      destruct (m_mono _ _ _ _ M c Lc) as [Mc _].
      destruct (I2 a c La Hc) as [J|J].
      * split; [left; lia|]. right. left. unfold up. lia.
      * rewrite <- K2a in J.
        destruct (m_mono _ _ _ _ M2 a La) as [Ma _].
        destruct (S3 a J ltac:(lia)) as [X1 X2]. split; [|now left].
        left. apply X2; [|exact Lc]. now rewrite (mrel_fields _ _ _ _ a M2).
    + intros c Hc. left. change (0 < D s3 c). change (In (Ptr c) (mut s3)) in Hc.
      rewrite (mrel_mut _ _ _ _ M) in Hc.
      assert (Lc : L c) by (now apply (c_mut _ _ C)).
      destruct (P2 c (in_or_app _ _ _ (or_introl Hc)) Lc) as [X _]. destruct (m_mono _ _ _ _ M3 c Lc). lia.
Qed.

Lemma D_even : forall s a, (g s) mod 2 = 0 -> is_odd (ver s a) = false -> D s a mod 2 = 0.
Proof. intros s a H E. apply odd_false in E. unfold D, dist. lia. Qed.

(** sweeping only touches slots not in use *)
Lemma sweep_obj_live : forall (L : nat -> Prop) s a, lok L s -> L a -> sweep_obj (g s) (heap s a) = heap s a.
Proof.
  intros L s a HL La. unfold sweep_obj. pose proof (L_inuse L s a HL La) as U. destruct (HL a La) as [_ R].
  destruct (o_large (heap s a)).
  - destruct (Z.eqb_spec (ver s a mod 64) ((g s - 2) mod 64)) as [E|E]; [|reflexivity].
    exfalso. unfold D, dist in R. lia.
  - now rewrite U.
Qed.
Lemma sweep_obj_same : forall gv o, o_ver (sweep_obj gv o) = o_ver o /\ o_fields (sweep_obj gv o) = o_fields o /\
  o_inrset (sweep_obj gv o) = o_inrset o.
Proof. intros gv o. unfold sweep_obj. destruct (o_large o); [destruct (_ =? _)|destruct (is_inuse _ _)]; auto. Qed.

(** a change of heap that keeps live objects and all versions *)
Lemma inv_heap : forall (L : nat -> Prop) s h, inv L s -> ph s = PSweep -> (forall a, L a -> h a = heap s a) ->
  (forall a, o_ver (h a) = ver s a) -> inv L (mkSt (g s) (ph s) h (queue s) (rset s) (mut s)).
Proof.
  intros L s h [C I] E HL Hv. rewrite E in I. destruct I as (I1 & I2 & I3 & I4).
  set (s' := mkSt _ _ _ _ _ _).
  assert (HD : forall a, D s' a = D s a) by (intro a; unfold D; cbn; now rewrite Hv).
  split.
  - constructor; try apply C.
    + intros a La. rewrite HD. cbn. rewrite HL by assumption. now apply (c_lok _ _ C).
    + intros a b La. cbn. rewrite HL by assumption. now apply (c_fields _ _ C).
    + intros a La. cbn. rewrite HL by assumption. now apply (c_inrset _ _ C).
    + destruct (c_qok _ _ C) as [Q1 Q2 Q3 Q4]. constructor; cbn.
      * intro a. rewrite Hv. apply Q1.
      * exact Q2.
      * rewrite I1. contradiction.
      * intro a. rewrite Hv. apply Q4.
  - cbn [ph s']. rewrite E. split; [exact I1|]. split; [intros; rewrite HD; auto|]. split; [intros; rewrite HD; auto|].
    intros a c La. rewrite !HD. cbn. rewrite HL by assumption. now apply I4.
Qed.

Lemma inv_sweep1 : forall (L : nat -> Prop) s a, inv L s -> ph s = PSweep -> inv L (sweep1 s a).
Proof.
  intros L s a HI E. apply inv_heap; auto.
  - intros x Lx. unfold upd. destruct (Nat.eqb_spec x a) as [->|]; [|reflexivity].
    apply sweep_obj_live with L; [apply HI|exact Lx].
  - intro x. unfold upd. destruct (Nat.eqb_spec x a) as [->|]; [|reflexivity]. apply sweep_obj_same.
Qed.
Lemma inv_sweep_all : forall (L : nat -> Prop) s, inv L s -> ph s = PSweep -> inv L (sweep_all s).
Proof.
  intros L s HI E. apply inv_heap; auto.
  - intros x Lx. apply sweep_obj_live with L; [apply HI|exact Lx].
  - intro x. apply sweep_obj_same.
Qed.

(** marking finished: what remains is exactly the black objects *)
Lemma inc_done : forall (L : nat -> Prop) s, inv L s -> ph s = PInc -> queue s = [] -> inv L (with_phase s PSweep).
Proof.
  intros L s [C I] E Eq. rewrite E in I. destruct I as (I1 & I2 & I3).
  assert (NP : forall c, ~ prot L s (queue s) c).
  { intros c H. rewrite Eq in H. clear -H. induction H; [contradiction|assumption]. }
  pose proof (all_even s (c_qok _ _ C) Eq) as Ev.
  split.
  - destruct C. constructor; cbn; auto. eapply qok_same with (s := s); auto.
  - cbn [ph with_phase]. split; [exact Eq|]. split; [exact I1|]. split.
    + intros c Hc. destruct (I3 c Hc) as [H|H]; [exact H|]. exfalso. eapply NP; eassumption.
    + intros a c La Hd Hc. destruct (I2 a c La (Ev a) Hd Hc) as [J1 J2].
      change (D (with_phase s PSweep) c) with (D s c). change (D (with_phase s PSweep) a) with (D s a).
      change (rset (with_phase s PSweep)) with (rset s).
      assert (0 < D s c) by (destruct J1 as [H|H]; [exact H|exfalso; eapply NP; eassumption]).
      split; [assumption|]. pose proof (D_even s c (c_even _ _ C) (Ev c)).
      destruct J2 as [J|[J|J]]; [now left|right|right]; unfold up in *; lia.
Qed.

Lemma inv_flip : forall (L : nat -> Prop) s, inv L s -> ph s = PSweep -> inv (fun a => L a /\ 0 < D s a) (gcFlip s).
Proof.
  intros L s [C I] E. rewrite E in I. destruct I as (I1 & I2 & I3 & I4).
  pose proof (all_even s (c_qok _ _ C) I1) as Ev.
  assert (HD : forall a, L a -> D (gcFlip s) a = D s a - 2).
  { intros a La. destruct (c_lok _ _ C a La) as [_ R]. unfold D in *. cbn. apply dist_next. lia. }
  split.
  - constructor; cbn.
    + pose proof (c_even _ _ C). lia.
    + pose proof (c_pos _ _ C). lia.
    + intros a [La Hd]. rewrite HD by assumption. cbn. destruct (c_lok _ _ C a La) as [U R]. split; [exact U|].
      pose proof (D_even s a (c_even _ _ C) (Ev a)). lia.
    + intros a b [La Hd] Hb. split; [eapply (c_fields _ _ C); eassumption|]. eapply I4; eassumption.
    + intros b Hb. split; [now apply (c_mut _ _ C)|now apply I3].
    + intros a Ha. split; [now apply (c_rset _ _ C)|now apply I2].
    + apply C.
    + intros a [La _]. now apply (c_inrset _ _ C).
    + destruct (c_qok _ _ C) as [Q1 Q2 Q3 Q4]. constructor; cbn; auto. rewrite I1. contradiction.
  - cbn [ph gcFlip]. split; [exact I1|]. intros a c [La Hd] Hc.
    assert (Lc : L c) by (eapply (c_fields _ _ C); eassumption).
    rewrite (HD a La), (HD c Lc). destruct (I4 a c La Hd Hc) as [_ [J|J]]; [now right|left; lia].
Qed.

Lemma blacken_spec : forall gv v, gv mod 2 = 0 -> 0 <= v < 256 -> is_odd v = true -> 1 <= dist gv v <= 23 ->
  let v' := (v / 64) * 64 + (v + 1) mod 64 in
  0 <= v' < 256 /\ is_odd v' = false /\ dist gv v' = dist gv v + 1.
Proof.
  intros gv v Hg Hb Ho Hd. cbv zeta. unfold is_odd in *. apply Z.eqb_eq in Ho.
  split; [lia|]. split; [rewrite Z.eqb_neq; lia|]. unfold dist in *. lia.
Qed.

(** a gray object is not raised by marking with its own version *)
Lemma gcMark_self : forall s v q, is_odd (ver s q) = true -> ver (gcMark s v (ver s q)) q = ver s q.
Proof.
  intros s [|a] q Ho; [reflexivity|]. unfold gcMark. destruct (is_inuse _ _); [|reflexivity].
  unfold markObject. cbv zeta. destruct (Nat.eq_dec a q) as [->|Hne].
  - rewrite Ho. unfold versionCmp. rewrite Z.sub_diag. cbn. rewrite andb_false_r. reflexivity.
  - repeat match goal with |- context [if ?b then _ else _] => destruct b end; cbn; unfold upd;
      destruct (Nat.eqb_spec q a); congruence.
Qed.
Lemma gcMarkAll_self : forall vs s q minv, is_odd minv = true -> ver s q = minv -> ver (gcMarkAll s vs minv) q = ver s q.
Proof.
  induction vs as [|v vs IH]; intros s q minv Ho E; [reflexivity|].
  change (gcMarkAll s (v :: vs) minv) with (gcMarkAll (gcMark s v minv) vs minv). subst minv.
  pose proof (gcMark_self s v q Ho) as H. rewrite IH; auto.
Qed.

Lemma inv_scan : forall (L : nat -> Prop) s q rest, inv L s -> ph s = PInc -> queue s = q :: rest ->
  is_odd (ver s q) = true /\
  inv L (let s2 := gcMarkAll (mkSt (g s) (ph s) (heap s) rest (rset s) (mut s)) (o_fields (heap s q)) (ver s q) in
         with_obj s2 q (set_ver (heap s2 q) ((ver s2 q / 64) * 64 + (ver s2 q + 1) mod 64))).
Proof.
  intros L s q rest [C I] E Eq. rewrite E in I.
  assert (Hodd : is_odd (ver s q) = true).
  { apply (q_odd _ _ (c_qok _ _ C)). rewrite Eq. now left. }
  split; [exact Hodd|]. cbv zeta.
  set (s1 := mkSt (g s) (ph s) (heap s) rest (rset s) (mut s)).
  assert (Q1 : qok [q] s1).
  { destruct (c_qok _ _ C) as [A1 A2 A3 A4]. rewrite Eq in *. constructor; auto. }
  destruct (q_range _ _ Q1 q ltac:(now left)) as [Uq Rq]. change (D s1 q) with (D s q) in Rq.
  assert (Hmin : minv_ok (g s1) (ver s q)).
  { right. split; [exact Hodd|]. split; [apply (q_byte _ _ (c_qok _ _ C))|]. exact Rq. }
  destruct (gcMarkAll_ok (o_fields (heap s q)) [q] L s1 (ver s q) Q1 (c_lok _ _ C) (c_even _ _ C) Hmin) as (M & Q2 & P).
  destruct (keepr_gcMarkAll (o_fields (heap s q)) s1 (ver s q)) as [K1 K2].
  set (s2 := gcMarkAll s1 (o_fields (heap s q)) (ver s q)) in *.
  pose proof (m_static _ _ _ _ M) as ST.
  assert (Hg2 : g s2 = g s) by apply ST.
  assert (Heven : (g s2) mod 2 = 0) by (rewrite Hg2; apply C).
  assert (Ho2 : is_odd (ver s2 q) = true) by (apply (q_odd _ _ Q2); now left).
  destruct (q_range _ _ Q2 q ltac:(now left)) as [Uq2 Rq2].
  destruct (blacken_spec (g s2) (ver s2 q) Heven (q_byte _ _ Q2 q) Ho2 Rq2) as (B1 & B2 & B3).
  set (v' := ver s2 q / 64 * 64 + (ver s2 q + 1) mod 64) in *.
  set (s3 := with_obj s2 q (set_ver (heap s2 q) v')).
  assert (Hne : ~ In q (queue s2)).
  { pose proof (q_nodup _ _ Q2) as N. cbn in N. now inversion N. }
  assert (Hv3 : forall x, ver s3 x = if Nat.eqb x q then v' else ver s2 x).
  { intro x. cbn. unfold upd. destruct (Nat.eqb_spec x q); subst; reflexivity. }
  assert (Hs3 : forall x, o_used (heap s3 x) = o_used (heap s2 x) /\ o_fields (heap s3 x) = o_fields (heap s2 x) /\
                          o_inrset (heap s3 x) = o_inrset (heap s2 x)).
  { intro x. cbn. unfold upd. destruct (Nat.eqb_spec x q); subst; auto. }
  assert (HD3 : forall x, D s3 x = if Nat.eqb x q then D s2 q + 1 else D s2 x).
  { intro x. unfold D. rewrite Hv3. cbn [g with_obj s3]. destruct (Nat.eqb_spec x q); [exact B3|reflexivity]. }
  assert (HDge : forall x, D s2 x <= D s3 x).
  { intro x. rewrite HD3. destruct (Nat.eqb_spec x q) as [->|]; lia. }
  assert (Lok2 : lok L s2) by (eapply mrel_lok; [exact M|apply C]).
  assert (Hf2 : forall x, o_fields (heap s2 x) = o_fields (heap s x)) by (intro x; apply (mrel_fields _ _ _ _ x M)).
  assert (Hf : forall x, o_fields (heap s3 x) = o_fields (heap s x)).
  { intro x. destruct (Hs3 x) as (_ & -> & _). apply (mrel_fields _ _ _ _ x M). }
  assert (Hchild : forall c, In (Ptr c) (o_fields (heap s q)) -> L c -> 0 < D s2 c /\ D s q <= D s2 c).
  { intros c Hin Lc. destruct (P c Hin Lc) as [P1 P2]. split; [exact P1|]. apply P2. intro H0. rewrite H0 in Hodd. discriminate. }
  assert (C3 : common L s3).
  { constructor.
    - exact Heven.
    - cbn. rewrite Hg2. apply C.
    - intros x Lx. destruct (Lok2 x Lx) as [U R]. destruct (Hs3 x) as (-> & _). split; [exact U|].
      rewrite HD3. destruct (Nat.eqb_spec x q); [|exact R]. lia.
    - intros x y Lx. rewrite Hf. now apply (c_fields _ _ C).
    - cbn. rewrite (st_mut _ _ ST). apply C.
    - cbn. rewrite K1. apply C.
    - cbn. rewrite K1. apply C.
    - intros x Lx. destruct (Hs3 x) as (_ & _ & ->). change (rset s3) with (rset s2). rewrite K1, K2. now apply (c_inrset _ _ C).
    - destruct Q2 as [A1 A2 A3 A4]. constructor.
      + intro x. rewrite Hv3. change (queue s3) with (queue s2). destruct (Nat.eqb_spec x q) as [->|Hx].
        * rewrite B2. cbn. split; [discriminate|contradiction].
        * rewrite A1. cbn. intuition congruence.
      + cbn in A2 |- *. now inversion A2.
      + intros x Hx. change (queue s3) with (queue s2) in Hx. cbn in Hx. destruct (Hs3 x) as (-> & _).
        rewrite HD3. destruct (Nat.eqb_spec x q); [subst; contradiction|]. apply A3. now right.
      + intro x. rewrite Hv3. destruct (Nat.eqb_spec x q); [exact B1|apply A4]. }
  split; [exact C3|].
  change (ph s3) with (ph s2). rewrite (st_ph _ _ ST). cbn [ph s1]. rewrite E.
  destruct I as (I1 & I2 & I3).
  (* protection *)
  assert (HP : forall c, L c -> 0 < D s c \/ prot L s (queue s) c -> 0 < D s3 c \/ prot L s3 (queue s3) c).
  { intros c Lc H.
    assert (H2 : 0 < D s2 c \/ prot L s2 (q :: queue s2) c).
    { destruct H as [H|H].
      - left. destruct (m_mono _ _ _ _ M c Lc) as [X _]. change (D s1 c) with (D s c) in X. lia.
      - rewrite Eq in H. apply (prot_mrel [q] L s1 s2 c M (c_lok _ _ C)).
        cbn. eapply prot_state with (s := s); auto. }
    destruct H2 as [H2|H2]; [left; pose proof (HDge c); lia|].
    clear H. induction H2 as [x c Hx Hc Lx Lc' D0|b c Hb IH Hc Lc' D0].
    - assert (Hin : In (Ptr c) (o_fields (heap s x))) by (now rewrite <- (Hf2 x)).
      destruct Hx as [<-|Hx].
      + exfalso. destruct (Hchild c Hin Lc'). lia.
      + right. eapply prot_gray with (q := x); [exact Hx|now rewrite Hf|exact Lx|exact Lc'|].
        rewrite HD3. destruct (Nat.eqb_spec c q); [subst; lia|exact D0].
    - assert (Hin : In (Ptr c) (o_fields (heap s b))) by (now rewrite <- (Hf2 b)).
      destruct (prot_L _ _ _ _ Hb) as [Lb Db].
      right. destruct (IH Lb) as [H|H].
      + exfalso. rewrite HD3 in H. destruct (Nat.eqb_spec b q); [subst; lia|lia].
      + eapply prot_white with (b := b); [exact H|now rewrite Hf|exact Lc'|].
        rewrite HD3. destruct (Nat.eqb_spec c q); [subst; lia|exact D0]. }
  split; [|split].
  - intros x Hx. change (rset s3) with (rset s2) in Hx. rewrite K1 in Hx. specialize (I1 x Hx).
    destruct (m_mono _ _ _ _ M x (c_rset _ _ C x Hx)) as [X _]. change (D s1 x) with (D s x) in X. pose proof (HDge x). lia.
  - intros x c Lx Ho Hd Hc. rewrite Hf in Hc.
    assert (Lc : L c) by (eapply (c_fields _ _ C); eassumption).
    change (rset s3) with (rset s2). rewrite K1.
    pose proof (HDge c) as Gc.
    destruct (m_mono _ _ _ _ M c Lc) as [Mc _]. change (D s1 c) with (D s c) in Mc.
    destruct (Nat.eq_dec x q) as [->|Hx].
    + destruct (Hchild c Hc Lc) as [X1 X2]. split; [left; lia|]. right. left.
      rewrite (HD3 q), Nat.eqb_refl.
      (* the scanned object keeps its version *)
      assert (D s2 q = D s q).
      { destruct (Z_lt_le_dec (D s q) (D s2 q)) as [Hlt|]; [|destruct (m_mono _ _ _ _ M q Lx) as [Y _]; change (D s1 q) with (D s q) in Y; lia].
        unfold D in *. rewrite Hg2 in Hlt. unfold s2 in Hlt. rewrite (gcMarkAll_self (o_fields (heap s q)) s1 q) in Hlt; [|exact Hodd|reflexivity].
        cbn in Hlt. lia. }
      assert (D s q mod 2 = 1) by (apply odd_dist; [apply C|exact Hodd]).
      unfold up. lia.
    + assert (Ho' : is_odd (ver s2 x) = false) by (rewrite Hv3 in Ho; destruct (Nat.eqb_spec x q); [contradiction|exact Ho]).
      assert (Ev : ver s2 x = ver s x).
      { destruct (m_ver _ _ _ _ M x) as [X|X]; [exact X|]. apply (q_odd _ _ Q2) in X. congruence. }
      assert (EDx : D s3 x = D s x).
      { rewrite HD3. destruct (Nat.eqb_spec x q); [contradiction|]. unfold D. now rewrite Ev, Hg2. }
      rewrite EDx in *. rewrite Ev in Ho'.
      destruct (I2 x c Lx Ho' Hd Hc) as [J1 J2]. split; [now apply HP|].
      destruct J2 as [J|[J|J]]; auto. right. left. pose proof (up_mono (D s c) (D s3 c)). lia.
  - intros c Hc. change (mut s3) with (mut s2) in Hc. rewrite (st_mut _ _ ST) in Hc.
    apply HP; [now apply (c_mut _ _ C)|]. now apply I3.
Qed.

(** ** all transitions *)
(** the genuine objects after a transition: new ones come in, the unmarked leave at a flip *)
Definition Lnext (L : nat -> Prop) (s : st) (o : op) : nat -> Prop :=
  match o with
  | OAlloc a _ _ _ => fun x => L x \/ x = a
  | OStep => match queue s with
             | [] => if g s mod 30 =? 0 then L else fun a => L a /\ 0 < D s a
             | _ => L
             end
  | OSweepEnd => fun a => L a /\ 0 < D (sweep_all s) a
  | _ => L
  end.

Lemma inv_step : forall (L : nat -> Prop) s o, inv L s -> permitted s o ->
  exists s', step s o = Ok s' /\ inv (Lnext L s o) s'.
Proof.
  intros L s o HI HP. destruct o as [a m l fields|a i|a i v|l|v|junk| |a|]; cbn [permitted Lnext step] in *.
  - destruct HP. eexists. split; [reflexivity|]. now apply inv_alloc with (L := L).
  - eexists. split; [reflexivity|]. now apply inv_read.
  - destruct HP as (H1 & H2 & _). eexists. split; [reflexivity|]. now apply inv_write.
  - eexists. split; [reflexivity|]. now apply inv_roots.
  - destruct HP. eexists. split; [reflexivity|]. now apply inv_markOld.
  - eexists. split; [reflexivity|]. now apply inv_markRoot.
  - unfold gcStep. destruct (queue s) as [|q rest] eqn:Eq.
    + pose proof (inc_done L s HI HP Eq) as H. destruct (g s mod 30 =? 0).
      * eexists. split; [reflexivity|]. exact H.
      * eexists. split; [reflexivity|]. exact (inv_flip L _ H eq_refl).
    + destruct (inv_scan L s q rest HI HP Eq) as [Ho H]. rewrite Ho. eexists. split; [reflexivity|]. exact H.
  - eexists. split; [reflexivity|]. now apply inv_sweep1.
  - eexists. split; [reflexivity|].
    exact (inv_flip L _ (inv_sweep_all L s HI HP) HP).
Qed.
