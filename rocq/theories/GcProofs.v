(** Invariant of the collector and its preservation by every transition. *)
From Coq Require Import ZArith Bool List Lia Arith.
From Verif Require Import Base ListLib GcModel.
Import ListNotations.
Open Scope Z_scope.
Ltac Zify.zify_post_hook ::= Z.div_mod_to_equations.

(** Signed distance from the collector's version to a stored version byte. *)
Definition dist (gv v : Z) : Z := (v - gv + 32) mod 64 - 32.

Lemma dist_range : forall gv v, -32 <= dist gv v < 32.
Proof. intros. unfold dist. lia. Qed.

Lemma dist_mod : forall gv v, dist gv (v mod 64) = dist gv v.
Proof. intros. unfold dist. lia. Qed.

Lemma dist_eq : forall gv v d, -32 <= d < 32 -> v mod 64 = (gv + d) mod 64 -> dist gv v = d.
Proof. intros. unfold dist. lia. Qed.

Lemma dist_next : forall gv v, dist gv v >= -30 -> dist (gv + 2) v = dist gv v - 2.
Proof. intros. unfold dist in *. lia. Qed.

Lemma cmp_dist : forall gv v1 v2, Z.abs (dist gv v1 - dist gv v2) < 32 ->
  (0 < versionCmp (v1 mod 64) (v2 mod 64) <-> dist gv v1 > dist gv v2) /\
  (versionCmp (v1 mod 64) (v2 mod 64) = 0 <-> dist gv v1 = dist gv v2) /\
  (versionCmp (v1 mod 64) (v2 mod 64) < 0 <-> dist gv v1 < dist gv v2).
Proof.
  intros gv v1 v2 H. unfold versionCmp.
  assert (E : exists k, v2 mod 64 - v1 mod 64 = dist gv v2 - dist gv v1 + 64 * k).
  { unfold dist. exists (v2 / 64 * -1 + v1 / 64 + ((v2 - gv + 32) / 64) - ((v1 - gv + 32) / 64)). lia. }
  destruct E as [k E]. pose proof (dist_range gv v1). pose proof (dist_range gv v2).
  pose proof (Z.mod_pos_bound v1 64 ltac:(lia)). pose proof (Z.mod_pos_bound v2 64 ltac:(lia)).
  rewrite E. assert (k = -1 \/ k = 0 \/ k = 1) as [-> | [-> | ->]] by lia;
  repeat match goal with |- context [?a =? ?b] => destruct (Z.eqb_spec a b) end;
  repeat match goal with |- context [?a <? ?b] => destruct (Z.ltb_spec a b) end;
  cbn [andb]; repeat split; lia.
Qed.

Lemma cmp_g : forall gv v, dist gv v > -32 ->
  (0 < versionCmp (gv mod 64) (v mod 64) <-> dist gv v < 0) /\
  (versionCmp (gv mod 64) (v mod 64) = 0 <-> dist gv v = 0) /\
  (versionCmp (gv mod 64) (v mod 64) < 0 <-> dist gv v > 0).
Proof.
  intros gv v H. assert (Hg : dist gv gv = 0) by (unfold dist; lia).
  pose proof (dist_range gv v).
  destruct (cmp_dist gv gv v ltac:(lia)) as (A & B & C). rewrite Hg in A, B, C. intuition lia.
Qed.

Lemma odd_dist : forall gv v, gv mod 2 = 0 -> (is_odd v = true <-> dist gv v mod 2 = 1).
Proof. intros. unfold is_odd. rewrite Z.eqb_eq. unfold dist. lia. Qed.
Lemma odd_false : forall v, is_odd v = false <-> v mod 2 = 0.
Proof. intros. unfold is_odd. rewrite Z.eqb_neq. lia. Qed.

Lemma inuse_dist : forall gv o, dist gv (o_ver o) > -32 ->
  (is_inuse gv o = true <-> o_used o = true /\ dist gv (o_ver o) >= 0).
Proof.
  intros gv o H. unfold is_inuse, inuse. destruct (o_used o); cbn [negb].
  - destruct (cmp_g gv (o_ver o) H) as (A & B & C).
    destruct (Z.ltb_spec 0 (versionCmp (gv mod 64) (o_ver o mod 64))).
    + cbn. split; [discriminate|]. intros [_ ?]. lia.
    + destruct (Z.eqb_spec (versionCmp (gv mod 64) (o_ver o mod 64)) 0); cbn; split; auto; intros _; split; auto; lia.
  - cbn. split; [discriminate|intros []; discriminate].
Qed.

Lemma white_iff : forall gv v, (v mod 64 =? gv mod 64) = true <-> dist gv v = 0.
Proof. intros. rewrite Z.eqb_eq. unfold dist. lia. Qed.

Lemma bump_loop_spec : forall i ver, ver mod 2 = 0 ->
  exists j, bump_loop i ver = ver + j /\ (j = 1 \/ j = 3 \/ j = 7 \/ j = 23) /\ ver mod (j + 1) = 0.
Proof.
  induction i as [|i IH]; intros ver H.
  - cbn [bump_loop GEN_INCREMENTS]. destruct (Z.eqb_spec (ver mod 2) 0); [|lia]. exists 1. lia.
  - cbn [bump_loop]. destruct (Z.eqb_spec (ver mod GEN_INCREMENTS (S i)) 0) as [E|E].
    + destruct i as [|[|i]]; cbn [GEN_INCREMENTS] in *.
      * exists 3. lia.
      * exists 7. lia.
      * exists 23. lia.
    + now apply IH.
Qed.

Lemma nextVersion_spec : forall gen gv, 0 <= gen <= 3 -> gv mod 2 = 0 ->
  0 <= nextVersion gen gv < 256 /\ is_odd (nextVersion gen gv) = true /\
  1 <= dist gv (nextVersion gen gv) <= 23.
Proof.
  intros gen gv Hg Hv. unfold nextVersion.
  destruct (bump_loop_spec (Z.to_nat gen) gv Hv) as (j & -> & Hj & _).
  split; [|split].
  - destruct (Z.ltb_spec gen 3); lia.
  - unfold is_odd. rewrite Z.eqb_eq. destruct (Z.ltb_spec gen 3); lia.
  - unfold dist. destruct (Z.ltb_spec gen 3); lia.
Qed.

(** ** marking *)
Notation ver s a := (o_ver (heap s a)).
Definition D (s : st) (a : nat) : Z := dist (g s) (ver s a).

(** [ex]: objects already taken off the queue but still being scanned *)
Record qok (ex : list nat) (s : st) : Prop := {
  q_odd : forall a, is_odd (ver s a) = true <-> In a (ex ++ queue s);
  q_nodup : NoDup (ex ++ queue s);
  q_range : forall a, In a (ex ++ queue s) -> o_used (heap s a) = true /\ 1 <= D s a <= 23;
  q_byte : forall a, 0 <= ver s a < 256
}.

Definition minv_ok (gv minv : Z) : Prop :=
  minv = 0 \/ (is_odd minv = true /\ 0 <= minv < 256 /\ 1 <= dist gv minv <= 23).

Definition lok (L : nat -> Prop) (s : st) : Prop :=
  forall a, L a -> o_used (heap s a) = true /\ 0 <= D s a <= 24.

Record static (s s' : st) : Prop := {
  st_g : g s' = g s; st_ph : ph s' = ph s; st_mut : mut s' = mut s;
  st_obj : forall a, o_used (heap s' a) = o_used (heap s a) /\ o_mut (heap s' a) = o_mut (heap s a) /\
             o_large (heap s' a) = o_large (heap s a) /\ o_fields (heap s' a) = o_fields (heap s a)
}.

Record mrel (ex : list nat) (L : nat -> Prop) (s s' : st) : Prop := {
  m_static : static s s';
  m_queue : exists e, queue s' = queue s ++ e;
  m_ver : forall a, ver s' a = ver s a \/ In a (ex ++ queue s');
  m_mono : forall a, L a -> D s a <= D s' a <= 24
}.

Lemma static_refl : forall s, static s s.
Proof. intro s. constructor; auto. Qed.
Lemma static_trans : forall s1 s2 s3, static s1 s2 -> static s2 s3 -> static s1 s3.
Proof.
  intros s1 s2 s3 [A B E F] [A' B' E' F']. constructor; try congruence.
  intro a. destruct (F a) as (?&?&?&?). destruct (F' a) as (?&?&?&?). repeat split; congruence.
Qed.

Lemma mrel_refl : forall ex (L : nat -> Prop) s, lok L s -> mrel ex L s s.
Proof.
  intros ex L s H. constructor.
  - apply static_refl.
  - exists []. now rewrite app_nil_r.
  - auto.
  - intros a Ha. destruct (H a Ha). lia.
Qed.
Lemma mrel_trans : forall ex (L : nat -> Prop) s1 s2 s3, mrel ex L s1 s2 -> mrel ex L s2 s3 -> mrel ex L s1 s3.
Proof.
  intros ex L s1 s2 s3 [A1 [e1 B1] C1 E1] [A2 [e2 B2] C2 E2]. constructor.
  - eapply static_trans; eassumption.
  - exists (e1 ++ e2). rewrite B2, B1. now rewrite app_assoc.
  - intro a. destruct (C2 a) as [->|]; [|auto]. destruct (C1 a) as [->|H]; [auto|].
    right. rewrite B2. rewrite app_assoc. apply in_or_app. now left.
  - intros a Ha. destruct (E1 a Ha), (E2 a Ha). lia.
Qed.

Lemma static_lok : forall (L : nat -> Prop) s s', static s s' -> (forall a, L a -> D s a <= D s' a <= 24) -> lok L s -> lok L s'.
Proof.
  intros L s s' Hst Hm Hl a Ha. destruct (Hl a Ha) as [U R]. destruct (st_obj _ _ Hst a) as (E & _).
  split; [congruence|]. specialize (Hm a Ha). lia.
Qed.

Lemma upd_same : forall h a o, upd h a o a = o.
Proof. intros. unfold upd. now rewrite Nat.eqb_refl. Qed.
Lemma upd_other : forall h a o b, b <> a -> upd h a o b = h b.
Proof. intros. unfold upd. destruct (Nat.eqb_spec b a); congruence. Qed.

Lemma NoDup_snoc : forall (l : list nat) a, NoDup l -> ~ In a l -> NoDup (l ++ [a]).
Proof.
  intros l a Hd Hn. induction l as [|x l IH]; cbn.
  - constructor; auto.
  - inversion Hd; subst. constructor.
    + intro H. apply in_app_or in H. destruct H as [H|[H|[]]]; [contradiction|]. subst. apply Hn. now left.
    + apply IH; auto. intro. apply Hn. now right.
Qed.

(** Setting a version to a gray one. *)
Lemma regray : forall ex (L : nat -> Prop) s a v, qok ex s -> lok L s -> (g s) mod 2 = 0 ->
  is_odd v = true -> 0 <= v < 256 -> 1 <= dist (g s) v <= 23 -> o_used (heap s a) = true ->
  (L a -> D s a <= dist (g s) v) ->
  let s1 := with_obj s a (set_ver (heap s a) v) in
  let s' := if is_odd (ver s a) then s1 else enqueue s1 a in
  mrel ex L s s' /\ qok ex s' /\ D s' a = dist (g s) v.
Proof.
  intros ex L s a v Q HL Hg Ho Hb Hd Hu Hm. cbv zeta.
  assert (Hver : forall (b : bool) x, ver (if b then with_obj s a (set_ver (heap s a) v)
     else enqueue (with_obj s a (set_ver (heap s a) v)) a) x = if Nat.eqb x a then v else ver s x).
  { intros [|] x; cbn; unfold upd; destruct (Nat.eqb_spec x a); subst; reflexivity. }
  assert (Hst : forall (b : bool), static s (if b then with_obj s a (set_ver (heap s a) v)
     else enqueue (with_obj s a (set_ver (heap s a) v)) a)).
  { intros [|]; constructor; auto; intro x; cbn; unfold upd; destruct (Nat.eqb_spec x a); subst; auto. }
  destruct (is_odd (ver s a)) eqn:Eo.
  - assert (Hin : In a (ex ++ queue s)) by (now apply (q_odd _ _ Q)).
    specialize (Hver true). specialize (Hst true). cbn iota in Hver, Hst. split; [|split].
    + constructor; [exact Hst|exists []; cbn; now rewrite app_nil_r| |].
      * intro x. rewrite Hver. destruct (Nat.eqb_spec x a) as [->|]; [right; exact Hin|now left].
      * intros x Hx. unfold D. rewrite Hver. cbn [g with_obj]. destruct (HL x Hx) as [_ R].
        destruct (Nat.eqb_spec x a) as [->|]; [specialize (Hm Hx); unfold D in *; lia|unfold D in *; lia].
    + constructor.
      * intro x. rewrite Hver. cbn [queue with_obj]. destruct (Nat.eqb_spec x a) as [->|].
        -- split; auto.
        -- apply (q_odd _ _ Q).
      * exact (q_nodup _ _ Q).
      * intros x Hx. destruct (st_obj _ _ Hst x) as (-> & _). unfold D. rewrite Hver. cbn [g with_obj].
        destruct (Nat.eqb_spec x a) as [->|]; [split; [exact Hu|lia]|]. apply (q_range _ _ Q). exact Hx.
      * intro x. rewrite Hver. destruct (Nat.eqb_spec x a); [lia|apply (q_byte _ _ Q)].
    + unfold D. rewrite Hver, Nat.eqb_refl. reflexivity.
  - assert (Hnin : ~ In a (ex ++ queue s)).
    { intro H. apply (q_odd _ _ Q) in H. congruence. }
    specialize (Hver false). specialize (Hst false). cbn iota in Hver, Hst.
    set (s' := enqueue (with_obj s a (set_ver (heap s a) v)) a) in *.
    assert (Hq : queue s' = queue s ++ [a]) by reflexivity.
    split; [|split].
    + constructor; [exact Hst|exists [a]; exact Hq| |].
      * intro x. rewrite Hver, Hq. destruct (Nat.eqb_spec x a) as [->|]; [|now left].
        right. rewrite app_assoc. apply in_or_app. right. now left.
      * intros x Hx. unfold D. rewrite Hver. change (g s') with (g s). destruct (HL x Hx) as [_ R].
        destruct (Nat.eqb_spec x a) as [->|]; [specialize (Hm Hx); unfold D in *; lia|unfold D in *; lia].
    + constructor.
      * intro x. rewrite Hver, Hq, app_assoc, in_app_iff. cbn [In]. destruct (Nat.eqb_spec x a) as [->|].
        -- split; auto.
        -- rewrite (q_odd _ _ Q). intuition congruence.
      * rewrite Hq, app_assoc. apply NoDup_snoc; [exact (q_nodup _ _ Q)|exact Hnin].
      * intros x Hx. destruct (st_obj _ _ Hst x) as (-> & _). unfold D. rewrite Hver. change (g s') with (g s).
        destruct (Nat.eqb_spec x a) as [->|]; [split; [exact Hu|lia]|]. apply (q_range _ _ Q).
        rewrite Hq, app_assoc, in_app_iff in Hx. cbn [In] in Hx. intuition congruence.
      * intro x. rewrite Hver. destruct (Nat.eqb_spec x a); [lia|apply (q_byte _ _ Q)].
    + unfold D. rewrite Hver, Nat.eqb_refl. reflexivity.
Qed.

Lemma markObject_ok : forall ex (L : nat -> Prop) s a minv, qok ex s -> lok L s -> (g s) mod 2 = 0 -> minv_ok (g s) minv ->
  o_used (heap s a) = true ->
  let s' := markObject s a minv in
  mrel ex L s s' /\ qok ex s' /\
  (L a -> 0 < D s' a /\ (minv <> 0 -> dist (g s) minv <= D s' a)).
Proof.
  intros ex L s a minv Q HL Hg Hm Hu. cbv zeta. unfold markObject. cbv zeta.
  assert (Hmz : minv = 0 -> forall x, negb (minv =? 0) && x = false) by (intros ->; reflexivity).
  destruct (is_odd (ver s a)) eqn:Eo.
  - (* gray *)
    assert (Hin : In a (ex ++ queue s)) by (now apply (q_odd _ _ Q)).
    destruct (q_range _ _ Q a Hin) as [_ R].
    destruct Hm as [E|(Mo & Mb & Md)].
    + rewrite (Hmz E). split; [now apply mrel_refl|]. split; [exact Q|]. intros _. split; [lia|congruence].
    + assert (minv <> 0) by (intros ->; discriminate Mo).
      destruct (Z.eqb_spec minv 0); [contradiction|]. cbn [negb andb].
      destruct (cmp_dist (g s) minv (ver s a)) as (A & _); [fold (D s a); lia|]. fold (D s a) in A.
      destruct (Z.ltb_spec 0 (versionCmp (minv mod 64) (ver s a mod 64))) as [Hc|Hc].
      * destruct (regray ex L s a minv Q HL Hg Mo Mb Md Hu) as (H1 & H2 & H3); [lia|].
        rewrite Eo in *. split; [exact H1|]. split; [exact H2|]. intros _. rewrite H3. split; lia.
      * split; [now apply mrel_refl|]. split; [exact Q|]. intros _. split; [lia|]. intros _.
        destruct (Z_gt_le_dec (dist (g s) minv) (D s a)) as [G|G]; [apply A in G|]; lia.
  - (* even *)
    assert (Hgen : 0 <= ver s a / 64 <= 3) by (pose proof (q_byte _ _ Q a); lia).
    destruct (nextVersion_spec (ver s a / 64) (g s) Hgen Hg) as (Nb & No & Nd).
    assert (HR : forall v, is_odd v = true -> 0 <= v < 256 -> 1 <= dist (g s) v <= 23 ->
       (L a -> D s a <= dist (g s) v) ->
       mrel ex L s (enqueue (with_obj s a (set_ver (heap s a) v)) a) /\
       qok ex (enqueue (with_obj s a (set_ver (heap s a) v)) a) /\
       D (enqueue (with_obj s a (set_ver (heap s a) v)) a) a = dist (g s) v).
    { intros v V1 V2 V3 V4. pose proof (regray ex L s a v Q HL Hg V1 V2 V3 Hu V4) as H.
      cbv zeta in H. rewrite Eo in H. exact H. }
    destruct (Z.eqb_spec (ver s a mod 64) (g s mod 64)) as [E1|E1].
    + (* white *)
      assert (D0 : D s a = 0) by (unfold D, dist; lia).
      cbn [orb]. destruct Hm as [E|(Mo & Mb & Md)].
      * rewrite (Hmz E). destruct (HR (nextVersion (ver s a / 64) (g s)) No Nb Nd) as (H1 & H2 & H3); [lia|].
        split; [exact H1|]. split; [exact H2|]. intros _. rewrite H3. split; [lia|congruence].
      * assert (minv <> 0) by (intros ->; discriminate Mo).
        destruct (Z.eqb_spec minv 0); [contradiction|]. cbn [negb andb].
        destruct (cmp_dist (g s) minv (nextVersion (ver s a / 64) (g s))) as (A & _); [lia|].
        destruct (Z.ltb_spec 0 (versionCmp (minv mod 64) (nextVersion (ver s a / 64) (g s) mod 64))) as [Hc|Hc].
        -- apply A in Hc. destruct (HR minv Mo Mb Md) as (H1 & H2 & H3); [lia|].
           split; [exact H1|]. split; [exact H2|]. intros _. rewrite H3. split; lia.
        -- destruct (HR (nextVersion (ver s a / 64) (g s)) No Nb Nd) as (H1 & H2 & H3); [lia|].
           split; [exact H1|]. split; [exact H2|]. intros _. rewrite H3. split; [lia|]. intros _.
           destruct (Z_gt_le_dec (dist (g s) minv) (dist (g s) (nextVersion (ver s a / 64) (g s)))) as [G|G]; [|lia].
           apply A in G. lia.
    + assert (Dn0 : D s a <> 0) by (unfold D, dist; lia).
      cbn [orb]. destruct Hm as [E|(Mo & Mb & Md)].
      * rewrite (Hmz E). split; [now apply mrel_refl|]. split; [exact Q|]. intros La.
        destruct (HL a La). split; [lia|congruence].
      * assert (minv <> 0) by (intros ->; discriminate Mo).
        destruct (Z.eqb_spec minv 0); [contradiction|]. cbn [negb andb].
        destruct (Z.ltb_spec 0 (versionCmp (minv mod 64) (ver s a mod 64))) as [Hc|Hc].
        -- destruct (HR minv Mo Mb Md) as (H1 & H2 & H3).
           { intro La. destruct (HL a La).
             destruct (cmp_dist (g s) minv (ver s a)) as (A & _); [fold (D s a); lia|].
             fold (D s a) in A. apply A in Hc. lia. }
           split; [exact H1|]. split; [exact H2|]. intros _. rewrite H3. split; lia.
        -- split; [now apply mrel_refl|]. split; [exact Q|]. intros La. destruct (HL a La).
           split; [lia|]. intros _.
           destruct (cmp_dist (g s) minv (ver s a)) as (A & _); [fold (D s a); lia|].
           fold (D s a) in A. destruct (Z_gt_le_dec (dist (g s) minv) (D s a)) as [G|G]; [|lia].
           apply A in G. lia.
Qed.

Lemma L_inuse : forall (L : nat -> Prop) s a, lok L s -> L a -> is_inuse (g s) (heap s a) = true.
Proof.
  intros L s a HL Ha. destruct (HL a Ha) as [U R]. unfold D in R.
  apply inuse_dist; [lia|]. split; [exact U|lia].
Qed.

Lemma is_inuse_used : forall gv o, is_inuse gv o = true -> o_used o = true.
Proof. intros gv o. unfold is_inuse, inuse. destruct (o_used o); cbn; auto. Qed.

Lemma gcMark_ok : forall ex (L : nat -> Prop) s v minv, qok ex s -> lok L s -> (g s) mod 2 = 0 -> minv_ok (g s) minv ->
  let s' := gcMark s v minv in
  mrel ex L s s' /\ qok ex s' /\
  (forall a, v = Ptr a -> L a -> 0 < D s' a /\ (minv <> 0 -> dist (g s) minv <= D s' a)).
Proof.
  intros ex L s v minv Q HL Hg Hm. cbv zeta. unfold gcMark. destruct v as [|a].
  - split; [now apply mrel_refl|]. split; [exact Q|]. discriminate.
  - destruct (is_inuse (g s) (heap s a)) eqn:E.
    + destruct (markObject_ok ex L s a minv Q HL Hg Hm (is_inuse_used _ _ E)) as (H1 & H2 & H3).
      split; [exact H1|]. split; [exact H2|]. intros b Hb. injection Hb as <-. exact H3.
    + split; [now apply mrel_refl|]. split; [exact Q|]. intros b Hb Lb. injection Hb as <-.
      rewrite (L_inuse L s a HL Lb) in E. discriminate.
Qed.

Lemma mrel_lok : forall ex (L : nat -> Prop) s s', mrel ex L s s' -> lok L s -> lok L s'.
Proof. intros ex L s s' [A _ _ B] H. eapply static_lok; eassumption. Qed.

Lemma gcMarkAll_ok : forall vs ex (L : nat -> Prop) s minv, qok ex s -> lok L s -> (g s) mod 2 = 0 -> minv_ok (g s) minv ->
  let s' := gcMarkAll s vs minv in
  mrel ex L s s' /\ qok ex s' /\
  (forall a, In (Ptr a) vs -> L a -> 0 < D s' a /\ (minv <> 0 -> dist (g s) minv <= D s' a)).
Proof.
  induction vs as [|v vs IH]; intros ex L s minv Q HL Hg Hm; cbv zeta.
  - cbn. split; [now apply mrel_refl|]. split; [exact Q|]. contradiction.
  - change (gcMarkAll s (v :: vs) minv) with (gcMarkAll (gcMark s v minv) vs minv).
    destruct (gcMark_ok ex L s v minv Q HL Hg Hm) as (H1 & H2 & H3).
    assert (Eg : g (gcMark s v minv) = g s) by (apply (st_g _ _ (m_static _ _ _ _ H1))).
    destruct (IH ex L (gcMark s v minv) minv H2 (mrel_lok _ _ _ _ H1 HL)) as (H4 & H5 & H6); [congruence|congruence|].
    split; [eapply mrel_trans; eassumption|]. split; [exact H5|].
    intros a [->|Hin] La.
    + destruct (H3 a eq_refl La) as [P1 P2]. destruct (m_mono _ _ _ _ H4 a La) as [M _].
      split; [lia|]. intro Hn. specialize (P2 Hn). lia.
    + rewrite <- Eg. now apply H6.
Qed.

(** Marking leaves the remembered set alone. *)
Definition keepr (s s' : st) : Prop :=
  rset s' = rset s /\ forall a, o_inrset (heap s' a) = o_inrset (heap s a).

Lemma keepr_gcMark : forall s v minv, keepr s (gcMark s v minv).
Proof.
  intros s [|a] minv; [split; auto|]. unfold gcMark. destruct (is_inuse _ _); [|split; auto].
  unfold markObject. cbv zeta.
  repeat match goal with |- context [if ?b then _ else _] => destruct b end;
    (split; [reflexivity|]); intro x; cbn; unfold upd; destruct (Nat.eqb_spec x a); subst; reflexivity.
Qed.
Lemma keepr_gcMarkAll : forall vs s minv, keepr s (gcMarkAll s vs minv).
Proof.
  induction vs as [|v vs IH]; intros s minv; [split; auto|].
  change (gcMarkAll s (v :: vs) minv) with (gcMarkAll (gcMark s v minv) vs minv).
  destruct (keepr_gcMark s v minv) as [A B]. destruct (IH (gcMark s v minv) minv) as [A' B'].
  split; [congruence|]. intro a. now rewrite B'.
Qed.

(** ** white-path protection *)
Inductive prot (L : nat -> Prop) (s : st) (Q : list nat) : nat -> Prop :=
| prot_gray : forall q c, In q Q -> In (Ptr c) (o_fields (heap s q)) -> L q -> L c -> D s c = 0 -> prot L s Q c
| prot_white : forall b c, prot L s Q b -> In (Ptr c) (o_fields (heap s b)) -> L c -> D s c = 0 -> prot L s Q c.

Lemma prot_L : forall (L : nat -> Prop) s Q c, prot L s Q c -> L c /\ D s c = 0.
Proof. intros L s Q c []; auto. Qed.

Lemma prot_mrel : forall ex (L : nat -> Prop) s s' c, mrel ex L s s' -> lok L s -> prot L s (ex ++ queue s) c ->
  0 < D s' c \/ prot L s' (ex ++ queue s') c.
Proof.
  intros ex L s s' c M HL H. pose proof (m_static _ _ _ _ M) as ST.
  assert (Hf : forall a, o_fields (heap s' a) = o_fields (heap s a)) by (intro a; apply (st_obj _ _ ST a)).
  destruct (m_queue _ _ _ _ M) as [e He].
  assert (Hq : forall a, In a (ex ++ queue s) -> In a (ex ++ queue s')).
  { intros a Ha. rewrite He, app_assoc. apply in_or_app. now left. }
  assert (Hg : g s' = g s) by apply ST.
  induction H as [q c Hin Hc Lq Lc D0 | b c Hb IH Hc Lc D0].
  - destruct (m_mono _ _ _ _ M c Lc). destruct (Z.eq_dec (D s' c) 0) as [E|E]; [|left; lia].
    right. eapply prot_gray; [apply Hq; exact Hin|now rewrite Hf|exact Lq|exact Lc|exact E].
  - destruct (m_mono _ _ _ _ M c Lc). destruct (Z.eq_dec (D s' c) 0) as [E|E]; [|left; lia].
    right. destruct IH as [P|P].
    + (* b got marked, so it is in the queue *)
      destruct (prot_L _ _ _ _ Hb) as [Lb Db].
      eapply prot_gray with (q := b); [|now rewrite Hf|exact Lb|exact Lc|exact E].
      destruct (m_ver _ _ _ _ M b) as [Ev|]; [|assumption].
      exfalso. unfold D in P, Db. rewrite Hg, Ev in P. lia.
    + eapply prot_white; [exact P|now rewrite Hf|exact Lc|exact E].
Qed.

(** ** the invariant *)
Definition up (x : Z) : Z := x + x mod 2.

Record common (L : nat -> Prop) (s : st) : Prop := {
  c_even : (g s) mod 2 = 0;
  c_pos : 2 <= g s;
  c_lok : lok L s;
  c_fields : forall a b, L a -> In (Ptr b) (o_fields (heap s a)) -> L b;
  c_mut : forall b, In (Ptr b) (mut s) -> L b;
  c_rset : forall a, In a (rset s) -> L a;
  c_rset_nodup : NoDup (rset s);
  c_inrset : forall a, L a -> (o_inrset (heap s a) = true <-> In a (rset s));
  c_qok : qok [] s
}.

Definition inv_none (L : nat -> Prop) (s : st) : Prop :=
  queue s = [] /\
  (forall a c, L a -> In (Ptr c) (o_fields (heap s a)) -> D s a <= D s c \/ In a (rset s)).

Definition inv_inc (L : nat -> Prop) (s : st) : Prop :=
  (forall a, In a (rset s) -> 0 < D s a) /\
  (forall a c, L a -> is_odd (ver s a) = false -> 0 < D s a -> In (Ptr c) (o_fields (heap s a)) ->
     (0 < D s c \/ prot L s (queue s) c) /\
     (In a (rset s) \/ D s a <= up (D s c) \/ D s a <= 2)) /\
  (forall c, In (Ptr c) (mut s) -> 0 < D s c \/ prot L s (queue s) c).

Definition inv_sweep (L : nat -> Prop) (s : st) : Prop :=
  queue s = [] /\
  (forall a, In a (rset s) -> 0 < D s a) /\
  (forall c, In (Ptr c) (mut s) -> 0 < D s c) /\
  (forall a c, L a -> 0 < D s a -> In (Ptr c) (o_fields (heap s a)) ->
     0 < D s c /\ (In a (rset s) \/ D s a <= D s c)).

Definition inv (L : nat -> Prop) (s : st) : Prop :=
  common L s /\
  match ph s with PNone => inv_none L s | PInc => inv_inc L s | PSweep => inv_sweep L s end.
