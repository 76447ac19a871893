(** Sweeping and the flip preserve the allocator invariant. *)
From Coq Require Import ZArith Bool List Lia Arith.
From Verif Require Import Base ListLib GcModel GcProofs AllocModel AllocProofs AllocInv.
Import ListNotations.
Open Scope Z_scope.
Ltac Zify.zify_post_hook ::= Z.div_mod_to_equations.

(** ** sweeping *)
(** what sweeping may do to a cell: a header not in use becomes unused *)
Definition swept_to (g : Z) (c c' : cell) : Prop :=
  c' = c \/ exists t v, c = CHdr t v /\ c' = CHdr false v /\ (t = true -> inuse_h g v = false).

Lemma sweep_cell_ok : forall g c, (forall b o, c <> CPtr b o) ->
  exists c', sweep_cell g c = Ok c' /\ swept_to g c c' /\ swept_c g c'.
Proof.
  intros g c H. unfold sweep_cell. destruct (inuse_at_h g c H) as (u & -> & U0 & _). cbn [obind].
  eexists. split; [reflexivity|]. destruct c as [|t v|b o]; [| |edestruct H; reflexivity].
  - destruct (u =? 0); split; try (left; reflexivity); exact Logic.I.
  - destruct (Z.eqb_spec u 0) as [E|E].
    + split; [right; exists t, v; repeat split; auto|exact Logic.I]. intros ->. now apply U0.
    + split; [left; reflexivity|]. destruct t; [|exact Logic.I]. cbn [swept_c].
      destruct (inuse_h g v) eqn:E2; [reflexivity|]. exfalso. apply E. now apply U0.
Qed.

Lemma sweep_loop_ok : forall fuel g cls j m, 16 <= cls <= 4096 -> 0 <= j -> j mod cls = 0 -> (1 <= fuel)%nat -> 4096 - j < (Z.of_nat fuel - 1) * 16 ->
  (forall off, match m off with CZero => True | CPtr _ _ => False | CHdr _ _ => slot_off cls off end) ->
  exists m', sweep_loop fuel g cls j m = Ok m' /\ (forall off, swept_to g (m off) (m' off)) /\
    (forall off, off < j -> m' off = m off) /\ (forall off, j <= off -> swept_c g (m' off)).
Proof.
  induction fuel as [|fuel IH]; intros g cls j m Hc Hj Hm H1 Hf Hs; cbn [sweep_loop].
  - lia.
  - change MEM_BLOCK_SIZE with 4096. destruct (Z.ltb_spec j 4096) as [Hlt|Hge].
    + destruct (sweep_cell_ok g (m j)) as (c & E & A & B).
      { intros b o Eq. specialize (Hs j). rewrite Eq in Hs. exact Hs. }
      rewrite E. cbn [obind].
      destruct (IH g cls (j + cls) (mset m j c) Hc ltac:(lia)) as (m' & E' & P1 & P2 & P3).
      * rewrite <- (Z.mul_1_l cls) at 1. rewrite Z.mod_add by lia. exact Hm.
      * lia.
      * lia.
      * intro off. destruct (Z.eq_dec off j) as [->|Hne]; [rewrite mset_same|rewrite mset_other by auto; apply Hs].
        destruct A as [->|(t & v & E1 & -> & _)]; [apply Hs|]. specialize (Hs j). rewrite E1 in Hs. exact Hs.
      * exists m'. split; [exact E'|]. split; [|split].
        -- intro off. destruct (Z.eq_dec off j) as [->|Hne].
           ++ rewrite (P2 j) by lia. rewrite mset_same. exact A.
           ++ specialize (P1 off). rewrite mset_other in P1 by auto. exact P1.
        -- intros off Ho. rewrite P2 by lia. apply mset_other. lia.
        -- intros off Ho. destruct (Z_lt_le_dec off (j + cls)) as [H2|H2]; [|auto].
           rewrite P2 by auto. destruct (Z.eq_dec off j) as [->|Hne]; [rewrite mset_same; exact B|].
           rewrite mset_other by auto. specialize (Hs off). destruct (m off) as [|t v|]; [exact Logic.I| |exact Logic.I].
           exfalso. destruct Hs as (_ & Hs & _). assert (0 < off - j < cls) by lia.
           assert ((off - j) mod cls = 0) by (rewrite Zminus_mod, Hs, Hm; apply Zmod_0_l).
           rewrite Z.mod_small in H0 by lia. lia.
    + exists m. split; [reflexivity|]. split; [left; reflexivity|]. split; [reflexivity|].
      intros off Ho. specialize (Hs off). destruct (m off) as [|t v|]; try exact Logic.I.
      exfalso. destruct Hs as (_ & _ & X). lia.
Qed.

Lemma upto_next : forall l b x, NoDup l -> In b l -> In x (upto l (next_in l b)) -> x = b \/ In x (upto l (Some b)).
Proof.
  induction l as [|y l IH]; intros b x ND Hb Hx; [contradiction|].
  inversion ND as [|? ? N1 N2]; subst. cbn [next_in upto] in *. destruct (Nat.eqb_spec y b) as [->|Hne].
  - left. destruct l as [|z l]; cbn in Hx.
    + destruct Hx as [<-|[]]; reflexivity.
    + destruct (Nat.eqb_spec b z) as [->|]; [contradiction|]. rewrite Nat.eqb_refl in Hx. destruct Hx as [<-|[]]; reflexivity.
  - destruct Hb as [|Hb]; [contradiction|].
    assert (Hy : match next_in l b with Some z => Nat.eqb y z | None => false end = false).
    { destruct (next_in l b) as [z|] eqn:E; [|reflexivity]. apply Nat.eqb_neq. intros ->. apply N1.
      clear - E. induction l as [|w l IH]; [discriminate|]. cbn in E. destruct (Nat.eqb w b); [destruct l; [discriminate|]; injection E as ->; right; now left|right; auto]. }
    rewrite Hy in Hx. destruct Hx as [<-|Hx]; [right; now left|]. destruct (IH b x N2 Hb Hx); auto. right. now right.
Qed.
Lemma next_in_In : forall l b y, next_in l b = Some y -> In y l.
Proof.
  induction l as [|w l IH]; intros b y E; [discriminate|]. cbn in E.
  destruct (Nat.eqb w b); [destruct l; [discriminate|]; injection E as ->; right; now left|right; eauto].
Qed.
Lemma upto_none : forall l, upto l None = l.
Proof. induction l as [|x l IH]; [reflexivity|]. cbn. now rewrite IH. Qed.
Lemma upto_hd_error : forall l, upto l (hd_error l) = [].
Proof. intros [|x l]; [reflexivity|]. cbn. now rewrite Nat.eqb_refl. Qed.

Lemma ainv_wpg : forall q s p pb, ainv noex q s ->
  (a_ph s = PSweep -> forall i b off, ((i < p)%nat /\ In b (a_cls s i) \/ i = p /\ In b (upto (a_cls s i) pb)) -> swept_c (a_g s) (b_mem (a_blk s b) off)) ->
  (a_ph s = PSweep -> forall b, pb = Some b -> (p < 19)%nat /\ In b (a_cls s p)) ->
  ainv noex q (wpg s p pb).
Proof.
  intros q s p pb I H1 H2. destruct I. constructor; auto.
  intros P i b off Hx. right. now apply (H1 P i).
Qed.

Lemma cls_19 : forall ex q s i, ainv ex q s -> (19 <= i)%nat -> a_cls s i = [].
Proof.
  intros ex q s i I Hi. destruct (a_cls s i) as [|x l] eqn:E; [reflexivity|].
  destruct (i_cls _ _ _ I i x) as (_ & X & _); [rewrite E; now left|].
  assert (nth_error sizeClass i = None) by (apply nth_error_None; exact Hi). congruence.
Qed.

Definition sweep_frame (s s' : ast) : Prop :=
  a_g s' = a_g s /\ a_ph s' = a_ph s /\ a_cls s' = a_cls s /\ a_n s' = a_n s /\
  forall x, b_class (a_blk s' x) = b_class (a_blk s x) /\
    forall off, swept_to (a_g s) (b_mem (a_blk s x) off) (b_mem (a_blk s' x) off).

Lemma sweep_block_ok : forall q s b, ainv noex q s -> a_ph s = PSweep -> (a_pos s < 19)%nat -> In b (a_cls s (a_pos s)) ->
  exists blk, sweep_block (a_g s) (a_blk s b) = Ok blk /\ ainv noex q (wblk s (bset (a_blk s) b blk)) /\
    (forall off, swept_c (a_g s) (b_mem blk off)) /\ sweep_frame s (wblk s (bset (a_blk s) b blk)).
Proof.
  intros q s b I Hp Hpos Hin. destruct (i_cls _ _ _ I _ b Hin) as (Hb & Ec & Hc).
  destruct (class_cases _ _ Ec Hc) as (Hcr & _ & _).
  destruct (i_mem _ _ _ I b Hb Hc) as (_ & Hm).
  assert (Hcur : b_curr (a_blk s b) mod b_class (a_blk s b) = 0 /\ 0 <= b_curr (a_blk s b) <= 4096 /\
     forall off, off < b_curr (a_blk s b) -> swept_c (a_g s) (b_mem (a_blk s b) off)).
  { destruct (a_cls s (a_pos s)) as [|h r] eqn:El; [contradiction|]. destruct (i_curr _ _ _ I _ h r El) as (A1 & A2 & A3).
    destruct Hin as [->|Hin].
    - split; [exact A1|]. split; [exact A2|]. intros off Ho. destruct (i_head _ _ _ I _ b r El off Ho) as [[]|S1].
      unfold seen in S1. unfold swept_c. destruct (b_mem (a_blk s b) off) as [|[|] v|]; try exact Logic.I. apply S1.
    - rewrite (A3 b Hin). split; [apply Zmod_0_l|]. split; [lia|].
      intros off Ho. specialize (Hm off). destruct (b_mem (a_blk s b) off) as [|[|] v|]; try exact Logic.I.
      exfalso. destruct Hm as (X & _). lia. }
  destruct Hcur as (C1 & C2 & C3).
  unfold sweep_block. generalize (eq_refl 258%nat). generalize 258%nat at 1 3. intros fuel Ef.
  destruct (sweep_loop_ok fuel (a_g s) _ (b_curr (a_blk s b)) (b_mem (a_blk s b)) Hcr ltac:(lia) C1) as (m' & E & P1 & P2 & P3).
  { subst fuel. lia. }
  { subst fuel. lia. }
  { exact Hm. }
  rewrite E. cbn [obind]. eexists. split; [reflexivity|].
  assert (SW : forall off, swept_c (a_g s) (m' off)).
  { intro off. destruct (Z_lt_le_dec off (b_curr (a_blk s b))); [rewrite P2 by auto; auto|auto]. }
  assert (SN : forall o, seen (a_g s) (b_touch (a_blk s b)) (b_mem (a_blk s b) o) -> seen (a_g s) (b_touch (a_blk s b)) (m' o)).
  { intros o Ho. destruct (P1 o) as [->|(t & v & _ & -> & _)]; [exact Ho|exact Logic.I]. }
  split; [|split; [exact SW|]].
  - apply ainv_upd with (ex := noex); auto; cbn [with_mem b_class b_curr b_touch b_mem].
    + intros i Hi. destruct (a_cls s i) as [|h r] eqn:El; [contradiction|]. cbn in Hi.
      destruct (i_curr _ _ _ I i h r El) as (_ & _ & X). auto.
    + intro off. specialize (Hm off). destruct (P1 off) as [->|(t & v & E1 & -> & _)]; [exact Hm|]. now rewrite E1 in Hm.
    + intros Hn. exfalso. now apply (Hn (a_pos s)).
    + intros i r El o Ho. right. apply SN. destruct (i_head _ _ _ I i b r El o Ho) as [[]|X]; exact X.
  - repeat split; auto.
    + cbn. destruct (Nat.eq_dec x b) as [->|]; [now rewrite bset_same|now rewrite bset_other].
    + intro off. cbn. destruct (Nat.eq_dec x b) as [->|]; [rewrite bset_same; apply P1|rewrite bset_other by auto; left; reflexivity].
Qed.

Lemma sweepSizeClass_ok : forall fuel q s, ainv noex q s -> a_ph s = PSweep -> (19 - a_pos s < fuel)%nat ->
  exists s', sweepSizeClass fuel s = Ok s' /\ ainv noex q s' /\ sweep_frame s s'.
Proof.
  induction fuel as [|fuel IH]; intros q s I Hp Hf; [lia|]. cbn [sweepSizeClass]. change sizeClassSZ with 19%nat.
  assert (FR : sweep_frame s s) by (repeat split; auto; left; reflexivity).
  destruct (Nat.ltb_spec (a_pos s) 19) as [Hlt|Hge]; [|eauto].
  destruct (a_pb s) as [b|] eqn:Epb.
  - destruct (i_pb _ _ _ I Hp b Epb) as [_ Hin].
    destruct (sweep_block_ok q s b I Hp Hlt Hin) as (blk & E & I1 & SW & F). rewrite E. cbn [obind].
    eexists. split; [reflexivity|]. split; [|exact F].
    set (s1 := wblk s (bset (a_blk s) b blk)) in *. apply ainv_wpg; auto.
    + intros _ i x off [[Hi Hx]|[-> Hx]].
      * destruct (i_sweep _ _ _ I1 Hp i x off) as [[]|X]; auto.
      * apply upto_next in Hx; [|apply (i_nodup _ _ _ I)|exact Hin]. destruct Hx as [->|Hx].
        -- unfold s1. cbn. rewrite bset_same. apply SW.
        -- destruct (i_sweep _ _ _ I1 Hp (a_pos s) x off) as [[]|X]; auto. right. split; [reflexivity|].
           change (a_pb s1) with (a_pb s). rewrite Epb. exact Hx.
    + intros _ x Hx. split; [exact Hlt|]. now apply next_in_In in Hx.
  - set (pb := if Nat.ltb (S (a_pos s)) 19 then hd_error (a_cls s (S (a_pos s))) else None).
    assert (I1 : ainv noex q (wpg s (S (a_pos s)) pb)).
    { apply ainv_wpg; auto.
      - intros _ i x off H.
        assert (K : (i < a_pos s)%nat /\ In x (a_cls s i) \/ i = a_pos s /\ In x (upto (a_cls s i) (a_pb s))).
        { destruct H as [[Hi Hx]|[-> Hx]].
          - destruct (Nat.eq_dec i (a_pos s)) as [->|]; [right; split; [reflexivity|]; now rewrite Epb, upto_none|left; split; [lia|exact Hx]].
          - exfalso. unfold pb in Hx. destruct (Nat.ltb_spec (S (a_pos s)) 19); [now rewrite upto_hd_error in Hx|].
            rewrite (cls_19 _ _ _ _ I H) in Hx. contradiction. }
        destruct (i_sweep _ _ _ I Hp i x off K) as [[]|X]; exact X.
      - intros _ x Hx. unfold pb in Hx. destruct (Nat.ltb_spec (S (a_pos s)) 19); [|discriminate].
        split; [exact H|]. destruct (a_cls s (S (a_pos s))); [discriminate|]. injection Hx as ->. now left. }
    destruct (IH q _ I1 Hp) as (s' & E & I' & F); [cbn [wpg a_pos]; lia|]. eexists. split; [exact E|]. auto.
Qed.

(** ** flip *)
Lemma touch_list_ok : forall l s x, a_blk (touch_list s l) x = (if in_dec Nat.eq_dec x l then with_touch (a_blk s x) else a_blk s x) /\
  touch_list s l = wblk s (a_blk (touch_list s l)).
Proof.
  induction l as [|y l IH]; intros s x; cbn [touch_list fold_left].
  - split; [reflexivity|]. now destruct s.
  - fold (touch_list (wblk s (bset (a_blk s) y (with_touch (a_blk s y)))) l).
    set (s1 := wblk s (bset (a_blk s) y (with_touch (a_blk s y)))). destruct (IH s1 x) as [A B]. split.
    + rewrite A. unfold s1. cbn [wblk a_blk]. destruct (Nat.eq_dec y x) as [->|Hne].
      * rewrite bset_same. destruct (in_dec Nat.eq_dec x l); destruct (in_dec Nat.eq_dec x (x :: l)) as [|N]; try reflexivity; exfalso; apply N; now left.
      * rewrite bset_other by auto. destruct (in_dec Nat.eq_dec x l) as [i|i]; destruct (in_dec Nat.eq_dec x (y :: l)) as [j|j]; try reflexivity; exfalso.
        -- apply j. now right.
        -- destruct j; [contradiction|]. contradiction.
    + rewrite B at 1. reflexivity.
Qed.

Definition touched (i : nat) (s t : ast) : Prop :=
  a_g t = a_g s /\ a_n t = a_n s /\ a_free t = a_free s /\ a_gray t = a_gray s /\
  (forall j, (j < i)%nat -> a_cls t j = []) /\ (forall j, (i <= j)%nat -> a_cls t j = a_cls s j) /\
  (forall x, (a_blk t x = a_blk s x /\ forall j, (j < i)%nat -> ~ In x (a_cls s j)) \/
             (a_blk t x = with_touch (a_blk s x) /\ exists j, (j < i)%nat /\ In x (a_cls s j))).
Lemma touch_classes_ok : forall i s, touched i s (touch_classes s i).
Proof.
  induction i as [|i IH]; intros s.
  - unfold touched. repeat split; auto; try (intros; lia). intro x. left. split; [reflexivity|intros; lia].
  - destruct (IH s) as (E1 & E2 & E3 & E4 & E5 & E6 & E7). unfold touched. cbn [touch_classes].
    set (t0 := touch_classes s i) in *.
    destruct (touch_list_ok (a_cls t0 i) t0 0%nat) as [_ B]. rewrite B.
    cbn [wcls wblk a_g a_n a_free a_gray a_cls a_blk]. repeat split; auto.
    + intros j Hj. destruct (Nat.eq_dec j i) as [->|]; [apply cset_same|rewrite cset_other by auto; apply E5; lia].
    + intros j Hj. rewrite cset_other by lia. apply E6. lia.
    + intro x. destruct (touch_list_ok (a_cls t0 i) t0 x) as [A _]. rewrite A, (E6 i) by lia.
      destruct (in_dec Nat.eq_dec x (a_cls s i)) as [Hin|Hin].
      * right. split; [|exists i; split; [lia|exact Hin]]. destruct (E7 x) as [[-> _]|[-> _]]; [reflexivity|]. now destruct (a_blk s x).
      * destruct (E7 x) as [[-> N]|[-> (j & Hj & X)]].
        -- left. split; [reflexivity|]. intros j Hj. destruct (Nat.eq_dec j i) as [->|]; [exact Hin|apply N; lia].
        -- right. split; [reflexivity|]. exists j. split; [lia|exact X].
Qed.

(** result of recycling one block *)
Definition after (b : block) : block :=
  if b_class b =? 0 then b
  else if b_touch b then with_curr b 0 else mkB 0 0 false zmem.
Definition kept (b : block) : Prop := b_class b <> 0 /\ b_touch b = true.
Definition freed (b : block) : Prop := b_class b <> 0 /\ b_touch b = false.

Record recycled (t : ast) (done : list nat) (s : ast) : Prop := {
  r_g : a_g s = a_g t; r_n : a_n s = a_n t; r_gray : a_gray s = a_gray t;
  r_in : forall x, In x done -> a_blk s x = after (a_blk t x);
  r_out : forall x, ~ In x done -> a_blk s x = a_blk t x;
  r_free : forall x, In x (a_free s) <-> In x (a_free t) \/ (In x done /\ freed (a_blk t x));
  r_fnd : NoDup (a_free s);
  r_cls : forall x i, In x (a_cls s i) <-> (In x done /\ kept (a_blk t x) /\ nth_error sizeClass i = Some (b_class (a_blk t x)));
  r_cnd : forall i, NoDup (a_cls s i)
}.

Lemma recycle_ok : forall t done s b, recycled t done s -> ~ In b done ->
  (b_class (a_blk t b) <> 0 -> (exists i, nth_error sizeClass i = Some (b_class (a_blk t b))) /\ ~ In b (a_free t)) ->
  exists s', recycle s b = Ok s' /\ recycled t (b :: done) s'.
Proof.
  intros t done s b R Hb Hok. pose proof (r_out _ _ _ R b Hb) as Eb. unfold recycle. rewrite Eb.
  destruct (Z.eqb_spec (b_class (a_blk t b)) 0) as [Ec|Ec].
  - exists s. split; [reflexivity|]. destruct R. constructor; auto.
    + intros x [<-|Hx]; [|auto]. rewrite Eb. unfold after. now rewrite Ec.
    + intros x Hx. apply r_out0. intro. apply Hx. now right.
    + intro x. rewrite r_free0. split; intros [H|[H1 H2]]; auto.
      * right. split; [now right|auto].
      * destruct H1 as [<-|H1]; [destruct H2; contradiction|auto].
    + intros x i. rewrite r_cls0. split; intros (H1 & H2 & H3); repeat split; auto; try apply H2.
      * now right.
      * destruct H1 as [<-|H1]; [destruct H2; contradiction|auto].
  - destruct (Hok Ec) as [(i & Hi) Nf]. destruct (b_touch (a_blk t b)) eqn:Et; cbn [negb].
    + destruct (class_cases i _ Hi Ec) as (Hr & Es & Hi'). rewrite Es. cbn [obind]. rewrite Nat2Z.id, Hi, Z.eqb_refl. cbn [assertT].
      eexists. split; [reflexivity|]. destruct R. constructor; auto; cbn [wcls wblk a_blk a_cls].
      * intros x Hx. destruct (Nat.eq_dec x b) as [->|].
        -- rewrite bset_same. unfold after. destruct (Z.eqb_spec (b_class (a_blk t b)) 0); [contradiction|]. now rewrite Et.
        -- rewrite bset_other by auto. apply r_in0. destruct Hx; [congruence|auto].
      * intros x Hx. rewrite bset_other by (intros ->; apply Hx; now left). apply r_out0. intro. apply Hx. now right.
      * intro x. cbn [wcls wblk a_free]. rewrite r_free0. split; intros [H|[H1 H2]]; auto.
        -- right. split; [now right|auto].
        -- destruct H1 as [<-|H1]; [destruct H2; congruence|auto].
      * intros x j. destruct (Nat.eq_dec j i) as [->|Hj].
        -- rewrite cset_same. split.
           ++ intros [<-|H]; [repeat split; auto; now left|]. apply r_cls0 in H. destruct H as (H1 & H2 & H3). repeat split; auto; try apply H2. now right.
           ++ intros ([<-|H1] & H2 & H3); [now left|]. right. now apply r_cls0.
        -- rewrite cset_other by auto. rewrite r_cls0. split.
           ++ intros (H1 & H2 & H3). repeat split; auto; try apply H2. now right.
           ++ intros ([<-|H1] & H2 & H3); [|auto]. exfalso. apply Hj. eapply class_inj; eauto.
      * intro j. destruct (Nat.eq_dec j i) as [->|Hj]; [rewrite cset_same|now rewrite cset_other].
        constructor; [|auto]. intro H. apply r_cls0 in H. destruct H as (H & _). contradiction.
    + unfold blockReset. cbn [wblk a_blk]. rewrite bset_same. cbn [with_class with_curr b_class b_curr Z.eqb negb orb].
      cbn [negb assertT andb].
      eexists. split; [reflexivity|]. destruct R. constructor; auto; cbn [wfree wblk a_blk a_cls a_free a_gray].
      * intros x Hx. destruct (Nat.eq_dec x b) as [->|].
        -- rewrite bset_same. unfold after. destruct (Z.eqb_spec (b_class (a_blk t b)) 0); [contradiction|]. rewrite Et.
           unfold with_mem, with_class, with_curr. cbn [b_touch]. now rewrite Et.
        -- rewrite !bset_other by auto. apply r_in0. destruct Hx; [congruence|auto].
      * intros x Hx. rewrite !bset_other by (intros ->; apply Hx; now left). apply r_out0. intro. apply Hx. now right.
      * intro x. split.
        -- intros [<-|H]; [right; split; [now left|split; auto]|]. apply r_free0 in H. destruct H as [H|[H1 H2]]; [auto|right; split; [now right|auto]].
        -- intros [H|[[<-|H1] H2]]; [right|now left|right]; apply r_free0; auto.
      * constructor; [|auto]. intro H. apply r_free0 in H. destruct H as [H|[H _]]; contradiction.
      * intros x j. rewrite r_cls0. split.
        -- intros (H1 & H2 & H3). repeat split; auto; try apply H2. now right.
        -- intros ([<-|H1] & H2 & H3); [destruct H2; congruence|auto].
Qed.

Lemma recycle_all_ok : forall order t done s, recycled t done s -> NoDup order -> (forall x, In x order -> ~ In x done) ->
  (forall b, In b order -> b_class (a_blk t b) <> 0 -> (exists i, nth_error sizeClass i = Some (b_class (a_blk t b))) /\ ~ In b (a_free t)) ->
  exists s' done', recycle_all s order = Ok s' /\ recycled t done' s' /\ forall x, In x done' <-> In x done \/ In x order.
Proof.
  induction order as [|b order IH]; intros t done s R ND Hd Hok; cbn [recycle_all].
  - exists s, done. cbn. intuition.
  - inversion ND as [|? ? N1 N2]; subst.
    destruct (recycle_ok t done s b R) as (s1 & E & R1); [apply Hd; now left|intro; apply Hok; [now left|auto]|].
    rewrite E. cbn [obind]. destruct (IH t (b :: done) s1 R1 N2) as (s' & d' & E' & R' & K).
    + intros x Hx [<-|H]; [contradiction|]. eapply Hd; [right; exact Hx|exact H].
    + intros x Hx. apply Hok. now right.
    + exists s', d'. split; [exact E'|]. split; [exact R'|]. intro x. rewrite K. cbn. intuition.
Qed.

Definition flip_frame (s s' : ast) : Prop :=
  a_g s' = a_g s + 2 /\ a_ph s' = PNone /\ a_n s' = a_n s /\
  forall x off v, b_class (a_blk s x) <> 0 -> (x < a_n s)%nat -> b_mem (a_blk s x) off = CHdr true v -> inuse_h (a_g s + 2) v = true ->
    b_class (a_blk s' x) = b_class (a_blk s x) /\ b_mem (a_blk s' x) = b_mem (a_blk s x).

Definition flip_rest (s1 : ast) : ast :=
  mkA (a_g s1 + 2) PNone (a_blk s1) (a_n s1) (a_free s1) (a_cls s1) (a_gray s1) (a_start s1) (a_end s1) (a_pos s1) (a_pb s1).
Lemma flip_core : forall s t order, touched 19 s t -> ainv noex [] (wph s PNone) -> NoDup order -> (forall b, In b order <-> (b < a_n s)%nat) ->
  exists s', (do! s1 <- recycle_all t order; Ok (flip_rest s1)) = Ok s' /\ ainv noex [] s' /\ flip_frame s s'.
Proof.
  intros s t order (T1 & T2 & T3 & T4 & T5 & T6 & T7) I ND Ho. unfold flip_rest.
  assert (Cn : forall j, a_cls t j = []).
  { intro j. destruct (Nat.lt_ge_cases j 19); [auto|]. rewrite T6 by auto. apply (cls_19 _ _ _ _ I H). }
  assert (TB : forall x, b_class (a_blk t x) = b_class (a_blk s x) /\ b_curr (a_blk t x) = b_curr (a_blk s x) /\ b_mem (a_blk t x) = b_mem (a_blk s x)).
  { intro x. destruct (T7 x) as [[-> _]|[-> _]]; auto. }
  assert (TF : forall x, In x (a_free s) -> a_blk t x = a_blk s x).
  { intros x Hx. destruct (T7 x) as [[-> _]|[_ (j & _ & Hj)]]; [reflexivity|].
    apply (i_free _ _ _ I) in Hx. apply (i_cls _ _ _ I) in Hj. exfalso. destruct Hx as (_ & X & _). destruct Hj as (_ & _ & Y). contradiction. }
  pose proof (i_q _ _ _ I) as Q. cbn in Q. destruct Q as [Egr _].
  assert (R0 : recycled t [] t).
  { constructor; auto.
    - intros x [].
    - intro x. split; [auto|intros [|[[] _]]; auto].
    - rewrite T3. pose proof (i_nd _ _ _ I) as X. cbn in X. rewrite Egr, app_nil_r in X. exact X.
    - intros x i. rewrite Cn. cbn. intuition.
    - intro i. rewrite Cn. constructor. }
  destruct (recycle_all_ok order t [] t R0 ND) as (s' & d & E & R & Kd).
  { intros x _ []. }
  { intros b Hb Hc. destruct (TB b) as (X & _). rewrite X in *. split.
    - destruct (i_mem _ _ _ I b) as (Y & _); auto. now apply Ho.
    - rewrite T3. intro Hf. apply (i_free _ _ _ I) in Hf. destruct Hf as (_ & Y & _). contradiction. }
  rewrite E. cbn [obind]. eexists. split; [reflexivity|].
  assert (Kd' : forall x, In x d <-> (x < a_n s)%nat) by (intro x; rewrite Kd, Ho; cbn; intuition).
  assert (AF : forall x, (x < a_n s)%nat -> a_blk s' x = after (a_blk t x)) by (intros x Hx; apply (r_in _ _ _ R); now apply Kd').
  assert (AO : forall x, (a_n s <= x)%nat -> a_blk s' x = a_blk t x).
  { intros x Hx. apply (r_out _ _ _ R). rewrite Kd'. lia. }
  assert (Kp : forall x, b_class (a_blk t x) <> 0 -> kept (a_blk t x) \/ freed (a_blk t x)).
  { intros x Hx. unfold kept, freed. destruct (b_touch (a_blk t x)); auto. }
  assert (AK : forall x, kept (a_blk t x) -> after (a_blk t x) = with_curr (a_blk t x) 0).
  { intros x [H1 H2]. unfold after. destruct (Z.eqb_spec (b_class (a_blk t x)) 0); [contradiction|]. now rewrite H2. }
  assert (AFr : forall x, freed (a_blk t x) -> after (a_blk t x) = mkB 0 0 false zmem).
  { intros x [H1 H2]. unfold after. destruct (Z.eqb_spec (b_class (a_blk t x)) 0); [contradiction|]. now rewrite H2. }
  assert (A0 : forall x, b_class (a_blk t x) = 0 -> after (a_blk t x) = a_blk t x).
  { intros x H. unfold after. now rewrite H. }
  assert (Cls : forall i x, In x (a_cls s' i) -> (x < a_n s)%nat /\ a_blk s' x = with_curr (a_blk t x) 0 /\ kept (a_blk t x) /\ nth_error sizeClass i = Some (b_class (a_blk t x))).
  { intros i x Hx. apply (r_cls _ _ _ R) in Hx. destruct Hx as (H1 & H2 & H3). apply Kd' in H1. rewrite AF, AK by auto. auto. }
  assert (Kc : forall x, (x < a_n s)%nat -> b_class (a_blk s' x) <> 0 -> kept (a_blk t x)).
  { intros x Hx Hc. rewrite AF in Hc by auto. destruct (Z.eq_dec (b_class (a_blk t x)) 0) as [E0|E0]; [rewrite A0 in Hc by auto; contradiction|].
    destruct (Kp x E0) as [K|K]; [exact K|]. rewrite AFr in Hc by auto. cbn in Hc. contradiction. }
  assert (Neg : forall x off, (x < a_n s)%nat -> b_class (a_blk s x) <> 0 -> off < 0 -> forall tt v, b_mem (a_blk s x) off <> CHdr tt v).
  { intros x off Hx Hc Hoff tt v Em. destruct (i_mem _ _ _ I x Hx Hc) as (_ & M). specialize (M off). cbn in M. rewrite Em in M. destruct M. lia. }
  split.
  - constructor; cbn [a_g a_ph a_blk a_n a_free a_cls a_gray a_start a_end a_pos a_pb];
      rewrite ?(r_g _ _ _ R), ?(r_n _ _ _ R), ?(r_gray _ _ _ R), ?T1, ?T2, ?T4, ?Egr, ?app_nil_r; auto.
    + pose proof (i_g _ _ _ I) as X. cbn in X. lia.
    + apply R.
    + intros b Hb. apply (r_free _ _ _ R) in Hb. rewrite T3 in Hb. destruct Hb as [Hb|[Hb1 Hb2]].
      * destruct (i_free _ _ _ I b Hb) as (X1 & X2 & X3 & X4 & X5). cbn in X1, X2, X3, X4, X5.
        rewrite AF by auto. rewrite (TF b Hb). unfold after. rewrite X2. cbn [Z.eqb]. auto.
      * apply Kd' in Hb1. rewrite AF, AFr by auto. cbn. auto.
    + intros b [].
    + intros i b Hb. destruct (Cls i b Hb) as (H1 & H2 & [H3 _] & H4). rewrite H2. cbn [with_curr b_class]. split; [exact H1|]. split; [exact H4|exact H3].
    + apply R.
    + intros i h r Eq. destruct (Cls i h) as (H1 & H2 & H3 & H4); [rewrite Eq; now left|]. rewrite H2. cbn [with_curr b_curr b_class].
      split; [apply Zmod_0_l|]. split; [lia|]. intros b Hb. destruct (Cls i b) as (_ & X & _); [rewrite Eq; now right|]. now rewrite X.
    + intros b Hb Hc. pose proof (Kc b Hb Hc) as K. rewrite AF, AK by auto. cbn [with_curr b_class b_mem].
      destruct (TB b) as (X1 & _ & X3). rewrite X1, X3. apply (i_mem _ _ _ I); [exact Hb|]. cbn. rewrite <- X1. apply K.
    + intros b Hb x. rewrite AO by auto. destruct (TB b) as (_ & _ & X). rewrite X. now apply (i_new _ _ _ I).
    + intros b Hb Hc Hn. exfalso. pose proof (Kc b Hb Hc) as K. destruct (TB b) as (X1 & _).
      destruct (i_mem _ _ _ I b Hb) as ((i & Hi) & _); [cbn; rewrite <- X1; apply K|]. cbn in Hi.
      apply (Hn i). apply (r_cls _ _ _ R). rewrite X1. repeat split; auto; try apply K. now apply Kd'.
    + intros i h r Eq off Hoff. right. destruct (Cls i h) as (H1 & H2 & H3 & H4); [rewrite Eq; now left|]. rewrite H2 in *. cbn [with_curr b_curr b_mem b_touch] in *.
      destruct (TB h) as (X1 & _ & X3). rewrite X3. destruct (b_mem (a_blk s h) off) as [|tt v|] eqn:Em; try exact Logic.I.
      exfalso. apply (Neg h off H1) with (tt := tt) (v := v); auto. rewrite <- X1. apply H3.
    + discriminate.
    + discriminate.
  - split; [cbn; rewrite (r_g _ _ _ R); lia|]. split; [reflexivity|]. split; [cbn; rewrite (r_n _ _ _ R); lia|].
    intros x off v Hc Hx Em Hu. cbn [a_blk]. rewrite AF by auto. destruct (TB x) as (X1 & _ & X3).
    destruct (Kp x) as [K|K]; [congruence|rewrite AK by auto; cbn [with_curr b_class b_mem]; auto|exfalso].
    destruct K as [_ K]. destruct (T7 x) as [[Eq N]|[Eq _]]; rewrite Eq in K; [|cbn in K; discriminate].
    destruct (i_full _ _ _ I x Hx Hc) with (off := off) as [[]|S].
    + intros i Hi. cbn in Hi. destruct (Nat.lt_ge_cases i 19) as [L|L]; [exact (N i L Hi)|].
      pose proof (cls_19 _ _ _ _ I L) as Z0. cbn in Z0. rewrite Z0 in Hi. exact Hi.
    + cbn [wph a_blk a_g] in S. rewrite Em in S. cbn [seen] in S. destruct S as [_ S]. specialize (S K).
      rewrite (inuse_behind _ _ S) in Hu. discriminate.
Qed.

Lemma gcFlipA_ok : forall s order, ainv noex [] (wph s PNone) -> NoDup order -> (forall b, In b order <-> (b < a_n s)%nat) ->
  exists s', gcFlipA s order = Ok s' /\ ainv noex [] s' /\ flip_frame s s'.
Proof.
  intros s order I ND Ho. exact (flip_core s _ order (touch_classes_ok 19 s) I ND Ho).
Qed.
