(** Large objects: the extents tile the arena. *)
From Coq Require Import ZArith Bool List Lia.
From Verif Require Import Base GcModel AllocModel LargeModel.
Import ListNotations.
Open Scope Z_scope.
Open Scope out_scope.

(** extents of the given lengths from block [k] to block [e] *)
Fixpoint seg (a : arena) (k : Z) (l : list Z) (e : Z) : Prop :=
  match l with
  | [] => k = e
  | n :: r => 0 < n /\ getLargeObjSlots (l_hdr a k) = n /\ (forall j, k <= j < k + n -> l_base a j = k) /\ seg a (k + n) r e
  end.
Fixpoint starts (k : Z) (l : list Z) : list Z :=
  match l with [] => [] | n :: r => k :: starts (k + n) r end.

Lemma seg_le : forall l a k e, seg a k l e -> k + Z.of_nat (length l) <= e.
Proof.
  induction l as [|n l IH]; intros a k e H; cbn [seg length] in *; [lia|].
  destruct H as (A & _ & _ & D). apply IH in D. lia.
Qed.
Lemma seg_app : forall l1 a k m l2 e, seg a k l1 m -> seg a m l2 e -> seg a k (l1 ++ l2) e.
Proof.
  induction l1 as [|n l1 IH]; intros a k m l2 e H1 H2; cbn [seg app] in *; [now subst|].
  destruct H1 as (A & B & C & D). eauto 6.
Qed.
Lemma starts_app : forall l1 a k m l2, seg a k l1 m -> starts k (l1 ++ l2) = starts k l1 ++ starts m l2.
Proof.
  induction l1 as [|n l1 IH]; intros a k m l2 H1; cbn [seg app starts] in *; [now subst|].
  destruct H1 as (A & B & C & D). now rewrite (IH a (k + n) m).
Qed.
Lemma seg_frame : forall l a a' k e, seg a k l e ->
  (forall j, k <= j < e -> l_hdr a' j = l_hdr a j /\ l_base a' j = l_base a j) -> seg a' k l e.
Proof.
  induction l as [|n l IH]; intros a a' k e H F; cbn [seg] in *; [auto|].
  destruct H as (A & B & C & D). pose proof (seg_le _ _ _ _ D). split; [auto|]. split; [|split].
  - destruct (F k) as [-> _]; [lia|auto].
  - intros j Hj. destruct (F j) as [_ ->]; [lia|auto].
  - apply IH with (a := a); auto. intros j Hj. apply F. lia.
Qed.
Lemma starts_in : forall l a k e x, seg a k l e -> In x (starts k l) -> k <= x < e.
Proof.
  induction l as [|n l IH]; intros a k e x H Hx; cbn [seg starts] in *; [contradiction|].
  destruct H as (A & B & C & D). pose proof (seg_le _ _ _ _ D). destruct Hx as [<-|Hx]; [lia|].
  apply (IH _ _ _ _ D) in Hx. lia.
Qed.

Lemma check_base_ok : forall n a j k, (forall x, j <= x < j + Z.of_nat n -> l_base a x = k) -> check_base n a j k = true.
Proof.
  induction n as [|n IH]; intros a j k H; [reflexivity|]. cbn [check_base]. rewrite H by lia. rewrite Z.eqb_refl. cbn.
  apply IH. intros x Hx. apply H. lia.
Qed.

Lemma set_free_not : forall g h s, h_inuse g (set_free h s) = false.
Proof. reflexivity. Qed.

Lemma grow_ok : forall fuel g l2 a slots s1, (length l2 < fuel)%nat -> 0 < s1 ->
  (forall j, l_curr a <= j < l_curr a + s1 -> l_base a j = l_curr a) ->
  getLargeObjSlots (l_hdr a (l_curr a)) = s1 -> h_inuse g (l_hdr a (l_curr a)) = false ->
  seg a (l_curr a + s1) l2 (l_idx a) -> l_curr a + slots <= BLOCKS_PER_HEAP -> l_idx a <= BLOCKS_PER_HEAP ->
  exists a' s1' l2', grow_loop fuel g a slots s1 = Ok (a', s1') /\ s1 <= s1' /\
    l_curr a' = l_curr a /\ l_idx a <= l_idx a' <= BLOCKS_PER_HEAP /\
    (forall j, l_curr a <= j < l_curr a + s1' -> l_base a' j = l_curr a) /\
    getLargeObjSlots (l_hdr a' (l_curr a)) = s1' /\ h_inuse g (l_hdr a' (l_curr a)) = false /\
    seg a' (l_curr a + s1') l2' (l_idx a') /\ (length l2' <= length l2)%nat /\
    (forall j, j <> l_curr a -> l_hdr a' j = l_hdr a j) /\
    (forall j, j < l_curr a \/ l_curr a + s1' <= j -> l_base a' j = l_base a j) /\
    (forall k, In k (starts (l_curr a + s1) l2) -> h_inuse g (l_hdr a k) = true -> In k (starts (l_curr a + s1') l2')).
Proof.
  induction fuel as [|fuel IH]; intros g l2 a slots s1 Hf H1 Hb Hl Hu Hs Hc Hi; [lia|]. cbn [grow_loop]. set (n := l_curr a) in *.
  assert (STOP : exists a' s1' l2', Ok (a, s1) = Ok (a', s1') /\ s1 <= s1' /\
    l_curr a' = n /\ l_idx a <= l_idx a' <= BLOCKS_PER_HEAP /\
    (forall j, n <= j < n + s1' -> l_base a' j = n) /\
    getLargeObjSlots (l_hdr a' n) = s1' /\ h_inuse g (l_hdr a' n) = false /\
    seg a' (n + s1') l2' (l_idx a') /\ (length l2' <= length l2)%nat /\
    (forall j, j <> n -> l_hdr a' j = l_hdr a j) /\
    (forall j, j < n \/ n + s1' <= j -> l_base a' j = l_base a j) /\
    (forall k, In k (starts (n + s1) l2) -> h_inuse g (l_hdr a k) = true -> In k (starts (n + s1') l2'))).
  { exists a, s1, l2. repeat match goal with |- _ /\ _ => split end; auto; lia. }
  destruct (Z.ltb_spec s1 slots) as [Hlt|Hge]; [|exact STOP].
  destruct (Z.eqb_spec (n + s1) (l_idx a)) as [He|He].
  - assert (l2 = []) by (destruct l2; [auto|]; apply seg_le in Hs; cbn [length] in Hs; lia). subst l2.
    eexists _, _, []. split; [reflexivity|]. cbn [updateLargeObjectMeta w_hdr w_idx l_curr l_idx l_hdr l_base seg starts].
    unfold hset. rewrite Z.eqb_refl. cbn [set_free getLargeObjSlots h_used h_fslots].
    repeat match goal with |- _ /\ _ => split end; auto; try lia.
    + intros j Hj. destruct (Z.leb_spec (n + s1) j); destruct (Z.ltb_spec j (n + s1 + (slots - s1))); cbn [andb]; try lia; apply Hb; lia.
    + intros j Hj. apply Z.eqb_neq in Hj. now rewrite Hj.
    + intros j Hj. destruct (Z.leb_spec (n + s1) j); destruct (Z.ltb_spec j (n + s1 + (slots - s1))); cbn [andb]; try lia.
  - destruct (h_inuse g (l_hdr a (n + s1))) eqn:Eu; [exact STOP|].
    destruct l2 as [|s2 l2]; [cbn in Hs; contradiction|]. cbn [seg] in Hs. destruct Hs as (S1 & S2 & S3 & S4).
    rewrite S2. destruct (Z.ltb_spec 0 s2); [|lia]. cbn [assertT].
    rewrite check_base_ok by (intros x Hx; apply S3; lia). cbn [assertT].
    set (a1 := updateLargeObjectMeta a (n + s1) s2 n).
    set (a2 := w_hdr a1 n (set_free (l_hdr a1 n) (s1 + s2))).
    assert (C2 : l_curr a2 = n) by reflexivity. assert (I2 : l_idx a2 = l_idx a) by reflexivity.
    assert (HB : forall j, l_base a2 j = if (n + s1 <=? j) && (j <? n + s1 + s2) then n else l_base a j) by reflexivity.
    assert (HH : forall j, j <> n -> l_hdr a2 j = l_hdr a j).
    { intros j Hj. unfold a2, a1. cbn. unfold hset. apply Z.eqb_neq in Hj. now rewrite Hj. }
    assert (HN : l_hdr a2 n = set_free (l_hdr a n) (s1 + s2)) by (unfold a2, a1; cbn; unfold hset; now rewrite Z.eqb_refl).
    destruct (IH g l2 a2 slots (s1 + s2)) as (a' & s1' & l2' & E & P1 & P2 & P3 & P4 & P5 & P6 & P7 & P8 & P9 & P10 & P11); rewrite ?C2, ?I2; auto.
    + cbn [length] in Hf. lia.
    + lia.
    + intros j Hj. rewrite HB. destruct (Z.leb_spec (n + s1) j); destruct (Z.ltb_spec j (n + s1 + s2)); cbn [andb]; try lia; apply Hb; lia.
    + now rewrite HN.
    + now rewrite HN.
    + replace (n + (s1 + s2)) with (n + s1 + s2) by lia. pose proof (seg_le _ _ _ _ S4). apply seg_frame with (a := a); auto.
      intros j Hj. split; [apply HH; lia|]. rewrite HB. destruct (Z.leb_spec (n + s1) j); destruct (Z.ltb_spec j (n + s1 + s2)); cbn [andb]; try lia.
    + rewrite C2, I2 in *. exists a', s1', l2'. split; [exact E|]. repeat match goal with |- _ /\ _ => split end; auto; try lia.
      * cbn [length]. lia.
      * intros j Hj. rewrite P9 by auto. auto.
      * intros j Hj. rewrite P10 by auto. rewrite HB. destruct (Z.leb_spec (n + s1) j); destruct (Z.ltb_spec j (n + s1 + s2)); cbn [andb]; try lia.
      * intros k Hk Hku. cbn [starts] in Hk. destruct Hk as [<-|Hk]; [congruence|].
        apply P11; [now replace (n + (s1 + s2)) with (n + s1 + s2) by lia|].
        pose proof (starts_in _ _ _ _ _ S4 Hk). rewrite HH by lia. exact Hku.
Qed.

(** in-use extents of one tiling are still there in another *)
Definition keep (g : Z) (a a' : arena) (l l' : list Z) : Prop :=
  forall k, In k l -> h_inuse g (l_hdr a k) = true -> In k l' /\ l_hdr a' k = l_hdr a k.

Lemma alloc_loop_ok : forall fuel g l2 l1 a slots, (length l2 < fuel)%nat -> 0 < slots ->
  seg a 0 l1 (l_curr a) -> seg a (l_curr a) l2 (l_idx a) -> l_idx a <= BLOCKS_PER_HEAP ->
  exists a' r, alloc_loop fuel g a slots = Ok (a', r) /\ l_idx a' <= BLOCKS_PER_HEAP /\ l_idx a <= l_idx a' /\
    match r with
    | None => exists l1' l2', seg a' 0 l1' (l_curr a') /\ seg a' (l_curr a') l2' (l_idx a') /\
        keep g a a' (starts 0 l1 ++ starts (l_curr a) l2) (starts 0 l1' ++ starts (l_curr a') l2')
    | Some k => l_curr a' = k + slots /\ exists l1' l2', seg a' 0 l1' k /\ (forall j, k <= j < k + slots -> l_base a' j = k) /\
        seg a' (k + slots) l2' (l_idx a') /\ k + slots <= l_idx a' /\
        keep g a a' (starts 0 l1 ++ starts (l_curr a) l2) (starts 0 l1' ++ starts (k + slots) l2')
    end.
Proof.
  induction fuel as [|fuel IH]; intros g l2 l1 a slots Hf Hs S1 S2 Hi; [lia|]. cbn [alloc_loop]. set (n := l_curr a) in *.
  pose proof (seg_le _ _ _ _ S1) as L1. pose proof (seg_le _ _ _ _ S2) as L2.
  destruct (Z.leb_spec (n + slots) BLOCKS_PER_HEAP) as [Hfit|Hno].
  2:{ exists a, None. split; [reflexivity|]. split; [exact Hi|]. split; [lia|]. exists l1, l2. split; [exact S1|]. split; [exact S2|]. intros k Hk _. auto. }
  destruct (Z.eqb_spec n (l_idx a)) as [He|He].
  - assert (l2 = []) by (destruct l2; [auto|]; cbn [length] in L2; lia). subst l2.
    destruct (Z.leb_spec BLOCKS_PER_HEAP (n + slots)).
    { exists a, None. split; [reflexivity|]. split; [exact Hi|]. split; [lia|]. exists l1, []. split; [exact S1|]. split; [exact S2|]. intros k Hk _. auto. }
    eexists _, (Some n). split; [reflexivity|]. cbn [updateLargeObjectMeta w_hdr l_idx l_curr l_hdr l_base].
    split; [lia|]. split; [lia|]. split; [reflexivity|].
    exists l1, []. split; [|split; [|split; [|split]]].
    + apply seg_frame with (a := a); auto. cbn [l_hdr l_base]. intros j Hj. unfold hset.
      destruct (Z.eqb_spec j n); [lia|]. split; [reflexivity|]. destruct (Z.leb_spec n j); [lia|reflexivity].
    + intros j Hj. destruct (Z.leb_spec n j); destruct (Z.ltb_spec j (n + slots)); cbn [andb]; try lia.
    + cbn. lia.
    + lia.
    + intros k Hk _. cbn [starts] in *. split; [exact Hk|]. rewrite app_nil_r in Hk. pose proof (starts_in _ _ _ _ _ S1 Hk).
      cbn [l_hdr]. unfold hset. destruct (Z.eqb_spec k n); [lia|reflexivity].
  - destruct l2 as [|s l2]; [cbn in S2; contradiction|]. cbn [seg] in S2. destruct S2 as (A1 & A2 & A3 & A4). cbn [length] in Hf.
    assert (SA : forall a1 x, l_hdr a1 n = l_hdr a n -> seg a1 0 l1 n -> getLargeObjSlots (l_hdr a1 n) = x -> 0 < x -> (forall j, n <= j < n + x -> l_base a1 j = n) -> seg a1 0 (l1 ++ [x]) (n + x)).
    { intros a1 x _ H1 H2 H3 H4. eapply seg_app; [exact H1|]. cbn. auto. }
    destruct (h_inuse g (l_hdr a n)) eqn:Eu.
    + assert (Used : h_used (l_hdr a n) = true).
      { unfold h_inuse, inuse in Eu. destruct (h_used (l_hdr a n)); [reflexivity|discriminate]. }
      assert (El : blocks_of (h_size (l_hdr a n)) = s) by (unfold getLargeObjSlots in A2; now rewrite Used in A2).
      rewrite El. destruct (IH g l2 (l1 ++ [s]) (w_curr a (n + s)) slots) as (a' & r & E & P1 & P2 & P3).
      * lia.
      * exact Hs.
      * cbn [w_curr l_curr]. apply seg_frame with (a := a); [|auto]. eapply seg_app; [exact S1|]. cbn. auto.
      * cbn [w_curr l_curr l_idx]. apply seg_frame with (a := a); auto.
      * exact Hi.
      * exists a', r. split; [exact E|]. split; [exact P1|]. split; [exact P2|]. cbn [w_curr l_curr] in P3.
        assert (EQ : starts 0 (l1 ++ [s]) ++ starts (n + s) l2 = starts 0 l1 ++ starts n (s :: l2)).
        { rewrite (starts_app l1 a 0 n) by exact S1. rewrite <- app_assoc. reflexivity. }
        rewrite EQ in P3. exact P3.
    + rewrite A2. destruct (Z.ltb_spec 0 s); [|lia]. cbn [assertT].
      destruct (grow_ok LOOP g l2 a slots s) as (a1 & s1 & l2' & E & G1 & G2 & G3 & G4 & G5 & G6 & G7 & G8 & G9 & G10 & G11); auto.
      { pose proof (seg_le _ _ _ _ A4). unfold LOOP. unfold BLOCKS_PER_HEAP in *. lia. }
      fold n in G2, G4, G5, G6, G7, G9, G10, G11.
      rewrite E. cbn [obind].
      assert (S1' : seg a1 0 l1 n).
      { apply seg_frame with (a := a); auto. intros j Hj. split; [apply G9; lia|apply G10; lia]. }
      assert (K1 : keep g a a1 (starts 0 l1 ++ starts n (s :: l2)) (starts 0 l1 ++ starts (n + s1) l2')).
      { intros k Hk Hku. apply in_app_or in Hk. destruct Hk as [Hk|[<-|Hk]].
        - pose proof (starts_in _ _ _ _ _ S1 Hk). split; [apply in_or_app; auto|]. apply G9. lia.
        - congruence.
        - pose proof (starts_in _ _ _ _ _ A4 Hk). split; [apply in_or_app; right; now apply G11|]. apply G9. lia. }
      destruct (Z.ltb_spec s1 slots) as [Hsmall|Hbig].
      * destruct (IH g l2' (l1 ++ [s1]) (w_curr a1 (n + s1)) slots) as (a' & r & E' & P1 & P2 & P3).
        -- lia.
        -- exact Hs.
        -- cbn [w_curr l_curr]. apply seg_frame with (a := a1); [|auto]. eapply seg_app; [exact S1'|]. cbn. repeat split; auto. lia.
        -- cbn [w_curr l_curr l_idx]. apply seg_frame with (a := a1); auto.
        -- cbn [w_curr l_idx]. lia.
        -- exists a', r. split; [exact E'|]. split; [exact P1|]. split; [cbn [w_curr l_idx] in P2; lia|]. cbn [w_curr l_curr] in P3.
           assert (EQ : starts 0 (l1 ++ [s1]) ++ starts (n + s1) l2' = starts 0 l1 ++ n :: starts (n + s1) l2').
           { rewrite (starts_app l1 a1 0 n) by exact S1'. rewrite <- app_assoc. reflexivity. }
           rewrite EQ in P3.
           assert (KK : forall X, keep g (w_curr a1 (n + s1)) a' (starts 0 l1 ++ n :: starts (n + s1) l2') X ->
                       keep g a a' (starts 0 l1 ++ starts n (s :: l2)) X).
           { intros X HX k Hk Hku. destruct (K1 k Hk Hku) as [K2 K3]. destruct (HX k) as [X1 X2].
             - apply in_app_or in K2. apply in_or_app. destruct K2; [left|right; right]; auto.
             - cbn [w_curr l_hdr]. now rewrite K3.
             - split; [exact X1|]. rewrite X2. exact K3. }
           destruct r as [k|].
           ++ destruct P3 as (Q0 & l1' & l2'' & Q1 & Q2 & Q3 & Q4 & Q5). split; [exact Q0|]. exists l1', l2''. auto 6.
           ++ destruct P3 as (l1' & l2'' & Q1 & Q2 & Q3). exists l1', l2''. auto.
      * rewrite check_base_ok by (intros x Hx; apply G4; lia). cbn [assertT].
        pose proof (seg_le _ _ _ _ G7) as L7.
        eexists _, (Some n). split; [reflexivity|]. cbn [w_curr l_idx l_curr l_hdr l_base].
        destruct (Z.ltb_spec slots s1) as [Hsp|Hsp].
        -- cbn [updateLargeObjectMeta w_hdr l_idx l_curr l_hdr l_base]. split; [lia|]. split; [lia|]. split; [reflexivity|].
           exists l1, ((s1 - slots) :: l2'). split; [|split; [|split; [|split]]].
           ++ apply seg_frame with (a := a1); auto. cbn [l_hdr l_base w_curr updateLargeObjectMeta w_hdr]. intros j Hj. unfold hset.
              destruct (Z.eqb_spec j (n + slots)); [lia|]. split; [reflexivity|]. destruct (Z.leb_spec (n + slots) j); [lia|reflexivity].
           ++ intros j Hj. destruct (Z.leb_spec (n + slots) j); [lia|]. cbn [andb]. apply G4. lia.
           ++ cbn [seg w_curr l_hdr l_base updateLargeObjectMeta w_hdr]. unfold hset. rewrite Z.eqb_refl. cbn [set_free getLargeObjSlots h_used h_fslots].
              split; [lia|]. split; [reflexivity|]. split.
              ** intros j Hj. destruct (Z.leb_spec (n + slots) j); destruct (Z.ltb_spec j (n + slots + (s1 - slots))); cbn [andb]; try lia.
              ** replace (n + slots + (s1 - slots)) with (n + s1) by lia. apply seg_frame with (a := a1); auto.
                 cbn [w_curr l_hdr l_base updateLargeObjectMeta w_hdr]. intros j Hj. unfold hset. destruct (Z.eqb_spec j (n + slots)); [lia|]. split; [reflexivity|].
                 destruct (Z.leb_spec (n + slots) j); destruct (Z.ltb_spec j (n + slots + (s1 - slots))); cbn [andb]; try lia; reflexivity.
           ++ lia.
           ++ intros k Hk Hku. destruct (K1 k Hk Hku) as [K2 K3]. cbn [starts]. replace (n + slots + (s1 - slots)) with (n + s1) by lia.
              apply in_app_or in K2. split; [apply in_or_app; destruct K2; [left; auto|right; right; auto]|].
              cbn [w_curr l_hdr updateLargeObjectMeta w_hdr]. unfold hset. destruct (Z.eqb_spec k (n + slots)); [|exact K3]. exfalso.
              destruct K2 as [K2|K2]; [apply (starts_in _ _ _ _ _ S1') in K2; lia|apply (starts_in _ _ _ _ _ G7) in K2; lia].
        -- assert (Es : s1 = slots) by lia. rewrite Es in *. split; [lia|]. split; [lia|]. split; [reflexivity|]. exists l1, l2'. split; [|split; [|split; [|split]]].
           ++ apply seg_frame with (a := a1); auto.
           ++ exact G4.
           ++ apply seg_frame with (a := a1); auto.
           ++ lia.
           ++ exact K1.
Qed.

(** the invariant *)
Definition linv (a : arena) : Prop :=
  l_idx a <= BLOCKS_PER_HEAP /\ exists l1 l2, seg a 0 l1 (l_curr a) /\ seg a (l_curr a) l2 (l_idx a).

Lemma bound_starts : forall a l k, seg a 0 l (l_idx a) -> (bound a k <-> In k (starts 0 l) \/ k = l_idx a).
Proof.
  intros a l k S.
  assert (F : forall l x, seg a x l (l_idx a) -> bound a x -> forall k, In k (starts x l) \/ k = l_idx a -> bound a k).
  { clear. induction l as [|n l IH]; intros x S Bx k Hk; cbn [seg starts] in *.
    - destruct Hk as [[]| ->]. now subst x.
    - destruct S as (A & B & C & D). assert (bound a (x + n)).
      { rewrite <- B. apply bd_next; [exact Bx|]. pose proof (seg_le _ _ _ _ D). lia. }
      destruct Hk as [[<-|Hk]|Hk]; [exact Bx|eauto|eauto]. }
  assert (Nx : forall l x, seg a x l (l_idx a) -> forall k, In k (starts x l) -> In (k + getLargeObjSlots (l_hdr a k)) (starts x l) \/ k + getLargeObjSlots (l_hdr a k) = l_idx a).
  { clear. induction l as [|n l IH]; intros x S k Hk; cbn [seg starts] in *; [contradiction|].
    destruct S as (A & B & C & D). destruct Hk as [<-|Hk].
    - rewrite B. destruct l as [|m l]; [cbn in D; auto|]. left. right. now left.
    - destruct (IH _ D k Hk); [left; now right|now right]. }
  split.
  - induction 1 as [|k Hk IHk Hlt].
    + destruct l as [|n l]; [right; exact S|left; now left].
    + destruct IHk as [IHk| ->]; [|lia]. eapply Nx; eauto.
  - apply F; [exact S|constructor].
Qed.

Lemma extent_starts : forall a l k, seg a 0 l (l_idx a) -> (extent a k <-> In k (starts 0 l)).
Proof.
  intros a l k S. unfold extent. rewrite (bound_starts a l k S). split.
  - intros [[H| ->] Hlt]; [auto|lia].
  - intro H. split; [auto|]. now apply (starts_in _ _ _ _ _ S) in H.
Qed.

Lemma seg_at : forall l a k e x, seg a k l e -> In x (starts k l) ->
  0 < getLargeObjSlots (l_hdr a x) /\ x + getLargeObjSlots (l_hdr a x) <= e /\
  forall j, x <= j < x + getLargeObjSlots (l_hdr a x) -> l_base a j = x.
Proof.
  induction l as [|n l IH]; intros a k e x S Hx; cbn [seg starts] in *; [contradiction|].
  destruct S as (A & B & C & D). destruct Hx as [<-|Hx]; [|eauto].
  rewrite B. pose proof (seg_le _ _ _ _ D). repeat split; auto. lia.
Qed.
Lemma seg_cover : forall l a k e j, seg a k l e -> k <= j < e ->
  exists x, In x (starts k l) /\ x <= j < x + getLargeObjSlots (l_hdr a x).
Proof.
  induction l as [|n l IH]; intros a k e j S Hj; cbn [seg starts] in *; [lia|].
  destruct S as (A & B & C & D). destruct (Z_lt_le_dec j (k + n)) as [H|H].
  - exists k. rewrite B. split; [now left|lia].
  - destruct (IH a (k + n) e j D) as (x & X1 & X2); [lia|]. exists x. split; [now right|auto].
Qed.

Lemma linv_seg : forall a, linv a -> exists l, seg a 0 l (l_idx a).
Proof. intros a (_ & l1 & l2 & A & B). exists (l1 ++ l2). eapply seg_app; eauto. Qed.

(** the header of a fresh object *)
Lemma blocks_of_pos : forall size, 0 < size -> 0 < blocks_of size.
Proof. intros size H. unfold blocks_of, MEM_BLOCK_SIZE. assert (1 <= (size + 4096 - 1) / 4096) by (apply Z.div_le_lower_bound; lia). lia. Qed.

Lemma allocLarge1_ok : forall g ph a size, linv a -> 0 < size < HEAP_ARENA_SIZE ->
  exists a' r, allocLarge1 g ph a size = Ok (a', r) /\ linv a' /\
    (forall k, extent a k -> h_inuse g (l_hdr a k) = true -> extent a' k /\ l_hdr a' k = l_hdr a k /\
       match r with Some x => x + blocks_of size <= k \/ k + getLargeObjSlots (l_hdr a k) <= x | None => True end) /\
    match r with
    | Some x => extent a' x /\ l_hdr a' x = mkH true size (new_version g ph) (h_fslots (l_hdr a' x)) /\ x + blocks_of size <= l_idx a'
    | None => True
    end.
Proof.
  intros g ph a size (Hi & l1 & l2 & S1 & S2) Hs. unfold allocLarge1. destruct (Z.ltb_spec size HEAP_ARENA_SIZE); [|lia]. cbn [assertT].
  assert (Sa : seg a 0 (l1 ++ l2) (l_idx a)) by (eapply seg_app; eauto).
  destruct (alloc_loop_ok LOOP g l2 l1 a (blocks_of size)) as (a1 & r & E & I1 & I2 & R); auto.
  { pose proof (seg_le _ _ _ _ S1). pose proof (seg_le _ _ _ _ S2). unfold LOOP. unfold BLOCKS_PER_HEAP in *. lia. }
  { apply blocks_of_pos. lia. }
  unfold heapArenaAllocLarge. rewrite E. cbn [obind]. destruct r as [x|].
  - destruct R as (Rc & l1' & l2' & Q1 & Q2 & Q3 & Q4 & Q5). eexists _, (Some x). split; [reflexivity|].
    set (h := mkH true size (new_version g ph) (h_fslots (l_hdr a1 x))). set (a' := w_hdr a1 x h).
    assert (Hx : l_hdr a' x = h) by (unfold a'; cbn; unfold hset; now rewrite Z.eqb_refl).
    assert (Ho : forall j, j <> x -> l_hdr a' j = l_hdr a1 j) by (intros j Hj; unfold a'; cbn; unfold hset; apply Z.eqb_neq in Hj; now rewrite Hj).
    pose proof (blocks_of_pos size ltac:(lia)) as Bp.
    assert (T1 : seg a' 0 l1' x) by (apply seg_frame with (a := a1); auto; intros j Hj; split; [apply Ho; lia|reflexivity]).
    assert (T2 : seg a' (x + blocks_of size) l2' (l_idx a')) by (apply seg_frame with (a := a1); auto; intros j Hj; split; [apply Ho; lia|reflexivity]).
    assert (T3 : seg a' 0 (l1' ++ [blocks_of size]) (l_curr a')).
    { eapply seg_app; [exact T1|]. cbn [seg]. rewrite Hx. cbn [getLargeObjSlots h h_used h_size]. repeat split; auto. }
    assert (T4 : seg a' (l_curr a') l2' (l_idx a')) by (change (l_curr a') with (l_curr a1); rewrite Rc; exact T2).
    assert (T5 : seg a' 0 ((l1' ++ [blocks_of size]) ++ l2') (l_idx a')) by (eapply seg_app; eauto).
    assert (EQ : starts 0 ((l1' ++ [blocks_of size]) ++ l2') = starts 0 l1' ++ x :: starts (x + blocks_of size) l2').
    { rewrite <- app_assoc. rewrite (starts_app l1' a' 0 x) by exact T1. reflexivity. }
    split; [split; [exact I1|]; eauto|]. split.
    + intros k Hk Hku. rewrite (extent_starts _ _ _ Sa) in Hk. rewrite (starts_app l1 a 0 (l_curr a)) in Hk by exact S1.
      destruct (Q5 k Hk Hku) as [K1 K2].
      assert (Kx : k + getLargeObjSlots (l_hdr a k) <= x \/ x + blocks_of size <= k).
      { rewrite <- K2. apply in_app_or in K1. destruct K1 as [K1|K1].
        - left. now destruct (seg_at _ _ _ _ _ Q1 K1) as (_ & X & _).
        - right. now destruct (starts_in _ _ _ _ _ Q3 K1) as (X & _). }
      split; [|split].
      * rewrite (extent_starts _ _ _ T5), EQ. apply in_app_or in K1. apply in_or_app. destruct K1; [left|right; right]; auto.
      * rewrite Ho; [exact K2|]. destruct Kx as [Kx|Kx]; [|lia]. rewrite <- K2 in Kx.
        assert (0 < getLargeObjSlots (l_hdr a1 k)); [|lia]. apply in_app_or in K1.
        destruct K1 as [K1|K1]; [now destruct (seg_at _ _ _ _ _ Q1 K1)|now destruct (seg_at _ _ _ _ _ Q3 K1)].
      * tauto.
    + split; [|split].
      * rewrite (extent_starts _ _ _ T5), EQ. apply in_or_app. right. now left.
      * rewrite Hx. reflexivity.
      * exact Q4.
  - destruct R as (l1' & l2' & Q1 & Q2 & Q3). exists a1, None. split; [reflexivity|]. split; [split; [exact I1|]; eauto|]. split; [|exact I].
    assert (T5 : seg a1 0 (l1' ++ l2') (l_idx a1)) by (eapply seg_app; eauto).
    intros k Hk Hku. rewrite (extent_starts _ _ _ Sa) in Hk. rewrite (starts_app l1 a 0 (l_curr a)) in Hk by exact S1.
    destruct (Q3 k Hk Hku) as [K1 K2]. rewrite (extent_starts _ _ _ T5), (starts_app l1' a1 0 (l_curr a1)) by exact Q1. auto.
Qed.

Lemma sweep_large_ok : forall fuel g l2 a k, (length l2 < fuel)%nat -> seg a k l2 (l_idx a) ->
  exists a', sweep_large fuel g a k = Ok a' /\ l_idx a' = l_idx a /\ l_curr a' = l_curr a /\ seg a' k l2 (l_idx a) /\
    (forall j, j < k -> l_hdr a' j = l_hdr a j) /\ (forall j, j < k -> l_base a' j = l_base a j) /\
    (forall j, l_hdr a' j = l_hdr a j \/ (h_ver (l_hdr a j) mod 64 = (g - 2) mod 64 /\ In j (starts k l2))).
Proof.
  induction fuel as [|fuel IH]; intros g l2 a k Hf S; [lia|]. cbn [sweep_large]. destruct l2 as [|n l2]; cbn [seg] in S.
  - subst k. rewrite Z.ltb_irrefl. exists a. repeat split; auto.
  - destruct S as (A & B & C & D). pose proof (seg_le _ _ _ _ D) as L. destruct (Z.ltb_spec k (l_idx a)); [|lia].
    rewrite B. destruct (Z.ltb_spec 0 n); [|lia]. cbn [assertT].
    set (a1 := if h_used (l_hdr a k) && (h_ver (l_hdr a k) mod 64 =? (g - 2) mod 64)
        then updateLargeObjectMeta (w_hdr a k (set_free (l_hdr a k) n)) k n k else a).
    assert (X1 : l_idx a1 = l_idx a /\ l_curr a1 = l_curr a) by (unfold a1; destruct (_ && _); auto). destruct X1 as [X1 X2].
    assert (X3 : forall j, j <> k -> l_hdr a1 j = l_hdr a j).
    { intros j Hj. unfold a1. destruct (_ && _); [|reflexivity]. cbn. unfold hset. apply Z.eqb_neq in Hj. now rewrite Hj. }
    assert (X4 : forall j, l_base a1 j = l_base a j).
    { intro j. unfold a1. destruct (_ && _); [|reflexivity]. cbn. destruct (Z.leb_spec k j); destruct (Z.ltb_spec j (k + n)); cbn [andb]; auto.
      symmetry. apply C. lia. }
    assert (X5 : getLargeObjSlots (l_hdr a1 k) = n).
    { unfold a1. destruct (_ && _); [|exact B]. cbn. unfold hset. rewrite Z.eqb_refl. reflexivity. }
    assert (X6 : l_hdr a1 k = l_hdr a k \/ h_ver (l_hdr a k) mod 64 = (g - 2) mod 64).
    { unfold a1. destruct (h_used (l_hdr a k)); cbn [andb]; [|auto]. destruct (Z.eqb_spec (h_ver (l_hdr a k) mod 64) ((g - 2) mod 64)); auto. }
    destruct (IH g l2 a1 (k + n)) as (a' & E & Y1 & Y2 & Y3 & Y4 & Y5 & Y6).
    { cbn [length] in Hf. lia. }
    { rewrite X1. apply seg_frame with (a := a); auto. intros j Hj. split; [apply X3; lia|apply X4]. }
    exists a'. split; [exact E|]. rewrite Y1, Y2, X1, X2. repeat match goal with |- _ /\ _ => split end; auto.
    + cbn [seg]. split; [exact A|]. split; [rewrite Y4 by lia; exact X5|]. split; [|rewrite <- X1; exact Y3].
      intros j Hj. rewrite Y5 by lia. rewrite X4. auto.
    + intros j Hj. rewrite Y4 by lia. apply X3. lia.
    + intros j Hj. rewrite Y5 by lia. apply X4.
    + intro j. destruct (Z.eq_dec j k) as [->|Hj].
      * rewrite Y4 by lia. destruct X6; [auto|]. right. split; [auto|now left].
      * destruct (Y6 j) as [Y|[Y Z]]; rewrite X3 in Y by auto; [auto|]. right. split; [exact Y|now right].
Qed.

Lemma lstep_inv : forall a a', linv a -> lstep a a' -> linv a'.
Proof.
  intros a a' I H. destruct H as [g ph a size a' r Hs E|g a a' E|a|a a' M].
  - assert (Hlt : size < HEAP_ARENA_SIZE).
    { unfold allocLarge1 in E. destruct (Z.ltb_spec size HEAP_ARENA_SIZE); [auto|discriminate]. }
    destruct (allocLarge1_ok g ph a size I) as (a1 & r1 & E1 & I1 & _); [unfold MEM_BLOCK_SIZE in Hs; lia|].
    rewrite E in E1. apply Ok_inj in E1. injection E1 as <- <-. exact I1.
  - destruct I as (Hi & l1 & l2 & S1 & S2). unfold sweepLargeObjects1 in E.
    destruct (sweep_large_ok LOOP g l2 a (l_curr a)) as (a1 & E1 & X1 & X2 & X3 & X4 & X5 & _); auto.
    { pose proof (seg_le _ _ _ _ S1). pose proof (seg_le _ _ _ _ S2). unfold LOOP. unfold BLOCKS_PER_HEAP in *. lia. }
    rewrite E in E1. apply Ok_inj in E1. subst a1. split; [lia|]. exists l1, l2. rewrite X1, X2. split; [|exact X3].
    apply seg_frame with (a := a); auto. intros j Hj. split; [apply X4|apply X5]; lia.
  - destruct (linv_seg a I) as (l & S). split; [apply I|]. exists [], l. split; [reflexivity|]. apply seg_frame with (a := a); auto.
  - destruct I as (Hi & l1 & l2 & S1 & S2). destruct M as (M1 & M2 & M3 & M4). split; [lia|]. rewrite M1, M2.
    assert (Sa : seg a 0 (l1 ++ l2) (l_idx a)) by (eapply seg_app; eauto).
    assert (F : forall l k e, seg a k l e -> (forall x, In x (starts k l) -> extent a x) -> seg a' k l e).
    { clear - M3 M4. induction l as [|n l IH]; intros k e S Hx; cbn [seg starts] in *; [auto|].
      destruct S as (A & B & C & D). split; [auto|]. split; [|split].
      - destruct (M4 k) as [U V]; [apply Hx; now left|]. rewrite <- B. unfold getLargeObjSlots. rewrite U.
        destruct (h_used (l_hdr a k)); now rewrite V.
      - intros j Hj. rewrite M3. auto.
      - apply IH; auto. intros x Hin. apply Hx. now right. }
    exists l1, l2. split; apply F; auto; intros x Hx; apply (extent_starts _ _ _ Sa); rewrite (starts_app l1 a 0 (l_curr a)) by exact S1; apply in_or_app; auto.
Qed.

Lemma lreach_inv : forall a, lreach a -> linv a.
Proof.
  induction 1; [|eapply lstep_inv; eauto]. split; [cbn; unfold BLOCKS_PER_HEAP; lia|]. exists [], []. cbn. auto.
Qed.
