(** Invariant of the small-object allocator and its preservation. *)
From Coq Require Import ZArith Bool List Lia Arith.
From Verif Require Import Base ListLib GcModel GcProofs AllocModel.
Import ListNotations.
Open Scope Z_scope.
Ltac Zify.zify_post_hook ::= Z.div_mod_to_equations.

(** ** size classes *)
Lemma class_cases : forall i c, nth_error sizeClass i = Some c -> c <> 0 ->
  16 <= c <= 4096 /\ getSlotBySize c = Ok (Z.of_nat i) /\ (0 < i < 19)%nat.
Proof.
  intros i c H Hc.
  do 19 (destruct i as [|i]; [cbn in H; injection H as <-; first [contradiction|vm_compute; intuition congruence || (repeat split; try discriminate; try reflexivity; lia)]|]).
  destruct i; discriminate.
Qed.

Lemma class_inj : forall i j c, nth_error sizeClass i = Some c -> nth_error sizeClass j = Some c -> c <> 0 -> i = j.
Proof.
  intros i j c Hi Hj Hc. destruct (class_cases i c Hi Hc) as (_ & Ei & _). destruct (class_cases j c Hj Hc) as (_ & Ej & _).
  rewrite Ei in Ej. apply Ok_inj in Ej. lia.
Qed.

(** ** the invariant *)
Definition inuse_h (g v : Z) : bool := negb (inuse g (mkObj true v false false false []) =? 0).

(** what is known of a header the allocator has passed during this cycle *)
Definition seen (g : Z) (t : bool) (c : cell) : Prop :=
  match c with
  | CHdr true v => inuse_h g v = true /\ (t = false -> v mod 64 = g mod 64)
  | _ => True
  end.
Definition swept_c (g : Z) (c : cell) : Prop :=
  match c with CHdr true v => inuse_h g v = true | _ => True end.

Fixpoint upto (l : list nat) (p : option nat) : list nat :=
  match l with
  | [] => []
  | x :: r => if match p with Some y => Nat.eqb x y | None => false end then [] else x :: upto r p
  end.

Definition slot_off (c off : Z) : Prop := 0 <= off /\ off mod c = 0 /\ off + c <= 4096.

(** position [p] (in words) of the gray queue holds [x] *)
Definition word (s : ast) (p : Z) (x : nat * Z) : Prop :=
  exists b, nth_error (a_gray s) (Z.to_nat (p / 512)) = Some b /\
            b_mem (a_blk s b) (8 * (p mod 512)) = CPtr (fst x) (snd x).
Definition qrep (q : list (nat * Z)) (s : ast) : Prop :=
  a_gray s <> [] /\
  0 <= a_start s <= 4096 /\ a_start s mod 8 = 0 /\ 0 <= a_end s <= 4096 /\ a_end s mod 8 = 0 /\
  (length (a_gray s) <> 1%nat -> 0 < a_end s) /\
  a_start s / 8 + Z.of_nat (length q) = 512 * (Z.of_nat (length (a_gray s)) - 1) + a_end s / 8 /\
  forall j x, nth_error q j = Some x -> word s (a_start s / 8 + Z.of_nat j) x.

Record ainv (ex : nat -> Z -> Prop) (q : list (nat * Z)) (s : ast) : Prop := {
  i_g : a_g s mod 2 = 0;
  i_nd : NoDup (a_free s ++ a_gray s);
  i_free : forall b, In b (a_free s) -> (b < a_n s)%nat /\ b_class (a_blk s b) = 0 /\ b_curr (a_blk s b) = 0 /\
             b_touch (a_blk s b) = false /\ forall x, b_mem (a_blk s b) x = CZero;
  i_gray : forall b, In b (a_gray s) -> (b < a_n s)%nat /\ b_class (a_blk s b) = 0 /\ b_curr (a_blk s b) = 0 /\
             b_touch (a_blk s b) = false;
  i_cls : forall i b, In b (a_cls s i) -> (b < a_n s)%nat /\ nth_error sizeClass i = Some (b_class (a_blk s b)) /\
             b_class (a_blk s b) <> 0;
  i_nodup : forall i, NoDup (a_cls s i);
  i_curr : forall i h r, a_cls s i = h :: r ->
             b_curr (a_blk s h) mod b_class (a_blk s h) = 0 /\ 0 <= b_curr (a_blk s h) <= 4096 /\
             forall b, In b r -> b_curr (a_blk s b) = 0;
  i_mem : forall b, (b < a_n s)%nat -> b_class (a_blk s b) <> 0 ->
             (exists i, nth_error sizeClass i = Some (b_class (a_blk s b))) /\
             forall off, match b_mem (a_blk s b) off with
                         | CZero => True | CPtr _ _ => False
                         | CHdr _ _ => slot_off (b_class (a_blk s b)) off
                         end;
  i_new : forall b, (a_n s <= b)%nat -> forall x, b_mem (a_blk s b) x = CZero;
  i_full : forall b, (b < a_n s)%nat -> b_class (a_blk s b) <> 0 -> (forall i, ~ In b (a_cls s i)) ->
             forall off, ex b off \/ seen (a_g s) (b_touch (a_blk s b)) (b_mem (a_blk s b) off);
  i_head : forall i h r, a_cls s i = h :: r -> forall off, off < b_curr (a_blk s h) ->
             ex h off \/ seen (a_g s) (b_touch (a_blk s h)) (b_mem (a_blk s h) off);
  i_q : match a_ph s with PInc => qrep q s | _ => a_gray s = [] /\ q = [] end;
  i_sweep : a_ph s = PSweep -> forall i b off,
             ((i < a_pos s)%nat /\ In b (a_cls s i) \/ i = a_pos s /\ In b (upto (a_cls s i) (a_pb s))) ->
             ex b off \/ swept_c (a_g s) (b_mem (a_blk s b) off);
  i_pb : a_ph s = PSweep -> forall b, a_pb s = Some b -> (a_pos s < 19)%nat /\ In b (a_cls s (a_pos s))
}.
Definition noex : nat -> Z -> Prop := fun _ _ => False.

Lemma ainv_init : ainv noex [] ainit.
Proof.
  constructor; cbn; auto; try (intros; contradiction); try (intros; lia); try discriminate; try constructor.
Qed.

(** ** small facts *)
Lemma bset_same : forall f i b, bset f i b i = b.
Proof. intros. unfold bset. now rewrite Nat.eqb_refl. Qed.
Lemma bset_other : forall f i b x, x <> i -> bset f i b x = f x.
Proof. intros f i b x H. unfold bset. apply Nat.eqb_neq in H. now rewrite H. Qed.
Lemma cset_same : forall f i b, cset f i b i = b.
Proof. intros. unfold cset. now rewrite Nat.eqb_refl. Qed.
Lemma cset_other : forall f i b x, x <> i -> cset f i b x = f x.
Proof. intros f i b x H. unfold cset. apply Nat.eqb_neq in H. now rewrite H. Qed.
Lemma mset_same : forall m o c, mset m o c o = c.
Proof. intros. unfold mset. now rewrite Z.eqb_refl. Qed.
Lemma mset_other : forall m o c x, x <> o -> mset m o c x = m x.
Proof. intros m o c x H. unfold mset. apply Z.eqb_neq in H. now rewrite H. Qed.

Lemma inuse_at_h : forall g c, (forall b o, c <> CPtr b o) ->
  exists u, inuse_at g c = Ok u /\
    (u = 0 <-> match c with CHdr true v => inuse_h g v = false | _ => True end) /\
    (u = 1 <-> match c with CHdr true v => v mod 64 = g mod 64 | _ => False end).
Proof.
  intros g c H. destruct c as [|u v|b o]; cbn [inuse_at]; [|destruct u|edestruct H; reflexivity].
  - exists 0. intuition discriminate.
  - eexists. split; [reflexivity|]. unfold inuse_h. split; [rewrite negb_false_iff, Z.eqb_eq; tauto|].
    unfold inuse. cbn [o_used o_ver negb].
    unfold versionCmp.
    destruct (Z.eqb_spec (v mod 64 - g mod 64) 0); [cbn; split; [lia|auto]|].
    destruct (_ && _); destruct (0 <? v mod 64 - g mod 64); cbn; split; try discriminate; lia.
  - eexists. split; [reflexivity|]. unfold inuse. cbn. intuition discriminate.
Qed.

Lemma in_cls_unique : forall ex q s, ainv ex q s -> forall i j b, In b (a_cls s i) -> In b (a_cls s j) -> i = j.
Proof.
  intros ex q s I i j b Hi Hj. destruct (i_cls _ _ _ I i b Hi) as (_ & E & N). destruct (i_cls _ _ _ I j b Hj) as (_ & E' & _).
  eapply class_inj; eassumption.
Qed.

Lemma inuse_now : forall g, inuse_h g g = true.
Proof. intro g. unfold inuse_h, inuse, versionCmp. cbn [o_used o_ver negb]. now rewrite Z.sub_diag. Qed.
Lemma inuse_h_mod : forall g v w, v mod 64 = w mod 64 -> inuse_h g v = inuse_h g w.
Proof. intros g v w H. unfold inuse_h, inuse. cbn [o_used o_ver]. now rewrite H. Qed.
Lemma inuse_ahead : forall g v, 0 <= (v - g) mod 64 < 32 -> inuse_h g v = true.
Proof.
  intros g v H. unfold inuse_h, inuse, versionCmp. cbn [o_used o_ver negb].
  destruct (Z.eqb_spec (v mod 64 - g mod 64) 0); [reflexivity|].
  destruct (Z.ltb_spec (-32) (v mod 64 - g mod 64)); destruct (Z.ltb_spec (v mod 64 - g mod 64) 32); cbn [andb];
  destruct (Z.ltb_spec 0 (v mod 64 - g mod 64)); cbn; try reflexivity; exfalso; lia.
Qed.
Lemma inuse_behind : forall g v, v mod 64 = g mod 64 -> inuse_h (g + 2) v = false.
Proof.
  intros g v H. rewrite (inuse_h_mod _ _ g H). unfold inuse_h, inuse, versionCmp. cbn [o_used o_ver negb].
  destruct (Z.eqb_spec (g mod 64 - (g + 2) mod 64) 0); [exfalso; lia|].
  destruct (Z.ltb_spec (-32) (g mod 64 - (g + 2) mod 64)); destruct (Z.ltb_spec (g mod 64 - (g + 2) mod 64) 32); cbn [andb];
  destruct (Z.ltb_spec 0 (g mod 64 - (g + 2) mod 64)); cbn; try reflexivity; exfalso; lia.
Qed.

(** ** allocation inside one block *)
Lemma blockAlloc_ok : forall fuel g ph blk,
  16 <= b_class blk <= 4096 -> b_curr blk mod b_class blk = 0 -> 0 <= b_curr blk <= 4096 ->
  4096 - b_curr blk < Z.of_nat fuel * 16 ->
  (forall off, match b_mem blk off with CZero => True | CPtr _ _ => False | CHdr _ _ => slot_off (b_class blk) off end) ->
  (forall off, off < b_curr blk -> seen g (b_touch blk) (b_mem blk off)) ->
  exists blk' r, blockAlloc_loop fuel g ph blk = Ok (blk', r) /\
    b_class blk' = b_class blk /\ b_mem blk' = b_mem blk /\ (b_touch blk = true -> b_touch blk' = true) /\
    b_curr blk' mod b_class blk = 0 /\ b_curr blk <= b_curr blk' <= 4096 /\
    match r with
    | Some off => off = b_curr blk' - b_class blk /\ slot_off (b_class blk) off /\ b_curr blk <= off /\
        inuse_at g (b_mem blk off) = Ok 0 /\ (ph <> PNone -> b_touch blk' = true) /\
        (forall o, o < b_curr blk' -> o = off \/ seen g (b_touch blk') (b_mem blk o))
    | None => forall o, seen g (b_touch blk') (b_mem blk o)
    end.
Proof.
  induction fuel as [|f IH]; intros g ph blk Hc Hm Hr Hf Hmem Hs; [exfalso; lia|].
  cbn [blockAlloc_loop]. change MEM_BLOCK_SIZE with 4096.
  destruct (Z.leb_spec (b_curr blk + b_class blk) 4096) as [Hle|Hgt].
  2:{ exists blk, None. repeat split; auto; try lia. intro o.
      destruct (Z_lt_ge_dec o (b_curr blk)) as [Hlt|Hge]; [auto|].
      pose proof (Hmem o) as M. destruct (b_mem blk o) as [|u v|]; cbn; auto.
      destruct M as (M1 & M2 & M3). exfalso. lia. }
  pose proof (inuse_at_h g (b_mem blk (b_curr blk))) as X.
  destruct X as (u & Eu & U0 & U1).
  { intros b o E. specialize (Hmem (b_curr blk)). now rewrite E in Hmem. }
  rewrite Eu. cbn [obind].
  assert (Hmod : (b_curr blk + b_class blk) mod b_class blk = 0).
  { rewrite <- (Z.mul_1_l (b_class blk)) at 1. rewrite Z.mod_add by lia. exact Hm. }
  assert (Hslot : slot_off (b_class blk) (b_curr blk)) by (unfold slot_off; lia).
  assert (Hgap : forall o t, o < b_curr blk + b_class blk -> o <> b_curr blk -> (b_touch blk = true -> t = true) -> seen g t (b_mem blk o)).
  { intros o t Ho Hne Ht. destruct (Z_lt_ge_dec o (b_curr blk)) as [Hlt|Hge].
    - specialize (Hs o Hlt). destruct (b_mem blk o) as [|[] v|]; cbn in *; auto.
      destruct Hs as [A B]. split; [exact A|]. intros ->. apply B. destruct (b_touch blk); [now specialize (Ht eq_refl)|reflexivity].
    - pose proof (Hmem o) as M. destruct (b_mem blk o) as [|w v|]; cbn; auto.
      exfalso. destruct M as (_ & M2 & _).
      assert ((o - b_curr blk) mod b_class blk = 0).
      { rewrite Zminus_mod, M2, Hm. reflexivity. }
      rewrite Z.mod_small in H by lia. lia. }
  destruct (Z.eqb_spec u 0) as [Hu0|Hu0].
  - eexists _, (Some (b_curr blk)). split; [reflexivity|].
    set (blk1 := match ph with PNone => _ | _ => _ end).
    assert (E : b_class blk1 = b_class blk /\ b_mem blk1 = b_mem blk /\ b_curr blk1 = b_curr blk + b_class blk /\
                (b_touch blk = true -> b_touch blk1 = true) /\ (ph <> PNone -> b_touch blk1 = true)).
    { unfold blk1. destruct ph; cbn; repeat split; auto; intro X; now contradiction X. }
    destruct E as (E1 & E2 & E3 & E4 & E5).
    split; [exact E1|]. split; [exact E2|]. split; [exact E4|]. split; [now rewrite E3|]. split; [lia|].
    split; [lia|]. split; [exact Hslot|]. split; [lia|]. split; [rewrite Eu; congruence|]. split; [exact E5|].
    intros o Ho. rewrite E3 in Ho. destruct (Z.eq_dec o (b_curr blk)); [now left|right]. now apply Hgap.
  - assert (K : forall t, (b_touch blk = true -> t = true) -> (u <> 1 -> t = true) ->
        exists blk' r, blockAlloc_loop f g ph (mkB (b_class blk) (b_curr blk + b_class blk) t (b_mem blk)) = Ok (blk', r) /\
        b_class blk' = b_class blk /\ b_mem blk' = b_mem blk /\ (b_touch blk = true -> b_touch blk' = true) /\
        b_curr blk' mod b_class blk = 0 /\ b_curr blk <= b_curr blk' <= 4096 /\
        match r with
        | Some off => off = b_curr blk' - b_class blk /\ slot_off (b_class blk) off /\ b_curr blk <= off /\
            inuse_at g (b_mem blk off) = Ok 0 /\ (ph <> PNone -> b_touch blk' = true) /\
            (forall o, o < b_curr blk' -> o = off \/ seen g (b_touch blk') (b_mem blk o))
        | None => forall o, seen g (b_touch blk') (b_mem blk o)
        end).
    { intros t Ht1 Ht2.
      destruct (IH g ph (mkB (b_class blk) (b_curr blk + b_class blk) t (b_mem blk))) as (blk' & r & E & A1 & A2 & A3 & A4 & A5 & A6);
        cbn [b_class b_curr b_mem b_touch] in *; auto; try lia.
      - intros o Ho. destruct (Z.eq_dec o (b_curr blk)) as [->|Hne]; [|now apply Hgap].
        destruct (b_mem blk (b_curr blk)) as [|[] v|] eqn:Ec; cbn; auto.
        split.
        + destruct (inuse_h g v); [reflexivity|]. exfalso. apply Hu0. now apply U0.
        + intro Hf0. destruct (Z.eq_dec u 1) as [H1|H1]; [now apply U1|]. rewrite Ht2 in Hf0 by auto. discriminate.
      - exists blk', r. split; [exact E|]. split; [exact A1|]. split; [exact A2|]. split; [auto|]. split; [exact A4|].
        split; [lia|]. destruct r as [off|]; [|exact A6]. destruct A6 as (B1 & B2 & B3 & B4). intuition lia. }
    destruct (Z.eqb_spec u 1) as [Hu1|Hu1]; apply K; auto.
Qed.

(** ** replacing one object block *)
Lemma qrep_eq : forall q s s', qrep q s -> a_gray s' = a_gray s -> a_start s' = a_start s -> a_end s' = a_end s ->
  (forall b x, In b (a_gray s) -> b_mem (a_blk s' b) x = b_mem (a_blk s b) x) -> qrep q s'.
Proof.
  intros q s s' (H1 & H2 & H3 & H4 & H5 & H6 & H7 & H8) E1 E2 E3 E4.
  repeat split; rewrite ?E1, ?E2, ?E3; auto; try lia.
  intros j x Hj. destruct (H8 j x Hj) as (b & Hb & Hm). exists b. rewrite E1. split; [exact Hb|].
  rewrite E4; [exact Hm|]. eapply nth_error_In. exact Hb.
Qed.

Definition sweep_due (s : ast) (b : nat) : Prop :=
  exists i, (i < a_pos s)%nat /\ In b (a_cls s i) \/ i = a_pos s /\ In b (upto (a_cls s i) (a_pb s)).

Lemma ainv_upd : forall ex ex' q s b nb, ainv ex q s -> (b < a_n s)%nat -> b_class (a_blk s b) <> 0 ->
  b_class nb = b_class (a_blk s b) ->
  (forall i r, a_cls s i = b :: r -> b_curr nb mod b_class nb = 0 /\ 0 <= b_curr nb <= 4096) ->
  (forall i, In b (tl (a_cls s i)) -> b_curr nb = 0) ->
  (forall off, match b_mem nb off with CZero => True | CPtr _ _ => False | CHdr _ _ => slot_off (b_class nb) off end) ->
  ((forall i, ~ In b (a_cls s i)) -> forall off, ex' b off \/ seen (a_g s) (b_touch nb) (b_mem nb off)) ->
  (forall i r, a_cls s i = b :: r -> forall off, off < b_curr nb -> ex' b off \/ seen (a_g s) (b_touch nb) (b_mem nb off)) ->
  (a_ph s = PSweep -> forall off, sweep_due s b -> ex' b off \/ swept_c (a_g s) (b_mem nb off)) ->
  (forall x off, x <> b -> ex x off -> ex' x off) ->
  ainv ex' q (wblk s (bset (a_blk s) b nb)).
Proof.
  intros ex ex' q s b nb I Hb Hc Ec Hcur Htl Hmem Hfull Hhead Hsw Hex.
  assert (Nf : ~ In b (a_free s)) by (intro H; apply (i_free _ _ _ I) in H; tauto).
  assert (Ng : ~ In b (a_gray s)) by (intro H; apply (i_gray _ _ _ I) in H; tauto).
  assert (K : forall x, In x (a_free s) \/ In x (a_gray s) -> bset (a_blk s) b nb x = a_blk s x).
  { intros x [H|H]; apply bset_other; intros ->; auto. }
  constructor; cbn [wblk a_g a_ph a_blk a_n a_free a_cls a_gray a_start a_end a_pos a_pb].
  - apply I.
  - apply I.
  - intros x Hx. rewrite K by auto. now apply (i_free _ _ _ I).
  - intros x Hx. rewrite K by auto. now apply (i_gray _ _ _ I).
  - intros i x Hx. destruct (Nat.eq_dec x b) as [->|Hne]; [rewrite bset_same, Ec|rewrite bset_other by auto]; now apply (i_cls _ _ _ I).
  - apply I.
  - intros i h r E. destruct (i_curr _ _ _ I i h r E) as (A1 & A2 & A3).
    assert (A4 : forall x, In x r -> b_curr (bset (a_blk s) b nb x) = 0).
    { intros x Hx. destruct (Nat.eq_dec x b) as [->|Hne]; [rewrite bset_same|rewrite bset_other by auto; auto].
      apply (Htl i). now rewrite E. }
    destruct (Nat.eq_dec h b) as [->|Hne]; [rewrite bset_same|rewrite bset_other by auto; auto].
    destruct (Hcur i r E). auto.
  - intros x Hx. destruct (Nat.eq_dec x b) as [->|Hne]; [rewrite bset_same|rewrite bset_other by auto; now apply (i_mem _ _ _ I)].
    intros _. split; [rewrite Ec; now apply (i_mem _ _ _ I)|exact Hmem].
  - intros x Hx. rewrite bset_other by lia. now apply (i_new _ _ _ I).
  - intros x Hx. destruct (Nat.eq_dec x b) as [->|Hne]; [rewrite bset_same; auto|rewrite bset_other by auto].
    intros A1 A2 off. destruct (i_full _ _ _ I x Hx A1 A2 off); auto.
  - intros i h r E. destruct (Nat.eq_dec h b) as [->|Hne]; [rewrite bset_same; eauto|rewrite bset_other by auto].
    intros off Ho. destruct (i_head _ _ _ I i h r E off Ho); auto.
  - pose proof (i_q _ _ _ I) as Q. destruct (a_ph s); auto. eapply qrep_eq; [exact Q|reflexivity..|].
    intros x y Hx. cbn. rewrite K by auto. reflexivity.
  - intros P i x off Hx. destruct (Nat.eq_dec x b) as [->|Hne]; [rewrite bset_same|rewrite bset_other by auto].
    + apply Hsw; auto. now exists i.
    + destruct (i_sweep _ _ _ I P i x off Hx); auto.
  - apply I.
Qed.

(** ** taking a block *)
Definition same_mem (s s' : ast) : Prop := forall b off, b_mem (a_blk s' b) off = b_mem (a_blk s b) off.

(** A block from the free list or fresh from the arena: zero, and on no list. *)
Lemma fresh_ok_ex : forall ex q s, ainv ex q s ->
  exists s1 b, takeBlock s = Ok (s1, b) /\
    ainv ex q s1 /\ same_mem s s1 /\ a_g s1 = a_g s /\ a_ph s1 = a_ph s /\ a_cls s1 = a_cls s /\ a_gray s1 = a_gray s /\
    a_start s1 = a_start s /\ a_end s1 = a_end s /\ a_pos s1 = a_pos s /\ a_pb s1 = a_pb s /\ (a_n s <= a_n s1)%nat /\
    (forall x, (x < a_n s)%nat -> a_blk s1 x = a_blk s x) /\
    (b < a_n s1)%nat /\ a_blk s1 b = mkB 0 0 false (b_mem (a_blk s b)) /\ (forall x, b_mem (a_blk s b) x = CZero) /\
    ~ In b (a_free s1) /\ ~ In b (a_gray s1) /\ (forall i, ~ In b (a_cls s1 i)).
Proof.
  intros ex q s I. unfold takeBlock. destruct (a_free s) as [|b rest] eqn:Ef.
  - exists (fst (blockNew s)), (snd (blockNew s)). split; [reflexivity|]. cbn [blockNew fst snd].
    set (b := a_n s). set (s1 := mkA _ _ _ _ _ _ _ _ _ _ _).
    assert (Old : forall x, (x < a_n s)%nat -> a_blk s1 x = a_blk s x).
    { intros x Hx. unfold s1. cbn. apply bset_other. unfold b. lia. }
    assert (SM : same_mem s s1).
    { intros x off. unfold s1. cbn. destruct (Nat.eq_dec x b) as [->|]; [now rewrite bset_same|now rewrite bset_other]. }
    assert (NG : forall x, In x (a_gray s) -> (x < a_n s)%nat) by (intros x Hx; now apply (i_gray _ _ _ I)).
    assert (NC : forall i x, In x (a_cls s i) -> (x < a_n s)%nat) by (intros i x Hx; now apply (i_cls _ _ _ I i)).
    split; [|repeat match goal with |- _ /\ _ => split end; auto; unfold s1; cbn; auto; try lia].
    + constructor.
      * apply I.
      * apply I.
      * intros x Hx. exfalso. unfold s1 in Hx. cbn in Hx. rewrite Ef in Hx. contradiction.
      * intros x Hx. pose proof (NG x Hx). rewrite Old by auto. destruct (i_gray _ _ _ I x Hx) as (A & B). split; [cbn; lia|auto].
      * intros i x Hx. pose proof (NC i x Hx). rewrite Old by auto. destruct (i_cls _ _ _ I i x Hx) as (A & B). split; [cbn; lia|auto].
      * apply I.
      * intros i h r E. change (a_cls s1) with (a_cls s) in E. rewrite Old by (apply (NC i); rewrite E; now left).
        destruct (i_curr _ _ _ I i h r E) as (A1 & A2 & A3). repeat split; auto; try lia.
        intros x Hx. rewrite Old; [auto|]. apply (NC i). rewrite E. now right.
      * intros x Hx. destruct (Nat.eq_dec x b) as [->|Hne].
        -- unfold s1. cbn. rewrite bset_same. cbn. congruence.
        -- rewrite Old by (unfold s1, b in *; cbn in *; lia). apply (i_mem _ _ _ I). unfold s1, b in *; cbn in *; lia.
      * intros x Hx off. rewrite SM. apply (i_new _ _ _ I). unfold s1 in Hx. cbn in Hx. lia.
      * intros x Hx. destruct (Nat.eq_dec x b) as [->|Hne].
        -- unfold s1. cbn. rewrite bset_same. cbn. congruence.
        -- rewrite Old by (unfold s1, b in *; cbn in *; lia). apply (i_full _ _ _ I). unfold s1, b in *; cbn in *; lia.
      * intros i h r E. change (a_cls s1) with (a_cls s) in E. rewrite Old by (apply (NC i); rewrite E; now left).
        now apply (i_head _ _ _ I i h r).
      * pose proof (i_q _ _ _ I) as Q. unfold s1. cbn [a_ph a_gray]. destruct (a_ph s) eqn:Ep; auto.
        eapply qrep_eq; [exact Q|reflexivity..|]. intros x y Hx. apply SM.
      * intros P i x off Hx. rewrite SM. now apply (i_sweep _ _ _ I P i).
      * apply I.
    + now rewrite bset_same.
    + intro x. apply (i_new _ _ _ I). unfold b. lia.
    + rewrite Ef. auto.
    + intro H. apply NG in H. unfold b in H. lia.
    + intros i H. apply NC in H. unfold b in H. lia.
  - assert (Hin : In b (a_free s)) by (rewrite Ef; now left).
    destruct (i_free _ _ _ I b Hin) as (A1 & A2 & A3 & A4 & A5).
    cbv zeta. rewrite A2, A3, A4. cbn [Z.eqb negb assertT]. exists (wfree s rest), b. split; [reflexivity|].
    pose proof (i_nd _ _ _ I) as ND. rewrite Ef in ND. cbn in ND. inversion ND as [|? ? N1 N2]; subst.
    assert (SM : same_mem s (wfree s rest)) by (intros x off; reflexivity).
    split; [|repeat match goal with |- _ /\ _ => split end; auto; cbn; auto].
    + destruct I. constructor; cbn [wfree a_g a_ph a_blk a_n a_free a_cls a_gray a_start a_end a_pos a_pb]; auto.
      intros x Hx. apply i_free0. rewrite Ef. now right.
    + destruct (a_blk s b); cbn in *. congruence.
    + intro H. apply N1. apply in_or_app. now left.
    + intro H. apply N1. apply in_or_app. now right.
    + intros i H. apply (i_cls _ _ _ I) in H. tauto.
Qed.
Definition fresh_ok := fresh_ok_ex noex.

(** giving a fresh block to a size class *)
Lemma give_class : forall q s b slot c, ainv noex q s -> (b < a_n s)%nat ->
  b_class (a_blk s b) = 0 -> b_curr (a_blk s b) = 0 -> (forall x, b_mem (a_blk s b) x = CZero) ->
  ~ In b (a_free s) -> ~ In b (a_gray s) -> a_cls s slot = [] -> nth_error sizeClass slot = Some c -> c <> 0 ->
  ainv noex q (wcls (wblk s (bset (a_blk s) b (with_class (a_blk s b) c))) (cset (a_cls s) slot [b])).
Proof.
  intros q s b slot c I Hb H0 H1 Hz Nf Ng Hcl Hn Hc.
  assert (Nc : forall i, ~ In b (a_cls s i)) by (intros i H; apply (i_cls _ _ _ I) in H; tauto).
  assert (K : forall x, x <> b -> bset (a_blk s) b (with_class (a_blk s b) c) x = a_blk s x) by (intros; now apply bset_other).
  set (s' := wcls _ _).
  assert (Hm : forall x off, b_mem (a_blk s' x) off = b_mem (a_blk s x) off).
  { intros x off. unfold s'. cbn. destruct (Nat.eq_dec x b) as [->|]; [now rewrite bset_same|now rewrite bset_other]. }
  assert (CL : forall i x, In x (a_cls s' i) -> (i = slot /\ x = b) \/ (i <> slot /\ x <> b /\ In x (a_cls s i))).
  { intros i x. unfold s'. cbn. destruct (Nat.eq_dec i slot) as [->|Hne].
    - rewrite cset_same. intros [<-|[]]. auto.
    - rewrite cset_other by auto. intro H. right. split; [auto|]. split; [|auto]. intros ->. now apply (Nc i). }
  constructor; unfold s'; cbn [wcls wblk a_g a_ph a_blk a_n a_free a_cls a_gray a_start a_end a_pos a_pb].
  - apply I.
  - apply I.
  - intros x Hx. rewrite K by (intros ->; auto). now apply (i_free _ _ _ I).
  - intros x Hx. rewrite K by (intros ->; auto). now apply (i_gray _ _ _ I).
  - intros i x Hx. destruct (CL i x Hx) as [[-> ->]|(A & B & C)].
    + rewrite bset_same. cbn. auto.
    + rewrite K by auto. now apply (i_cls _ _ _ I).
  - intro i. destruct (Nat.eq_dec i slot) as [->|Hne]; [rewrite cset_same; constructor; [easy|constructor]|rewrite cset_other by auto; apply I].
  - intros i h r. destruct (Nat.eq_dec i slot) as [->|Hne]; [rewrite cset_same|rewrite cset_other by auto].
    + intro E. injection E as <- <-. rewrite bset_same. cbn. rewrite H1. repeat split; try lia; try easy.
    + intro E. assert (Hin : forall x, In x (h :: r) -> x <> b) by (intros x Hx ->; apply (Nc i); now rewrite E).
      rewrite K by (apply Hin; now left). destruct (i_curr _ _ _ I i h r E) as (A1 & A2 & A3). repeat split; auto; try lia.
      intros x Hx. rewrite K by (apply Hin; now right). auto.
  - intros x Hx. destruct (Nat.eq_dec x b) as [->|Hne]; [rewrite bset_same|rewrite K by auto; now apply (i_mem _ _ _ I)].
    intros _. cbn. split; [eauto|]. intro off. now rewrite Hz.
  - intros x Hx. rewrite K by lia. now apply (i_new _ _ _ I).
  - intros x Hx A B. assert (x <> b).
    { intros ->. apply (B slot). rewrite cset_same. now left. }
    rewrite K in * by auto. apply (i_full _ _ _ I); auto. intros i Hi. apply (B i).
    destruct (Nat.eq_dec i slot) as [->|]; [rewrite Hcl in Hi; contradiction|now rewrite cset_other].
  - intros i h r. destruct (Nat.eq_dec i slot) as [->|Hne]; [rewrite cset_same|rewrite cset_other by auto].
    + intro E. injection E as <- <-. rewrite bset_same. cbn. intros off _. right. now rewrite Hz.
    + intro E. rewrite K by (intros ->; apply (Nc i); rewrite E; now left). now apply (i_head _ _ _ I i h r).
  - pose proof (i_q _ _ _ I) as Q. destruct (a_ph s); auto. eapply qrep_eq; [exact Q|reflexivity..|].
    intros x y Hx. apply (Hm x y).
  - intros P i x off Hx. fold s' in Hx.
    destruct (Nat.eq_dec x b) as [->|Hne]; [right; rewrite bset_same; cbn; now rewrite Hz|rewrite K by auto].
    apply (i_sweep _ _ _ I P i). destruct (Nat.eq_dec i slot) as [->|Hne'].
    + rewrite cset_same in Hx. cbn [upto] in Hx. exfalso. destruct Hx as [[_ [->|[]]]|[_ Hx]]; [now apply Hne|].
      destruct (match a_pb s with Some y => Nat.eqb b y | None => false end); [contradiction|]. destruct Hx as [->|[]]. now apply Hne.
    + now rewrite cset_other in Hx.
  - intros P x Hx. destruct (i_pb _ _ _ I P x Hx) as [A B]. split; [exact A|].
    destruct (Nat.eq_dec (a_pos s) slot) as [E|]; [rewrite E, Hcl in B; contradiction|now rewrite cset_other].
Qed.

(** ** allocation *)
Lemma upto_incl : forall l p x, In x (upto l p) -> In x l.
Proof.
  induction l as [|y l IH]; intros p x H; cbn in *; [auto|].
  destruct (match p with Some z => Nat.eqb y z | None => false end); [contradiction|].
  destruct H as [->|H]; [now left|right; eauto].
Qed.
Lemma upto_hd : forall l, upto l (hd_error l) = [].
Proof. intros [|x l]; cbn; [reflexivity|]. now rewrite Nat.eqb_refl. Qed.

(** taking a used-up block off its list *)
Lemma drop_full : forall q s slot h r blk, ainv noex q s -> a_cls s slot = h :: r ->
  b_class blk = b_class (a_blk s h) -> (forall off, b_mem blk off = b_mem (a_blk s h) off) -> (forall off, seen (a_g s) (b_touch blk) (b_mem (a_blk s h) off)) ->
  let s3 := wcls (wblk s (bset (a_blk s) h (with_curr blk 0))) (cset (a_cls s) slot r) in
  ainv noex q (match a_ph s3, a_pb s3 with
               | PSweep, Some p => if Nat.eqb p h then wpg s3 (a_pos s3) (hd_error r) else s3
               | _, _ => s3
               end).
Proof.
  intros q s slot h r blk I Hl Ec Em Hseen s3.
  assert (Hin : In h (a_cls s slot)) by (rewrite Hl; now left).
  destruct (i_cls _ _ _ I slot h Hin) as (Hb & Hn & Hc).
  assert (Nf : ~ In h (a_free s)) by (intro H; apply (i_free _ _ _ I) in H; tauto).
  assert (Ng : ~ In h (a_gray s)) by (intro H; apply (i_gray _ _ _ I) in H; tauto).
  pose proof (i_nodup _ _ _ I slot) as ND. rewrite Hl in ND. inversion ND as [|? ? N1 N2]; subst.
  assert (K : forall x, x <> h -> a_blk s3 x = a_blk s x) by (intros; now apply bset_other).
  assert (Kh : a_blk s3 h = with_curr blk 0) by apply bset_same.
  assert (Cs : a_cls s3 slot = r) by apply cset_same.
  assert (Co : forall i, i <> slot -> a_cls s3 i = a_cls s i) by (intros; now apply cset_other).
  assert (Nh : forall i, ~ In h (a_cls s3 i)).
  { intros i. destruct (Nat.eq_dec i slot) as [->|Hne]; [rewrite Cs; auto|rewrite Co by auto].
    intro H. apply Hne. eapply in_cls_unique; eassumption. }
  assert (Sub : forall i x, In x (a_cls s3 i) -> In x (a_cls s i)).
  { intros i x. destruct (Nat.eq_dec i slot) as [->|Hne]; [rewrite Cs, Hl; now right|now rewrite Co]. }
  assert (Hm : forall x off, b_mem (a_blk s3 x) off = b_mem (a_blk s x) off).
  { intros x off. destruct (Nat.eq_dec x h) as [->|Hne]; [rewrite Kh; apply Em|now rewrite K]. }
  assert (I3 : forall p, (a_ph s = PSweep ->
      (p = a_pb s /\ a_pb s <> Some h) \/ (p = hd_error r /\ a_pos s = slot /\ (a_pos s < 19)%nat)) -> ainv noex q (wpg s3 (a_pos s) p)).
  { intros p Hp. constructor; cbn [wpg a_g a_ph a_blk a_n a_free a_cls a_gray a_start a_end a_pos a_pb].
    - apply I.
    - apply I.
    - intros x Hx. change (a_free s3) with (a_free s) in Hx. rewrite K by (intros ->; auto). now apply (i_free _ _ _ I).
    - intros x Hx. change (a_gray s3) with (a_gray s) in Hx. rewrite K by (intros ->; auto). now apply (i_gray _ _ _ I).
    - intros i x Hx. rewrite K by (intros ->; now apply (Nh i)). apply (i_cls _ _ _ I). auto.
    - intro i. destruct (Nat.eq_dec i slot) as [->|Hne]; [now rewrite Cs|rewrite Co by auto; apply I].
    - intros i x l E. assert (Hx : forall y, In y (x :: l) -> y <> h) by (intros y Hy ->; apply (Nh i); now rewrite E).
      rewrite K by (apply Hx; now left). destruct (Nat.eq_dec i slot) as [->|Hne].
      + rewrite Cs in E. destruct (i_curr _ _ _ I slot h r Hl) as (_ & _ & A3).
        assert (A : forall y, In y (x :: l) -> b_curr (a_blk s y) = 0) by (intros y Hy; apply A3; now rewrite E).
        rewrite (A x (or_introl eq_refl)). repeat split; try lia.
        intros y Hy. rewrite K by (apply Hx; now right). apply A. now right.
      + rewrite Co in E by auto. destruct (i_curr _ _ _ I i x l E) as (A1 & A2 & A3). repeat split; auto; try lia.
        intros y Hy. rewrite K by (apply Hx; now right). auto.
    - intros x Hx. destruct (Nat.eq_dec x h) as [->|Hne]; [|rewrite K by auto; now apply (i_mem _ _ _ I)].
      rewrite Kh. cbn [with_curr b_class b_mem]. intros _. rewrite Ec. destruct (i_mem _ _ _ I h Hb Hc) as [M1 M2].
      split; [exact M1|]. intro off. rewrite Em. apply M2.
    - intros x Hx off. rewrite Hm. now apply (i_new _ _ _ I).
    - intros x Hx. destruct (Nat.eq_dec x h) as [->|Hne].
      + rewrite Kh. cbn [with_curr b_touch b_mem]. intros _ _ off. right. rewrite Em. apply Hseen.
      + rewrite K by auto. intros A B. apply (i_full _ _ _ I); auto. intros i Hi. apply (B i).
        destruct (Nat.eq_dec i slot) as [->|Hne']; [|now rewrite Co]. rewrite Cs. rewrite Hl in Hi. destruct Hi; [congruence|auto].
    - intros i x l E off Ho. rewrite K in * by (intros ->; apply (Nh i); rewrite E; now left).
      destruct (Nat.eq_dec i slot) as [->|Hne].
      + right. rewrite Cs in E. destruct (i_curr _ _ _ I slot h r Hl) as (_ & _ & A3). rewrite A3 in Ho by (rewrite E; now left).
        assert (Hin' : In x (a_cls s slot)) by (rewrite Hl, E; right; now left).
        destruct (i_cls _ _ _ I slot x Hin') as (B1 & _ & B3). destruct (i_mem _ _ _ I x B1 B3) as [_ M].
        specialize (M off). destruct (b_mem (a_blk s x) off); cbn; auto. destruct M as (M & _). lia.
      + rewrite Co in E by auto. now apply (i_head _ _ _ I i x l).
    - pose proof (i_q _ _ _ I) as Q. change (a_ph s3) with (a_ph s). destruct (a_ph s); auto.
      eapply qrep_eq; [exact Q|reflexivity..|]. intros x y _. apply Hm.
    - intros P i x off Hx. rewrite Hm. apply (i_sweep _ _ _ I P i). change (a_pos s3) with (a_pos s) in Hx.
      destruct (Hp P) as [[-> Hpb]|[-> [Hs _]]].
      + destruct Hx as [[A B]|[A B]]; [left; auto|]. right. split; [exact A|].
        destruct (Nat.eq_dec i slot) as [->|Hne']; [|now rewrite Co in B]. rewrite Cs in B. rewrite Hl. cbn [upto].
        destruct (a_pb s) as [y|] eqn:Ey; [|now right]. destruct (Nat.eqb_spec h y) as [->|]; [now elim Hpb|now right].
      + destruct Hx as [[A B]|[A B]]; [left; auto|]. exfalso. rewrite A, Hs, Cs, upto_hd in B. contradiction.
    - intros P x Hx. change (a_pos s3) with (a_pos s). destruct (Hp P) as [[-> Hpb]|[-> [Hs Hlt]]].
      + destruct (i_pb _ _ _ I P x Hx) as [A B]. split; [exact A|]. destruct (Nat.eq_dec (a_pos s) slot) as [E|]; [|now rewrite Co].
        rewrite E, Cs. rewrite E, Hl in B. destruct B as [->|B]; [now elim Hpb|exact B].
      + rewrite Hs, Cs. split; [lia|]. destruct r as [|y r']; [discriminate|]. cbn in Hx. injection Hx as ->. now left. }
  change (a_ph s3) with (a_ph s). change (a_pb s3) with (a_pb s).
  assert (E3 : s3 = wpg s3 (a_pos s) (a_pb s)) by (unfold s3; reflexivity).
  destruct (a_ph s) eqn:Ep; [rewrite E3; apply I3; discriminate..|].
  destruct (a_pb s) as [p|] eqn:Eb; [|rewrite E3; apply I3; intros _; left; split; [reflexivity|congruence]].
  destruct (Nat.eqb_spec p h) as [->|Hne].
  - apply I3. intros _. right. destruct (i_pb _ _ _ I Ep h Eb) as [P1 P2].
    split; [reflexivity|]. split; [|exact P1]. eapply in_cls_unique; eassumption.
  - rewrite E3. apply I3. intros _. left. split; [reflexivity|congruence].
Qed.

Definition alloc_result (q : list (nat * Z)) (s : ast) (slot : nat) (c : Z) (s1 : ast) (b : nat) (off : Z) : Prop :=
  ainv (fun x o => x = b /\ o = off) q s1 /\ same_mem s s1 /\ a_g s1 = a_g s /\ a_ph s1 = a_ph s /\
  (a_n s <= a_n s1)%nat /\ (b < a_n s1)%nat /\ b_class (a_blk s1 b) = c /\ slot_off c off /\ In b (a_cls s1 slot) /\
  inuse_at (a_g s) (b_mem (a_blk s b) off) = Ok 0 /\ (a_ph s <> PNone -> b_touch (a_blk s1 b) = true) /\
  (forall x, (x < a_n s)%nat -> b_class (a_blk s x) <> 0 -> b_class (a_blk s1 x) = b_class (a_blk s x)) /\
  ~ In b (a_gray s1).

Lemma try_block : forall q s slot h r, ainv noex q s -> a_cls s slot = h :: r ->
  exists blk res, blockAlloc (a_g s) (a_ph s) (a_blk s h) = Ok (blk, res) /\
    b_class blk = b_class (a_blk s h) /\ b_mem blk = b_mem (a_blk s h) /\
    match res with
    | Some off => alloc_result q s slot (b_class (a_blk s h)) (wblk s (bset (a_blk s) h blk)) h off
    | None => forall off, seen (a_g s) (b_touch blk) (b_mem (a_blk s h) off)
    end.
Proof.
  intros q s slot h r I Hl.
  assert (Hin : In h (a_cls s slot)) by (rewrite Hl; now left).
  destruct (i_cls _ _ _ I slot h Hin) as (Hb & Hn & Hc).
  destruct (class_cases slot _ Hn Hc) as (Hrange & _ & _).
  destruct (i_curr _ _ _ I slot h r Hl) as (C1 & C2 & _).
  destruct (i_mem _ _ _ I h Hb Hc) as [_ M].
  destruct (blockAlloc_ok 258 (a_g s) (a_ph s) (a_blk s h)) as (blk & res & E & B1 & B2 & B3 & B4 & B5 & B6); auto; try lia.
  { intros off Ho. destruct (i_head _ _ _ I slot h r Hl off Ho) as [[]|]; auto. }
  exists blk, res. split; [exact E|]. split; [exact B1|]. split; [exact B2|].
  destruct res as [off|]; [|exact B6].
  destruct B6 as (D1 & D2 & D3 & D4 & D5 & D6).
  assert (Ng : ~ In h (a_gray s)) by (intro H; apply (i_gray _ _ _ I) in H; tauto).
  assert (AI : ainv (fun x o => x = h /\ o = off) q (wblk s (bset (a_blk s) h blk))).
  { apply ainv_upd with (ex := noex); auto.
    - intros i r' _. rewrite B1. split; [auto|lia].
    - intros i Hi. exfalso. assert (i = slot).
      { eapply in_cls_unique; [exact I| |exact Hin]. destruct (a_cls s i); [contradiction|now right]. }
      subst i. rewrite Hl in Hi. cbn in Hi. pose proof (i_nodup _ _ _ I slot) as ND. rewrite Hl in ND. inversion ND; contradiction.
    - intro o. rewrite B1, B2. apply M.
    - intro H. exfalso. now apply (H slot).
    - intros i r' _ o Ho. rewrite B2. destruct (D6 o Ho); auto.
    - intros P o (i & Hi). right. rewrite B2. destruct (i_sweep _ _ _ I P i h o Hi) as [[]|]; auto.
    - intros x o _ []. }
  unfold alloc_result; repeat match goal with |- _ /\ _ => split end; auto.
  - intros x o. cbn. destruct (Nat.eq_dec x h) as [->|]; [rewrite bset_same, B2; reflexivity|now rewrite bset_other].
  - cbn. now rewrite bset_same.
  - intro Hp. cbn. rewrite bset_same. auto.
  - intros x Hx Hcx. cbn. destruct (Nat.eq_dec x h) as [->|]; [now rewrite bset_same|now rewrite bset_other].
Qed.

Lemma blockAlloc_first : forall f g ph blk, b_curr blk + b_class blk <= 4096 -> inuse_at g (b_mem blk (b_curr blk)) = Ok 0 ->
  exists b', blockAlloc_loop (S f) g ph blk = Ok (b', Some (b_curr blk)).
Proof.
  intros f g ph blk H E. cbn [blockAlloc_loop]. change MEM_BLOCK_SIZE with 4096.
  destruct (Z.leb_spec (b_curr blk + b_class blk) 4096); [|lia]. rewrite E. cbn [obind Z.eqb]. eauto.
Qed.

Lemma blockAlloc_first' : forall g ph blk, b_curr blk + b_class blk <= 4096 -> inuse_at g (b_mem blk (b_curr blk)) = Ok 0 ->
  exists b', blockAlloc g ph blk = Ok (b', Some (b_curr blk)).
Proof. intros g ph blk. exact (blockAlloc_first 257 g ph blk). Qed.

Lemma gcAlloc_empty : forall q s slot c f, ainv noex q s -> a_cls s slot = [] ->
  nth_error sizeClass slot = Some c -> c <> 0 ->
  exists s1 b off, gcAlloc_loop (S f) s slot = Ok (s1, (b, off)) /\ alloc_result q s slot c s1 b off.
Proof.
  intros q s slot c f I Hl Hn Hc.
  cbn [gcAlloc_loop].
  unfold getBlock. rewrite Hl.
  destruct (fresh_ok q s I) as (s1 & b & E & I1 & SM & Eg & Ep & Ecl & Egr & Est & Een & Epo & Epb & En & Eold & Hb & Eb & Ez & Nf & Ng & Nc).
  rewrite E. cbn [obind].
  assert (Hs0 : Nat.eqb slot 0 = false).
  { apply Nat.eqb_neq. intros ->. cbn in Hn. congruence. }
  rewrite Hs0, Hn. cbn [obind].
  set (s2 := wcls _ _).
  assert (I2 : ainv noex q s2).
  { apply give_class; auto; rewrite ?Eb; auto. now rewrite Ecl. }
  assert (Hl2 : a_cls s2 slot = [b]) by apply cset_same.
  assert (Eb2 : a_blk s2 b = mkB c 0 false (b_mem (a_blk s b))).
  { unfold s2. cbn. rewrite bset_same, Eb. reflexivity. }
  destruct (try_block q s2 slot b [] I2 Hl2) as (blk & res & Ea & B1 & B2 & B3).
  rewrite Ea. cbn [obind].
  assert (Hres : exists off, res = Some off).
  { destruct (class_cases slot c Hn Hc) as (Hr & _).
    destruct (blockAlloc_first' (a_g s2) (a_ph s2) (a_blk s2 b)) as [b' Eb'].
    * rewrite Eb2. cbn [b_curr b_class]. lia.
    * rewrite Eb2. cbn [b_curr b_mem]. rewrite Ez. reflexivity.
    * rewrite Eb' in Ea. inversion Ea. eauto. }
  destruct Hres as [off ->].
  eexists _, b, off. split; [reflexivity|]. rewrite Eb2 in B3. cbn [b_class] in B3.
  destruct B3 as (A1 & A2 & A3 & A4 & A5 & A6 & A7 & A8 & A9 & A10 & A11 & A12 & A13).
  assert (G2 : a_g s2 = a_g s) by exact Eg. assert (P2 : a_ph s2 = a_ph s) by exact Ep.
  assert (SM2 : same_mem s s2).
  { intros x o. unfold s2. cbn. rewrite <- SM. destruct (Nat.eq_dec x b) as [->|]; [now rewrite bset_same|now rewrite bset_other]. }
  unfold alloc_result; repeat match goal with |- _ /\ _ => split end; auto.
  - intros x o. rewrite A2. apply SM2.
  - rewrite G2, SM2 in A10. exact A10.
  - rewrite P2 in A11. exact A11.
  - intros x Hx Hcx. assert (x <> b).
    { intros ->. rewrite <- (Eold b Hx), Eb in Hcx. now apply Hcx. }
    cbn. rewrite bset_other by auto. unfold s2. cbn. rewrite bset_other by auto. now rewrite Eold.
Qed.

Lemma gcAlloc_loop_ok : forall n q s slot c, ainv noex q s -> length (a_cls s slot) = n ->
  nth_error sizeClass slot = Some c -> c <> 0 ->
  exists s1 b off, gcAlloc_loop (2 + n) s slot = Ok (s1, (b, off)) /\ alloc_result q s slot c s1 b off.
Proof.
  induction n as [|n IH]; intros q s slot c I Hlen Hn Hc.
  - apply gcAlloc_empty; auto. destruct (a_cls s slot); [reflexivity|discriminate].
  - change (2 + S n)%nat with (S (2 + n)). cbn [gcAlloc_loop].
    destruct (a_cls s slot) as [|h r] eqn:Hl; [discriminate|].
    unfold getBlock. rewrite Hl.
    assert (Hin : In h (a_cls s slot)) by (rewrite Hl; now left).
    destruct (i_cls _ _ _ I slot h Hin) as (Hb & Hn' & Hc').
    assert (Ec : b_class (a_blk s h) = c) by congruence.
    assert (Hs0 : Nat.eqb slot 0 = false).
    { apply Nat.eqb_neq. intros ->. cbn in Hn. congruence. }
    rewrite Hs0. cbn [negb assertT obind].
    destruct (try_block q s slot h r I Hl) as (blk & res & Ea & B1 & B2 & B3).
    rewrite Ea. cbn [obind]. destruct res as [off|].
    + eexists _, h, off. split; [reflexivity|]. rewrite Ec in B3. exact B3.
    + set (s2 := wblk s (bset (a_blk s) h blk)). cbn zeta.
      assert (Et : tl (a_cls s2 slot) = r) by (cbn; now rewrite Hl). rewrite Et.
      set (s3 := wcls _ _).
      assert (Hb2 : forall x, bset (a_blk s2) h (with_curr blk 0) x = bset (a_blk s) h (with_curr blk 0) x).
      { intro x. unfold s2. cbn. unfold bset. destruct (Nat.eqb x h); reflexivity. }
      pose proof (drop_full q s slot h r blk I Hl B1) as DF.
      assert (Em : forall off, b_mem blk off = b_mem (a_blk s h) off) by (intro; now rewrite B2).
      specialize (DF Em B3). cbv zeta in DF.
      set (t3 := wcls (wblk s (bset (a_blk s) h (with_curr blk 0))) (cset (a_cls s) slot r)) in DF.
      set (s4 := match a_ph s3 with PSweep => _ | _ => _ end).
      set (t4 := match a_ph t3 with PSweep => _ | _ => _ end) in DF.
      (* s4 and t4 have pointwise equal blocks *)
      assert (X : a_cls t4 = cset (a_cls s) slot r /\ a_cls s4 = a_cls t4 /\ a_g s4 = a_g t4 /\ a_ph s4 = a_ph t4 /\ a_n s4 = a_n t4 /\ a_free s4 = a_free t4 /\
                  a_gray s4 = a_gray t4 /\ a_start s4 = a_start t4 /\ a_end s4 = a_end t4 /\ a_pos s4 = a_pos t4 /\ a_pb s4 = a_pb t4 /\
                  a_g t4 = a_g s /\ a_ph t4 = a_ph s /\ a_n t4 = a_n s /\ a_gray t4 = a_gray s /\
                  (forall x, a_blk s4 x = a_blk t4 x) /\ (forall x, a_blk t4 x = bset (a_blk s) h (with_curr blk 0) x)).
      { unfold s4, t4. change (a_ph s3) with (a_ph s). change (a_ph t3) with (a_ph s). change (a_pb s3) with (a_pb s). change (a_pb t3) with (a_pb s).
        destruct (a_ph s) eqn:Ep; [| |destruct (a_pb s) as [p|]; [destruct (Nat.eqb p h)|]];
        unfold s3, t3; cbn; rewrite ?Ep; repeat split; auto. }
      destruct X as (X0 & X1 & X2 & X3 & X4 & X5 & X6 & X7 & X8 & X9 & X10 & X11 & X12 & X13 & X14 & X15 & X16).
      assert (I4 : ainv noex q s4).
      { clearbody s4 t4. clear - DF X1 X2 X3 X4 X5 X6 X7 X8 X9 X10 X15.
        destruct DF. constructor; rewrite ?X1, ?X2, ?X3, ?X4, ?X5, ?X6, ?X7, ?X8, ?X9, ?X10; auto.
        - intros x. rewrite X15. auto.
        - intros x. rewrite X15. auto.
        - intros i x. rewrite X15. auto.
        - intros i x l E. rewrite X15. destruct (i_curr0 i x l E) as (A & B & C). split; [exact A|]. split; [exact B|]. intros y Hy. rewrite X15. auto.
        - intros x. rewrite X15. auto.
        - intros x. rewrite X15. auto.
        - intros x. rewrite X15. auto.
        - intros i x l E. rewrite X15. eauto.
        - destruct (a_ph t4); auto. eapply qrep_eq; [exact i_q0|auto..|]. intros x y _. now rewrite X15.
        - intros P i x off. rewrite X15. apply i_sweep0. exact P. }
      assert (Hlen4 : length (a_cls s4 slot) = n) by (rewrite X1, X0, cset_same; cbn in Hlen; lia).
      destruct (IH q s4 slot c I4 Hlen4 Hn Hc) as (s1 & b & off & E & R).
      exists s1, b, off. split; [exact E|].
      destruct R as (A1 & A2 & A3 & A4 & A5 & A6 & A7 & A8 & A9 & A10 & A11 & A12 & A13).
      assert (SM : same_mem s s4).
      { intros x o. rewrite X15, X16. destruct (Nat.eq_dec x h) as [->|]; [rewrite bset_same; cbn; now rewrite B2|now rewrite bset_other]. }
      assert (G4 : a_g s4 = a_g s) by congruence. assert (P4 : a_ph s4 = a_ph s) by congruence. assert (N4 : a_n s4 = a_n s) by congruence.
      unfold alloc_result; repeat match goal with |- _ /\ _ => split end; auto; try congruence; try lia.
      * rewrite P4 in A11. exact A11.
      * intros x Hx Hcx. assert (Ex : b_class (a_blk s4 x) = b_class (a_blk s x)).
        { rewrite X15, X16. destruct (Nat.eq_dec x h) as [->|]; [rewrite bset_same; cbn; congruence|now rewrite bset_other]. }
        rewrite A12; [exact Ex|lia|congruence].
Qed.

(** ** choice of the size class *)
Definition class_fits (lo hi idx : Z) : bool :=
  match nth_error sizeClass (Z.to_nat idx) with
  | Some c => (0 <? idx) && (hi <=? c) && forallb (fun c' => (c <=? c') || (c' <? lo)) sizeClass
  | None => false
  end.
Lemma small_table : forallb (fun k => match nth_error smallSizeClassIdx k with
    | Some i => class_fits (8 * Z.of_nat k - 7) (8 * Z.of_nat k) i | None => false end) (seq 1 16) = true.
Proof. reflexivity. Qed.
Lemma medium_table : forallb (fun k => match nth_error mediumSizeClassIdx k with
    | Some i => class_fits (Z.max 128 (64 * Z.of_nat k - 63)) (64 * Z.of_nat k) i | None => false end) (seq 2 63) = true.
Proof. reflexivity. Qed.

Lemma class_fits_ok : forall lo hi idx size, class_fits lo hi idx = true -> lo <= size <= hi ->
  exists c, nth_error sizeClass (Z.to_nat idx) = Some c /\ 0 < idx /\ size <= c /\
    forall j c', nth_error sizeClass j = Some c' -> size <= c' -> c <= c'.
Proof.
  intros lo hi idx size H Hs. unfold class_fits in H. destruct (nth_error sizeClass (Z.to_nat idx)) as [c|]; [|discriminate].
  apply andb_prop in H as [H H2]. apply andb_prop in H as [H0 H1].
  exists c. split; [reflexivity|]. split; [lia|]. split; [lia|].
  intros j c' Hj Hc. rewrite forallb_forall in H2. specialize (H2 c' (nth_error_In _ _ Hj)).
  apply orb_prop in H2 as [H2|H2]; lia.
Qed.

Lemma slot_spec : forall size, 0 < size <= 4096 -> exists i c, getSlotBySize size = Ok (Z.of_nat i) /\ (0 < i)%nat /\
  nth_error sizeClass i = Some c /\ size <= c /\
  forall j c', nth_error sizeClass j = Some c' -> size <= c' -> c <= c'.
Proof.
  intros size H. unfold getSlotBySize, aref. destruct (Z.ltb_spec size 128) as [Hlt|Hge].
  - rewrite Z.quot_div_nonneg by lia. pose proof small_table as T. rewrite forallb_forall in T.
    set (k := Z.to_nat ((size + 7) / 8)). specialize (T k). assert (In k (seq 1 16)) by (apply in_seq; lia).
    specialize (T H0). destruct (Z.ltb_spec ((size + 7) / 8) 0); [lia|]. fold k.
    destruct (nth_error smallSizeClassIdx k) as [i|]; [|discriminate].
    destruct (class_fits_ok _ _ _ size T) as (c & A & B & C & D); [lia|].
    exists (Z.to_nat i), c. rewrite Z2Nat.id by lia. split; [reflexivity|]. split; [lia|]. auto.
  - rewrite Z.quot_div_nonneg by lia. pose proof medium_table as T. rewrite forallb_forall in T.
    set (k := Z.to_nat ((size + 63) / 64)). specialize (T k). assert (In k (seq 2 63)) by (apply in_seq; lia).
    specialize (T H0). destruct (Z.ltb_spec ((size + 63) / 64) 0); [lia|]. fold k.
    destruct (nth_error mediumSizeClassIdx k) as [i|]; [|discriminate].
    destruct (class_fits_ok _ _ _ size T) as (c & A & B & C & D); [lia|].
    exists (Z.to_nat i), c. rewrite Z2Nat.id by lia. split; [reflexivity|]. split; [lia|]. auto.
Qed.

(** ** the whole allocation *)
Lemma alloc_ok : forall q s size, ainv noex q s -> 8 < size < 4096 ->
  exists s' b off c, gcAllocSmall s size = Ok (s', (b, off)) /\ ainv noex q s' /\
    a_g s' = a_g s /\ a_ph s' = a_ph s /\ (a_n s <= a_n s')%nat /\ (b < a_n s')%nat /\
    b_class (a_blk s' b) = c /\ size <= c /\ (forall j c', nth_error sizeClass j = Some c' -> size <= c' -> c <= c') /\
    slot_off c off /\ inuse_at (a_g s) (b_mem (a_blk s b) off) = Ok 0 /\
    b_mem (a_blk s' b) off = CHdr true (new_version (a_g s) (a_ph s)) /\
    (forall x o, (x <> b \/ o <> off) -> b_mem (a_blk s' x) o = b_mem (a_blk s x) o) /\
    (forall x, (x < a_n s)%nat -> b_class (a_blk s x) <> 0 -> b_class (a_blk s' x) = b_class (a_blk s x)) /\
    ~ In b (a_gray s').
Proof.
  intros q s size I Hs. destruct (slot_spec size ltac:(lia)) as (i & c & E1 & Hi & E2 & E3 & E4).
  unfold gcAllocSmall. change sizeof_scmHead with 8. destruct (Z.ltb_spec 8 size); [|lia]. cbn [assertT].
  rewrite E1. cbn [obind]. rewrite Nat2Z.id.
  destruct (gcAlloc_loop_ok _ q s i c I eq_refl E2) as (s1 & b & off & El & R); [intro; lia|].
  rewrite El. cbn [obind].
  destruct R as (A1 & A2 & A3 & A4 & A5 & A6 & A7 & A8 & A9 & A10 & A11 & A12 & A13).
  set (nb := with_mem _ _). assert (Hc0 : c <> 0) by lia.
  assert (AI : ainv noex q (wblk s1 (bset (a_blk s1) b nb))).
  { apply ainv_upd with (ex := fun x o => x = b /\ o = off); auto.
    - congruence.
    - intros j r E. unfold nb. cbn. destruct (i_curr _ _ _ A1 j b r E) as (X & Y & _). auto.
    - intros j Hj. unfold nb. cbn. destruct (a_cls s1 j) as [|h r] eqn:E; [contradiction|].
      destruct (i_curr _ _ _ A1 j h r E) as (_ & _ & X). now apply X.
    - intro o. unfold nb. cbn. unfold mset. destruct (Z.eqb_spec o off) as [->|]; [now rewrite A7|].
      destruct (i_mem _ _ _ A1 b A6) as [_ M]; [congruence|]. apply M.
    - intro H'. exfalso. now apply (H' i).
    - intros j r E o Ho. right. unfold nb. cbn [with_mem b_mem b_touch].
      unfold mset. destruct (Z.eqb_spec o off) as [->|Hne].
      + cbn. rewrite A3, A4. unfold new_version. destruct (a_ph s) eqn:Ep.
        * rewrite (inuse_h_mod _ _ (a_g s)) by (rewrite Zmod_mod; reflexivity). split; [apply inuse_now|]. intros _. now rewrite Zmod_mod.
        * split; [apply inuse_ahead; lia|]. rewrite A11 by discriminate. discriminate.
        * split; [apply inuse_ahead; lia|]. rewrite A11 by discriminate. discriminate.
      + destruct (i_head _ _ _ A1 j b r E o) as [[_ X]|X]; [exact Ho|contradiction|exact X].
    - intros P o (j & Hj). right. unfold nb. cbn [with_mem b_mem]. unfold mset. destruct (Z.eqb_spec o off) as [->|Hne].
      + cbn. rewrite A3, A4. unfold new_version. rewrite A4 in P. rewrite P. apply inuse_ahead. lia.
      + destruct (i_sweep _ _ _ A1 P j b o Hj) as [[_ X]|X]; [contradiction|exact X].
    - intros x o Hx [X _]. contradiction. }
  eexists _, b, off, c. split; [reflexivity|]. split; [exact AI|]. cbn [wblk a_g a_ph a_n a_blk a_gray].
  rewrite bset_same. split; [exact A3|]. split; [exact A4|]. split; [exact A5|]. split; [exact A6|]. split; [exact A7|].
  split; [exact E3|]. split; [exact E4|]. split; [exact A8|]. split; [exact A10|].
  split; [unfold nb; cbn; rewrite mset_same; congruence|].
  split.
  { intros x o Hx. destruct (Nat.eq_dec x b) as [->|Hne]; [rewrite bset_same; unfold nb; cbn; rewrite mset_other by tauto|rewrite bset_other by auto]; apply A2. }
  split; [|exact A13].
  intros x Hx Hcx. destruct (Nat.eq_dec x b) as [->|Hne]; [rewrite bset_same; unfold nb; cbn|rewrite bset_other by auto]; now apply A12.
Qed.

(** ** gray queue *)
Lemma cls0 : forall ex q s, ainv ex q s -> a_cls s 0%nat = [].
Proof.
  intros ex q s I. destruct (a_cls s 0%nat) as [|b r] eqn:E; [reflexivity|].
  destruct (i_cls _ _ _ I 0%nat b) as (_ & A & B); [rewrite E; now left|]. cbn in A. congruence.
Qed.

(** changing only the gray queue (and the memory of one of its blocks) *)
Lemma ainv_gray_ex : forall ex q q' s b m gr st en ph, ainv ex q s -> NoDup (a_free s ++ gr) ->
  (forall x, In x gr -> (x < a_n s)%nat /\ b_class (a_blk s x) = 0 /\ b_curr (a_blk s x) = 0 /\ b_touch (a_blk s x) = false) ->
  In b gr \/ b_mem (a_blk s b) = m ->
  ph <> PSweep ->
  let s' := mkA (a_g s) ph (bset (a_blk s) b (with_mem (a_blk s b) m)) (a_n s) (a_free s) (a_cls s) gr st en (a_pos s) (a_pb s) in
  match ph with PInc => qrep q' s' | _ => gr = [] /\ q' = [] end ->
  ainv ex q' s'.
Proof.
  intros ex q q' s b m gr st en ph I ND Hgr Hb Hph s' Hq.
  assert (Kb : forall x, b_class (a_blk s' x) = b_class (a_blk s x) /\ b_curr (a_blk s' x) = b_curr (a_blk s x) /\ b_touch (a_blk s' x) = b_touch (a_blk s x)).
  { intro x. unfold s'. cbn. destruct (Nat.eq_dec x b) as [->|]; [rewrite bset_same; cbn; auto|rewrite bset_other by auto; auto]. }
  assert (Km : forall x, ~ In x gr -> b_mem (a_blk s' x) = b_mem (a_blk s x)).
  { intros x Hx. unfold s'. cbn. destruct (Nat.eq_dec x b) as [->|]; [rewrite bset_same; cbn|now rewrite bset_other]. destruct Hb; [contradiction|auto]. }
  assert (Nfr : forall x, In x (a_free s) -> ~ In x gr).
  { intros x H1 H2. clear - ND H1 H2. induction (a_free s) as [|y l IH]; [contradiction|]. cbn in ND. inversion ND; subst.
    destruct H1 as [->|H1]; [apply H3; apply in_or_app; now right|auto]. }
  assert (Ncl : forall x, b_class (a_blk s x) <> 0 -> ~ In x gr) by (intros x H1 H2; apply Hgr in H2; tauto).
  assert (Kc : forall x, b_class (a_blk s x) <> 0 -> a_blk s' x = a_blk s x).
  { intros x Hx. destruct (Kb x) as (A & B & C). pose proof (Km x (Ncl x Hx)) as D. destruct (a_blk s' x), (a_blk s x). cbn in *. congruence. }
  constructor.
  - apply I.
  - exact ND.
  - intros x Hx. destruct (Kb x) as (-> & -> & ->). rewrite Km by (apply Nfr; exact Hx). now apply (i_free _ _ _ I).
  - intros x Hx. destruct (Kb x) as (-> & -> & ->). now apply Hgr.
  - intros i x Hx. destruct (Kb x) as (-> & _ & _). now apply (i_cls _ _ _ I).
  - apply I.
  - intros i h r E. destruct (Kb h) as (-> & -> & _). destruct (i_curr _ _ _ I i h r E) as (A & B & C). split; [exact A|]. split; [exact B|].
    intros y Hy. destruct (Kb y) as (_ & -> & _). auto.
  - intros x Hx Hc. destruct (Kb x) as (E & _ & _). rewrite E in *. rewrite Kc by auto. now apply (i_mem _ _ _ I).
  - intros x Hx off. rewrite Km; [now apply (i_new _ _ _ I)|]. intro H. apply Hgr in H. change (a_n s') with (a_n s) in Hx. lia.
  - intros x Hx Hc. destruct (Kb x) as (E & _ & _). rewrite E in Hc. rewrite Kc by auto. now apply (i_full _ _ _ I).
  - intros i h r E. destruct (i_cls _ _ _ I i h) as (_ & _ & Hc); [change (a_cls s') with (a_cls s) in E; rewrite E; now left|].
    rewrite Kc by auto. now apply (i_head _ _ _ I i h r).
  - exact Hq.
  - intro P. contradiction.
  - intro P. contradiction.
Qed.
Definition ainv_gray := ainv_gray_ex noex.

Lemma NoDup_snoc : forall (A : Type) (l : list A) x, NoDup l -> ~ In x l -> NoDup (l ++ [x]).
Proof.
  induction l as [|y l IH]; intros x H N; cbn; [constructor; [easy|constructor]|].
  inversion H; subst. constructor.
  - intro H1. apply in_app_or in H1 as [H1|[<-|[]]]; [contradiction|]. apply N. now left.
  - apply IH; auto. intro. apply N. now right.
Qed.

