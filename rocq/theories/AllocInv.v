(** Gray queue, marking, sweeping and flips preserve the allocator invariant. *)
From Coq Require Import ZArith Bool List Lia Arith.
From Verif Require Import Base ListLib GcModel GcProofs AllocModel AllocProofs.
Import ListNotations.
Open Scope Z_scope.
Ltac Zify.zify_post_hook ::= Z.div_mod_to_equations.

Lemma last_nth : forall (r : list nat) x, nth_error (x :: r) (length r) = Some (last r x).
Proof.
  induction r as [|y r IH]; intro x; [reflexivity|].
  cbn [length nth_error]. rewrite (IH y). clear. revert x y. induction r as [|z r IH]; intros x y; [reflexivity|].
  cbn [last]. destruct r; [reflexivity|]. apply (IH x y).
Qed.

Lemma NoDup_nth_error_inj : forall (l : list nat) i j x, NoDup l -> nth_error l i = Some x -> nth_error l j = Some x -> i = j.
Proof.
  intros l i j x H Hi Hj. rewrite NoDup_nth_error in H. apply H; [apply nth_error_Some; congruence|congruence].
Qed.

Lemma wgray_wblk : forall s b m gr st en,
  wgray (wblk s (bset (a_blk s) b (with_mem (a_blk s b) m))) gr st en =
  mkA (a_g s) (a_ph s) (bset (a_blk s) b (with_mem (a_blk s b) m)) (a_n s) (a_free s) (a_cls s) gr st en (a_pos s) (a_pb s).
Proof. reflexivity. Qed.

(** what stays the same for object blocks *)
Definition obj_same (s s' : ast) : Prop :=
  a_g s' = a_g s /\ a_ph s' = a_ph s /\ a_cls s' = a_cls s /\ (a_n s <= a_n s')%nat /\
  forall x, (x < a_n s)%nat -> b_class (a_blk s x) <> 0 -> a_blk s' x = a_blk s x.

Lemma gcEnqueue_ok_ex : forall ex q s pb po, ainv ex q s -> a_ph s = PInc ->
  exists s', gcEnqueue s pb po = Ok s' /\ ainv ex (q ++ [(pb, po)]) s' /\ obj_same s s'.
Proof.
  intros ex q s pb po I Hp. pose proof (i_q _ _ _ I) as Q. rewrite Hp in Q.
  destruct Q as (Q1 & Q2 & Q3 & Q4 & Q5 & Q6 & Q7 & Q8).
  unfold gcEnqueue. change MEM_BLOCK_SIZE with 4096. change sizeof_ptr with 8.
  destruct (Z.ltb_spec 4096 (a_end s + 8)) as [Hfull|Hroom].
  - (* a new block *)
    unfold getBlock. rewrite (cls0 _ _ _ I).
    destruct (fresh_ok_ex ex q s I) as (s1 & b & E & I1 & SM & Eg & Ep & Ecl & Egr & Est & Een & Epo & Epb & En & Eold & Hb & Eb & Ez & Nf & Ng & Nc).
    rewrite E. cbn [obind Nat.eqb].
    cbn [wgray a_end a_start a_blk a_gray Z.leb Z.compare andb].
    change (0 + 8 <=? 4096) with true. cbn [andb].
    eexists. split; [reflexivity|].
    assert (Eq : forall m, wgray (wblk (wgray s1 (a_gray s1 ++ [b]) (a_start s1) 0) (bset (a_blk s1) b (with_mem (a_blk s1 b) m)))
       (a_gray s1 ++ [b]) (a_start s1) (0 + 8) =
       mkA (a_g s1) PInc (bset (a_blk s1) b (with_mem (a_blk s1 b) m)) (a_n s1) (a_free s1) (a_cls s1) (a_gray s1 ++ [b]) (a_start s1) 8 (a_pos s1) (a_pb s1)).
    { intro m. rewrite <- Hp, <- Ep. reflexivity. }
    cbn [wblk wgray a_gray a_start a_end a_blk] in *. rewrite Eq. clear Eq.
    split.
    + apply ainv_gray_ex with (q := q); auto.
      * rewrite app_assoc. apply NoDup_snoc; [apply I1|]. intro H. apply in_app_or in H as [H|H]; auto.
      * intros x Hx. apply in_app_or in Hx as [Hx|[<-|[]]]; [now apply (i_gray _ _ _ I1)|]. rewrite Eb. cbn. auto.
      * left. apply in_or_app. right. now left.
      * discriminate.
      * set (s' := mkA _ _ _ _ _ _ _ _ _ _ _).
        assert (Lg : length (a_gray s') = S (length (a_gray s))) by (cbn; rewrite app_length, Egr; cbn; lia).
        unfold qrep. rewrite Lg. change (a_start s') with (a_start s1). change (a_end s') with 8. rewrite Est.
        split; [cbn; now destruct (a_gray s1)|]. rewrite app_length. cbn [length].
        repeat split; try lia.
        intros j x Hj. unfold word. destruct (Nat.lt_ge_cases j (length q)) as [Hlt|Hge].
        -- rewrite nth_error_app1 in Hj by auto. destruct (Q8 j x Hj) as (bb & W1 & W2).
           exists bb. split; [cbn; rewrite Egr; rewrite nth_error_app1; [exact W1|]; apply nth_error_Some; congruence|].
           cbn. rewrite bset_other; [rewrite SM; exact W2|]. intros ->. apply Ng. rewrite Egr. eapply nth_error_In. exact W1.
        -- rewrite nth_error_app2 in Hj by auto. destruct (j - length q)%nat as [|k] eqn:Ej; [|destruct k; discriminate].
           cbn in Hj. injection Hj as <-. assert (j = length q) by lia. subst j. exists b.
           assert (P : a_start s / 8 + Z.of_nat (length q) = 512 * Z.of_nat (length (a_gray s))) by lia.
           rewrite P. replace (512 * Z.of_nat (length (a_gray s)) / 512) with (Z.of_nat (length (a_gray s))) by lia.
           replace ((512 * Z.of_nat (length (a_gray s))) mod 512) with 0 by lia. rewrite Nat2Z.id.
           split; [cbn; rewrite Egr, nth_error_app2 by lia; now rewrite Nat.sub_diag|]. cbn. rewrite bset_same. reflexivity.
    + repeat split; cbn; auto; try lia; try congruence. intros x Hx Hc. rewrite bset_other; [now apply Eold|].
      intros ->. rewrite <- (Eold b Hx), Eb in Hc. now apply Hc.
  - destruct (a_gray s) as [|h r] eqn:Eg; [contradiction|].
    cbn [obind]. destruct (Z.leb_spec 0 (a_end s)); [|lia]. destruct (Z.leb_spec (a_end s + 8) 4096); [|lia]. cbn [andb].
    eexists. split; [reflexivity|]. set (b := last r h).
    assert (Hnb : nth_error (a_gray s) (length r) = Some b) by (rewrite Eg; apply last_nth).
    assert (Hb : In b (a_gray s)) by (eapply nth_error_In; exact Hnb).
    assert (Eq : forall m, wgray (wblk s (bset (a_blk s) b (with_mem (a_blk s b) m))) (a_gray s) (a_start s) (a_end s + 8) =
       mkA (a_g s) PInc (bset (a_blk s) b (with_mem (a_blk s b) m)) (a_n s) (a_free s) (a_cls s) (a_gray s) (a_start s) (a_end s + 8) (a_pos s) (a_pb s)).
    { intro m. rewrite <- Hp. reflexivity. }
    rewrite Eq. clear Eq. assert (ND : NoDup (a_gray s)).
    { pose proof (i_nd _ _ _ I) as X. clear - X. induction (a_free s); [exact X|]. inversion X; auto. }
    split.
    + apply ainv_gray_ex with (q := q); auto; try discriminate; try apply I.
      set (s' := mkA _ _ _ _ _ _ _ _ _ _ _). assert (Lg : length (a_gray s) = S (length r)) by now rewrite Eg.
      unfold qrep. change (a_start s') with (a_start s). change (a_end s') with (a_end s + 8). change (a_gray s') with (a_gray s).
      rewrite app_length. cbn [length] in *. rewrite Lg.
      repeat split; try lia.
      { rewrite Eg. discriminate. }
      intros j x Hj. destruct (Nat.lt_ge_cases j (length q)) as [Hlt|Hge].
      * rewrite nth_error_app1 in Hj by auto. destruct (Q8 j x Hj) as (bb & W1 & W2).
        exists bb. split; [exact W1|]. cbn [a_blk s']. destruct (Nat.eq_dec bb b) as [->|]; [|now rewrite bset_other].
        rewrite bset_same. cbn [with_mem b_mem]. rewrite mset_other; [exact W2|].
        assert (X : Z.to_nat ((a_start s / 8 + Z.of_nat j) / 512) = length r) by (eapply NoDup_nth_error_inj; eassumption).
        set (p := a_start s / 8 + Z.of_nat j) in *.
        assert (X1 : p / 512 = Z.of_nat (length r)) by (rewrite <- X; rewrite Z2Nat.id; [reflexivity|]; apply Z.div_pos; lia).
        assert (X2 : p < 512 * Z.of_nat (length r) + a_end s / 8) by lia.
        clear - X1 X2. lia.
      * rewrite nth_error_app2 in Hj by auto. destruct (j - length q)%nat as [|k] eqn:Ej; [|destruct k; discriminate].
        cbn in Hj. injection Hj as <-. assert (j = length q) by lia. subst j. exists b.
        assert (P : a_start s / 8 + Z.of_nat (length q) = 512 * Z.of_nat (length r) + a_end s / 8) by lia.
        rewrite P. replace ((512 * Z.of_nat (length r) + a_end s / 8) / 512) with (Z.of_nat (length r)) by lia.
        replace ((512 * Z.of_nat (length r) + a_end s / 8) mod 512) with (a_end s / 8) by lia. rewrite Nat2Z.id.
        split; [exact Hnb|]. cbn [a_blk s']. rewrite bset_same. cbn [with_mem b_mem fst snd]. replace (8 * (a_end s / 8)) with (a_end s) by lia. now rewrite mset_same.
    + repeat split; cbn; auto. intros x Hx Hc. rewrite bset_other; [reflexivity|]. intros ->. apply (i_gray _ _ _ I) in Hb. tauto.
Qed.
Definition gcEnqueue_ok := gcEnqueue_ok_ex noex.

(** changing only free and gray blocks *)
Lemma ainv_pool : forall q q' s s', ainv noex q s -> a_g s' = a_g s -> a_n s' = a_n s -> a_cls s' = a_cls s ->
  (forall x, b_class (a_blk s' x) = b_class (a_blk s x)) ->
  (forall x, b_class (a_blk s x) <> 0 -> a_blk s' x = a_blk s x) ->
  NoDup (a_free s' ++ a_gray s') ->
  (forall b, In b (a_free s') -> (b < a_n s')%nat /\ b_class (a_blk s' b) = 0 /\ b_curr (a_blk s' b) = 0 /\
             b_touch (a_blk s' b) = false /\ forall x, b_mem (a_blk s' b) x = CZero) ->
  (forall b, In b (a_gray s') -> (b < a_n s')%nat /\ b_class (a_blk s' b) = 0 /\ b_curr (a_blk s' b) = 0 /\
             b_touch (a_blk s' b) = false) ->
  (forall b, (a_n s' <= b)%nat -> forall x, b_mem (a_blk s' b) x = CZero) ->
  a_ph s' <> PSweep -> match a_ph s' with PInc => qrep q' s' | _ => a_gray s' = [] /\ q' = [] end ->
  ainv noex q' s'.
Proof.
  intros q q' s s' I Eg En Ec Kc Kb ND Hf Hg Hn Hp Hq.
  constructor; auto.
  - rewrite Eg. apply I.
  - intros i x Hx. rewrite Ec in Hx. rewrite Kc, En. now apply (i_cls _ _ _ I).
  - rewrite Ec. apply I.
  - intros i h r E. rewrite Ec in E. assert (A : forall y, In y (h :: r) -> a_blk s' y = a_blk s y).
    { intros y Hy. apply Kb. destruct (i_cls _ _ _ I i y) as (_ & _ & X); [now rewrite E|exact X]. }
    rewrite (A h) by now left. destruct (i_curr _ _ _ I i h r E) as (B & C & D). split; [exact B|]. split; [exact C|].
    intros y Hy. rewrite A by now right. auto.
  - intros x Hx Hc. rewrite Kc in Hc. rewrite Kb by auto. apply (i_mem _ _ _ I); [lia|auto].
  - intros x Hx Hc. rewrite Kc in Hc. rewrite Kb by auto. rewrite Ec, Eg. apply (i_full _ _ _ I); [lia|auto].
  - intros i h r E. rewrite Ec in E. destruct (i_cls _ _ _ I i h) as (_ & _ & X); [rewrite E; now left|].
    rewrite Kb, Eg by auto. now apply (i_head _ _ _ I i h r).
  - intro P. contradiction.
  - intro P. contradiction.
Qed.

(** handing the first gray block back *)
Lemma reset_head : forall q q' s h r st en ph, ainv noex q s -> a_gray s = h :: r -> ph <> PSweep ->
  let s' := mkA (a_g s) ph (bset (a_blk s) h (with_mem (a_blk s h) zmem)) (a_n s) (h :: a_free s) (a_cls s) r st en (a_pos s) (a_pb s) in
  match ph with PInc => qrep q' s' | _ => r = [] /\ q' = [] end -> ainv noex q' s'.
Proof.
  intros q q' s h r st en ph I Eg Hp s' Hq.
  assert (Hh : In h (a_gray s)) by (rewrite Eg; now left).
  destruct (i_gray _ _ _ I h Hh) as (G1 & G2 & G3 & G4).
  pose proof (i_nd _ _ _ I) as ND. rewrite Eg in ND.
  assert (ND' : NoDup (h :: a_free s ++ r)) by (apply NoDup_remove in ND; constructor; tauto).
  apply ainv_pool with (q := q) (s := s); auto.
  - intro x. unfold s'. cbn. destruct (Nat.eq_dec x h) as [->|]; [now rewrite bset_same|now rewrite bset_other].
  - intros x Hx. unfold s'. cbn. apply bset_other. intros ->. congruence.
  - intros b Hb. unfold s' in *. cbn in *. destruct (Nat.eq_dec b h) as [->|Hne].
    + rewrite bset_same. cbn. auto.
    + rewrite bset_other by auto. destruct Hb as [->|Hb]; [contradiction|]. now apply (i_free _ _ _ I).
  - intros b Hb. unfold s' in *. cbn in *. rewrite bset_other.
    + apply (i_gray _ _ _ I). rewrite Eg. now right.
    + intros ->. inversion ND'. apply H1. apply in_or_app. now right.
  - intros b Hb x. unfold s' in *. cbn in *. rewrite bset_other by lia. now apply (i_new _ _ _ I).
Qed.

Lemma blockReset_ok : forall s b, b_class (a_blk s b) = 0 -> b_curr (a_blk s b) = 0 ->
  blockReset s b = Ok (wfree (wblk s (bset (a_blk s) b (with_mem (a_blk s b) zmem))) (b :: a_free s)).
Proof. intros s b H1 H2. unfold blockReset. rewrite H1, H2. reflexivity. Qed.

(** reading the first element when there is one *)
Lemma read_ok : forall x q s h r, ainv noex (x :: q) s -> a_ph s = PInc -> a_gray s = h :: r -> a_start s < 4096 ->
  exists s', read_ptr s h = Ok (s', Some x) /\ ainv noex q s' /\ obj_same s s'.
Proof.
  intros x q s h r I Hp Eg Hlt. pose proof (i_q _ _ _ I) as Q. rewrite Hp in Q.
  destruct Q as (Q1 & Q2 & Q3 & Q4 & Q5 & Q6 & Q7 & Q8).
  unfold read_ptr. change MEM_BLOCK_SIZE with 4096. change sizeof_ptr with 8.
  destruct (Z.leb_spec 0 (a_start s)); [|lia]. destruct (Z.leb_spec (a_start s + 8) 4096); [|lia]. cbn [andb].
  destruct (Q8 0%nat x eq_refl) as (b & W1 & W2). rewrite Z.add_0_r in W1, W2.
  replace (a_start s / 8 / 512) with 0 in W1 by lia. replace (8 * ((a_start s / 8) mod 512)) with (a_start s) in W2 by lia.
  rewrite Eg in W1. cbn in W1. injection W1 as <-. rewrite W2. destruct x as [p o]. cbn [fst snd].
  eexists. split; [reflexivity|]. split; [|repeat split; auto].
  assert (Eq : wgray s (a_gray s) (a_start s + 8) (a_end s) =
     mkA (a_g s) (a_ph s) (a_blk s) (a_n s) (a_free s) (a_cls s) (a_gray s) (a_start s + 8) (a_end s) (a_pos s) (a_pb s)) by reflexivity.
  rewrite Eq. apply ainv_pool with (q := (p, o) :: q) (s := s); auto; try apply I; cbn [a_ph]; rewrite Hp; [discriminate|].
  cbn [length] in Q7. repeat split; cbn [a_gray a_start a_end]; auto; try lia.
  intros j y Hj. destruct (Q8 (S j) y Hj) as (b & W3 & W4). exists b. cbn [a_gray a_blk a_start].
  replace ((a_start s + 8) / 8 + Z.of_nat j) with (a_start s / 8 + Z.of_nat (S j)) by lia. auto.
Qed.

Lemma gcDequeue_ok : forall q s, ainv noex q s -> a_ph s = PInc ->
  match q with
  | x :: q' => exists s', gcDequeue s = Ok (s', Some x) /\ ainv noex q' s' /\ obj_same s s'
  | [] => exists s', gcDequeue s = Ok (s', None) /\ ainv noex [] (wph s' PNone) /\ obj_same s s'
  end.
Proof.
  intros q s I Hp. pose proof (i_q _ _ _ I) as Q. rewrite Hp in Q. pose proof Q as Q'.
  destruct Q' as (Q1 & Q2 & Q3 & Q4 & Q5 & Q6 & Q7 & Q8).
  unfold gcDequeue. change MEM_BLOCK_SIZE with 4096.
  destruct (a_gray s) as [|h r] eqn:Eg; [contradiction|].
  assert (Hh : In h (a_gray s)) by (rewrite Eg; now left).
  destruct (i_gray _ _ _ I h Hh) as (G1 & G2 & G3 & G4).
  assert (OS : forall st en l fr, obj_same s (mkA (a_g s) (a_ph s) (bset (a_blk s) h (with_mem (a_blk s h) zmem)) (a_n s) fr (a_cls s) l st en (a_pos s) (a_pb s))).
  { intros. repeat split; auto. intros x Hx Hc. cbn. apply bset_other. intros ->. congruence. }
  cbn [length] in *.
  destruct (Z.leb_spec 4096 (a_start s)) as [Hdone|Hmore].
  - rewrite blockReset_ok by auto. cbn [obind].
    set (s2 := wgray _ r 0 _).
    assert (E2 : s2 = mkA (a_g s) (a_ph s) (bset (a_blk s) h (with_mem (a_blk s h) zmem)) (a_n s) (h :: a_free s) (a_cls s) r 0 (a_end s) (a_pos s) (a_pb s)) by reflexivity.
    destruct r as [|b r'].
    + assert (q = []) by (destruct q; [reflexivity|cbn [length] in *; lia]). subst q.
      exists s2. split; [reflexivity|]. split; [|rewrite E2; apply OS].
      assert (E3 : wph s2 PNone = mkA (a_g s) PNone (bset (a_blk s) h (with_mem (a_blk s h) zmem)) (a_n s) (h :: a_free s) (a_cls s) [] 0 (a_end s) (a_pos s) (a_pb s)) by reflexivity.
      rewrite E3. eapply reset_head; [exact I|exact Eg|discriminate|auto].
    + assert (I2 : ainv noex q s2).
      { rewrite E2. eapply reset_head; [exact I|exact Eg|rewrite Hp; discriminate|rewrite Hp].
        cbn [length] in *. repeat split; cbn [a_gray a_start a_end length]; try lia; [discriminate|].
        intros j y Hj. destruct (Q8 j y Hj) as (bb & W1 & W2). rewrite Eg in W1.
        replace ((a_start s / 8 + Z.of_nat j) / 512) with (1 + Z.of_nat j / 512) in W1 by lia.
        replace ((a_start s / 8 + Z.of_nat j) mod 512) with (Z.of_nat j mod 512) in W2 by lia.
        replace (Z.to_nat (1 + Z.of_nat j / 512)) with (S (Z.to_nat (Z.of_nat j / 512))) in W1 by lia.
        exists bb. cbn [a_gray a_blk a_start]. change (0 / 8 + Z.of_nat j) with (Z.of_nat j). split; [exact W1|].
        rewrite bset_other; [exact W2|]. intros ->. cbn in W1. apply nth_error_In in W1.
        pose proof (i_nd _ _ _ I) as ND. rewrite Eg in ND. apply NoDup_remove_2 in ND. apply ND. apply in_or_app. now right. }
      assert (P2 : a_ph s2 = PInc) by exact Hp.
      assert (Hne : (match r' with [] => a_end s2 <=? 0 | _ => false end) = false).
      { destruct r'; [|reflexivity]. change (a_end s2) with (a_end s). apply Z.leb_gt. apply Q6. cbn. lia. }
      rewrite Hne. destruct q as [|x q]; [exfalso; cbn [length] in *|].
      { assert (0 < a_end s) by (apply Q6; lia). lia. }
      destruct (read_ok x q s2 b r' I2 P2 eq_refl) as (s' & E & I' & O'); [cbn; lia|].
      exists s'. split; [exact E|]. split; [exact I'|].
      destruct O' as (O1 & O2 & O3 & O4 & O5). rewrite E2 in *. cbn [a_g a_ph a_cls a_n a_blk] in *.
      repeat split; auto. intros y Hy Hc. assert (y <> h) by (intros ->; congruence).
      rewrite O5; [now apply bset_other|exact Hy|]. now rewrite bset_other.
  - destruct q as [|x q].
    + assert (Hr : r = []).
      { destruct r as [|b r']; [reflexivity|exfalso]. cbn [length] in *. assert (0 < a_end s) by (apply Q6; lia). lia. }
      subst r. cbn [length] in *. destruct (Z.leb_spec (a_end s) (a_start s)); [|exfalso; lia].
      rewrite blockReset_ok by auto. cbn [obind]. eexists. split; [reflexivity|]. split; [|apply OS].
      eapply (reset_head _ _ s h [] 0 0 PNone); [exact I|exact Eg|discriminate|auto].
    + assert (Hne : (match r with [] => a_end s <=? a_start s | _ => false end) = false).
      { destruct r; [|reflexivity]. apply Z.leb_gt. cbn [length] in *. lia. }
      rewrite Hne. eapply read_ok; eauto. 
Qed.

Lemma gcQueueInit_ok : forall q s, ainv noex q s -> a_ph s = PNone ->
  exists s1, gcQueueInit s = Ok s1 /\ ainv noex [] (wph s1 PInc) /\ a_g s1 = a_g s /\ a_cls s1 = a_cls s /\ (a_n s <= a_n s1)%nat /\
    forall x, (x < a_n s)%nat -> b_class (a_blk s x) <> 0 -> a_blk s1 x = a_blk s x.
Proof.
  intros q s I Hp. unfold gcQueueInit, getBlock. rewrite (cls0 _ _ _ I).
  destruct (fresh_ok q s I) as (s1 & b & E & I1 & SM & Eg & Ep & Ecl & Egr & Est & Een & Epo & Epb & En & Eold & Hb & Eb & Ez & Nf & Ng & Nc).
  rewrite E. cbn [obind Nat.eqb]. eexists. split; [reflexivity|].
  pose proof (i_q _ _ _ I1) as Q. rewrite Ep, Hp in Q. destruct Q as [Q1 Q2].
  split; [|cbn; repeat split; auto; intros x Hx Hc; now apply Eold].
  apply ainv_pool with (q := q) (s := s1); auto; cbn [wph wgray a_free a_gray a_n a_blk a_ph].
  - pose proof (i_nd _ _ _ I1) as ND. rewrite Q1, app_nil_r in ND. apply NoDup_snoc; auto.
  - apply (i_free _ _ _ I1).
  - intros x [<-|[]]. rewrite Eb. cbn. auto.
  - apply (i_new _ _ _ I1).
  - discriminate.
  - repeat split; cbn; try lia; try discriminate. intros j x Hj. destruct j; discriminate.
Qed.

(** ** marking *)
Lemma bump_cases : forall i g, g mod 2 = 0 -> exists inc, bump_loop i g = g + inc - 1 /\ (inc = 2 \/ inc = 4 \/ inc = 8 \/ inc = 24).
Proof.
  induction i as [|i IH]; intros g Hg; cbn [bump_loop GEN_INCREMENTS].
  - exists 2. destruct (Z.eqb_spec (g mod 2) 0); [auto|contradiction].
  - destruct (_ =? 0); [|now apply IH]. eexists. split; [reflexivity|].
    destruct i as [|[|i]]; cbn [GEN_INCREMENTS]; auto.
Qed.
Lemma nextVersion_ahead : forall gen g, g mod 2 = 0 -> 0 < (nextVersion gen g - g) mod 64 < 24 /\ nextVersion gen g mod 2 = 1.
Proof.
  intros gen g Hg. unfold nextVersion. destruct (bump_cases (Z.to_nat gen) g Hg) as (inc & -> & H).
  set (x := if gen <? 3 then gen + 1 else gen).
  replace ((x * 64 + (g + inc - 1) mod 64 - g) mod 64) with (inc - 1).
  - split; [lia|]. lia.
  - lia.
Qed.

Definition minv_ok (g minv : Z) : Prop := minv = 0 \/ (minv mod 2 = 1 /\ 0 < (minv - g) mod 64 < 30).

Lemma mark_ver_ok : forall g v minv v' enq, g mod 2 = 0 -> inuse_h g v = true -> minv_ok g minv -> mark_ver g v minv = (v', enq) ->
  inuse_h g v' = true /\ (enq = false -> v' = v \/ v mod 2 = 1).
Proof.
  intros g v minv v' enq Hg Hu Hm E. unfold mark_ver, is_odd in E.
  assert (Hminv : minv <> 0 -> inuse_h g minv = true).
  { intro. apply inuse_ahead. destruct Hm; lia. }
  destruct (Z.eqb_spec (v mod 2) 1).
  - injection E as <- <-. split; [|auto]. destruct (Z.eqb_spec minv 0); cbn [negb andb]; [auto|]. destruct (_ <? _); auto.
  - destruct (nextVersion_ahead (v / 64) g Hg) as [Hn _].
    assert (inuse_h g (nextVersion (v / 64) g) = true) by (apply inuse_ahead; lia).
    destruct (v mod 64 =? g mod 64) eqn:E1; destruct (Z.eqb_spec minv 0); cbn [negb andb orb] in E;
      try (destruct (_ <? _)); cbn [orb] in E; injection E as <- <-; split; auto; discriminate.
Qed.

(** overwriting one header of an object block *)
Lemma put_hdr : forall q s b off t v v' tc (ex : nat -> Z -> Prop), ainv noex q s -> a_ph s = PInc ->
  (b < a_n s)%nat -> b_class (a_blk s b) <> 0 ->
  b_mem (a_blk s b) off = CHdr t v -> inuse_h (a_g s) v' = true ->
  (tc = true \/ v' = v \/ v mod 2 = 1 \/ ex b off) ->
  ainv ex q (wblk s (bset (a_blk s) b (mkB (b_class (a_blk s b)) (b_curr (a_blk s b)) (tc || b_touch (a_blk s b)) (mset (b_mem (a_blk s b)) off (CHdr t v'))))).
Proof.
  intros q s b off t v v' tc ex I Hp Hb Hc Em Hu Hor.
  assert (S1 : forall o, seen (a_g s) (b_touch (a_blk s b)) (b_mem (a_blk s b) o) ->
    ex b o \/ seen (a_g s) (tc || b_touch (a_blk s b)) (mset (b_mem (a_blk s b)) off (CHdr t v') o)).
  { intros o Hs. destruct (Z.eq_dec o off) as [->|Hne].
    - rewrite mset_same. rewrite Em in Hs. destruct t; [|right; exact Logic.I]. cbn [seen] in *. destruct Hs as [H1 H2].
      destruct Hor as [->|[->|[Ho|Hx]]]; [right; split; [exact Hu|discriminate]|right|right|left; exact Hx].
      + split; [exact Hu|]. destruct tc; [discriminate|exact H2].
      + split; [exact Hu|]. destruct tc; [discriminate|]. cbn [orb]. intro T. exfalso. specialize (H2 T).
        pose proof (i_g _ _ _ I). lia.
    - rewrite mset_other by auto. right. destruct (b_mem (a_blk s b) o) as [|[|] w|]; auto. cbn [seen] in *. destruct Hs as [H1 H2].
      split; [exact H1|]. destruct tc; [discriminate|exact H2]. }
  apply ainv_upd with (ex := noex); auto; cbn [b_class b_curr b_touch b_mem].
  - intros i r E. destruct (i_curr _ _ _ I i b r E) as (A & B & _). auto.
  - intros i Hi. destruct (a_cls s i) as [|h r] eqn:E; [contradiction|]. cbn in Hi.
    destruct (i_curr _ _ _ I i h r E) as (_ & _ & X). auto.
  - destruct (i_mem _ _ _ I b Hb Hc) as (_ & M). intro o. destruct (Z.eq_dec o off) as [->|Hne].
    + rewrite mset_same. specialize (M off). rewrite Em in M. exact M.
    + rewrite mset_other by auto. apply M.
  - intros Hn o. apply S1. destruct (i_full _ _ _ I b Hb Hc Hn o) as [[]|H]; exact H.
  - intros i r E o Ho. apply S1. destruct (i_head _ _ _ I i b r E o Ho) as [[]|H]; exact H.
  - rewrite Hp. discriminate.
  - intros x o Hx [].
Qed.

Lemma ainv_weak : forall (ex ex' : nat -> Z -> Prop) q s, (forall b o, ex b o -> ex' b o) -> ainv ex q s -> ainv ex' q s.
Proof.
  intros ex ex' q s H I. constructor; try apply I.
  - intros b Hb Hc Hn off. destruct (i_full _ _ _ I b Hb Hc Hn off); auto.
  - intros i h r E off Ho. destruct (i_head _ _ _ I i h r E off Ho); auto.
  - intros P i b off Hx. destruct (i_sweep _ _ _ I P i b off Hx); auto.
Qed.

(** setting the touch flag repairs a header whose version went ahead *)
Lemma touch_ok : forall q s b off t v', ainv (fun x o => x = b /\ o = off) q s -> a_ph s = PInc -> (b < a_n s)%nat -> b_class (a_blk s b) <> 0 ->
  b_mem (a_blk s b) off = CHdr t v' -> inuse_h (a_g s) v' = true ->
  ainv noex q (wblk s (bset (a_blk s) b (with_touch (a_blk s b)))).
Proof.
  intros q s b off t v' I Hp Hb Hc Em Hu.
  assert (S1 : forall o, (b = b /\ o = off) \/ seen (a_g s) (b_touch (a_blk s b)) (b_mem (a_blk s b) o) ->
    noex b o \/ seen (a_g s) true (b_mem (a_blk s b) o)).
  { intros o [[_ ->]|Hs].
    - right. rewrite Em. destruct t; [|exact Logic.I]. split; [exact Hu|discriminate].
    - right. destruct (b_mem (a_blk s b) o) as [|[|] w|]; auto. cbn [seen] in *. destruct Hs. split; [auto|discriminate]. }
  eapply ainv_upd with (ex := fun x o => x = b /\ o = off); eauto; cbn [with_touch b_class b_curr b_touch b_mem].
  - intros i r E. destruct (i_curr _ _ _ I i b r E) as (A & B & _). auto.
  - intros i Hi. destruct (a_cls s i) as [|h r] eqn:E; [contradiction|]. cbn in Hi.
    destruct (i_curr _ _ _ I i h r E) as (_ & _ & X). auto.
  - destruct (i_mem _ _ _ I b Hb Hc) as (_ & M). exact M.
  - intros Hn o. apply S1. apply (i_full _ _ _ I b Hb Hc Hn o).
  - intros i r E o Ho. apply S1. apply (i_head _ _ _ I i b r E o Ho).
  - rewrite Hp. discriminate.
  - intros x o Hx [E _]. contradiction.
Qed.

(** header contents apart from the version byte, and classes, are kept *)
Definition hdr_same (c c' : cell) : Prop :=
  match c, c' with CHdr t _, CHdr t' _ => t = t' | CZero, CZero => True | _, _ => False end.
Definition mark_frame (s s' : ast) (b : nat) (off : Z) : Prop :=
  a_g s' = a_g s /\ a_ph s' = a_ph s /\ a_cls s' = a_cls s /\ (a_n s <= a_n s')%nat /\
  forall x, (x < a_n s)%nat -> b_class (a_blk s x) <> 0 ->
    b_class (a_blk s' x) = b_class (a_blk s x) /\ b_curr (a_blk s' x) = b_curr (a_blk s x) /\
    (forall o, x <> b \/ o <> off -> b_mem (a_blk s' x) o = b_mem (a_blk s x) o).

Lemma with_mem_eq : forall blk m, with_mem blk m = mkB (b_class blk) (b_curr blk) (false || b_touch blk) m.
Proof. intros [] m. reflexivity. Qed.

Lemma gcMarkSlot_ok : forall q s b off minv, ainv noex q s -> a_ph s = PInc -> is_slot s b off -> minv_ok (a_g s) minv ->
  exists s' q', gcMarkSlot s b off minv = Ok s' /\ ainv noex q' s' /\ mark_frame s s' b off /\
    match b_mem (a_blk s b) off with
    | CHdr true v => if inuse_h (a_g s) v
                     then b_mem (a_blk s' b) off = CHdr true (fst (mark_ver (a_g s) v minv)) /\
                          q' = (if snd (mark_ver (a_g s) v minv) then q ++ [(b, off)] else q)
                     else s' = s /\ q' = q
    | _ => s' = s /\ q' = q
    end.
Proof.
  intros q s b off minv I Hp (Hb & Hc & Hs1 & Hs2 & Hs3) Hm.
  assert (FR : mark_frame s s b off) by (repeat split; auto).
  unfold gcMarkSlot. destruct (Z.eqb_spec (b_class (a_blk s b)) 0); [contradiction|].
  destruct (i_mem _ _ _ I b Hb Hc) as (_ & M). specialize (M off).
  destruct (b_mem (a_blk s b) off) as [|t v|] eqn:Em; [| |contradiction].
  - cbn [inuse_at obind Z.eqb]. eauto 10.
  - destruct (inuse_at_h (a_g s) (CHdr t v)) as (u & E & U0 & _); [discriminate|]. rewrite E. cbn [obind].
    destruct t.
    2:{ assert (u = 0) by now apply U0. subst u. cbn. eauto 10. }
    destruct (inuse_h (a_g s) v) eqn:Hu.
    2:{ assert (u = 0) by now apply U0. subst u. cbn. eauto 10. }
    destruct (Z.eqb_spec u 0) as [E0|_]; [apply U0 in E0; discriminate|].
    destruct (mark_ver (a_g s) v minv) as [v' enq] eqn:Emv. cbn [fst snd].
    destruct (mark_ver_ok _ _ _ _ _ (i_g _ _ _ I) Hu Hm Emv) as [Hu' Hne].
    set (s1 := wblk s (bset (a_blk s) b (with_mem (a_blk s b) (mset (b_mem (a_blk s b)) off (CHdr true v'))))).
    assert (M1 : b_mem (a_blk s1 b) off = CHdr true v') by (unfold s1; cbn; now rewrite bset_same; cbn; rewrite mset_same).
    assert (C1 : b_class (a_blk s1 b) = b_class (a_blk s b)) by (unfold s1; cbn; now rewrite bset_same).
    assert (F1 : mark_frame s s1 b off).
    { repeat split; auto; unfold s1; cbn; destruct (Nat.eq_dec x b) as [->|];
        try (rewrite bset_same; reflexivity); try (rewrite bset_other by auto; reflexivity).
      intros o [|Ho]; [contradiction|]. rewrite bset_same. cbn. now apply mset_other. }
    destruct enq.
    + assert (I1 : ainv (fun x o => x = b /\ o = off) q s1).
      { unfold s1. rewrite with_mem_eq. eapply put_hdr; eauto. }
      destruct (gcEnqueue_ok_ex _ q s1 b off I1 Hp) as (s2 & E2 & I2 & O1 & O2 & O3 & O4 & O5).
      rewrite E2. cbn [obind]. eexists. exists (q ++ [(b, off)]). split; [reflexivity|].
      assert (B2 : a_blk s2 b = a_blk s1 b) by (apply O5; [exact Hb|now rewrite C1]).
      split; [|split; [|split; [|reflexivity]]].
      * eapply touch_ok with (t := true) (v' := v'); eauto.
        -- rewrite O2. exact Hp.
        -- change (a_n s1) with (a_n s) in O4. lia.
        -- now rewrite B2, C1.
        -- now rewrite B2.
        -- rewrite O1. exact Hu'.
      * destruct F1 as (F1 & F2 & F3 & F4 & F5). change (a_n s1) with (a_n s) in *.
        split; [cbn; congruence|]. split; [cbn; congruence|]. split; [cbn; congruence|]. split; [cbn; lia|].
        intros x Hx Hcx. destruct (F5 x Hx Hcx) as (G1 & G2 & G3). specialize (O5 x Hx ltac:(now rewrite G1)).
        cbn. destruct (Nat.eq_dec x b) as [->|].
        -- rewrite bset_same. rewrite B2. cbn. auto.
        -- rewrite bset_other by auto. rewrite O5. auto.
      * cbn. rewrite bset_same, B2. cbn. exact M1.
    + exists s1, q. split; [reflexivity|]. split; [|auto].
      unfold s1. rewrite with_mem_eq. eapply put_hdr; eauto. destruct (Hne eq_refl); auto.
Qed.

Lemma blacken_ok : forall q s b off v, ainv noex q s -> a_ph s = PInc -> is_slot s b off ->
  b_mem (a_blk s b) off = CHdr true v -> v mod 2 = 1 -> 0 < (v - a_g s) mod 64 < 30 ->
  exists s', blacken s b off = Ok s' /\ ainv noex q s' /\ mark_frame s s' b off /\
    b_mem (a_blk s' b) off = CHdr true (v / 64 * 64 + (v + 1) mod 64).
Proof.
  intros q s b off v I Hp (Hb & Hc & Hs1 & Hs2 & Hs3) Em Ho Hv. unfold blacken. rewrite Em.
  eexists. split; [reflexivity|]. split; [|split].
  - rewrite with_mem_eq. eapply put_hdr; eauto. apply inuse_ahead. lia.
  - repeat split; auto; cbn; destruct (Nat.eq_dec x b) as [->|];
        try (rewrite bset_same; reflexivity); try (rewrite bset_other by auto; reflexivity).
    intros o [|Hoo]; [contradiction|]. rewrite bset_same. cbn. now apply mset_other.
  - cbn. rewrite bset_same. cbn. now rewrite mset_same.
Qed.
