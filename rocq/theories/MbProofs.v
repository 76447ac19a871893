(** Lemmas about the mailbox queues and the registry. *)
From Coq Require Import List ZArith NArith Bool Lia Arith.
From Verif Require Import Base ListLib LibModel LibProofs MbModel.
Import ListNotations.
Local Open Scope Z_scope.
Local Open Scope out_scope.

Ltac Zify.zify_post_hook ::= Z.div_mod_to_equations.

(** ** the linked queue *)

(** The queue in memory holds [xs]: the last [length xs] nodes ever allocated,
    linked in order; the [next] of the last one is arbitrary. *)
Definition crep {A} (q : cqueue A) (xs : list A) : Prop :=
  q_len q = Z.of_nat (List.length xs) /\
  exists k, List.length (q_mem q) = (k + List.length xs)%nat /\
    (xs <> [] -> q_head q = PNode k /\ q_tail q = PNode (k + List.length xs - 1)) /\
    (forall j x, nth_error xs j = Some x ->
       exists n, nth_error (q_mem q) (k + j) = Some n /\ n_val n = x /\
         ((S j < List.length xs)%nat -> n_next n = PNode (k + S j))).

Lemma crep_init : forall A, crep (@queueInit A) [].
Proof.
  intro A. split; auto. exists 0%nat. split; auto. split; [congruence|]. intros [|j] x H; discriminate.
Qed.

Lemma set_next_nth : forall A (m : list (node A)) i p j,
  nth_error (set_next m i p) j =
  match nth_error m j with Some n => Some (if Nat.eqb i j then mkNode p (n_val n) else n) | None => None end.
Proof.
  induction m as [|n m IH]; intros [|i] p [|j]; cbn; auto. destruct (nth_error m j); auto.
Qed.

Lemma set_next_length : forall A (m : list (node A)) i p, List.length (set_next m i p) = List.length m.
Proof. induction m; intros [|i] p; cbn; auto. Qed.

Lemma enqueueC_rep : forall A (q : cqueue A) xs v, crep q xs ->
  exists q', enqueueC q v = Ok q' /\ crep q' (xs ++ [v]).
Proof.
  intros A q xs v (Hl & k & Hm & Hht & Hn). unfold enqueueC. rewrite Hl.
  destruct xs as [|x0 xs0] eqn:Exs.
  - cbn [List.length Z.of_nat Z.eqb]. eexists. split; [reflexivity|]. split; [reflexivity|].
    cbn [q_mem q_head q_tail app List.length]. exists (List.length (q_mem q)). split; [rewrite app_length; reflexivity|].
    split.
    + intros _. split; auto. f_equal. lia.
    + intros [|j] x H; [|destruct j; discriminate]. injection H as ->.
      exists (mkNode PWild x). split; [|split; [auto|cbn; lia]].
      rewrite nth_error_app2 by lia. replace (_ + 0 - _)%nat with 0%nat by lia. reflexivity.
  - rewrite <- Exs in *. assert (Hlx : (0 < List.length xs)%nat) by (subst; cbn; lia).
    assert (Hne : xs <> []) by (subst; discriminate). clear Exs x0 xs0.
    destruct (Z.eqb_spec (Z.of_nat (List.length xs)) 0); [lia|].
    destruct (Hht Hne) as (Hh & Ht). rewrite Ht.
    unfold store_next at 1. rewrite app_length. cbn [List.length].
    destruct (Nat.ltb_spec (k + List.length xs - 1) (List.length (q_mem q) + 1)); [|lia]. cbn [obind].
    unfold store_next. rewrite set_next_length, app_length. cbn [List.length].
    destruct (Nat.ltb_spec (List.length (q_mem q)) (List.length (q_mem q) + 1)); [|lia]. cbn [obind].
    eexists. split; [reflexivity|]. split; [cbn [q_len]; rewrite app_length; cbn [List.length]; lia|].
    cbn [q_mem q_head q_tail]. exists k. rewrite !set_next_length, !app_length. cbn [List.length].
    split; [lia|]. split; [intros _; split; auto; f_equal; lia|].
    clear H H0. intros j x H. rewrite !set_next_nth.
    destruct (Nat.lt_ge_cases j (List.length xs)) as [Hj|Hj].
    + rewrite nth_error_app1 in H by auto. destruct (Hn j x H) as (n0 & E & Ev & Enx).
      rewrite nth_error_app1 by lia. rewrite E. eexists. split; [reflexivity|].
      destruct (Nat.eqb_spec (k + List.length xs - 1) (k + j)), (Nat.eqb_spec (List.length (q_mem q)) (k + j));
        try lia; cbn [n_val n_next]; split; auto.
      * intros _. f_equal. lia.
      * intros _. apply Enx. lia.
    + rewrite nth_error_app2 in H by auto. destruct (j - List.length xs)%nat as [|d] eqn:Ed; [|destruct d; discriminate].
      injection H as ->. rewrite nth_error_app2 by lia. replace (k + j - List.length (q_mem q))%nat with 0%nat by lia.
      cbn [nth_error]. eexists. split; [reflexivity|].
      destruct (Nat.eqb_spec (k + List.length xs - 1) (k + j)), (Nat.eqb_spec (List.length (q_mem q)) (k + j)); try lia.
      cbn [n_val n_next]. split; auto. lia.
Qed.

Lemma dequeueC_rep : forall A (q : cqueue A) x xs, crep q (x :: xs) ->
  exists q', dequeueC q = Ok (x, q') /\ crep q' xs.
Proof.
  intros A q x xs (Hl & k & Hm & Hht & Hn). unfold dequeueC. rewrite Hl.
  destruct (Z.ltb_spec 0 (Z.of_nat (List.length (x :: xs)))) as [_|H]; [|cbn [List.length] in H; lia].
  unfold assertT. destruct (Hht ltac:(discriminate)) as (Hh & Ht). rewrite Hh.
  destruct (Hn 0%nat x eq_refl) as (n & E & Ev & Enx). rewrite Nat.add_0_r in E.
  unfold load. rewrite E. cbn [obind]. cbn [List.length] in *.
  unfold store_next. destruct (Nat.ltb_spec k (List.length (q_mem q))); [|lia]. cbn [obind]. rewrite Ev.
  eexists. split; [reflexivity|]. split; [cbn [q_len]; lia|].
  cbn [q_mem q_head q_tail]. exists (S k). rewrite set_next_length. split; [lia|]. split.
  - intro Hne. assert (0 < List.length xs)%nat by (destruct xs; cbn; [congruence|lia]).
    split; [rewrite Enx by lia; f_equal; lia|]. rewrite Ht. f_equal. lia.
  - intros j y H1. destruct (Hn (S j) y H1) as (n1 & E1 & Ev1 & Enx1).
    rewrite set_next_nth. replace (S k + j)%nat with (k + S j)%nat by lia. rewrite E1.
    destruct (Nat.eqb_spec k (k + S j)); [lia|]. eexists. split; [reflexivity|]. split; auto.
    intro. rewrite Enx1 by lia. f_equal. lia.
Qed.

Lemma dequeueC_empty : forall A (q : cqueue A), crep q [] -> dequeueC q = Trap.
Proof. intros A q (Hl & _). unfold dequeueC. rewrite Hl. reflexivity. Qed.

(** ** the mailbox *)

Lemma set_conn_nth : forall l i c j,
  nth_error (set_conn l i c) j =
  match nth_error l j with Some x => Some (if Nat.eqb i j then c else x) | None => None end.
Proof. induction l as [|x l IH]; intros [|i] c [|j]; cbn; auto. destruct (nth_error l j); auto. Qed.

Lemma set_conn_length : forall l i c, List.length (set_conn l i c) = List.length l.
Proof. induction l; intros [|i] c; cbn; auto. Qed.

(** Every reachable mailbox: data [xs], write-conns of blocked receivers [ws]. *)
Record minv (m : mstate) (xs : list val) (ws : list nat) : Prop := {
  mi_data : crep (m_data m) xs;
  mi_blocked : crep (m_blocked m) ws;
  mi_even : exists h, List.length (m_conns m) = (2 * h)%nat;
  mi_ws : forall w, In w ws -> exists h, w = (2 * h + 1)%nat /\ (w < List.length (m_conns m))%nat;
  mi_sleep : forall r rc, m_recv m r = RAsleep rc ->
     exists h, rc = (2 * h)%nat /\ (rc < List.length (m_conns m))%nat /\
       (forall c, nth_error (m_conns m) rc = Some c -> c_readable c = false -> In (S rc) ws);
  mi_extra : forall h c, nth_error (m_conns m) (2 * h) = Some c -> c_extra c = VUndef }.

Lemma minv_make : minv mailboxMake [] [].
Proof.
  split; cbn.
  - apply crep_init.
  - apply crep_init.
  - exists 0%nat. auto.
  - tauto.
  - discriminate.
  - intros h c H. destruct (h + (h + 0))%nat; discriminate.
Qed.

Lemma send_inv : forall m xs ws v, minv m xs ws ->
  exists m', mailboxSend m v = Ok m' /\
    match ws with [] => minv m' (xs ++ [v]) [] | _ :: ws' => minv m' xs ws' end /\
    m_recv m' = m_recv m.
Proof.
  intros m xs ws v [D B (e & He) W Sl X]. unfold mailboxSend. rewrite (proj1 B).
  destruct ws as [|w ws].
  - cbn [List.length Z.of_nat Z.ltb Z.compare].
    destruct (enqueueC_rep _ _ _ v D) as (q & E & R). rewrite E. cbn [obind]. eexists. split; [reflexivity|].
    split; [|reflexivity]. split; cbn; auto. exists e; auto.
  - destruct (Z.ltb_spec 0 (Z.of_nat (List.length (w :: ws)))) as [_|H]; [|cbn [List.length] in H; lia].
    destruct (dequeueC_rep _ _ _ _ B) as (q & E & R). rewrite E. cbn [obind].
    destruct (W w (or_introl eq_refl)) as (h & -> & Hw).
    unfold wakeupBlocked.
    destruct (nth_error (m_conns m) (2 * h + 1)) as [cw|] eqn:Ew; [|apply nth_error_None in Ew; lia].
    replace (2 * h + 1 - 1)%nat with (2 * h)%nat by lia.
    destruct (nth_error (m_conns m) (2 * h)) as [cr|] eqn:Er; [|apply nth_error_None in Er; lia].
    cbn [obind]. eexists. split; [reflexivity|]. split; [|reflexivity].
    split; cbn [m_data m_blocked m_conns m_recv]; rewrite ?set_conn_length; auto.
    + exists e; auto.
    + intros w' Hin. apply W. now right.
    + intros r rc Hr. destruct (Sl r rc Hr) as (h' & -> & Hlt & Hin). exists h'. split; auto. split; auto.
      intros c Ec Hf. rewrite !set_conn_nth in Ec.
      destruct (nth_error (m_conns m) (2 * h')) as [c0|] eqn:E0; [|discriminate].
      destruct (Nat.eqb_spec (2 * h) (2 * h')).
      * injection Ec as <-. discriminate.
      * destruct (Nat.eqb_spec (2 * h + 1) (2 * h')); [lia|]. injection Ec as <-.
        destruct (Hin c0 eq_refl Hf) as [Heq|]; auto. lia.
    + intros h' c Ec. rewrite !set_conn_nth in Ec.
      destruct (nth_error (m_conns m) (2 * h')) as [c0|] eqn:E0; [|discriminate].
      destruct (Nat.eqb_spec (2 * h) (2 * h')) as [Eq|].
      * injection Ec as <-. cbn [c_extra]. apply (X h'). replace h' with h by lia. auto.
      * destruct (Nat.eqb_spec (2 * h + 1) (2 * h')); [lia|]. injection Ec as <-. eapply X; eauto.
Qed.

Lemma try_inv : forall m xs ws, minv m xs ws ->
  match xs with
  | [] => mailboxRecvTry m = Ok (VFalse, m)
  | x :: xs' => exists m', mailboxRecvTry m = Ok (x, m') /\ minv m' xs' ws /\ m_recv m' = m_recv m
  end.
Proof.
  intros m xs ws [D B E W Sl X]. unfold mailboxRecvTry. rewrite (proj1 D). destruct xs as [|x xs]; [reflexivity|].
  destruct (Z.ltb_spec 0 (Z.of_nat (List.length (x :: xs)))) as [_|H]; [|cbn [List.length] in H; lia].
  destruct (dequeueC_rep _ _ _ _ D) as (q & Eq & R). rewrite Eq. cbn [obind]. eexists. split; [reflexivity|].
  split; auto. split; auto.
Qed.

Lemma set_recv_inv : forall m xs ws r x, minv m xs ws -> (forall rc, x <> RAsleep rc) -> minv (set_recv m r x) xs ws.
Proof.
  intros m xs ws r x [D B E W Sl X] Hx. split; cbn; auto.
  intros r' rc. destruct (Nat.eqb_spec r' r); [|apply Sl]. intro H. elim (Hx rc). auto.
Qed.

Lemma block_inv : forall m xs ws r, minv m xs ws ->
  exists m', mailbox_block m r = Ok m' /\ minv m' xs (ws ++ [S (List.length (m_conns m))]) /\
    m_recv m' = (fun r' => if Nat.eqb r' r then RAsleep (List.length (m_conns m)) else m_recv m r').
Proof.
  intros m xs ws r [D B (e & He) W Sl X]. unfold mailbox_block. rewrite (proj1 D).
  destruct (Z.ltb_spec (Z.of_nat (List.length xs)) 0); [lia|].
  destruct (enqueueC_rep _ _ _ (S (List.length (m_conns m))) B) as (q & E & R). rewrite E. cbn [obind].
  eexists. split; [reflexivity|]. split; [|reflexivity].
  split; cbn [set_recv m_data m_blocked m_conns m_recv]; rewrite ?app_length; cbn [List.length]; auto.
  - exists (S e). lia.
  - intros w Hin. apply in_app_or in Hin as [Hin|[<-|[]]].
    + destruct (W w Hin) as (h & -> & Hlt). exists h. split; auto. lia.
    + exists e. split; lia.
  - intros r' rc. destruct (Nat.eqb_spec r' r) as [->|].
    + intro Eq. injection Eq as <-. exists e. split; [lia|]. split; [lia|]. intros. apply in_or_app. right. now left.
    + intro Hr. destruct (Sl r' rc Hr) as (h & -> & Hlt & Hin). exists h. split; auto. split; [lia|].
      intros c Ec Hf. rewrite nth_error_app1 in Ec by auto. apply in_or_app. left. eapply Hin; eauto.
  - intros h c Ec. destruct (Nat.lt_ge_cases (2 * h) (List.length (m_conns m))) as [Hlt|Hge].
    + rewrite nth_error_app1 in Ec by auto. eapply X; eauto.
    + rewrite nth_error_app2 in Ec by auto.
      destruct (2 * h - List.length (m_conns m))%nat as [|[|[|]]]; cbn in Ec; try discriminate; now injection Ec as <-.
Qed.

Lemma step_inv : forall m xs ws s, minv m xs ws ->
  exists m' xs' ws', mbox_step m s = Ok m' /\ minv m' xs' ws'.
Proof.
  intros m xs ws s I. destruct s as [v|r|r|r]; cbn [mbox_step].
  - destruct (send_inv m xs ws v I) as (m' & E & I' & _). destruct ws; eauto 6.
  - destruct (m_recv m r) eqn:Er; eauto.
    assert (T := try_inv m xs ws I). destruct xs as [|x xs].
    + rewrite T. cbn [obind]. do 3 eexists. split; [reflexivity|]. apply set_recv_inv; eauto. intro; cbn; discriminate.
    + destruct T as (m' & E & I' & _). rewrite E. cbn [obind]. do 3 eexists. split; [reflexivity|].
      apply set_recv_inv; eauto. intros rc H. destruct (veqb x VFalse); discriminate.
  - destruct (m_recv m r) eqn:Er; eauto. destruct (block_inv m xs ws r I) as (m' & E & I' & _). eauto 6.
  - destruct (m_recv m r) as [| |rc|] eqn:Er; eauto. destruct (mi_sleep _ _ _ I r rc Er) as (h & -> & Hlt & _).
    destruct (nth_error (m_conns m) (2 * h)) as [c|] eqn:Ec; [|apply nth_error_None in Ec; lia].
    destruct (c_readable c); eauto. do 3 eexists. split; [reflexivity|]. apply set_recv_inv; eauto. intro; discriminate.
Qed.

(** ** the registry *)

Lemma next_slot_lt : forall i, (next_slot i < NUM_SLOTS)%nat.
Proof. intro. unfold next_slot. apply Nat.mod_upper_bound. discriminate. Qed.

(** the i-th slot probed from h *)
Definition probe (h i : nat) : nat := Nat.modulo (h + i) NUM_SLOTS.

Lemma probe_lt : forall h i, (probe h i < NUM_SLOTS)%nat.
Proof. intros. unfold probe. apply Nat.mod_upper_bound. discriminate. Qed.

Lemma probe_0 : forall h, (h < NUM_SLOTS)%nat -> probe h 0 = h.
Proof. intros. unfold probe. rewrite Nat.add_0_r. now apply Nat.mod_small. Qed.

Lemma probe_S : forall h i, next_slot (probe h i) = probe h (S i).
Proof.
  intros. unfold next_slot, probe. rewrite <- Nat.add_1_r.
  rewrite Nat.add_mod_idemp_l by discriminate. f_equal. lia.
Qed.

Lemma mod256 : forall x, exists q r, Nat.modulo x NUM_SLOTS = r /\ x = (256 * q + r)%nat /\ (r < 256)%nat.
Proof.
  intro x. exists (x / NUM_SLOTS)%nat, (Nat.modulo x NUM_SLOTS). split; auto. split.
  - exact (Nat.div_mod x NUM_SLOTS ltac:(discriminate)).
  - apply Nat.mod_upper_bound. discriminate.
Qed.

Lemma probe_inj : forall h i j, (i < NUM_SLOTS)%nat -> (j < NUM_SLOTS)%nat -> probe h i = probe h j -> i = j.
Proof.
  intros h i j Hi Hj H. unfold probe in H. change NUM_SLOTS with 256%nat in Hi, Hj.
  destruct (mod256 (h + i)) as (q1 & r1 & E1 & ? & ?), (mod256 (h + j)) as (q2 & r2 & E2 & ? & ?). lia.
Qed.

Lemma probe_last : forall h, probe h 255 = Nat.modulo (h + NUM_SLOTS - 1) NUM_SLOTS.
Proof. intro. unfold probe. f_equal. change NUM_SLOTS with 256%nat. lia. Qed.

Lemma probe_onto : forall h i, (h < NUM_SLOTS)%nat -> (i < NUM_SLOTS)%nat -> exists j, (j < NUM_SLOTS)%nat /\ probe h j = i.
Proof.
  intros h i Hh Hi. change NUM_SLOTS with 256%nat in *.
  destruct (Nat.le_gt_cases h i).
  - exists (i - h)%nat. split; [lia|]. unfold probe. replace (h + (i - h))%nat with i by lia. apply Nat.mod_small; auto.
  - exists (256 + i - h)%nat. split; [lia|]. unfold probe. replace (h + (256 + i - h))%nat with (i + 1 * NUM_SLOTS)%nat.
    + rewrite Nat.mod_add by discriminate. apply Nat.mod_small; auto.
    + change NUM_SLOTS with 256%nat. lia.
Qed.

Lemma set_slot_nth : forall t i s j,
  nth_error (set_slot t i s) j = match nth_error t j with Some x => Some (if Nat.eqb i j then s else x) | None => None end.
Proof. induction t as [|x t IH]; intros [|i] s [|j]; cbn; auto. destruct (nth_error t j); auto. Qed.

Lemma set_slot_length : forall t i s, List.length (set_slot t i s) = List.length t.
Proof. induction t; intros [|i] s; cbn; auto. Qed.

Definition used (t : list slot) (i : nat) : Prop := exists nm, nth_error t i = Some (Some nm).
Definition free (t : list slot) (i : nat) : Prop := nth_error t i = Some None.

Lemma slot_cases : forall t i, List.length t = NUM_SLOTS -> (i < NUM_SLOTS)%nat -> used t i \/ free t i.
Proof.
  intros t i Hl Hi. unfold used, free. destruct (nth_error t i) as [[nm|]|] eqn:E; eauto.
  apply nth_error_None in E. lia.
Qed.

(** The loop stops at the first free slot, or at the last one probed. *)
Lemma publish_loop_spec : forall t h i fuel,
  List.length t = NUM_SLOTS -> (i <= 255)%nat -> (256 - i < fuel)%nat ->
  exists j, (i <= j <= 255)%nat /\ publish_loop fuel t (probe h i) (probe h 255) = Some (Ok (probe h j)) /\
    (forall k, (i <= k < j)%nat -> used t (probe h k)) /\ (j = 255%nat \/ free t (probe h j)).
Proof.
  intros t h i fuel Hl Hi Hf. remember (255 - i)%nat as d eqn:Ed. revert i fuel Hi Hf Ed.
  induction d as [|d IH]; intros i fuel Hi Hf Ed; (destruct fuel as [|fuel]; [lia|]); cbn [publish_loop];
    unfold slot_at; destruct (slot_cases t (probe h i) Hl (probe_lt h i)) as [[nm U]|F].
  - rewrite U. assert (i = 255%nat) by lia. subst i. rewrite Nat.eqb_refl. exists 255%nat. split; [lia|].
    split; auto. split; [intros; lia|auto].
  - rewrite F. exists i. split; [lia|]. split; auto. split; [intros; lia|auto].
  - rewrite U. destruct (Nat.eqb_spec (probe h i) (probe h 255)) as [E|_].
    { apply probe_inj in E; change NUM_SLOTS with 256%nat; lia. }
    rewrite probe_S. destruct (IH (S i) fuel) as (j & Hj & E & Hu & Hr); try lia.
    exists j. split; [lia|]. split; auto. split; auto. intros k Hk.
    destruct (Nat.eq_dec k i) as [->|]; [exists nm; auto|apply Hu; lia].
  - rewrite F. exists i. split; [lia|]. split; auto. split; [intros; lia|auto].
Qed.

Lemma publish_spec : forall t h name m, List.length t = NUM_SLOTS -> (h < NUM_SLOTS)%nat ->
  (exists j, (j < 255)%nat /\ (forall k, (k < j)%nat -> used t (probe h k)) /\ free t (probe h j) /\
     publish_at h t name m = Some (Ok (set_slot t (probe h j) (Some (name, m))))) \/
  ((forall k, (k < 255)%nat -> used t (probe h k)) /\ publish_at h t name m = Some Trap).
Proof.
  intros t h name m Hl Hh. unfold publish_at. rewrite <- probe_last.
  destruct (publish_loop_spec t h 0 (S NUM_SLOTS) Hl) as (j & Hj & E & Hu & Hr).
  { lia. } { change NUM_SLOTS with 256%nat. lia. }
  rewrite probe_0 in E by auto. rewrite E.
  destruct (Nat.eq_dec j 255) as [->|Hne].
  - right. rewrite Nat.eqb_refl. split; auto. intros. apply Hu. lia.
  - left. exists j. split; [lia|]. split; [intros; apply Hu; lia|]. split; [destruct Hr; [congruence|auto]|].
    destruct (Nat.eqb_spec (probe h j) (probe h 255)) as [E1|]; auto.
    apply probe_inj in E1; change NUM_SLOTS with 256%nat; lia.
Qed.

Lemma resolve_loop_spec : forall t h name i fuel,
  List.length t = NUM_SLOTS -> (i <= 256)%nat -> (257 - i < fuel)%nat ->
  exists j, (i <= j <= 256)%nat /\ resolve_loop fuel t name (probe h i) i = Some (Ok (probe h j, j)) /\
    (forall k, (i <= k < j)%nat -> exists n m, nth_error t (probe h k) = Some (Some (n, m)) /\ n <> name) /\
    (j = 256%nat \/ free t (probe h j) \/ exists m, nth_error t (probe h j) = Some (Some (name, m))).
Proof.
  intros t h name i fuel Hl Hi Hf. remember (256 - i)%nat as d eqn:Ed. revert i fuel Hi Hf Ed.
  induction d as [|d IH]; intros i fuel Hi Hf Ed; (destruct fuel as [|fuel]; [lia|]); cbn [resolve_loop];
    unfold slot_at; destruct (slot_cases t (probe h i) Hl (probe_lt h i)) as [[[n mb] U]|F].
  - rewrite U. assert (i = 256%nat) by lia. subst i. change NUM_SLOTS with 256%nat.
    replace (256 <? 256)%nat with false by reflexivity. rewrite andb_false_r.
    exists 256%nat. split; [lia|]. split; auto. split; [intros; lia|auto].
  - rewrite F. exists i. split; [lia|]. split; auto. split; [intros; lia|auto].
  - rewrite U. change NUM_SLOTS with 256%nat. destruct (Nat.ltb_spec i 256); [|lia].
    destruct (bytes_eqb name n) eqn:En.
    + apply bytes_eqb_eq in En. subst n. cbn [negb andb]. exists i. split; [lia|]. split; auto. split; [intros; lia|eauto].
    + cbn [negb andb]. rewrite probe_S. destruct (IH (S i) fuel) as (j & Hj & E & Hu & Hr); try lia.
      exists j. split; [lia|]. split; auto. split; auto. intros k Hk.
      destruct (Nat.eq_dec k i) as [->|]; [|apply Hu; lia]. exists n, mb. split; auto.
      intros ->. rewrite (proj2 (bytes_eqb_eq name name) eq_refl) in En. discriminate.
  - rewrite F. exists i. split; [lia|]. split; auto. split; [intros; lia|auto].
Qed.

(** The first probed slot that is free or carries the name decides. *)
Lemma resolve_hit : forall t h name j m, List.length t = NUM_SLOTS -> (h < NUM_SLOTS)%nat -> (j < NUM_SLOTS)%nat ->
  (forall k, (k < j)%nat -> exists n m, nth_error t (probe h k) = Some (Some (n, m)) /\ n <> name) ->
  nth_error t (probe h j) = Some (Some (name, m)) ->
  resolve_at h t name = Some (Ok (Some m)).
Proof.
  intros t h name j m Hl Hh Hj Hb Hhit. unfold resolve_at. change NUM_SLOTS with 256%nat in Hj.
  destruct (resolve_loop_spec t h name 0 (S (S NUM_SLOTS)) Hl) as (j' & Hj' & E & Hu & Hr).
  { lia. } { change NUM_SLOTS with 256%nat. lia. }
  rewrite probe_0 in E by auto. rewrite E.
  assert (j' = j).
  { destruct (Nat.lt_trichotomy j' j) as [Hlt|[|Hgt]]; auto.
    - destruct (Hb j' Hlt) as (n & m' & En & Hne). destruct Hr as [|[F|(m'' & Em)]]; [lia| |].
      + unfold free in F. congruence.
      + congruence.
    - destruct (Hu j ltac:(lia)) as (n & m' & En & Hne). congruence. }
  subst j'. unfold slot_at. rewrite Hhit. cbn [obind]. destruct (Nat.eqb_spec j NUM_SLOTS) as [E1|_].
  { change NUM_SLOTS with 256%nat in E1. lia. }
  rewrite (proj2 (bytes_eqb_eq name name) eq_refl). reflexivity.
Qed.

Lemma resolve_miss : forall t h name, List.length t = NUM_SLOTS -> (h < NUM_SLOTS)%nat ->
  (forall i m, nth_error t i <> Some (Some (name, m))) ->
  resolve_at h t name = Some (Ok None).
Proof.
  intros t h name Hl Hh Hn. unfold resolve_at.
  destruct (resolve_loop_spec t h name 0 (S (S NUM_SLOTS)) Hl) as (j' & Hj' & E & Hu & Hr).
  { lia. } { change NUM_SLOTS with 256%nat. lia. }
  rewrite probe_0 in E by auto. rewrite E. unfold slot_at.
  destruct (slot_cases t (probe h j') Hl (probe_lt h j')) as [[[n m] U]|F].
  - rewrite U. cbn [obind]. destruct Hr as [->|[F|(m' & Em)]].
    + reflexivity.
    + unfold free in F. congruence.
    + elim (Hn _ _ Em).
  - rewrite F. reflexivity.
Qed.
