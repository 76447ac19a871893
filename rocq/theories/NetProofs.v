(** Lemmas on NetModel. *)
From Coq Require Import List ZArith Bool Arith Lia.
From Verif Require Import NetModel NetSpec.
Import ListNotations.
Local Open Scope list_scope.
Local Open Scope nat_scope.

(** * What registering changes *)
Definition cb_at (m : mode) (st : state) (c : id) : option cb := match m with Rd => rcb (conns st c) | Wr => wcb (conns st c) end.

Record same (st st' : state) : Prop := {
  s_rcb : forall d, rcb (conns st' d) = rcb (conns st d);
  s_wcb : forall d, wcb (conns st' d) = wcb (conns st d);
  s_md : forall d, md (conns st' d) = md (conns st d);
  s_poll : forall d, poll st' d = poll st d;
  s_res : resumed st' = resumed st;
  s_sent : sent st' = sent st;
  s_recvd : recvd st' = recvd st }.

Lemma same_refl : forall st, same st st.
Proof. constructor; auto. Qed.
Lemma same_trans : forall a b c, same a b -> same b c -> same a c.
Proof. intros a b c [] []; constructor; intros; congruence. Qed.

Lemma same_set_conn : forall c f st, (forall x, rcb (f x) = rcb x /\ wcb (f x) = wcb x /\ md (f x) = md x) -> same st (set_conn c f st).
Proof.
  intros c f st H. constructor; cbn; auto; intros d; destruct (d =? c); auto; apply H.
Qed.
Lemma same_set_hnext : forall p st, same st (set_hnext p st).
Proof. constructor; auto. Qed.

Lemma set_prev_same : forall p q st st', set_prev p q st = Some st' -> same st st'.
Proof.
  intros [ | |d] q st st' H; cbn in H; inversion H; subst; [apply same_refl|].
  apply same_set_conn. auto.
Qed.
Lemma set_next_same : forall p q st st', set_next p q st = Some st' -> same st st'.
Proof.
  intros [ | |d] q st st' H; cbn in H; inversion H; subst; [apply same_set_hnext|].
  apply same_set_conn. auto.
Qed.

Lemma add_conn_same : forall c st st', add_conn c st = Some st' -> same st st'.
Proof.
  intros c st st' H. unfold add_conn in H.
  destruct (match hnext (set_conn c (with_nxt (hnext st)) st) with PNil => _ | _ => _ end) as [s1|] eqn:E; [|discriminate].
  inversion H; subst. clear H.
  assert (same st s1).
  { eapply same_trans; [apply (same_set_conn c (with_nxt (hnext st)) st); auto|].
    destruct (hnext (set_conn c (with_nxt (hnext st)) st)) eqn:Eh.
    - inversion E; subst. apply same_refl.
    - eapply set_prev_same; eauto.
    - eapply set_prev_same; eauto. }
  eapply same_trans; [exact H|]. eapply same_trans; [apply (same_set_hnext (PConn c))|].
  apply same_set_conn. auto.
Qed.

Lemma del_conn_same : forall c st st', del_conn c st = Some st' -> same st st'.
Proof.
  intros c st st' H. unfold del_conn in H.
  destruct (set_next (prv (conns st c)) (nxt (conns st c)) st) as [s1|] eqn:E1; [|discriminate].
  apply set_next_same in E1.
  destruct (match nxt (conns s1 c) with PNil => _ | _ => _ end) as [s2|] eqn:E2; [|discriminate].
  inversion H; subst. clear H.
  assert (same s1 s2).
  { destruct (nxt (conns s1 c)).
    - inversion E2; subst. apply same_refl.
    - eapply set_prev_same; eauto.
    - eapply set_prev_same; eauto. }
  eapply same_trans; [exact E1|]. eapply same_trans; [exact H|].
  apply same_set_conn. auto.
Qed.

Lemma mode_eqb_spec : forall a b, reflect (a = b) (mode_eqb a b).
Proof. destruct a, b; constructor; congruence. Qed.

Record registered (c : id) (m : mode) (f : cb) (st st' : state) : Prop := {
  r_cb : cb_at m st' c = Some f;
  r_other : forall m' d, (m', d) <> (m, c) -> cb_at m' st' d = cb_at m' st d;
  r_md_in : In m (md (conns st' c));
  r_md : forall d, d <> c -> md (conns st' d) = md (conns st d);
  r_poll : forall d, d <> c -> poll st' d = poll st d;
  r_res : resumed st' = resumed st;
  r_sent : sent st' = sent st;
  r_recvd : recvd st' = recvd st }.

Lemma event_loop_add_reg : forall c m f st st', event_loop_add c m f st = Some st' -> registered c m f st st'.
Proof.
  intros c m f st st' H. unfold event_loop_add in H.
  set (s0 := set_conn c (match m with Rd => with_rcb (Some f) | Wr => with_wcb (Some f) end) st) in *.
  assert (C0 : cb_at m s0 c = Some f).
  { unfold s0. destruct m; cbn; rewrite Nat.eqb_refl; reflexivity. }
  assert (O0 : forall m' d, (m', d) <> (m, c) -> cb_at m' s0 d = cb_at m' st d).
  { unfold s0. intros m' d Hd. destruct m, m'; cbn; destruct (Nat.eqb_spec d c); subst; try reflexivity; congruence. }
  assert (M0 : forall d, md (conns s0 d) = md (conns st d)).
  { unfold s0. intros d. destruct m; cbn; destruct (d =? c); reflexivity. }
  assert (P0 : poll s0 = poll st /\ resumed s0 = resumed st /\ sent s0 = sent st /\ recvd s0 = recvd st) by (repeat split).
  clearbody s0. destruct P0 as (P1 & P2 & P3 & P4).
  assert (T : forall s1, (forall d, rcb (conns s1 d) = rcb (conns s0 d)) -> (forall d, wcb (conns s1 d) = wcb (conns s0 d)) ->
              (forall d, d <> c -> md (conns s1 d) = md (conns st d)) -> In m (md (conns s1 c)) ->
              (forall d, d <> c -> poll s1 d = poll st d) -> resumed s1 = resumed st -> sent s1 = sent st -> recvd s1 = recvd st ->
              registered c m f st s1).
  { intros s1 A1 A2 A3 A4 A5 A6 A7 A8. constructor; auto.
    - rewrite <- C0. destruct m; cbn; auto.
    - intros m' d Hd. rewrite <- O0 by exact Hd. destruct m'; cbn; auto. }
  destruct (outside (conns s0 c)).
  - destruct (add_conn c s0) as [s1|] eqn:E; [|discriminate]. inversion H; subst st'. clear H.
    apply add_conn_same in E. destruct E as [E1 E2 E3 E4 E5 E6 E7].
    assert (P : conns (poll_add c m s1) = conns s1) by (unfold poll_add; destruct (poll s1 c); reflexivity).
    apply T.
    + intros d. cbn. rewrite P. destruct (d =? c); cbn; auto.
    + intros d. cbn. rewrite P. destruct (d =? c); cbn; auto.
    + intros d Hd. cbn. rewrite P. destruct (Nat.eqb_spec d c); [contradiction|]. rewrite E3. auto.
    + cbn. rewrite Nat.eqb_refl. cbn. auto.
    + intros d Hd. cbn. unfold poll_add. destruct (poll s1 c); cbn; [|destruct (Nat.eqb_spec d c); [contradiction|]]; rewrite E4, P1; reflexivity.
    + cbn. unfold poll_add. destruct (poll s1 c); cbn; rewrite E5; assumption.
    + cbn. unfold poll_add. destruct (poll s1 c); cbn; rewrite E6; assumption.
    + cbn. unfold poll_add. destruct (poll s1 c); cbn; rewrite E7; assumption.
  - destruct (existsb (mode_eqb m) (md (conns s0 c))) eqn:Em.
    + inversion H; subst st'. apply T; auto; [|intros; rewrite P1; reflexivity]. apply existsb_exists in Em. destruct Em as (x & Hx & Ex).
      destruct (mode_eqb_spec m x); [subst; exact Hx|discriminate].
    + inversion H; subst st'. clear H.
      assert (P : conns (poll_mod c (m :: md (conns s0 c)) s0) = conns s0) by (unfold poll_mod; destruct (poll s0 c); reflexivity).
      apply T.
      * intros d. cbn. rewrite P. destruct (d =? c); reflexivity.
      * intros d. cbn. rewrite P. destruct (d =? c); reflexivity.
      * intros d Hd. cbn. rewrite P. destruct (Nat.eqb_spec d c); [contradiction|]. auto.
      * cbn. rewrite Nat.eqb_refl. cbn. auto.
      * intros d Hd. cbn. unfold poll_mod. destruct (poll s0 c); cbn; [destruct (Nat.eqb_spec d c); [contradiction|]|]; rewrite P1; reflexivity.
      * cbn. unfold poll_mod. destruct (poll s0 c); assumption.
      * cbn. unfold poll_mod. destruct (poll s0 c); assumption.
      * cbn. unfold poll_mod. destruct (poll s0 c); assumption.
Qed.

(** * Sending and receiving *)
Lemma firstn_skipn_plus : forall (l : list byte) p n, firstn (p + n) l = firstn p l ++ firstn n (skipn p l).
Proof.
  induction l as [|x l IH]; intros p n; [rewrite !firstn_nil, skipn_nil, firstn_nil; reflexivity|].
  destruct p; [reflexivity|]. cbn. f_equal. apply IH.
Qed.

Lemma net_send_fine : forall script buf pos r out, Forall snd_fine script -> pos <= length buf ->
  net_send buf pos script = Some (r, out) ->
  (r = ROk /\ firstn pos buf ++ out = buf) \/ (exists p, r = RBlock p /\ p <= length buf /\ firstn p buf = firstn pos buf ++ out).
Proof.
  induction script as [|s script IH]; intros buf pos r out F P H; cbn -[Nat.ltb Nat.leb] in H.
  - destruct (Nat.ltb_spec pos (length buf)); [discriminate|]. inversion H; subst. left.
    rewrite firstn_all2, app_nil_r by lia. auto.
  - destruct (Nat.ltb_spec pos (length buf)).
    2:{ inversion H; subst. left. rewrite firstn_all2, app_nil_r by lia. auto. }
    inversion F as [|? ? F1 F2]; subst. destruct s as [n| |e]; [|inversion H; subst; right; exists pos; rewrite app_nil_r; auto|destruct F1].
    destruct (Nat.leb_spec n (length buf - pos)); [|discriminate].
    destruct (net_send buf (pos + n) script) as [[x o]|] eqn:E; [|discriminate]. inversion H; subst.
    apply IH in E; [|exact F2|lia]. rewrite firstn_skipn_plus, <- app_assoc in E. exact E.
Qed.

Lemma write_at_length : forall buf pos l, pos + length l <= length buf -> length (write_at buf pos l) = length buf.
Proof.
  intros. unfold write_at. rewrite !app_length, firstn_length, skipn_length. lia.
Qed.
Lemma write_at_firstn : forall buf pos l, pos + length l <= length buf -> firstn (pos + length l) (write_at buf pos l) = firstn pos buf ++ l.
Proof.
  intros. unfold write_at. rewrite app_assoc, firstn_app, app_length, firstn_length, Nat.min_l by lia.
  rewrite Nat.sub_diag. cbn. rewrite app_nil_r. apply firstn_all2. rewrite app_length, firstn_length. lia.
Qed.

Lemma net_recv_fine : forall script buf pos r buf' got, Forall rcv_fine script -> pos <= length buf ->
  net_recv buf pos script = Some (r, buf', got) ->
  length buf' = length buf /\
  ((r = ROk /\ buf' = firstn pos buf ++ got) \/ (exists p, r = RBlock p /\ p <= length buf /\ firstn p buf' = firstn pos buf ++ got)).
Proof.
  induction script as [|s script IH]; intros buf pos r buf' got F P H; cbn -[Nat.ltb Nat.leb] in H.
  - destruct (Nat.ltb_spec pos (length buf)); [discriminate|]. inversion H; subst. split; [reflexivity|]. left.
    rewrite firstn_all2, app_nil_r by lia. auto.
  - destruct (Nat.ltb_spec pos (length buf)).
    2:{ inversion H; subst. split; [reflexivity|]. left. rewrite firstn_all2, app_nil_r by lia. auto. }
    inversion F as [|? ? F1 F2]; subst.
    destruct s as [l| |e]; [|inversion H; subst; split; [reflexivity|]; right; exists pos; rewrite app_nil_r; auto|destruct F1].
    destruct (Nat.leb_spec (length l) (length buf - pos)); [|discriminate].
    destruct (net_recv (write_at buf pos l) (pos + length l) script) as [[[x b] g]|] eqn:E; [|discriminate]. inversion H; subst.
    apply IH in E; [|exact F2|rewrite write_at_length; lia].
    rewrite write_at_length in E by lia. rewrite write_at_firstn, <- app_assoc in E by lia. exact E.
Qed.

(** * Histories *)
Lemma run_app : forall a b st, run (a ++ b) st = match run a st with Some st => run b st | None => None end.
Proof.
  induction a as [|o a IH]; intros b st; cbn; [reflexivity|]. destruct (step o st); [apply IH|reflexivity].
Qed.
Lemma tasks_app : forall a b, tasks (a ++ b) = tasks a ++ tasks b.
Proof. induction a as [|[] a IH]; intros b; cbn; rewrite ?IH; reflexivity. Qed.
Lemma bytes_of_app : forall k a b, bytes_of k (a ++ b) = bytes_of k a ++ bytes_of k b.
Proof.
  induction a as [|[j x] a IH]; intros b; cbn; [reflexivity|]. rewrite IH. destruct (j =? k); reflexivity.
Qed.
Lemma bytes_of_own : forall k l, bytes_of k (map (pair k) l) = l.
Proof. induction l as [|x l IH]; cbn; [reflexivity|]. rewrite Nat.eqb_refl, IH. reflexivity. Qed.
Lemma bytes_of_other : forall k j l, j <> k -> bytes_of k (map (pair j) l) = [].
Proof.
  induction l as [|x l IH]; intros H; cbn; [reflexivity|]. destruct (Nat.eqb_spec j k); [contradiction|auto].
Qed.

Definition cb_task (f : cb) : nat := match f with CSend _ _ k | CRecv _ _ k | CAccept k => k end.

Definition good_cb (h : list op) (st : state) (m : mode) (f : cb) : Prop :=
  match m, f with
  | Wr, CSend buf pos k =>
      (exists c s, In (OSend c buf k s) h) /\ pos <= length buf /\ bytes_of k (sent st) = firstn pos buf
  | Rd, CRecv buf pos k =>
      (exists c buf0, In (ORecv c buf0 k) h /\ length buf0 = length buf) /\ pos <= length buf /\ bytes_of k (recvd st) = firstn pos buf
  | Rd, CAccept k => exists c, In (OAccept c k) h
  | _, _ => False
  end.
Definition good_end (h : list op) (st : state) (k : nat) (g : got) : Prop :=
  match g with
  | GSend r => r = ROk /\ exists c buf s, In (OSend c buf k s) h /\ bytes_of k (sent st) = buf
  | GRecv r buf => r = ROk /\ exists c buf0, In (ORecv c buf0 k) h /\ length buf0 = length buf /\ bytes_of k (recvd st) = buf
  | GConn => exists c, In (OAccept c k) h
  end.

Record inv (h : list op) (st : state) : Prop := {
  i_cb : forall m c f, cb_at m st c = Some f -> good_cb h st m f;
  i_one : forall m c f m' c' f', cb_at m st c = Some f -> cb_at m' st c' = Some f' -> cb_task f = cb_task f' -> m = m' /\ c = c';
  i_live : forall m c f, cb_at m st c = Some f -> ~ In (cb_task f) (map fst (resumed st));
  i_end : forall k g, In (k, g) (resumed st) -> good_end h st k g;
  i_nodup : NoDup (map fst (resumed st));
  i_new : forall k, ~ In k (tasks h) -> bytes_of k (sent st) = [] /\ bytes_of k (recvd st) = [];
  i_part : forall c buf k s, In (OSend c buf k s) h -> exists r, buf = bytes_of k (sent st) ++ r }.

Lemma send_task : forall h c buf k s, In (OSend c buf k s) h -> In k (tasks h).
Proof. intros h c buf k s H; induction h as [|o h IH]; [destruct H|]. destruct H as [->|H]; [cbn; auto|]. destruct o; cbn; auto. Qed.
Lemma recv_task : forall h c buf k, In (ORecv c buf k) h -> In k (tasks h).
Proof. intros h c buf k H; induction h as [|o h IH]; [destruct H|]. destruct H as [->|H]; [cbn; auto|]. destruct o; cbn; auto. Qed.
Lemma accept_task : forall h c k, In (OAccept c k) h -> In k (tasks h).
Proof. intros h c k H; induction h as [|o h IH]; [destruct H|]. destruct H as [->|H]; [cbn; auto|]. destruct o; cbn; auto. Qed.

Lemma send_unique : forall h c buf k s c' buf' s', NoDup (tasks h) -> In (OSend c buf k s) h -> In (OSend c' buf' k s') h -> buf = buf'.
Proof.
  induction h as [|o h IH]; intros c buf k s c' buf' s' N I1 I2; [destruct I1|].
  destruct I1 as [E|H], I2 as [E'|H']; subst.
  - inversion E'. reflexivity.
  - cbn in N. inversion N; subst. exfalso. eauto using send_task.
  - cbn in N. inversion N; subst. exfalso. eauto using send_task.
  - eapply IH; eauto. destruct o; auto; inversion N; auto.
Qed.

Lemma good_cb_task : forall h st m f, good_cb h st m f -> In (cb_task f) (tasks h).
Proof.
  intros h st [] [] H; cbn in *; try tauto.
  - destruct H as ((c & b & H & _) & _). eauto using recv_task.
  - destruct H as (c & H). eauto using accept_task.
  - destruct H as ((c & s & H) & _). eauto using send_task.
Qed.
Lemma good_end_task : forall h st k g, good_end h st k g -> In k (tasks h).
Proof.
  intros h st k [] H; cbn in H.
  - destruct H as (_ & c & b & s & H & _). eauto using send_task.
  - destruct H as (_ & c & b & H & _). eauto using recv_task.
  - destruct H as (c & H). eauto using accept_task.
Qed.

Lemma good_cb_more : forall h o st m f, good_cb h st m f -> good_cb (h ++ [o]) st m f.
Proof.
  intros h o st [] [] H; cbn in *; try tauto.
  - destruct H as ((c & b & H & L) & H'). split; [|exact H']. exists c, b. split; [apply in_or_app; auto|exact L].
  - destruct H as (c & H). exists c. apply in_or_app; auto.
  - destruct H as ((c & s & H) & H'). split; [|exact H']. exists c, s. apply in_or_app; auto.
Qed.
Lemma good_end_more : forall h o st k g, good_end h st k g -> good_end (h ++ [o]) st k g.
Proof.
  intros h o st k [] H; cbn in *.
  - destruct H as (E & c & b & s & H & H'). split; [exact E|]. exists c, b, s. split; [apply in_or_app; auto|exact H'].
  - destruct H as (E & c & b & H & H'). split; [exact E|]. exists c, b. split; [apply in_or_app; auto|exact H'].
  - destruct H as (c & H). exists c. apply in_or_app; auto.
Qed.

Lemma nodup_last : forall (a : list nat) k, NoDup (a ++ [k]) -> ~ In k a.
Proof. intros a k H. apply NoDup_remove_2 in H. rewrite app_nil_r in H. exact H. Qed.

Lemma inv_more : forall h o st, NoDup (tasks (h ++ [o])) -> inv h st -> inv (h ++ [o]) st.
Proof.
  intros h o st N [A B C D E F G]. constructor; auto.
  - intros m c f H. apply good_cb_more. eapply A; eauto.
  - intros k g H. apply good_end_more. eapply D; eauto.
  - intros k H. apply F. rewrite tasks_app in H. intros I. apply H. apply in_or_app; auto.
  - intros c buf k s H. apply in_app_or in H. destruct H as [H|[H|[]]]; [eapply G; eauto|]. subst o.
    rewrite tasks_app in N. cbn in N. apply nodup_last in N. exists buf. destruct (F k N) as (-> & _). reflexivity.
Qed.

Lemma inv_same : forall h st st', same st st' -> inv h st -> inv h st'.
Proof.
  intros h st st' [S1 S2 S3 S4 S5 S6 S7] [A B C D E F G].
  assert (T : forall m c, cb_at m st' c = cb_at m st c) by (intros [] c; cbn; auto).
  constructor; rewrite ?S5; auto.
  - intros m c f H. rewrite T in H. apply A in H. destruct m, f; cbn in *; rewrite ?S6, ?S7; exact H.
  - intros m c f m' c' f' H H'. rewrite T in H, H'. eapply B; eauto.
  - intros m c f H. rewrite T in H. eapply C; eauto.
  - intros k g H. apply D in H. destruct g; cbn in *; rewrite ?S6, ?S7; exact H.
  - intros k H. rewrite S6, S7. auto.
  - intros c buf k s H. rewrite S6. eauto.
Qed.

Lemma inv_update : forall h st st' k out inn m c,
  inv h st ->
  sent st' = sent st ++ map (pair k) out -> recvd st' = recvd st ++ map (pair k) inn ->
  (forall m' d f, cb_at m' st' d = Some f ->
     (cb_at m' st d = Some f /\ cb_task f <> k) \/
     (m' = m /\ d = c /\ cb_task f = k /\ good_cb h st' m' f /\ resumed st' = resumed st)) ->
  (resumed st' = resumed st \/ exists g, resumed st' = (k, g) :: resumed st /\ good_end h st' k g) ->
  ~ In k (map fst (resumed st)) -> In k (tasks h) ->
  (forall c' buf s, In (OSend c' buf k s) h -> exists r, buf = bytes_of k (sent st') ++ r) ->
  inv h st'.
Proof.
  intros h st st' k out inn m c [A B C D E F G] Hs Hr Ho He Hk Ht Hp.
  assert (Bs : forall j, j <> k -> bytes_of j (sent st') = bytes_of j (sent st)).
  { intros j Hj. rewrite Hs, bytes_of_app, bytes_of_other, app_nil_r by congruence. reflexivity. }
  assert (Br : forall j, j <> k -> bytes_of j (recvd st') = bytes_of j (recvd st)).
  { intros j Hj. rewrite Hr, bytes_of_app, bytes_of_other, app_nil_r by congruence. reflexivity. }
  assert (R : forall j, In j (map fst (resumed st')) -> j = k \/ In j (map fst (resumed st))).
  { intros j Hj. destruct He as [He|(g & He & _)]; rewrite He in Hj; [auto|]. destruct Hj as [Hj|Hj]; auto. }
  constructor.
  - intros m' d f Hf. destruct (Ho _ _ _ Hf) as [(Hf' & Hj)|(-> & -> & _ & Hg & _)]; [|exact Hg].
    apply A in Hf'. destruct m', f; cbn in *; rewrite ?Bs, ?Br by exact Hj; exact Hf'.
  - intros m1 d1 f1 m2 d2 f2 H1 H2 H3.
    destruct (Ho _ _ _ H1) as [(F1 & J1)|(-> & -> & J1 & _)], (Ho _ _ _ H2) as [(F2 & J2)|(-> & -> & J2 & _)]; try congruence; [|auto].
    eapply B; eauto.
  - intros m' d f Hf Hi. destruct (Ho _ _ _ Hf) as [(Hf' & Hj)|(-> & -> & Hj & _ & Hres)].
    + destruct (R _ Hi) as [Hi'|Hi']; [congruence|]. eapply C; eauto.
    + rewrite Hres in Hi. rewrite Hj in Hi. contradiction.
  - assert (T : forall j g, In (j, g) (resumed st) -> good_end h st' j g).
    { intros j g Hg. assert (j <> k) by (intros ->; apply Hk; apply (in_map fst) in Hg; exact Hg).
      apply D in Hg. destruct g; cbn in *; rewrite ?Bs, ?Br by assumption; exact Hg. }
    intros j g Hg. destruct He as [He|(g0 & He & Hg0)]; rewrite He in Hg; [auto|].
    destruct Hg as [Hg|Hg]; [inversion Hg; subst; exact Hg0|auto].
  - destruct He as [He|(g0 & He & Hg0)]; rewrite He; [exact E|]. cbn. constructor; assumption.
  - intros j Hj. assert (j <> k) by congruence. rewrite Bs, Br by assumption. auto.
  - intros d buf j s Hi. destruct (Nat.eq_dec j k) as [->|Hj]; [eauto|]. rewrite Bs by exact Hj. eauto.
Qed.

Lemma fresh_task : forall h o st k, NoDup (tasks (h ++ [o])) -> tasks [o] = [k] -> inv h st ->
  ~ In k (tasks h) /\ In k (tasks (h ++ [o])) /\ (forall m d f, cb_at m st d = Some f -> cb_task f <> k) /\ ~ In k (map fst (resumed st)) /\
  bytes_of k (sent st) = [] /\ bytes_of k (recvd st) = [].
Proof.
  intros h o st k N T I. rewrite tasks_app, T in N. apply nodup_last in N. destruct (i_new _ _ I _ N) as (B1 & B2).
  do 2 (split; [rewrite ?tasks_app, ?T; auto using in_or_app, in_eq|]). split; [|split; [|auto]].
  - intros m d f H E. apply (i_cb _ _ I) in H. apply good_cb_task in H. congruence.
  - intros H. apply in_map_iff in H. destruct H as ([j g] & E & H). cbn in E. subst j. apply (i_end _ _ I) in H. apply good_end_task in H. contradiction.
Qed.

Lemma mode_id_dec : forall (x y : mode * id), {x = y} + {x <> y}.
Proof. intros. decide equality; [apply Nat.eq_dec|decide equality]. Qed.

(** A callback that goes on is registered. *)
Lemma inv_register : forall h st k out inn m c f s1 st',
  inv h st ->
  (s1 = log_sent k out st /\ inn = [] \/ s1 = log_recvd k inn st /\ out = []) ->
  event_loop_add c m f s1 = Some st' ->
  cb_task f = k -> good_cb h s1 m f ->
  (forall m' d g, cb_at m' st d = Some g -> cb_task g = k -> m' = m /\ d = c) ->
  ~ In k (map fst (resumed st)) -> In k (tasks h) ->
  (forall c' buf s, In (OSend c' buf k s) h -> exists r, buf = bytes_of k (sent s1) ++ r) ->
  inv h st'.
Proof.
  intros h st k out inn m c f s1 st' I S1 H Hf Hg Hu Hk Ht Hp. apply event_loop_add_reg in H.
  assert (Q : (forall m' d, cb_at m' s1 d = cb_at m' st d) /\ resumed s1 = resumed st /\
              sent s1 = sent st ++ map (pair k) out /\ recvd s1 = recvd st ++ map (pair k) inn).
  { destruct S1 as [(-> & ->)|(-> & ->)]; cbn; rewrite ?app_nil_r; (split; [intros []; reflexivity|auto]). }
  destruct Q as (Q1 & Q2 & Q3 & Q4).
  refine (inv_update _ st _ k out inn m c I _ _ _ _ Hk Ht _).
  - rewrite (r_sent _ _ _ _ _ H). exact Q3.
  - rewrite (r_recvd _ _ _ _ _ H). exact Q4.
  - intros m' d g Hg'. destruct (mode_id_dec (m', d) (m, c)) as [W|W].
    + inversion W; subst m' d. right. rewrite (r_cb _ _ _ _ _ H) in Hg'. inversion Hg'; subst g.
      do 3 (split; [auto|]). split; [|rewrite (r_res _ _ _ _ _ H); exact Q2].
      destruct m, f; cbn in *; rewrite ?(r_sent _ _ _ _ _ H), ?(r_recvd _ _ _ _ _ H); exact Hg.
    + left. rewrite (r_other _ _ _ _ _ H), Q1 in Hg' by exact W. split; [exact Hg'|]. intros Hj.
      destruct (Hu _ _ _ Hg' Hj); subst; congruence.
  - left. rewrite (r_res _ _ _ _ _ H). exact Q2.
  - rewrite (r_sent _ _ _ _ _ H). exact Hp.
Qed.

Lemma step_inv : forall h o st st', NoDup (tasks (h ++ [o])) -> op_fine o -> inv h st -> step o st = Some st' -> inv (h ++ [o]) st'.
Proof.
  intros h o st st' N Fo I H. pose proof (inv_more _ _ _ N I) as I'.
  destruct o as [c buf k s|c buf k|c k|c s|c s|c]; cbn [step] in H.
  - (* send *)
    destruct (fresh_task _ _ _ k N eq_refl I) as (K0 & K1 & K2 & K3 & K4 & K5). unfold start_send in H.
    destruct (net_send buf 0 s) as [[r out]|] eqn:E; [|discriminate].
    apply net_send_fine in E; [|exact Fo|lia]. cbn [firstn app] in E.
    assert (Last : In (OSend c buf k s) (h ++ [OSend c buf k s])) by (apply in_or_app; right; left; reflexivity).
    destruct E as [(-> & E)|(p & -> & Lp & E)]; cbn [two] in H.
    + injection H as <-. subst out.
      refine (inv_update _ st (resume k (GSend ROk) (log_sent k buf st)) k buf [] Wr c I' eq_refl _ _ _ K3 K1 _); cbn.
      * rewrite app_nil_r. reflexivity.
      * intros m' d f Hf. left. assert (cb_at m' st d = Some f) as Hf' by (destruct m'; exact Hf). eauto.
      * right. exists (GSend ROk). split; [reflexivity|]. cbn. split; [reflexivity|]. exists c, buf, s. split; [exact Last|].
        rewrite bytes_of_app, K4, bytes_of_own. reflexivity.
      * intros c' buf' s' Hi. rewrite (send_unique _ _ _ _ _ _ _ _ N Hi Last). exists [].
        rewrite bytes_of_app, K4, bytes_of_own, app_nil_r. reflexivity.
    + assert (Ep : ext (conns (set_conn c (with_ext p) (log_sent k out st)) c) = p) by (cbn; rewrite Nat.eqb_refl; reflexivity).
      rewrite Ep in H. clear Ep.
      assert (I2 : inv (h ++ [OSend c buf k s]) (set_conn c (with_ext p) st)).
      { eapply inv_same; [|exact I']. apply same_set_conn. auto. }
      refine (inv_register _ _ k out [] Wr c _ (set_conn c (with_ext p) (log_sent k out st)) _ I2 (or_introl (conj eq_refl eq_refl)) H eq_refl _ _ K3 K1 _); cbn.
      * split; [exists c, s; exact Last|]. split; [exact Lp|]. rewrite bytes_of_app, K4, bytes_of_own. symmetry. exact E.
      * intros m' d g Hg Hj. exfalso. apply (K2 m' d g); [|exact Hj]. rewrite <- Hg. destruct m'; cbn; destruct (d =? c); reflexivity.
      * intros c' buf' s' Hi. rewrite (send_unique _ _ _ _ _ _ _ _ N Hi Last). exists (skipn p buf).
        rewrite bytes_of_app, K4, bytes_of_own. cbn. rewrite <- E, firstn_skipn. reflexivity.
  - (* receive *)
    destruct (fresh_task _ _ _ k N eq_refl I) as (K0 & K1 & K2 & K3 & K4 & K5). unfold start_recv in H.
    assert (Last : In (ORecv c buf k) (h ++ [ORecv c buf k])) by (apply in_or_app; right; left; reflexivity).
    assert (Z : log_recvd k [] st = st) by (destruct st; unfold log_recvd; cbn; rewrite app_nil_r; reflexivity).
    refine (inv_register _ _ k [] [] Rd c _ st _ I' (or_intror (conj (eq_sym Z) eq_refl)) H eq_refl _ _ K3 K1 _); cbn.
    + split; [exists c, buf; auto|]. split; [lia|exact K5].
    + intros m' d g Hg Hj. exfalso. eapply K2; eauto.
    + intros c' buf' s' Hi. exists buf'. rewrite K4. reflexivity.
  - (* accept *)
    destruct (fresh_task _ _ _ k N eq_refl I) as (K0 & K1 & K2 & K3 & K4 & K5). unfold start_accept in H.
    assert (Last : In (OAccept c k) (h ++ [OAccept c k])) by (apply in_or_app; right; left; reflexivity).
    assert (Z : log_recvd k [] st = st) by (destruct st; unfold log_recvd; cbn; rewrite app_nil_r; reflexivity).
    refine (inv_register _ _ k [] [] Rd c _ st _ I' (or_intror (conj (eq_sym Z) eq_refl)) H eq_refl _ _ K3 K1 _); cbn.
    + exists c. exact Last.
    + intros m' d g Hg Hj. exfalso. eapply K2; eauto.
    + intros c' buf' s' Hi. exists buf'. rewrite K4. reflexivity.
  - (* writable *)
    unfold write_event in H. destruct (wcb (conns st c)) as [[buf pos k|buf pos k|k]|] eqn:W; try (injection H as <-; exact I').
    assert (W' : cb_at Wr st c = Some (CSend buf pos k)) by exact W.
    pose proof (i_cb _ _ I' _ _ _ W') as G. pose proof (good_cb_task _ _ _ _ G) as Gt. cbn in G, Gt.
    destruct G as ((c0 & s0 & Last) & Lp & Eb). pose proof (i_live _ _ I' _ _ _ W') as K3. cbn in K3.
    assert (K2 : forall m' d g, cb_at m' st d = Some g -> cb_task g = k -> m' = Wr /\ d = c).
    { intros m' d g Hg Hj. apply (i_one _ _ I' _ _ _ _ _ _ Hg W'). exact Hj. }
    destruct (net_send buf pos s) as [[r out]|] eqn:E; [|discriminate].
    apply net_send_fine in E; [|exact Fo|exact Lp].
    destruct E as [(-> & E)|(p & -> & Lp' & E)]; cbn [two] in H.
    + injection H as <-.
      match goal with |- inv _ (resume k _ ?x) => set (s1 := x) end.
      assert (P1 : conns s1 = conns (set_conn c (with_wcb None) (log_sent k out st)) /\ resumed s1 = resumed st /\
                   sent s1 = sent st ++ map (pair k) out /\ recvd s1 = recvd st).
      { unfold s1, poll_mod. destruct (poll (set_conn c (with_wcb None) (log_sent k out st)) c); repeat split. }
      clearbody s1. destruct P1 as (P1 & P2 & P3 & P4).
      refine (inv_update _ st _ k out [] Wr c I' _ _ _ _ K3 Gt _); cbn.
      * exact P3.
      * rewrite P4, app_nil_r. reflexivity.
      * intros m' d f Hf. left. assert (Hf' : cb_at m' s1 d = Some f) by (destruct m'; exact Hf). clear Hf.
        assert (N0 : cb_at m' st d = Some f /\ (m', d) <> (Wr, c)).
        { destruct m'; cbn in Hf' |- *; rewrite P1 in Hf'; cbn in Hf'; destruct (Nat.eqb_spec d c); cbn in Hf'; split; congruence. }
        destruct N0 as (N0 & N1). split; [exact N0|]. intros Hj. destruct (K2 _ _ _ N0 Hj); subst; congruence.
      * right. exists (GSend ROk). rewrite P2. split; [reflexivity|]. cbn. split; [reflexivity|]. exists c0, buf, s0. split; [exact Last|].
        rewrite P3, bytes_of_app, Eb, bytes_of_own. exact E.
      * intros c' buf' s' Hi. rewrite (send_unique _ _ _ _ _ _ _ _ N Hi Last). exists [].
        rewrite P3, bytes_of_app, Eb, bytes_of_own, app_nil_r. auto.
    + refine (inv_register _ _ k out [] Wr c _ _ _ I' (or_introl (conj eq_refl eq_refl)) H eq_refl _ K2 K3 Gt _); cbn.
      * split; [exists c0, s0; exact Last|]. split; [exact Lp'|]. rewrite bytes_of_app, Eb, bytes_of_own. symmetry. exact E.
      * intros c' buf' s' Hi. rewrite (send_unique _ _ _ _ _ _ _ _ N Hi Last). exists (skipn p buf).
        rewrite bytes_of_app, Eb, bytes_of_own. cbn. rewrite <- E, firstn_skipn. reflexivity.
  - (* readable *)
    unfold read_event in H. destruct (rcb (conns st c)) as [[buf pos k|buf pos k|k]|] eqn:W; try (injection H as <-; exact I').
    + assert (W' : cb_at Rd st c = Some (CRecv buf pos k)) by exact W.
      pose proof (i_cb _ _ I' _ _ _ W') as G. pose proof (good_cb_task _ _ _ _ G) as Gt. cbn in G, Gt.
      destruct G as ((c0 & b0 & Last & L0) & Lp & Eb). pose proof (i_live _ _ I' _ _ _ W') as K3. cbn in K3.
      assert (K2 : forall m' d g, cb_at m' st d = Some g -> cb_task g = k -> m' = Rd /\ d = c).
      { intros m' d g Hg Hj. apply (i_one _ _ I' _ _ _ _ _ _ Hg W'). exact Hj. }
      destruct (net_recv buf pos s) as [[[r buf'] l]|] eqn:E; [|discriminate].
      apply net_recv_fine in E; [|exact Fo|exact Lp]. destruct E as (Lb & E).
      destruct E as [(-> & E)|(p & -> & Lp' & E)]; cbn [two] in H.
      * injection H as <-.
        refine (inv_update _ st _ k [] l Rd c I' _ _ _ _ K3 Gt _); cbn.
        -- rewrite app_nil_r. reflexivity.
        -- reflexivity.
        -- intros m' d f Hf. left.
           assert (N0 : cb_at m' st d = Some f /\ (m', d) <> (Rd, c)).
           { destruct m'; cbn in Hf |- *; destruct (Nat.eqb_spec d c); cbn in Hf; split; congruence. }
           destruct N0 as (N0 & N1). split; [exact N0|]. intros Hj. destruct (K2 _ _ _ N0 Hj); subst; congruence.
        -- right. exists (GRecv ROk buf'). split; [reflexivity|]. cbn. split; [reflexivity|]. exists c0, b0. split; [exact Last|].
           split; [congruence|]. rewrite bytes_of_app, Eb, bytes_of_own. auto.
        -- intros c' bf s' Hi. eapply (i_part _ _ I'); eauto.
      * refine (inv_register _ _ k [] l Rd c _ _ _ I' (or_intror (conj eq_refl eq_refl)) H eq_refl _ K2 K3 Gt _); cbn.
        -- split; [exists c0, b0; split; [exact Last|congruence]|]. split; [lia|]. rewrite bytes_of_app, Eb, bytes_of_own. symmetry. exact E.
        -- intros c' bf s' Hi. eapply (i_part _ _ I'); eauto.
    + assert (W' : cb_at Rd st c = Some (CAccept k)) by exact W.
      pose proof (i_cb _ _ I' _ _ _ W') as G. pose proof (good_cb_task _ _ _ _ G) as Gt. cbn in G, Gt.
      pose proof (i_live _ _ I' _ _ _ W') as K3. cbn in K3.
      assert (K2 : forall m' d g, cb_at m' st d = Some g -> cb_task g = k -> m' = Rd /\ d = c).
      { intros m' d g Hg Hj. apply (i_one _ _ I' _ _ _ _ _ _ Hg W'). exact Hj. }
      injection H as <-.
      refine (inv_update _ st _ k [] [] Rd c I' _ _ _ _ K3 Gt _); cbn.
      * rewrite app_nil_r. reflexivity.
      * rewrite app_nil_r. reflexivity.
      * intros m' d f Hf. left.
        assert (N0 : cb_at m' st d = Some f /\ (m', d) <> (Rd, c)).
        { destruct m'; cbn in Hf |- *; destruct (Nat.eqb_spec d c); cbn in Hf; split; congruence. }
        destruct N0 as (N0 & N1). split; [exact N0|]. intros Hj. destruct (K2 _ _ _ N0 Hj); subst; congruence.
      * right. exists GConn. auto.
      * intros c' bf s' Hi. eapply (i_part _ _ I'); eauto.
  - (* close *)
    unfold conn_close in H. destruct (outside (conns st c)); [injection H as <-; exact I'|].
    apply del_conn_same in H. eapply inv_same; [exact H|].
    destruct I' as [A1 A2 A3 A4 A5 A6 A7]. constructor; auto.
Qed.

Lemma start_inv : inv [] start.
Proof.
  constructor; cbn; intros; try tauto; try (destruct m; discriminate); auto. constructor.
Qed.

Lemma run_inv : forall l st, NoDup (tasks l) -> Forall op_fine l -> run l start = Some st -> inv l st.
Proof.
  induction l as [|o l IH] using rev_ind; intros st N Fo H.
  - cbn in H. injection H as <-. apply start_inv.
  - rewrite run_app in H. destruct (run l start) as [s1|] eqn:E; [|discriminate].
    apply Forall_app in Fo. destruct Fo as (F1 & F2). inversion F2; subst.
    eapply step_inv; eauto.
    + apply IH; auto. rewrite tasks_app in N. clear -N. revert N. generalize (tasks [o]). generalize (tasks l). clear.
      induction l as [|x l IH]; intros m N; [constructor|]. inversion N; subst. constructor; [|eauto].
      intros H. apply H1. apply in_or_app; auto.
    + cbn in H. destruct (step o s1); auto.
Qed.
