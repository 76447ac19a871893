(** C49: channels. *)
From Coq Require Import List ZArith NArith Bool Lia Arith.
From Verif Require Import Base LibModel LibProofs ChanModel.
Import ListNotations.
Local Open Scope nat_scope.

(** ** Specification: the i-th value sent on a channel goes to the i-th
    receive on it.  Operations are numbered by their place in the history. *)

Fixpoint sends (ch k : nat) (h : list op) : list (nat * val * (val -> val)) :=
  match h with
  | [] => []
  | OSend c v w :: r => if Nat.eqb c ch then (k, v, w) :: sends ch (S k) r else sends ch (S k) r
  | _ :: r => sends ch (S k) r
  end.

Fixpoint recvs (ch k : nat) (h : list op) : list (nat * (val -> val)) :=
  match h with
  | [] => []
  | ORecv c w :: r => if Nat.eqb c ch then (k, w) :: recvs ch (S k) r else recvs ch (S k) r
  | _ :: r => recvs ch (S k) r
  end.

Definition is_recv (h : list op) (ch : nat) (e : nat * val) : bool :=
  match nth_error h (fst e) with Some (ORecv c _) => Nat.eqb c ch | _ => false end.
Definition is_send (h : list op) (ch : nat) (e : nat * val) : bool :=
  match nth_error h (fst e) with Some (OSend c _ _) => Nat.eqb c ch | _ => false end.

(** What the receivers of a channel get, in order. *)
Definition deliveries (ch : nat) (h : list op) : list (nat * val) :=
  List.map (fun p => match p with ((r, w), (_, v, _)) => (r, w v) end) (combine (recvs ch 0 h) (sends ch 0 h)).
(** Which senders proceed, and with what, in order. *)
Definition releases (ch : nat) (h : list op) : list (nat * val) :=
  List.map (fun p => match p with ((s, _, w), _) => (s, w VNil) end) (combine (sends ch 0 h) (recvs ch 0 h)).

Definition plain (o : op) : Prop :=
  match o with OSend _ v _ => v <> VFalse | ORecv _ _ => True | OChoice _ _ => False end.

(** ** Invariant *)

Lemma sends_app : forall ch h1 h2 k, sends ch k (h1 ++ h2) = sends ch k h1 ++ sends ch (k + List.length h1) h2.
Proof.
  intro ch. induction h1 as [|o h1 IH]; intros h2 k; cbn; [now rewrite Nat.add_0_r|].
  replace (k + S (List.length h1)) with (S k + List.length h1) by lia.
  destruct o; cbn; rewrite ?IH; auto. destruct (Nat.eqb ch0 ch); auto.
Qed.

Lemma recvs_app : forall ch h1 h2 k, recvs ch k (h1 ++ h2) = recvs ch k h1 ++ recvs ch (k + List.length h1) h2.
Proof.
  intro ch. induction h1 as [|o h1 IH]; intros h2 k; cbn; [now rewrite Nat.add_0_r|].
  replace (k + S (List.length h1)) with (S k + List.length h1) by lia.
  destruct o; cbn; rewrite ?IH; auto. destruct (Nat.eqb ch0 ch); auto.
Qed.

Lemma sends_in : forall ch h k i v w, In (i, v, w) (sends ch k h) -> k <= i /\ nth_error h (i - k) = Some (OSend ch v w).
Proof.
  intro ch. induction h as [|o h IH]; intros k i v w H; cbn in H; [tauto|].
  assert (G : In (i, v, w) (sends ch (S k) h) -> k <= i /\ nth_error (o :: h) (i - k) = Some (OSend ch v w)).
  { intro H1. apply IH in H1 as [H1 H2]. split; [lia|]. replace (i - k) with (S (i - S k)) by lia. auto. }
  destruct o; auto. destruct (Nat.eqb_spec ch0 ch) as [->|]; auto. destruct H as [H|H]; auto.
  injection H as -> -> ->. rewrite Nat.sub_diag. auto.
Qed.

Lemma recvs_in : forall ch h k i w, In (i, w) (recvs ch k h) -> k <= i /\ nth_error h (i - k) = Some (ORecv ch w).
Proof.
  intro ch. induction h as [|o h IH]; intros k i w H; cbn in H; [tauto|].
  assert (G : In (i, w) (recvs ch (S k) h) -> k <= i /\ nth_error (o :: h) (i - k) = Some (ORecv ch w)).
  { intro H1. apply IH in H1 as [H1 H2]. split; [lia|]. replace (i - k) with (S (i - S k)) by lia. auto. }
  destruct o; auto. destruct (Nat.eqb_spec ch0 ch) as [->|]; auto. destruct H as [H|H]; auto.
  injection H as -> ->. rewrite Nat.sub_diag. auto.
Qed.

Lemma combine_snoc : forall A B (l : list A) (m : list B) x,
  combine (l ++ [x]) m = combine l m ++ match skipn (List.length l) m with y :: _ => [(x, y)] | [] => [] end.
Proof.
  intros A B. induction l as [|a l IH]; intros m x; cbn.
  - destruct m as [|b m]; auto.
  - destruct m as [|b m]; auto. cbn. now rewrite IH.
Qed.

Lemma combine_snoc_r : forall A B (l : list A) (m : list B) y,
  combine l (m ++ [y]) = combine l m ++ match skipn (List.length m) l with x :: _ => [(x, y)] | [] => [] end.
Proof.
  intros A B. induction l as [|a l IH]; intros m y; cbn.
  - destruct m; auto.
  - destruct m as [|b m]; cbn; [now rewrite combine_nil|]. now rewrite IH.
Qed.

Lemma skipn_snoc : forall A (l : list A) x n, n <= List.length l -> skipn n (l ++ [x]) = skipn n l ++ [x].
Proof. intros. rewrite skipn_app. replace (n - List.length l) with 0 by lia. reflexivity. Qed.

Lemma skipn_tail : forall A (l : list A) n x r, skipn n l = x :: r -> skipn (S n) l = r.
Proof.
  intros A l. induction l as [|a l IH]; intros n x r H.
  - rewrite skipn_nil in H. discriminate.
  - destruct n; cbn in *; [congruence|eauto].
Qed.

Lemma skipn_in : forall A (l : list A) n x, In x (skipn n l) -> In x l.
Proof. intros A l. induction l as [|a l IH]; intros [|n] x H; cbn in *; eauto. Qed.

Definition striple (it : sitem) := (s_k it, s_val it, s_wrap it).
Definition rpair (it : ritem) := (r_k it, r_wrap it).

(** [h] done so far, [H] the whole history *)
Record cinv (H h : list op) (s : cstate) (home : nat -> nat * bool) : Prop := {
  ci_send : forall ch, List.map striple (c_sendq s ch) = skipn (List.length (recvs ch 0 h)) (sends ch 0 h);
  ci_recv : forall ch, List.map rpair (c_recvq s ch) = skipn (List.length (sends ch 0 h)) (recvs ch 0 h);
  ci_sst : forall ch it, In it (c_sendq s ch) ->
    s_state it < c_gensym s /\ home (s_state it) = (ch, true) /\ c_done s (s_state it) = false;
  ci_rst : forall ch it, In it (c_recvq s ch) ->
    r_state it < c_gensym s /\ home (r_state it) = (ch, false) /\ c_done s (r_state it) = false;
  ci_snd : forall ch, NoDup (List.map s_state (c_sendq s ch));
  ci_rnd : forall ch, NoDup (List.map r_state (c_recvq s ch));
  ci_got : forall ch, List.filter (is_recv H ch) (c_events s) = deliveries ch h;
  ci_rel : forall ch, List.filter (is_send H ch) (c_events s) = releases ch h }.

Lemma upd1_same : forall A (f : nat -> A) i x, upd1 f i x i = x.
Proof. intros. unfold upd1. now rewrite Nat.eqb_refl. Qed.
Lemma upd1_other : forall A (f : nat -> A) i x j, j <> i -> upd1 f i x j = f j.
Proof. intros. unfold upd1. destruct (Nat.eqb_spec j i); congruence. Qed.

Lemma sends_snoc_send : forall ch h c v w,
  sends ch 0 (h ++ [OSend c v w]) = if Nat.eqb c ch then sends ch 0 h ++ [(List.length h, v, w)] else sends ch 0 h.
Proof. intros. rewrite sends_app. cbn. destruct (Nat.eqb c ch); auto. now rewrite app_nil_r. Qed.
Lemma recvs_snoc_send : forall ch h c v w, recvs ch 0 (h ++ [OSend c v w]) = recvs ch 0 h.
Proof. intros. rewrite recvs_app. cbn. now rewrite app_nil_r. Qed.
Lemma recvs_snoc_recv : forall ch h c w,
  recvs ch 0 (h ++ [ORecv c w]) = if Nat.eqb c ch then recvs ch 0 h ++ [(List.length h, w)] else recvs ch 0 h.
Proof. intros. rewrite recvs_app. cbn. destruct (Nat.eqb c ch); auto. now rewrite app_nil_r. Qed.
Lemma sends_snoc_recv : forall ch h c w, sends ch 0 (h ++ [ORecv c w]) = sends ch 0 h.
Proof. intros. rewrite sends_app. cbn. now rewrite app_nil_r. Qed.

Lemma nodup_snoc : forall A (l : list A) x, NoDup l -> ~ In x l -> NoDup (l ++ [x]).
Proof.
  intros A l. induction l as [|a l IH]; intros x D N; cbn; [constructor; auto|].
  inversion D; subst. constructor.
  - intro Hin. apply in_app_or in Hin as [?|[?|[]]]; auto. subst. apply N. now left.
  - apply IH; auto. intro; apply N; now right.
Qed.

Lemma perform_recv_inv : forall H h c w rest s home, H = h ++ ORecv c w :: rest -> Forall plain H ->
  cinv H h s home -> exists home', cinv H (h ++ [ORecv c w]) (perform (List.length h) (ORecv c w) s) home'.
Proof.
  intros H h c w rest s home HH HP [CS CR SS RS SN RN G R].
  assert (Hme : nth_error H (List.length h) = Some (ORecv c w))
    by (rewrite HH, nth_error_app2, Nat.sub_diag by lia; reflexivity).
  unfold perform. cbn [op_try op_wrap]. destruct (c_sendq s c) as [|it q] eqn:Eq.
  - (* nobody sends: block *)
    cbn [recv_try veqb op_block]. unfold recv_block. cbn [c_sendq c_recvq c_done c_gensym c_events].
    exists (upd1 home (c_gensym s) (c, false)).
    assert (CSc := CS c). rewrite Eq in CSc. cbn [List.map] in CSc.
    assert (Hle : List.length (sends c 0 h) <= List.length (recvs c 0 h)).
    { symmetry in CSc. apply (f_equal (@List.length _)) in CSc. rewrite skipn_length in CSc. cbn in CSc. lia. }
    split; cbn [c_sendq c_recvq c_done c_gensym c_events].
    + intro ch. rewrite sends_snoc_recv, recvs_snoc_recv. destruct (Nat.eqb_spec c ch) as [->|Hne].
      * rewrite upd1_same, app_length. cbn. rewrite skipn_all2; [auto|lia].
      * rewrite upd1_other by auto. apply CS.
    + intro ch. rewrite sends_snoc_recv, recvs_snoc_recv. destruct (Nat.eqb_spec c ch) as [->|Hne].
      * rewrite upd1_same, map_app, CR, skipn_snoc by lia. reflexivity.
      * rewrite upd1_other by auto. apply CR.
    + intros ch it Hin. assert (Hin' : In it (c_sendq s ch)).
      { destruct (Nat.eq_dec ch c) as [->|]; [rewrite upd1_same in Hin; elim Hin|now rewrite upd1_other in Hin]. }
      destruct (SS ch it Hin') as (H1 & H2 & H3). split; [lia|]. rewrite !upd1_other by lia. auto.
    + intros ch it Hin. destruct (Nat.eq_dec ch c) as [->|].
      * rewrite upd1_same in Hin. apply in_app_or in Hin as [Hin|[<-|[]]].
        -- destruct (RS c it Hin) as (H1 & H2 & H3). split; [lia|]. rewrite !upd1_other by lia. auto.
        -- cbn. rewrite !upd1_same. auto.
      * rewrite upd1_other in Hin by auto.
        destruct (RS ch it Hin) as (H1 & H2 & H3). split; [lia|]. rewrite !upd1_other by lia. auto.
    + intro ch. destruct (Nat.eq_dec ch c) as [->|]; [rewrite upd1_same; constructor|rewrite upd1_other by auto; apply SN].
    + intro ch. destruct (Nat.eq_dec ch c) as [->|]; [rewrite upd1_same|rewrite upd1_other by auto; apply RN].
      rewrite map_app. apply nodup_snoc; [apply RN|]. cbn. intro Hin. apply in_map_iff in Hin as (it & E & Hin).
      destruct (RS c it Hin) as (H1 & _). lia.
    + intro ch. rewrite G. unfold deliveries. rewrite sends_snoc_recv, recvs_snoc_recv.
      destruct (Nat.eqb_spec c ch) as [->|]; auto. rewrite combine_snoc.
      rewrite skipn_all2 by lia. now rewrite app_nil_r.
    + intro ch. rewrite R. unfold releases. rewrite sends_snoc_recv, recvs_snoc_recv.
      destruct (Nat.eqb_spec c ch) as [->|]; auto. rewrite combine_snoc_r.
      rewrite skipn_all2 by lia. now rewrite app_nil_r.
  - (* take the oldest sender *)
    assert (Hit : In it (c_sendq s c)) by (rewrite Eq; now left).
    destruct (SS c it Hit) as (Hst & Hho & Hdn).
    assert (CSc := CS c). rewrite Eq in CSc. cbn [List.map] in CSc.
    assert (Hin : In (striple it) (sends c 0 h)) by (apply skipn_in with (n := List.length (recvs c 0 h)); rewrite <- CSc; now left).
    apply sends_in in Hin as (_ & Hk). rewrite Nat.sub_0_r in Hk.
    assert (HkH : nth_error H (s_k it) = Some (OSend c (s_val it) (s_wrap it))).
    { rewrite HH. rewrite nth_error_app1; auto. apply nth_error_Some. rewrite Hk. discriminate. }
    assert (Hnf : s_val it <> VFalse).
    { rewrite Forall_forall in HP. apply (HP (OSend c (s_val it) (s_wrap it))). eapply nth_error_In; eauto. }
    cbn [recv_try]. rewrite Hdn. unfold resume_task. cbn [c_sendq c_recvq c_done c_gensym c_events].
    rewrite veqb_neq by auto. exists home. split; cbn [c_sendq c_recvq c_done c_gensym c_events].
    + intro ch. rewrite sends_snoc_recv, recvs_snoc_recv. destruct (Nat.eqb_spec c ch) as [->|Hne].
      * rewrite upd1_same, app_length, Nat.add_1_r. symmetry. eapply skipn_tail; eauto.
      * rewrite upd1_other by auto. apply CS.
    + intro ch. rewrite sends_snoc_recv, recvs_snoc_recv. destruct (Nat.eqb_spec c ch) as [->|Hne]; [|apply CR].
      assert (Hlt : List.length (recvs ch 0 h) < List.length (sends ch 0 h)).
      { apply (f_equal (@List.length _)) in CSc. rewrite skipn_length in CSc. cbn in CSc. lia. }
      rewrite CR. rewrite !skipn_all2; auto; rewrite ?app_length; cbn; lia.
    + intros ch it' Hi.
      assert (Hi' : In it' (c_sendq s ch) /\ s_state it' <> s_state it).
      { destruct (Nat.eq_dec ch c) as [->|].
        - rewrite upd1_same in Hi. split; [rewrite Eq; now right|]. specialize (SN c). rewrite Eq in SN. inversion SN; subst.
          intro E. rewrite <- E in *. apply (in_map s_state) in Hi. auto.
        - rewrite upd1_other in Hi by auto. split; auto. intro E. destruct (SS ch it' Hi) as (_ & H2 & _). congruence. }
      destruct Hi' as (Hi' & Hn). destruct (SS ch it' Hi') as (H1 & H2 & H3). rewrite upd1_other by auto. auto.
    + intros ch it' Hi. destruct (RS ch it' Hi) as (H1 & H2 & H3). rewrite upd1_other; auto. intro E. congruence.
    + intro ch. destruct (Nat.eq_dec ch c) as [->|]; [rewrite upd1_same|rewrite upd1_other by auto; apply SN].
      specialize (SN c). rewrite Eq in SN. now inversion SN.
    + apply RN.
    + intro ch. rewrite !filter_app, G. unfold deliveries. rewrite sends_snoc_recv, recvs_snoc_recv.
      cbn [List.filter]. unfold is_recv at 1 2. cbn [fst]. rewrite HkH, Hme. destruct (Nat.eqb_spec c ch) as [->|]; [|now rewrite !app_nil_r].
      rewrite combine_snoc, <- CSc, map_app, app_nil_r. reflexivity.
    + intro ch. rewrite !filter_app, R. unfold releases. rewrite sends_snoc_recv, recvs_snoc_recv.
      cbn [List.filter]. unfold is_send at 1 2. cbn [fst]. rewrite HkH, Hme. destruct (Nat.eqb_spec c ch) as [->|]; [|now rewrite !app_nil_r].
      rewrite combine_snoc_r, <- CSc, map_app, app_nil_r. reflexivity.
Qed.

Lemma perform_send_inv : forall H h c v w rest s home, H = h ++ OSend c v w :: rest -> Forall plain H ->
  cinv H h s home -> exists home', cinv H (h ++ [OSend c v w]) (perform (List.length h) (OSend c v w) s) home'.
Proof.
  intros H h c v w rest s home HH HP [CS CR SS RS SN RN G R].
  assert (Hme : nth_error H (List.length h) = Some (OSend c v w))
    by (rewrite HH, nth_error_app2, Nat.sub_diag by lia; reflexivity).
  unfold perform. cbn [op_try op_wrap]. unfold send_try. destruct (c_recvq s c) as [|it q] eqn:Eq.
  - (* nobody receives: block *)
    cbn [veqb op_block]. unfold send_block. cbn [c_sendq c_recvq c_done c_gensym c_events].
    exists (upd1 home (c_gensym s) (c, true)).
    assert (CRc := CR c). rewrite Eq in CRc. cbn [List.map] in CRc.
    assert (Hle : List.length (recvs c 0 h) <= List.length (sends c 0 h)).
    { symmetry in CRc. apply (f_equal (@List.length _)) in CRc. rewrite skipn_length in CRc. cbn in CRc. lia. }
    split; cbn [c_sendq c_recvq c_done c_gensym c_events].
    + intro ch. rewrite sends_snoc_send, recvs_snoc_send. destruct (Nat.eqb_spec c ch) as [->|Hne].
      * rewrite upd1_same, map_app, CS, skipn_snoc by lia. reflexivity.
      * rewrite upd1_other by auto. apply CS.
    + intro ch. rewrite sends_snoc_send, recvs_snoc_send. destruct (Nat.eqb_spec c ch) as [->|Hne]; [|apply CR].
      rewrite CR, app_length. cbn. rewrite !skipn_all2; auto; lia.
    + intros ch it Hin. destruct (Nat.eq_dec ch c) as [->|].
      * rewrite upd1_same in Hin. apply in_app_or in Hin as [Hin|[<-|[]]].
        -- destruct (SS c it Hin) as (H1 & H2 & H3). split; [lia|]. rewrite !upd1_other by lia. auto.
        -- cbn. rewrite !upd1_same. auto.
      * rewrite upd1_other in Hin by auto.
        destruct (SS ch it Hin) as (H1 & H2 & H3). split; [lia|]. rewrite !upd1_other by lia. auto.
    + intros ch it Hin. destruct (RS ch it Hin) as (H1 & H2 & H3). split; [lia|]. rewrite !upd1_other by lia. auto.
    + intro ch. destruct (Nat.eq_dec ch c) as [->|]; [rewrite upd1_same|rewrite upd1_other by auto; apply SN].
      rewrite map_app. apply nodup_snoc; [apply SN|]. cbn. intro Hin. apply in_map_iff in Hin as (it & E & Hin).
      destruct (SS c it Hin) as (H1 & _). lia.
    + apply RN.
    + intro ch. rewrite G. unfold deliveries. rewrite sends_snoc_send, recvs_snoc_send.
      destruct (Nat.eqb_spec c ch) as [->|]; auto. rewrite combine_snoc_r.
      rewrite skipn_all2 by lia. now rewrite app_nil_r.
    + intro ch. rewrite R. unfold releases. rewrite sends_snoc_send, recvs_snoc_send.
      destruct (Nat.eqb_spec c ch) as [->|]; auto. rewrite combine_snoc.
      rewrite skipn_all2 by lia. now rewrite app_nil_r.
  - (* give it to the oldest receiver *)
    assert (Hit : In it (c_recvq s c)) by (rewrite Eq; now left).
    destruct (RS c it Hit) as (Hst & Hho & Hdn).
    assert (CRc := CR c). rewrite Eq in CRc. cbn [List.map] in CRc.
    assert (Hin : In (rpair it) (recvs c 0 h)) by (apply skipn_in with (n := List.length (sends c 0 h)); rewrite <- CRc; now left).
    apply recvs_in in Hin as (_ & Hk). rewrite Nat.sub_0_r in Hk.
    assert (HkH : nth_error H (r_k it) = Some (ORecv c (r_wrap it))).
    { rewrite HH. rewrite nth_error_app1; auto. apply nth_error_Some. rewrite Hk. discriminate. }
    rewrite Hdn. unfold resume_task. cbn [c_sendq c_recvq c_done c_gensym c_events veqb].
    exists home. split; cbn [c_sendq c_recvq c_done c_gensym c_events].
    + intro ch. rewrite sends_snoc_send, recvs_snoc_send. destruct (Nat.eqb_spec c ch) as [->|Hne]; [|apply CS].
      assert (Hlt : List.length (sends ch 0 h) < List.length (recvs ch 0 h)).
      { apply (f_equal (@List.length _)) in CRc. rewrite skipn_length in CRc. cbn in CRc. lia. }
      rewrite CS. rewrite !skipn_all2; auto; rewrite ?app_length; cbn; lia.
    + intro ch. rewrite sends_snoc_send, recvs_snoc_send. destruct (Nat.eqb_spec c ch) as [->|Hne].
      * rewrite upd1_same, app_length, Nat.add_1_r. symmetry. eapply skipn_tail; eauto.
      * rewrite upd1_other by auto. apply CR.
    + intros ch it' Hi. destruct (SS ch it' Hi) as (H1 & H2 & H3). rewrite upd1_other; auto. intro E. congruence.
    + intros ch it' Hi.
      assert (Hi' : In it' (c_recvq s ch) /\ r_state it' <> r_state it).
      { destruct (Nat.eq_dec ch c) as [->|].
        - rewrite upd1_same in Hi. split; [rewrite Eq; now right|]. specialize (RN c). rewrite Eq in RN. inversion RN; subst.
          intro E. rewrite <- E in *. apply (in_map r_state) in Hi. auto.
        - rewrite upd1_other in Hi by auto. split; auto. intro E. destruct (RS ch it' Hi) as (_ & H2 & _). congruence. }
      destruct Hi' as (Hi' & Hn). destruct (RS ch it' Hi') as (H1 & H2 & H3). rewrite upd1_other by auto. auto.
    + apply SN.
    + intro ch. destruct (Nat.eq_dec ch c) as [->|]; [rewrite upd1_same|rewrite upd1_other by auto; apply RN].
      specialize (RN c). rewrite Eq in RN. now inversion RN.
    + intro ch. rewrite !filter_app, G. unfold deliveries. rewrite sends_snoc_send, recvs_snoc_send.
      cbn [List.filter]. unfold is_recv at 1 2. cbn [fst]. rewrite HkH, Hme. destruct (Nat.eqb_spec c ch) as [->|]; [|now rewrite !app_nil_r].
      rewrite combine_snoc_r, <- CRc, map_app, app_nil_r. reflexivity.
    + intro ch. rewrite !filter_app, R. unfold releases. rewrite sends_snoc_send, recvs_snoc_send.
      cbn [List.filter]. unfold is_send at 1 2. cbn [fst]. rewrite HkH, Hme. destruct (Nat.eqb_spec c ch) as [->|]; [|now rewrite !app_nil_r].
      rewrite combine_snoc, <- CRc, map_app, app_nil_r. reflexivity.
Qed.

(** Every schedule of sends and receives, on any number of channels, of values
    other than false: each receive gets, wrapped once, the value with its own
    rank among the values sent on its channel, and each matched sender is
    released, once each and in order. *)
Theorem channels_deliver_in_order_partial : forall h, Forall plain h ->
  forall ch,
    List.filter (is_recv h ch) (c_events (perform_all 0 h chan_init)) = deliveries ch h /\
    List.filter (is_send h ch) (c_events (perform_all 0 h chan_init)) = releases ch h.
Proof.
  intros H HP.
  assert (G : forall rest h s home, H = h ++ rest -> cinv H h s home ->
    exists home', cinv H H (perform_all (List.length h) rest s) home').
  { induction rest as [|o rest IH]; intros h s home E I.
    - rewrite app_nil_r in E. subst. eauto.
    - cbn [perform_all].
      assert (exists home', cinv H (h ++ [o]) (perform (List.length h) o s) home') as (home' & I').
      { destruct o as [c v w|c w|l w].
        - eapply perform_send_inv; eauto.
        - eapply perform_recv_inv; eauto.
        - rewrite Forall_forall in HP. elim (HP (OChoice l w)). rewrite E. apply in_or_app. right. now left. }
      replace (S (List.length h)) with (List.length (h ++ [o])) by (rewrite app_length; cbn; lia).
      eapply IH; eauto. now rewrite <- app_assoc. }
  destruct (G H [] chan_init (fun _ => (0, true)) eq_refl) as (home & [CS CR SS RS SN RN Gt Rl]).
  - split; cbn; auto; try tauto; intros; constructor.
  - auto.
Qed.

(** Each receive gets at most one value and each value goes to at most one
    receive. *)
Theorem deliveries_once : forall ch h, NoDup (List.map fst (deliveries ch h)) /\
  List.length (deliveries ch h) = Nat.min (List.length (recvs ch 0 h)) (List.length (sends ch 0 h)).
Proof.
  intros ch h. unfold deliveries. rewrite map_length, combine_length. split; auto.
  rewrite map_map.
  assert (D : forall h k, NoDup (List.map fst (recvs ch k h)) /\ forall i, In i (List.map fst (recvs ch k h)) -> k <= i).
  { induction h0 as [|o h0 IH]; intro k; cbn; [split; [constructor|tauto]|].
    destruct (IH (S k)) as (D1 & D2).
    assert (W : NoDup (List.map fst (recvs ch (S k) h0)) /\ forall i, In i (List.map fst (recvs ch (S k) h0)) -> k <= i).
    { split; auto. intros i Hi. apply D2 in Hi. lia. }
    destruct o; auto. destruct (Nat.eqb ch0 ch); auto. cbn. split.
    - constructor; auto. intro Hin. apply D2 in Hin. lia.
    - intros i [<-|Hi]; auto. apply D2 in Hi. lia. }
  destruct (D h 0) as (D1 & _). revert D1. generalize (recvs ch 0 h) as rs. generalize (sends ch 0 h) as ss.
  intros ss rs. revert ss. induction rs as [|[r w] rs IH]; intros [|[[i v] w'] ss] D1; cbn; try constructor.
  - inversion D1; subst. intro Hin. apply H1. apply in_map_iff in Hin as ([[r' w''] [[? ?] ?]] & E & Hin). cbn in E. subst r'.
    apply in_combine_l in Hin. apply (in_map fst) in Hin. auto.
  - apply IH. now inversion D1.
Qed.

Example channel_example :
  let id := fun v : val => v in
  let h := [ORecv 1 id; OSend 1 (VNum 5) id; OSend 1 (VNum 6) id; OSend 2 VNil id; ORecv 1 (fun v => VCons v VNil)] in
  Forall plain h /\ c_events (perform_all 0 h chan_init) =
    [(0, VNum 5); (1, VNil); (2, VNil); (4, VCons (VNum 6) VNil)] /\
  deliveries 1 h = [(0, VNum 5); (4, VCons (VNum 6) VNil)].
Proof. cbv zeta. split; [repeat constructor; discriminate|]. vm_compute. auto. Qed.

(** The value false: the sender is released, the receiver is not. *)
Theorem channel_false_lost_refuted : exists h,
  h = [OSend 0 VFalse (fun v => v); ORecv 0 (fun v => v); OSend 0 (VNum 1) (fun v => v)] /\
  c_events (perform_all 0 h chan_init) = [(0, VNil); (1, VNum 1); (2, VNil)].
Proof. eexists. split; [reflexivity|]. vm_compute. reflexivity. Qed.

(** A choice whose alternatives both become ready is resumed twice: the
    second value is not available to any other receiver. *)
Theorem choice_resumed_twice_refuted : exists h,
  h = [OChoice [ORecv 0 (fun v => v); ORecv 1 (fun v => v)] (fun v => v);
       OSend 0 (VNum 1) (fun v => v); OSend 1 (VNum 2) (fun v => v)] /\
  c_events (perform_all 0 h chan_init) = [(0, VNum 1); (1, VNil); (0, VNum 2); (2, VNil)].
Proof. eexists. split; [reflexivity|]. vm_compute. reflexivity. Qed.

(** A choice whose chosen alternative is wrapped to false has happened and
    blocks as well. *)
Theorem choice_false_refuted : exists h,
  h = [OSend 0 (VNum 1) (fun v => v); OChoice [ORecv 0 (fun _ => VFalse)] (fun v => v)] /\
  c_events (perform_all 0 h chan_init) = [(0, VNil)] /\
  c_recvq (perform_all 0 h chan_init) 0 <> [].
Proof. eexists. split; [reflexivity|]. vm_compute. split; [reflexivity|discriminate]. Qed.

Print Assumptions channels_deliver_in_order_partial.
Print Assumptions deliveries_once.
Print Assumptions choice_resumed_twice_refuted.
