(** Theorems of record for mailboxes: C46 (order), C47 (no lost wakeup), C48
    (registry). *)
From Coq Require Import List ZArith NArith Bool Lia Arith.
From Verif Require Import Base ListLib LibModel LibProofs MbModel MbProofs.
Import ListNotations.
Local Open Scope Z_scope.
Local Open Scope out_scope.

(** * C46 order of messages *)

(** The linked queue, cell by cell, is a FIFO for every interleaving of
    enqueue ([Some v]) and dequeue ([None]), although [next] fields are left
    uninitialised; dequeue of an empty queue stops at the assertion. *)
Fixpoint c_fifo {A} (ops : list (option A)) (xs : list A) : outcome (list A * list A) :=
  match ops with
  | [] => Ok ([], xs)
  | Some v :: r => c_fifo r (xs ++ [v])
  | None :: r => match xs with
                 | [] => Trap
                 | x :: xs' => do! '(out, q) <- c_fifo r xs'; Ok (x :: out, q)
                 end
  end.

Fixpoint run_cqueue {A} (ops : list (option A)) (q : cqueue A) : outcome (list A * cqueue A) :=
  match ops with
  | [] => Ok ([], q)
  | Some v :: r => do! q1 <- enqueueC q v; run_cqueue r q1
  | None :: r => do! '(x, q1) <- dequeueC q; do! '(out, q2) <- run_cqueue r q1; Ok (x :: out, q2)
  end.

Theorem linked_queue_is_fifo : forall A (ops : list (option A)),
  match c_fifo ops [] with
  | Ok (out, xs) => exists q, run_cqueue ops queueInit = Ok (out, q) /\ q_len q = Z.of_nat (List.length xs)
  | Trap => run_cqueue ops queueInit = Trap
  | UB => False
  end.
Proof.
  intros A ops.
  assert (G : forall ops (q : cqueue A) xs, crep q xs ->
    match c_fifo ops xs with
    | Ok (out, xs') => exists q', run_cqueue ops q = Ok (out, q') /\ crep q' xs'
    | Trap => run_cqueue ops q = Trap
    | UB => False
    end).
  { clear. induction ops as [|[v|] ops IH]; intros q xs R; cbn [c_fifo run_cqueue].
    - eauto.
    - destruct (enqueueC_rep _ _ _ v R) as (q1 & E & R1). rewrite E. cbn [obind]. apply IH; auto.
    - destruct xs as [|x xs].
      + rewrite (dequeueC_empty _ _ R). reflexivity.
      + destruct (dequeueC_rep _ _ _ _ R) as (q1 & E & R1). rewrite E. cbn [obind].
        specialize (IH _ _ R1). destruct (c_fifo ops xs) as [[out ys]| |]; cbn [obind]; auto.
        * destruct IH as (q2 & E2 & R2). exists q2. rewrite E2. auto.
        * rewrite IH. reflexivity. }
  specialize (G ops queueInit [] (crep_init A)).
  destruct (c_fifo ops []) as [[out xs]| |]; auto. destruct G as (q & E & R). exists q. split; auto. apply R.
Qed.

(** Sends and polls of one mailbox, in any order, as long as nobody sleeps:
    each poll gives the oldest message not yet received, false when there is
    none. *)
Inductive mop := MSend (v : val) | MPoll.

Fixpoint mbox_spec (ops : list mop) (xs : list val) : list val :=
  match ops with
  | [] => []
  | MSend v :: r => mbox_spec r (xs ++ [v])
  | MPoll :: r => match xs with [] => VFalse :: mbox_spec r [] | x :: xs' => x :: mbox_spec r xs' end
  end.

Fixpoint mbox_ops (ops : list mop) (m : mstate) : outcome (list val) :=
  match ops with
  | [] => Ok []
  | MSend v :: r => do! m1 <- mailboxSend m v; mbox_ops r m1
  | MPoll :: r => do! '(v, m1) <- mailboxRecvTry m; do! out <- mbox_ops r m1; Ok (v :: out)
  end.

Theorem mailbox_fifo_partial : forall ops, mbox_ops ops mailboxMake = Ok (mbox_spec ops []).
Proof.
  intro ops.
  assert (G : forall ops m xs, minv m xs [] -> mbox_ops ops m = Ok (mbox_spec ops xs)).
  { clear. induction ops as [|[v|] ops IH]; intros m xs I; cbn [mbox_ops mbox_spec]; auto.
    - destruct (send_inv m xs [] v I) as (m' & E & I' & _). rewrite E. cbn [obind]. auto.
    - assert (T := try_inv m xs [] I). destruct xs as [|x xs].
      + rewrite T. cbn [obind]. rewrite (IH _ _ I). reflexivity.
      + destruct T as (m' & E & I' & _). rewrite E. cbn [obind]. rewrite (IH _ _ I'). reflexivity. }
  apply G, minv_make.
Qed.

Example mailbox_example :
  mbox_ops [MSend (VNum 1); MSend (VNum 2); MPoll; MSend (VNum 3); MPoll; MPoll; MPoll] mailboxMake
  = Ok [VNum 1; VNum 2; VNum 3; VFalse].
Proof. reflexivity. Qed.

(** No interleaving of senders and receivers leads to an undefined access or
    an assertion failure. *)
Theorem mailbox_never_stuck : forall l, exists m, mbox_run mailboxMake l = Ok m.
Proof.
  assert (G : forall l m xs ws, minv m xs ws -> exists m', mbox_run m l = Ok m').
  { induction l as [|s l IH]; intros m xs ws I; cbn [mbox_run]; eauto.
    destruct (step_inv m xs ws s I) as (m1 & xs1 & ws1 & E & I1). rewrite E. cbn [obind]. eauto. }
  intro l. apply (G l _ _ _ minv_make).
Qed.

(** The missing part is false.  A receiver that slept does not get the
    message: the sender stores it in the write end, the receiver reads the
    read end.  In every interleaving, what such a receiver gets is the
    initial content of that field. *)
Theorem woken_receiver_gets_undef : forall l m r rc m',
  mbox_run mailboxMake l = Ok m -> m_recv m r = RAsleep rc ->
  mbox_step m (SWake r) = Ok m' -> m_recv m' r = RAsleep rc \/ m_recv m' r = RGot VUndef.
Proof.
  assert (G : forall l m xs ws m', minv m xs ws -> mbox_run m l = Ok m' -> exists xs' ws', minv m' xs' ws').
  { induction l as [|s l IH]; intros m xs ws m' I E; cbn [mbox_run] in E.
    - apply Ok_inj in E. subst. eauto.
    - destruct (step_inv m xs ws s I) as (m1 & xs1 & ws1 & E1 & I1). rewrite E1 in E. cbn [obind] in E. eauto. }
  intros l m r rc m' E Hr Hs. destruct (G l _ _ _ m minv_make E) as (xs & ws & I).
  cbn [mbox_step] in Hs. rewrite Hr in Hs.
  destruct (mi_sleep _ _ _ I r rc Hr) as (h & -> & Hlt & _).
  destruct (nth_error (m_conns m) (2 * h)) as [c|] eqn:Ec; [|discriminate].
  destruct (c_readable c); apply Ok_inj in Hs; subst m'; auto.
  right. cbn. rewrite Nat.eqb_refl. f_equal. eapply (mi_extra _ _ _ I); eauto.
Qed.

Theorem message_lost_refuted : exists l m, mbox_run mailboxMake l = Ok m /\
  l = [SPoll 0; SBlock 0; SSend (VNum 7); SWake 0] /\
  m_recv m 0 = RGot VUndef /\ q_len (m_data m) = 0.
Proof. do 2 eexists. split; [|split; [reflexivity|]]; vm_compute; auto. Qed.

(** A message that is the value false is dropped by the poll. *)
Theorem false_message_lost_refuted : exists m,
  mbox_run mailboxMake [SSend VFalse; SPoll 0] = Ok m /\ m_recv m 0 = RPolled /\ q_len (m_data m) = 0.
Proof. eexists. split; [reflexivity|]. vm_compute. auto. Qed.

(** * C47 a sleeping receiver and a waiting message *)

(** The receiver [r] sleeps: nothing has been written to its pipe. *)
Definition sleeping (m : mstate) (r : nat) : Prop :=
  exists rc c, m_recv m r = RAsleep rc /\ nth_error (m_conns m) rc = Some c /\ c_readable c = false.

Definition undelivered (m : mstate) : Z := q_len (m_data m).

(** The claim, for the code as written, is false: a message sent between the
    failed poll and going to sleep stays in the mailbox. *)
Theorem lost_wakeup_refuted : exists m,
  mbox_run mailboxMake [SPoll 0; SSend (VNum 7); SBlock 0] = Ok m /\
  sleeping m 0 /\ undelivered m = 1.
Proof.
  eexists. split; [vm_compute; reflexivity|]. split; [|reflexivity].
  exists 0%nat, (mkConn false VUndef). vm_compute. auto.
Qed.

(** It holds whenever polling and going to sleep are not separated. *)
Inductive astep := ASend (v : val) | ARecv (r : nat) | AWake (r : nat).
Definition steps_of (a : astep) : list mstep :=
  match a with ASend v => [SSend v] | ARecv r => [SPoll r; SBlock r] | AWake r => [SWake r] end.

Definition no_false (a : astep) : Prop := match a with ASend v => v <> VFalse | _ => True end.

Definition quiet (m : mstate) (xs : list val) (ws : list nat) : Prop :=
  minv m xs ws /\ (ws <> [] -> xs = []) /\ (forall r, m_recv m r <> RPolled) /\ ~ In VFalse xs.

Lemma quiet_step : forall m xs ws a, quiet m xs ws -> no_false a ->
  exists m' xs' ws', mbox_run m (steps_of a) = Ok m' /\ quiet m' xs' ws'.
Proof.
  intros m xs ws a (I & Hx & Hp & Hf) Ha. destruct a as [v|r|r]; cbn [steps_of mbox_run mbox_step].
  - destruct (send_inv m xs ws v I) as (m1 & E1 & I1 & R1). rewrite E1. cbn [obind].
    destruct ws as [|w ws].
    + exists m1, (xs ++ [v]), []. split; auto. split; auto. split; [congruence|]. split; [congruence|].
      intro H. apply in_app_or in H as [H|[H|[]]]; auto.
    + exists m1, xs, ws. split; auto. split; auto. split; [intros; apply Hx; discriminate|]. split; [congruence|auto].
  - destruct (m_recv m r) as [| |rc|v] eqn:Er.
    + assert (T := try_inv m xs ws I). destruct xs as [|x xs].
      * rewrite T. cbn [obind veqb].
        assert (I2 : minv (set_recv m r RPolled) [] ws) by (apply set_recv_inv; [auto|intros; discriminate]).
        replace (m_recv (set_recv m r RPolled) r) with RPolled by (cbn; now rewrite Nat.eqb_refl).
        destruct (block_inv _ _ _ r I2) as (m2 & E2 & I3 & Hr2). rewrite E2. cbn [obind].
        do 3 eexists. split; [reflexivity|]. split; [eauto|]. split; [auto|]. split; [|auto].
        intro r'. rewrite Hr2. cbn. destruct (Nat.eqb r' r); [discriminate|apply Hp].
      * destruct T as (m1 & E1 & I1 & R1). rewrite E1. cbn [obind].
        rewrite veqb_neq by (intros ->; apply Hf; now left).
        replace (m_recv (set_recv m1 r (RGot x)) r) with (RGot x) by (cbn; now rewrite Nat.eqb_refl).
        cbn [obind]. exists (set_recv m1 r (RGot x)), xs, ws. split; auto.
        split; [apply set_recv_inv; [auto|intros; discriminate]|].
        split; [intro Hw; specialize (Hx Hw); discriminate|]. split; [|intro; apply Hf; now right].
        intro r'. cbn. destruct (Nat.eqb r' r); [discriminate|rewrite R1; apply Hp].
    + elim (Hp r Er).
    + cbn [obind]. rewrite Er. cbn [obind]. exists m, xs, ws. split; auto. split; auto.
    + cbn [obind]. rewrite Er. cbn [obind]. exists m, xs, ws. split; auto. split; auto.
  - destruct (m_recv m r) as [| |rc|v] eqn:Er; cbn [obind]; try (exists m, xs, ws; split; [reflexivity|split; auto]; fail).
    destruct (mi_sleep _ _ _ I r rc Er) as (h & -> & Hlt & _).
    destruct (nth_error (m_conns m) (2 * h)) as [c|] eqn:Ec; [|apply nth_error_None in Ec; lia].
    destruct (c_readable c); cbn [obind].
    + exists (set_recv m r (RGot (c_extra c))), xs, ws. split; auto.
      split; [apply set_recv_inv; [auto|intros; discriminate]|]. split; auto. split; auto.
      intro r'. cbn. destruct (Nat.eqb r' r); [discriminate|apply Hp].
    + exists m, xs, ws. split; auto. split; auto.
Qed.

Theorem no_sleep_with_message_partial : forall l m r,
  Forall no_false l ->
  mbox_run mailboxMake (flat_map steps_of l) = Ok m -> sleeping m r -> undelivered m = 0.
Proof.
  assert (App : forall l1 l2 m, mbox_run m (l1 ++ l2) = do! m1 <- mbox_run m l1; mbox_run m1 l2).
  { induction l1 as [|s l1 IH]; intros; cbn [app mbox_run]; auto.
    destruct (mbox_step m s); cbn [obind]; auto. }
  assert (G : forall l m xs ws m', Forall no_false l -> quiet m xs ws ->
     mbox_run m (flat_map steps_of l) = Ok m' -> exists xs' ws', quiet m' xs' ws').
  { induction l as [|a l IH]; intros m xs ws m' F Q E.
    - cbn in E. apply Ok_inj in E. subst. eauto.
    - cbn [flat_map] in E. rewrite App in E. inversion F; subst.
      destruct (quiet_step m xs ws a Q) as (m1 & xs1 & ws1 & E1 & Q1); auto.
      rewrite E1 in E. cbn [obind] in E. eauto. }
  intros l m r F E (rc & c & Hr & Hc & Hf).
  destruct (G l mailboxMake [] [] m F) as (xs & ws & I & Hx & _); auto.
  { split; [apply minv_make|]. split; [auto|]. split; [discriminate|auto]. }
  destruct (mi_sleep _ _ _ I r rc Hr) as (h & -> & Hlt & Hin).
  specialize (Hin c Hc Hf). unfold undelivered. rewrite (proj1 (mi_data _ _ _ I)), Hx; auto.
  intros ->. elim Hin.
Qed.

Example sleep_example : exists m,
  mbox_run mailboxMake (flat_map steps_of [ASend (VNum 1); ARecv 0; ARecv 1; AWake 1]) = Ok m /\
  m_recv m 0 = RGot (VNum 1) /\ sleeping m 1.
Proof.
  eexists. split; [vm_compute; reflexivity|]. split; [reflexivity|].
  exists 0%nat, (mkConn false VUndef). vm_compute. auto.
Qed.

(** With false messages even that is not enough. *)
Theorem false_message_sleep_refuted : exists m,
  mbox_run mailboxMake (flat_map steps_of [ASend VFalse; ASend (VNum 1); ARecv 0]) = Ok m /\
  sleeping m 0 /\ undelivered m = 1.
Proof.
  eexists. split; [vm_compute; reflexivity|]. split; [|reflexivity].
  exists 0%nat, (mkConn false VUndef). vm_compute. auto.
Qed.

(** * C48 the registry *)

Fixpoint run_publish (pubs : list (list N * nat)) (t : list slot) : option (outcome (list slot)) :=
  match pubs with
  | [] => Some (Ok t)
  | (n, m) :: r => match mailboxPublish t n m with
                   | Some (Ok t1) => run_publish r t1
                   | x => x
                   end
  end.

(** The specification: the first publication of a name counts. *)
Fixpoint published (pubs : list (list N * nat)) (name : list N) : option nat :=
  match pubs with
  | [] => None
  | (n, m) :: r => if list_eq_dec N.eq_dec n name then Some m else published r name
  end.

(** the table after some publications, most recent last *)
Record reg_inv (h : list N -> nat) (t : list slot) (pubs : list (list N * nat)) : Prop := {
  ri_len : List.length t = NUM_SLOTS;
  ri_in : forall i n m, nth_error t i = Some (Some (n, m)) -> In (n, m) pubs;
  ri_find : forall name m, published pubs name = Some m ->
    exists j, (j < 255)%nat /\ nth_error t (probe (h name) j) = Some (Some (name, m)) /\
      forall k, (k < j)%nat -> exists n' m', nth_error t (probe (h name) k) = Some (Some (n', m')) /\ n' <> name }.

Lemma published_app : forall p q name,
  published (p ++ q) name = match published p name with Some m => Some m | None => published q name end.
Proof. induction p as [|[n m] p IH]; intros; cbn; auto. destruct (list_eq_dec N.eq_dec n name); auto. Qed.

Lemma published_in : forall p name m, In (name, m) p -> published p name <> None.
Proof.
  induction p as [|[n m'] p IH]; intros name m H; [elim H|]. cbn.
  destruct (list_eq_dec N.eq_dec n name); [discriminate|]. destruct H as [H|H]; [congruence|eauto].
Qed.

Lemma publish_inv : forall h t pubs name m t', (forall n, (h n < NUM_SLOTS)%nat) ->
  reg_inv h t pubs -> publish_at (h name) t name m = Some (Ok t') -> reg_inv h t' (pubs ++ [(name, m)]).
Proof.
  intros h t pubs name m t' Hh [L In_ Fd] E.
  destruct (publish_spec t (h name) name m L (Hh name)) as [(j & Hj & Hu & Hf & E1)|(_ & E1)]; [|congruence].
  rewrite E1 in E. injection E as <-. unfold free in Hf. split.
  - now rewrite set_slot_length.
  - intros i n m0 H. rewrite set_slot_nth in H. destruct (nth_error t i) as [x|] eqn:Ei; [|discriminate].
    apply in_or_app. destruct (Nat.eqb_spec (probe (h name) j) i) as [<-|].
    + injection H as -> ->. right. now left.
    + left. apply (In_ i). congruence.
  - intros nm m0 H. rewrite published_app in H. destruct (published pubs nm) as [m1|] eqn:Ep.
    + injection H as ->. destruct (Fd nm m0 Ep) as (j0 & Hj0 & E0 & Hk0). exists j0. split; auto. split.
      * rewrite set_slot_nth, E0. destruct (Nat.eqb_spec (probe (h name) j) (probe (h nm) j0)) as [Eq|]; auto.
        rewrite Eq in Hf. congruence.
      * intros k Hk. destruct (Hk0 k Hk) as (n' & m' & Ek & Hne). exists n', m'. split; auto.
        rewrite set_slot_nth, Ek. destruct (Nat.eqb_spec (probe (h name) j) (probe (h nm) k)) as [Eq|]; auto.
        rewrite Eq in Hf. congruence.
    + cbn in H. destruct (list_eq_dec N.eq_dec name nm) as [<-|]; [|discriminate]. injection H as <-.
      exists j. split; auto. split.
      * rewrite set_slot_nth, Hf, Nat.eqb_refl. reflexivity.
      * intros k Hk. destruct (Hu k Hk) as ([n' m'] & Ek). exists n', m'.
        rewrite set_slot_nth, Ek. destruct (Nat.eqb_spec (probe (h name) j) (probe (h name) k)) as [Eq|].
        { apply probe_inj in Eq; change NUM_SLOTS with 256%nat; lia. }
        split; auto. intros ->. apply In_ in Ek. apply published_in in Ek. congruence.
Qed.

Lemma first_slot_lt : forall name, (first_slot name < NUM_SLOTS)%nat.
Proof.
  intro. unfold first_slot. change NUM_SLOTS with (N.to_nat 256).
  assert (fnv1aHash name mod 256 < 256)%N by (apply N.mod_lt; discriminate). lia.
Qed.

Lemma registry0_inv : reg_inv first_slot registry0 [].
Proof.
  split.
  - apply repeat_length.
  - intros i n m H. apply nth_error_In, repeat_spec in H. discriminate.
  - discriminate.
Qed.

Lemma run_publish_inv : forall pubs t t' done, reg_inv first_slot t done ->
  run_publish pubs t = Some (Ok t') -> reg_inv first_slot t' (done ++ pubs).
Proof.
  induction pubs as [|[n m] pubs IH]; intros t t' done I E; cbn [run_publish] in E.
  - injection E as <-. now rewrite app_nil_r.
  - destruct (mailboxPublish t n m) as [[t1| |]|] eqn:E1; try discriminate.
    change ((n, m) :: pubs) with ([(n, m)] ++ pubs). rewrite app_assoc. eapply IH; eauto.
    eapply publish_inv; eauto. apply first_slot_lt.
Qed.

(** After any successful sequence of publications, colliding or not, every
    name resolves to the mailbox first published under it, and a name that
    was not published resolves to nothing. *)
Theorem resolve_after_publish : forall pubs t name,
  run_publish pubs registry0 = Some (Ok t) ->
  mailboxResolve t name = Some (Ok (published pubs name)).
Proof.
  intros pubs t name E. assert (I := run_publish_inv pubs _ _ [] registry0_inv E). cbn [app] in I.
  destruct I as [L In_ Fd]. unfold mailboxResolve. destruct (published pubs name) as [m|] eqn:Ep.
  - destruct (Fd name m Ep) as (j & Hj & Ej & Hk).
    apply (resolve_hit t _ name j m L (first_slot_lt name)); auto. change NUM_SLOTS with 256%nat. lia.
  - apply resolve_miss; auto; [apply first_slot_lt|]. intros i m H. apply In_ in H. apply published_in in H. congruence.
Qed.

(** Publishing a new name: it resolves to its mailbox, the others as before. *)
Theorem publish_new_name : forall pubs t t' name m,
  run_publish pubs registry0 = Some (Ok t) -> published pubs name = None ->
  mailboxPublish t name m = Some (Ok t') ->
  mailboxResolve t' name = Some (Ok (Some m)) /\
  (forall other, other <> name -> mailboxResolve t' other = mailboxResolve t other).
Proof.
  intros pubs t t' name m E Hn Ep.
  assert (E' : run_publish (pubs ++ [(name, m)]) registry0 = Some (Ok t')).
  { clear Hn. revert E. generalize registry0 as t0. induction pubs as [|[n0 m0] pubs IH]; intros t0 E; cbn in *.
    - injection E as ->. rewrite Ep. reflexivity.
    - destruct (mailboxPublish t0 n0 m0) as [[t1| |]|]; try discriminate. auto. }
  split.
  - rewrite (resolve_after_publish _ _ _ E'), published_app, Hn. cbn.
    destruct (list_eq_dec N.eq_dec name name); congruence.
  - intros other Ho. rewrite (resolve_after_publish _ _ _ E'), (resolve_after_publish _ _ _ E), published_app.
    destruct (published pubs other); auto. cbn. destruct (list_eq_dec N.eq_dec name other); congruence.
Qed.

(** There is room for 255 publications, whatever their names. *)
Definition used_slots_n (n : nat) (t : list slot) : list nat :=
  List.filter (fun i => match nth_error t i with Some (Some _) => true | _ => false end) (seq 0 n).

Lemma used_slots_in : forall n t i, In i (used_slots_n n t) <-> (i < n)%nat /\ used t i.
Proof.
  intros. unfold used_slots_n, used. rewrite filter_In, in_seq. split.
  - intros [H1 H2]. split; [lia|]. destruct (nth_error t i) as [[x|]|]; try discriminate. eauto.
  - intros (H1 & x & E). rewrite E. split; [lia|auto].
Qed.

Lemma used_slots_publish : forall n t i x,
  (List.length (used_slots_n n (set_slot t i (Some x))) <= S (List.length (used_slots_n n t)))%nat.
Proof.
  intros. assert (H : (List.length (used_slots_n n (set_slot t i (Some x))) <= List.length (i :: used_slots_n n t))%nat); [|exact H].
  apply NoDup_incl_length.
  - apply NoDup_filter. apply seq_NoDup.
  - intros k Hk. apply used_slots_in in Hk as (Hl & y & E). rewrite set_slot_nth in E.
    destruct (nth_error t k) as [z|] eqn:Ek; [|discriminate].
    destruct (Nat.eqb_spec i k); [now left|right]. apply used_slots_in. split; auto. exists y. congruence.
Qed.

Theorem publish_has_room : forall pubs, (List.length pubs <= 255)%nat ->
  exists t, run_publish pubs registry0 = Some (Ok t).
Proof.
  assert (G : forall pubs t, List.length t = NUM_SLOTS ->
    (List.length (used_slots_n NUM_SLOTS t) + List.length pubs <= 255)%nat -> exists t', run_publish pubs t = Some (Ok t')).
  { induction pubs as [|[n m] pubs IH]; intros t L H; cbn [run_publish]; eauto.
    unfold mailboxPublish.
    destruct (publish_spec t (first_slot n) n m L (first_slot_lt n)) as [(j & Hj & Hu & Hf & E1)|(Hu & E1)].
    - rewrite E1. apply IH; [now rewrite set_slot_length|]. assert (B := used_slots_publish NUM_SLOTS t (probe (first_slot n) j) (n, m)).
      cbn [List.length] in H. lia.
    - exfalso. cbn [List.length] in H.
      assert (B : (List.length (List.map (probe (first_slot n)) (seq 0 255)) <= List.length (used_slots_n NUM_SLOTS t))%nat).
      { apply NoDup_incl_length.
        - assert (NI : forall l, NoDup l -> (forall x, In x l -> (x < 256)%nat) -> NoDup (List.map (probe (first_slot n)) l)).
          { induction l as [|x l IHl]; intros D Hb; cbn; constructor; inversion D; subst.
            - intro Hin. apply in_map_iff in Hin as (y & Ey & Hy). apply probe_inj in Ey.
              + subst. contradiction.
              + apply Hb. now right.
              + apply Hb. now left.
            - apply IHl; auto. intros; apply Hb; now right. }
          apply NI; [apply seq_NoDup|]. intros x Hx. apply in_seq in Hx. lia.
        - intros k Hk. apply in_map_iff in Hk as (i & <- & Hi). apply in_seq in Hi. apply used_slots_in.
          split; [apply probe_lt|apply Hu; lia]. }
      rewrite map_length, seq_length in B. lia. }
  intros pubs H. apply G; [apply repeat_length|].
  replace (List.length (used_slots_n NUM_SLOTS registry0)) with 0%nat; auto.
Qed.

Example registry_example :
  match run_publish [([116; 101; 115; 116]%N, 1%nat); ([120]%N, 2%nat)] registry0 with
  | Some (Ok t) => mailboxResolve t [120]%N = Some (Ok (Some 2%nat)) /\ mailboxResolve t [121]%N = Some (Ok None)
  | _ => False
  end.
Proof. vm_compute. auto. Qed.

(** The table has 256 slots; the 256th publication can abort with a slot
    free. *)
Theorem registry_room_refuted : forall name, exists pubs t i,
  List.length pubs = 255%nat /\ run_publish pubs registry0 = Some (Ok t) /\
  nth_error t i = Some None /\ mailboxPublish t name 0 = Some Trap.
Proof.
  intro name. set (h := first_slot name). assert (Hh : (h < NUM_SLOTS)%nat) by apply first_slot_lt.
  assert (G : forall k t c, (c + k <= 255)%nat -> List.length t = NUM_SLOTS ->
     (forall i, (i < c)%nat -> used t (probe h i)) -> (forall i, (c <= i < 256)%nat -> free t (probe h i)) ->
     exists t', run_publish (repeat (name, 0%nat) k) t = Some (Ok t') /\ List.length t' = NUM_SLOTS /\
       (forall i, (i < c + k)%nat -> used t' (probe h i)) /\ (forall i, (c + k <= i < 256)%nat -> free t' (probe h i))).
  { induction k as [|k IH]; intros t c Hc L U F; cbn [repeat run_publish].
    - exists t. rewrite Nat.add_0_r. auto.
    - unfold mailboxPublish. fold h.
      destruct (publish_spec t h name 0 L Hh) as [(j & Hj & Hu & Hf & E1)|(Hu & E1)].
      + assert (j = c).
        { destruct (Nat.lt_trichotomy j c) as [H|[|H]]; auto.
          - destruct (U j H) as (x & Ex). unfold free in Hf. congruence.
          - destruct (Hu c H) as (x & Ex). specialize (F c ltac:(lia)). unfold free in F. congruence. }
        subst j. rewrite E1. destruct (IH (set_slot t (probe h c) (Some (name, 0%nat))) (S c)) as (t' & E' & L' & U' & F').
        * lia.
        * now rewrite set_slot_length.
        * intros i Hi. unfold used. rewrite set_slot_nth. destruct (Nat.eq_dec i c) as [->|].
          -- rewrite Nat.eqb_refl. unfold free in Hf. rewrite Hf. eauto.
          -- destruct (U i ltac:(lia)) as (x & Ex). rewrite Ex. destruct (Nat.eqb _ _); eauto.
        * intros i Hi. unfold free. rewrite set_slot_nth. rewrite (F i ltac:(lia)).
          destruct (Nat.eqb_spec (probe h c) (probe h i)) as [Eq|]; auto.
          apply probe_inj in Eq; change NUM_SLOTS with 256%nat; lia.
        * exists t'. split; auto. split; auto. split; intros i Hi; [apply U'|apply F']; lia.
      + destruct (Hu c ltac:(lia)) as (x & Ex). specialize (F c ltac:(lia)). unfold free in F. congruence. }
  destruct (G 255%nat registry0 0%nat) as (t & E & L & U & F).
  - lia.
  - apply repeat_length.
  - intros; lia.
  - intros i _. unfold free. unfold registry0. rewrite nth_error_repeat'.
    assert (B := probe_lt h i). destruct (Nat.ltb_spec (probe h i) NUM_SLOTS); [auto|lia].
  - exists (repeat (name, 0%nat) 255), t, (probe h 255). split; [apply repeat_length|]. split; auto.
    split; [apply F; lia|]. unfold mailboxPublish. fold h.
    destruct (publish_spec t h name 0 L Hh) as [(j & Hj & Hu & Hf & E1)|(Hu & E1)]; auto.
    destruct (U j ltac:(lia)) as (x & Ex). unfold free in Hf. congruence.
Qed.

(** Publishing a name again has no effect on what it resolves to. *)
Theorem republish_refuted : exists t,
  run_publish [([97]%N, 1%nat); ([97]%N, 2%nat)] registry0 = Some (Ok t) /\
  mailboxResolve t [97]%N = Some (Ok (Some 1%nat)).
Proof. eexists. split; vm_compute; reflexivity. Qed.

(** Publication is the search for a slot, then the store. *)
Theorem publish_find_store : forall t name m,
  mailboxPublish t name m =
  match publish_find t name with
  | Some (Ok i) => Some (Ok (publish_store t i name m))
  | Some Trap => Some Trap
  | Some UB => Some UB
  | None => None
  end.
Proof.
  intros. unfold mailboxPublish, publish_at, publish_find, publish_store.
  destruct (publish_loop _ _ _ _) as [[i| |]|]; try reflexivity. destruct (Nat.eqb _ _); reflexivity.
Qed.

Lemma set_slot_twice : forall t i a b, set_slot (set_slot t i a) i b = set_slot t i b.
Proof. induction t as [|x t IH]; intros [|i] a b; cbn; auto. now rewrite IH. Qed.

Lemma run_publish_app : forall a b t t', run_publish a t = Some (Ok t') -> run_publish (a ++ b) t = run_publish b t'.
Proof.
  induction a as [|[n m] a IH]; intros b t t' E; cbn [app run_publish] in *.
  - now injection E as <-.
  - destruct (mailboxPublish t n m) as [[t1| |]|]; try discriminate. eauto.
Qed.

(** Two procs publish different new names with the same hash, and both search
    before either stores: both calls succeed, the second name resolves and the
    first is gone. *)
Theorem publish_race : forall pubs t n1 n2 m1 m2 i,
  run_publish pubs registry0 = Some (Ok t) ->
  published pubs n1 = None -> published pubs n2 = None -> n1 <> n2 ->
  first_slot n1 = first_slot n2 -> publish_find t n1 = Some (Ok i) ->
  publish_find t n2 = Some (Ok i) /\
  let t' := publish_store (publish_store t i n1 m1) i n2 m2 in
  mailboxResolve t' n1 = Some (Ok None) /\ mailboxResolve t' n2 = Some (Ok (Some m2)).
Proof.
  intros pubs t n1 n2 m1 m2 i E P1 P2 D H F. assert (F2 : publish_find t n2 = Some (Ok i)).
  { unfold publish_find in *. now rewrite <- H. }
  split; [exact F2|]. intro t'. assert (R : run_publish (pubs ++ [(n2, m2)]) registry0 = Some (Ok t')).
  { rewrite (run_publish_app _ _ _ _ E). cbn [run_publish]. rewrite publish_find_store, F2.
    unfold t', publish_store. now rewrite set_slot_twice. }
  split; rewrite (resolve_after_publish _ _ _ R), published_app.
  - rewrite P1. unfold published. cbn. destruct (list_eq_dec N.eq_dec n2 n1); congruence.
  - rewrite P2. unfold published. cbn. destruct (list_eq_dec N.eq_dec n2 n2); congruence.
Qed.

(** "parse" and "stats". *)
Theorem publish_race_refuted : exists t i,
  publish_find registry0 [112; 97; 114; 115; 101]%N = Some (Ok i) /\
  publish_find registry0 [115; 116; 97; 116; 115]%N = Some (Ok i) /\
  t = publish_store (publish_store registry0 i [112; 97; 114; 115; 101]%N 1) i [115; 116; 97; 116; 115]%N 2 /\
  mailboxResolve t [112; 97; 114; 115; 101]%N = Some (Ok None).
Proof.
  eexists. exists (first_slot [115; 116; 97; 116; 115]%N).
  split; [vm_compute; reflexivity|]. split; [vm_compute; reflexivity|]. split; [reflexivity|]. vm_compute. reflexivity.
Qed.

Lemma resolve_between_hit : forall t h name j k fuel, List.length t = NUM_SLOTS -> (j < NUM_SLOTS)%nat -> (k <= j)%nat -> (j - k < fuel)%nat ->
  (forall i, (i < j)%nat -> used t (probe h i)) -> (forall i m, nth_error t i = Some (Some (name, m)) -> False) ->
  resolve_between fuel t (probe h j) name (probe h k) k = Some UB.
Proof.
  intros t h name j k fuel. revert k. induction fuel as [|f IH]; intros k L Hj Hk Hf U N; [lia|]. cbn [resolve_between].
  destruct (Nat.eqb_spec (probe h k) (probe h j)) as [|Ne]; auto.
  assert (k < j)%nat by (destruct (Nat.eq_dec k j); [subst; contradiction|lia]).
  destruct (U k) as [[n m] En]; auto. unfold slot_at. rewrite En.
  assert (B : bytes_eqb name n = false).
  { destruct (bytes_eqb name n) eqn:B; auto. apply bytes_eqb_eq in B. subst n. exfalso. eauto. }
  rewrite B. cbn [negb andb]. destruct (Nat.ltb_spec k NUM_SLOTS); [|lia]. rewrite probe_S. apply IH; auto; lia.
Qed.

(** While a new name is being published, a proc that resolves this name reads
    the name of a slot that has none yet. *)
Theorem resolve_race : forall pubs t name i,
  run_publish pubs registry0 = Some (Ok t) -> published pubs name = None ->
  publish_find t name = Some (Ok i) ->
  resolve_between (S NUM_SLOTS) t i name (first_slot name) 0 = Some UB.
Proof.
  intros pubs t name i E P F. assert (I := run_publish_inv pubs _ _ [] registry0_inv E). cbn [app] in I.
  destruct I as [L In_ _]. assert (Hs := first_slot_lt name).
  destruct (publish_spec t (first_slot name) name 0 L Hs) as [(j & Hj & Hu & Hf & E1)|(_ & E1)].
  - fold (mailboxPublish t name 0) in E1. rewrite publish_find_store, F in E1. injection E1 as E1.
    assert (i = probe (first_slot name) j) as ->.
    { destruct (Nat.eq_dec i (probe (first_slot name) j)) as [|D]; auto. exfalso.
      assert (X : nth_error (set_slot t (probe (first_slot name) j) (Some (name, 0%nat))) (probe (first_slot name) j) = Some (Some (name, 0%nat))).
      { rewrite set_slot_nth, Nat.eqb_refl. unfold free in Hf. now rewrite Hf. }
      unfold publish_store in E1. rewrite <- E1, set_slot_nth in X. unfold free in Hf. rewrite Hf in X.
      destruct (Nat.eqb_spec i (probe (first_slot name) j)); [contradiction|discriminate]. }
    rewrite <- (probe_0 (first_slot name) Hs) at 2. apply resolve_between_hit; auto; try (change NUM_SLOTS with 256%nat; lia).
    intros x m H. apply In_ in H. apply published_in in H. congruence.
  - fold (mailboxPublish t name 0) in E1. rewrite publish_find_store, F in E1. discriminate.
Qed.

Theorem resolve_race_refuted : exists t i, run_publish [([120]%N, 1%nat)] registry0 = Some (Ok t) /\
  publish_find t [121]%N = Some (Ok i) /\ resolve_between (S NUM_SLOTS) t i [121]%N (first_slot [121]%N) 0 = Some UB.
Proof.
  eexists. exists (first_slot [121]%N). split; [vm_compute; reflexivity|]. split; [vm_compute; reflexivity|]. vm_compute. reflexivity.
Qed.

Print Assumptions publish_race.
Print Assumptions resolve_race.
Print Assumptions linked_queue_is_fifo.
Print Assumptions mailbox_fifo_partial.
Print Assumptions mailbox_never_stuck.
Print Assumptions woken_receiver_gets_undef.
Print Assumptions no_sleep_with_message_partial.
Print Assumptions resolve_after_publish.
Print Assumptions publish_has_room.
Print Assumptions registry_room_refuted.
