(** C58, C59: sending, receiving and the event loop (lib/async.cora,
    lib/net.c, lib/epoll.c). *)
From Coq Require Import List ZArith Bool Arith Lia.
From Verif Require Import NetModel NetSpec NetProofs NetLoop.
Import ListNotations.
Local Open Scope list_scope.
Local Open Scope nat_scope.

(** the state a history ends in, for the witnesses *)
Definition final (l : list op) : state := match run l start with Some st => st | None => start end.
Lemma final_run : forall l, match run l start with Some _ => true | None => false end = true -> run l start = Some (final l).
Proof. intros l H. unfold final. destruct (run l start); [reflexivity|discriminate]. Qed.

(** * C58 *)

(** Any history of sends, receives, accepts, events and closes, in which no
    system call fails: a send that has returned has returned [ok], and the
    system has taken exactly its buffer, in order.
    Full statement: the same without [op_fine]. It is refuted below. *)
Theorem send_exact_partial : forall l st k r,
  NoDup (tasks l) -> Forall op_fine l -> run l start = Some st -> In (k, GSend r) (resumed st) ->
  r = ROk /\ exists c buf s, In (OSend c buf k s) l /\ bytes_of k (sent st) = buf.
Proof. intros l st k r N F H I. exact (i_end _ _ (run_inv _ _ N F H) _ _ I). Qed.

(** And a receive has filled its buffer with what was delivered for it. *)
Theorem recv_exact_partial : forall l st k r buf,
  NoDup (tasks l) -> Forall op_fine l -> run l start = Some st -> In (k, GRecv r buf) (resumed st) ->
  r = ROk /\ exists c buf0, In (ORecv c buf0 k) l /\ length buf0 = length buf /\ bytes_of k (recvd st) = buf.
Proof. intros l st k r buf N F H I. exact (i_end _ _ (run_inv _ _ N F H) _ _ I). Qed.

(** Before that too, nothing is sent that is not the next part of the buffer. *)
Theorem send_prefix_partial : forall l st c buf k s,
  NoDup (tasks l) -> Forall op_fine l -> run l start = Some st -> In (OSend c buf k s) l ->
  exists r, buf = bytes_of k (sent st) ++ r.
Proof. intros l st c buf k s N F H I. exact (i_part _ _ (run_inv _ _ N F H) _ _ _ _ I). Qed.

(** No task is resumed twice. *)
Theorem resumed_once_partial : forall l st, NoDup (tasks l) -> Forall op_fine l -> run l start = Some st -> NoDup (map fst (resumed st)).
Proof. intros l st N F H. exact (i_nodup _ _ (run_inv _ _ N F H)). Qed.

(** A send that waits ends when the system takes the rest, however it splits it. *)
Definition total (s : list nat) : nat := fold_right Nat.add 0 s.
Lemma net_send_all : forall s buf pos, pos + total s = length buf ->
  exists out, net_send buf pos (map Took s) = Some (ROk, out).
Proof.
  induction s as [|n s IH]; intros buf pos H; [change (total []) with 0 in H|change (total (n :: s)) with (n + total s) in H];
    cbn -[Nat.ltb Nat.leb]; (destruct (Nat.ltb_spec pos (length buf)); [|eauto]); [lia|].
  destruct (Nat.leb_spec n (length buf - pos)); [|lia].
  destruct (IH buf (pos + n) ltac:(lia)) as (out & ->). eauto.
Qed.
Theorem send_completes : forall st c buf pos k s,
  wcb (conns st c) = Some (CSend buf pos k) -> pos + total s = length buf ->
  exists st', step (OWrite c (map Took s)) st = Some st' /\ resumed st' = (k, GSend ROk) :: resumed st /\ wcb (conns st' c) = None.
Proof.
  intros st c buf pos k s W H. cbn [step]. unfold write_event. rewrite W. destruct (net_send_all s buf pos H) as (out & ->). cbn [two].
  eexists. split; [reflexivity|]. cbn.
  assert (Q : forall l s0, resumed (poll_mod c l s0) = resumed s0 /\ conns (poll_mod c l s0) = conns s0) by (intros l s0; unfold poll_mod; destruct (poll s0 c); auto).
  match goal with |- context [poll_mod c ?l ?s0] => destruct (Q l s0) as (-> & ->) end. cbn. rewrite Nat.eqb_refl. auto.
Qed.

(** A failing system call is taken for one that would block, and its errno for
    the position reached: the send is then reported done. Here three bytes, of
    which none is sent. *)
Theorem send_error_refuted : exists l st k buf,
  NoDup (tasks l) /\ run l start = Some st /\ In (OSend 0 buf k [SErr 104]) l /\ In (k, GSend ROk) (resumed st) /\ length buf = 3 /\ sent st = [].
Proof.
  set (l := [OSend 0 [1; 2; 3]%Z 7 [SErr 104]; OWrite 0 []]). exists l, (final l), 7, [1; 2; 3]%Z.
  split; [repeat constructor; cbn; tauto|]. split; [apply final_run; vm_compute; reflexivity|]. split; [left; reflexivity|].
  split; [vm_compute; auto|]. vm_compute. auto.
Qed.
(** Here an interrupted call (EINTR is 4) after one byte of six: three bytes are skipped. *)
Theorem send_skips_refuted : exists l st,
  l = [OSend 0 [1; 2; 3; 4; 5; 6]%Z 7 [Took 1; SErr 4]; OWrite 0 [Took 2]] /\ run l start = Some st /\
  resumed st = [(7, GSend ROk)] /\ bytes_of 7 (sent st) = [1; 5; 6]%Z.
Proof. do 2 eexists. split; [reflexivity|]. split; [apply final_run; vm_compute; reflexivity|]. vm_compute. auto. Qed.
(** A receive that fails reports a buffer it has not filled. *)
Theorem recv_error_refuted : exists l st,
  l = [ORecv 0 [0; 0; 0]%Z 7; ORead 0 [RcvErr 104]; ORead 0 []] /\ run l start = Some st /\
  resumed st = [(7, GRecv ROk [0; 0; 0]%Z)] /\ recvd st = [].
Proof. do 2 eexists. split; [reflexivity|]. split; [apply final_run; vm_compute; reflexivity|]. vm_compute. auto. Qed.

(** When the other side has closed, a receive of a buffer that is not full
    never returns, however often the system says so. *)
Theorem recv_closed_refuted : forall n buf pos, pos < length buf -> net_recv buf pos (repeat (Data []) n) = None.
Proof.
  induction n as [|n IH]; intros buf pos H; cbn -[Nat.ltb]; (destruct (Nat.ltb_spec pos (length buf)); [|lia]); [reflexivity|].
  unfold write_at. cbn. rewrite !Nat.add_0_r, firstn_skipn, IH by exact H. reflexivity.
Qed.

(** Of two sends that wait on one connection the first is forgotten. *)
Theorem two_sends_refuted : exists l st k, run l start = Some st /\ Forall op_fine l /\ In k (tasks l) /\ NoDup (tasks l) /\
  forall l' st', ~ In k (tasks l') -> run l' st = Some st' -> ~ In k (map fst (resumed st')).
Proof.
  exists [OSend 0 [1]%Z 7 [SAgain]; OSend 0 [2]%Z 8 [SAgain]]. eexists. exists 7.
  split; [apply final_run; vm_compute; reflexivity|]. split; [repeat constructor|]. split; [left; reflexivity|]. split; [repeat constructor; cbn; intuition discriminate|].
  intros l' st' T H. refine (proj2 (gone_run 7 _ _ _ _ T H)). split; [|vm_compute; tauto].
  intros m c f Hf. destruct m, c as [|c]; vm_compute in Hf; try discriminate. inversion Hf; subst. cbn. discriminate.
Qed.

(** Two connections, a send in three parts and a receive in two. *)
Example traffic : list op :=
  [OSend 0 [1; 2; 3; 4]%Z 7 [Took 1; SAgain]; ORecv 1 [0; 0]%Z 8; ORead 1 [Data [9]%Z; RAgain]; OWrite 0 [Took 2; SAgain];
   ORead 1 [Data [8]%Z]; OWrite 0 [Took 1]; OClose 1].
Example traffic_run : exists st, run traffic start = Some st /\ NoDup (tasks traffic) /\ Forall op_fine traffic /\
  resumed st = [(7, GSend ROk); (8, GRecv ROk [9; 8]%Z)] /\ bytes_of 7 (sent st) = [1; 2; 3; 4]%Z.
Proof.
  eexists. split; [apply final_run; vm_compute; reflexivity|]. split; [repeat constructor; cbn; intuition discriminate|].
  split; [repeat constructor|]. vm_compute. auto.
Qed.
Example send_completes_used : let st := final [OSend 0 [1; 2; 3]%Z 7 [Took 1; SAgain]] in
  wcb (conns st 0) = Some (CSend [1; 2; 3]%Z 1 7) /\ exists st', step (OWrite 0 (map Took [1; 1])) st = Some st' /\ resumed st' = [(7, GSend ROk)].
Proof.
  intros st. assert (W : wcb (conns st 0) = Some (CSend [1; 2; 3]%Z 1 7)) by (vm_compute; reflexivity). split; [exact W|].
  destruct (send_completes _ _ _ _ _ [1; 1] W eq_refl) as (st' & E & R & _). exists st'. split; [exact E|exact R].
Qed.
Example recv_closed_used : net_recv [0; 0]%Z 1 (repeat (Data []) 100) = None.
Proof. apply recv_closed_refuted. cbn. lia. Qed.

(** * C59 *)

(** After any history, also with errors and late events, the connections of
    the event loop are a well formed list without duplicates; the test for
    being in it is exact; and they are exactly those known to the system. *)
Theorem event_loop_list : forall l st, run l start = Some st ->
  exists cs, holds st cs /\ (forall c, outside (conns st c) = true <-> ~ In c cs) /\ (forall c, poll st c <> None <-> In c cs) /\
    (forall c m, ready c m st = true -> In c cs).
Proof.
  intros l st H. destruct (run_loop (fun _ => False) l [] start st [] (start_loop _) H (fun c F => False_ind _ F)) as (cs & I).
  exists cs. pose proof (l_holds _ _ _ _ I) as Hh. split; [exact Hh|]. split; [intros c; apply holds_outside; exact Hh|].
  split; intros c.
  - split.
    + intros P. destruct (in_dec Nat.eq_dec c cs) as [J|J]; [exact J|]. apply (l_out _ _ _ _ I) in J. contradiction.
    + intros J. destruct (l_in _ _ _ _ I c J) as (w & -> & _). discriminate.
  - intros m R. destruct (in_dec Nat.eq_dec c cs) as [J|J]; [exact J|]. apply (l_out _ _ _ _ I) in J. unfold ready in R. rewrite J in R. discriminate.
Qed.
(** Registering always works; it puts a new connection in front and leaves
    the others as they were. *)
Theorem event_loop_add_exact : forall st cs c m f, holds st cs ->
  exists st', event_loop_add c m f st = Some st' /\ holds st' (if existsb (Nat.eqb c) cs then cs else c :: cs) /\ waits_for m st' c.
Proof.
  intros st cs c m f H. destruct (event_loop_add_loop c m f st cs H) as (st' & E & H' & _). exists st'. split; [exact E|]. split; [exact H'|].
  apply event_loop_add_reg in E. pose proof (r_cb _ _ _ _ _ E) as R. destruct m; cbn in *; rewrite R; discriminate.
Qed.
(** So does closing; the connection is no longer there nor known to the system. *)
Theorem conn_close_exact : forall st cs c, holds st cs ->
  exists st', conn_close c st = Some st' /\ holds st' (filter (fun d => negb (d =? c)) cs) /\ (In c cs -> poll st' c = None).
Proof. intros st cs c H. destruct (conn_close_loop c st cs H) as (st' & E & H' & P & _). exists st'. auto. Qed.

(** The scheduler's scan ends, and finds whether a task waits on a
    connection of the loop. *)
Theorem blocked_queue_exact : forall l st, run l start = Some st ->
  exists cs, holds st cs /\ forall n, length cs < n -> exists b, idle n (hnext st) st = Some b /\ (b = true <-> forall c, In c cs -> ~ waiting st c).
Proof.
  intros l st H. destruct (event_loop_list l st H) as (cs & Hh & _). exists cs. split; [exact Hh|]. intros n Hn.
  eapply idle_exact; [|exact Hn]. apply Hh.
Qed.

(** A task that waits to receive on an open connection is in the loop, and
    the system has been asked to report. *)
Theorem read_wakeup : forall l st c, run l start = Some st -> used_well l -> ~ In (OClose c) l ->
  waits_for Rd st c -> outside (conns st c) = false /\ ready c Rd st = true.
Proof.
  intros l st c H U O W. destruct (run_loop (fun _ => False) l [] start st [] (start_loop _) H (fun c F => False_ind _ F)) as (cs & I).
  destruct (l_cb _ _ _ _ I U c Rd O W) as (J & M). split.
  - destruct (outside (conns st c)) eqn:E; [|reflexivity]. apply (holds_outside _ _ _ (l_holds _ _ _ _ I)) in E. contradiction.
  - destruct (l_in _ _ _ _ I c J) as (w & P & _). unfold ready. rewrite P. apply mem_md. exact M.
Qed.
(** The same for sending, as long as no send that had to wait on the
    connection has ended.
    Full statement: without [no_late_send]. It is refuted below. *)
Theorem write_wakeup_partial : forall l st c, run l start = Some st -> used_well l -> ~ In (OClose c) l -> no_late_send c l start ->
  waits_for Wr st c -> outside (conns st c) = false /\ ready c Wr st = true.
Proof.
  intros l st c H U O L W.
  destruct (run_loop (fun d => d = c) l [] start st [] (start_loop _) H) as (cs & I); [intros d ->; exact L|].
  destruct (l_cb _ _ _ _ I U c Wr O W) as (J & M). split.
  - destruct (outside (conns st c)) eqn:E; [|reflexivity]. apply (holds_outside _ _ _ (l_holds _ _ _ _ I)) in E. contradiction.
  - destruct (l_in _ _ _ _ I c J) as (w & P & _ & S). unfold ready. rewrite P, (S eq_refl). apply mem_md. exact M.
Qed.
(** When a send that had to wait has ended, the system is told, the connection
    is not; the next send that has to wait is never reported, and the
    scheduler waits for it. *)
Theorem write_wakeup_refuted : exists l st, run l start = Some st /\ used_well l /\ Forall op_fine l /\ NoDup (tasks l) /\ ~ In (OClose 0) l /\
  wcb (conns st 0) = Some (CSend [2]%Z 0 8) /\ poll st 0 = Some (false, false) /\ idle 2 (hnext st) st = Some false.
Proof.
  exists [OSend 0 [1]%Z 7 [SAgain]; OWrite 0 [Took 1]; OSend 0 [2]%Z 8 [SAgain]]. eexists.
  split; [apply final_run; vm_compute; reflexivity|]. split; [cbn; auto|]. split; [repeat constructor|]. split; [repeat constructor; cbn; intuition discriminate|].
  split; [cbn; intuition discriminate|]. vm_compute. auto.
Qed.
(** A task that waits on a connection when it is closed is not resumed, and
    the scheduler does not count it. *)
Theorem close_abandons_refuted : exists l st, run l start = Some st /\ used_well l /\ Forall op_fine l /\
  waits_for Rd st 0 /\ resumed st = [] /\ outside (conns st 0) = true /\ idle 1 (hnext st) st = Some true.
Proof.
  exists [ORecv 0 [0]%Z 7; OClose 0]. eexists. split; [apply final_run; vm_compute; reflexivity|]. split; [cbn; auto|]. split; [repeat constructor|].
  vm_compute. repeat split; discriminate.
Qed.
(** An event that net-poll had already returned when the connection was closed
    puts it back (EBADF is 9), and the scheduler waits for it. *)
Theorem closed_returns_refuted : exists l st, l = [ORecv 0 [0]%Z 7; OClose 0; ORead 0 [RcvErr 9]] /\ run l start = Some st /\
  outside (conns st 0) = false /\ waits_for Rd st 0 /\ idle 2 (hnext st) st = Some false.
Proof. do 2 eexists. split; [reflexivity|]. split; [apply final_run; vm_compute; reflexivity|]. vm_compute. repeat split; discriminate. Qed.

Example loop_used : exists st, run [ORecv 0 [0]%Z 7; ORecv 1 [0]%Z 8; OSend 2 [1]%Z 9 [SAgain]; OSend 0 [1]%Z 10 [SAgain]; OClose 1] start = Some st /\
  holds st [2; 0] /\ used_well [ORecv 0 [0]%Z 7; ORecv 1 [0]%Z 8; OSend 2 [1]%Z 9 [SAgain]; OSend 0 [1]%Z 10 [SAgain]; OClose 1] /\
  waits_for Rd st 0 /\ waits_for Wr st 0 /\ poll st 0 = Some (true, true) /\ idle 3 (hnext st) st = Some false.
Proof.
  eexists. split; [apply final_run; vm_compute; reflexivity|]. split.
  - split; [repeat constructor; cbn; intuition discriminate|]. split; [vm_compute; repeat split|].
    intros c Hc. destruct c as [|[|[|c]]]; [exfalso; cbn in Hc; tauto|vm_compute; auto|exfalso; cbn in Hc; tauto|vm_compute; auto].
  - split; [cbn; repeat constructor|]. vm_compute. repeat split; discriminate.
Qed.
Example no_late_send_used : no_late_send 0 [OSend 0 [1; 2]%Z 7 [SAgain]; OWrite 0 [Took 1; SAgain]; ORecv 0 [0]%Z 8; ORead 0 [RAgain]] start /\
  exists st, run [OSend 0 [1; 2]%Z 7 [SAgain]; OWrite 0 [Took 1; SAgain]; ORecv 0 [0]%Z 8; ORead 0 [RAgain]] start = Some st /\ waits_for Wr st 0.
Proof. split; [cbn; auto|]. eexists. split; [apply final_run; vm_compute; reflexivity|]. vm_compute. discriminate. Qed.

Print Assumptions send_exact_partial.
Print Assumptions recv_exact_partial.
Print Assumptions send_prefix_partial.
Print Assumptions resumed_once_partial.
Print Assumptions send_completes.
Print Assumptions send_error_refuted.
Print Assumptions send_skips_refuted.
Print Assumptions recv_error_refuted.
Print Assumptions recv_closed_refuted.
Print Assumptions two_sends_refuted.
Print Assumptions event_loop_list.
Print Assumptions event_loop_add_exact.
Print Assumptions conn_close_exact.
Print Assumptions blocked_queue_exact.
Print Assumptions read_wakeup.
Print Assumptions write_wakeup_partial.
Print Assumptions write_wakeup_refuted.
Print Assumptions close_abandons_refuted.
Print Assumptions closed_returns_refuted.
