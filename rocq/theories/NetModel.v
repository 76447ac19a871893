(** lib/async.cora with the parts of lib/net.c and lib/epoll.c it calls: the
    event loop, sending and receiving.

    Simplifications.
    - A connection and its file descriptor are one number: a descriptor that
      the system hands out again after a close is not modelled.
    - The system is a script: the answers of the system calls one library
      call makes, in order. [None] is a call that has not returned when the
      script ends, or a script the system would not follow.
    - A continuation is a number; what is resumed is recorded, and so are the
      bytes the system took and delivered, with the continuation they were
      for. dial, listen, time-outs and what is displayed are left out. *)
From Coq Require Import List ZArith Bool Arith.
Import ListNotations.
Local Open Scope list_scope.
Local Open Scope nat_scope.

Definition byte := Z.
Definition id := nat.
Inductive mode := Rd | Wr.
Definition mode_eqb (a b : mode) : bool := match a, b with Rd, Rd | Wr, Wr => true | _, _ => false end.

(** * net.c *)
(** what net-send and net-recv return: [block pos], [ok], [err errno] *)
Inductive res := RBlock (pos : nat) | ROk | RErr (errno : nat).

(** send(2): so many bytes taken, EAGAIN, another error *)
Inductive snd_ret := Took (n : nat) | SAgain | SErr (errno : nat).
(** net.c:129-165 *)
Fixpoint net_send (buf : list byte) (pos : nat) (script : list snd_ret) : option (res * list byte) :=
  if pos <? length buf then
    match script with
    | [] => None
    | Took n :: r =>
        if n <=? length buf - pos then
          match net_send buf (pos + n) r with
          | Some (x, out) => Some (x, firstn n (skipn pos buf) ++ out)
          | None => None
          end
        else None
    | SAgain :: _ => Some (RBlock pos, [])
    | SErr e :: _ => Some (RErr e, [])
    end
  else Some (ROk, []).

(** recv(2): these bytes delivered, none when the other side has closed *)
Inductive rcv_ret := Data (l : list byte) | RAgain | RcvErr (errno : nat).
Definition write_at (buf : list byte) (pos : nat) (l : list byte) : list byte :=
  firstn pos buf ++ l ++ skipn (pos + length l) buf.
(** net.c:174-209; also the buffer afterwards and the bytes delivered *)
Fixpoint net_recv (buf : list byte) (pos : nat) (script : list rcv_ret) : option (res * list byte * list byte) :=
  if pos <? length buf then
    match script with
    | [] => None
    | Data l :: r =>
        if length l <=? length buf - pos then
          match net_recv (write_at buf pos l) (pos + length l) r with
          | Some (x, buf', got) => Some (x, buf', l ++ got)
          | None => None
          end
        else None
    | RAgain :: _ => Some (RBlock pos, buf, [])
    | RcvErr e :: _ => Some (RErr e, buf, [])
    end
  else Some (ROk, buf, []).

(** * Connections *)
Inductive ptr := PNil | PHead | PConn (c : id).
(** the closures given as callbacks (async.cora:133, :150, :161, :191, :209) *)
Inductive cb := CSend (buf : list byte) (pos : nat) (k : nat) | CRecv (buf : list byte) (pos : nat) (k : nat) | CAccept (k : nat).
(** async.cora:15-26, without fd *)
Record conn := mkConn { nxt : ptr; prv : ptr; md : list mode; rcb : option cb; wcb : option cb; ext : nat }.
(** async.cora:28-36 *)
Definition conn_make : conn := mkConn PNil PNil [] None None 0.

(** What a continuation got: the answer, and the buffer for a receive. *)
Inductive got := GSend (r : res) | GRecv (r : res) (buf : list byte) | GConn.
Record state := mkState {
  hnext : ptr;                            (* the node of :44-49 *)
  conns : id -> conn;
  poll : id -> option (bool * bool);      (* the descriptors registered: for reading, for writing *)
  resumed : list (nat * got);             (* newest first *)
  sent : list (nat * byte);               (* oldest first *)
  recvd : list (nat * byte) }.

Definition set_conn (c : id) (f : conn -> conn) (st : state) : state :=
  mkState (hnext st) (fun d => if d =? c then f (conns st d) else conns st d) (poll st) (resumed st) (sent st) (recvd st).
Definition set_hnext (p : ptr) (st : state) : state := mkState p (conns st) (poll st) (resumed st) (sent st) (recvd st).
Definition set_poll (c : id) (p : option (bool * bool)) (st : state) : state :=
  mkState (hnext st) (conns st) (fun d => if d =? c then p else poll st d) (resumed st) (sent st) (recvd st).
Definition resume (k : nat) (g : got) (st : state) : state :=
  mkState (hnext st) (conns st) (poll st) ((k, g) :: resumed st) (sent st) (recvd st).
Definition log_sent (k : nat) (l : list byte) (st : state) : state :=
  mkState (hnext st) (conns st) (poll st) (resumed st) (sent st ++ map (pair k) l) (recvd st).
Definition log_recvd (k : nat) (l : list byte) (st : state) : state :=
  mkState (hnext st) (conns st) (poll st) (resumed st) (sent st) (recvd st ++ map (pair k) l).

Definition with_nxt (p : ptr) (c : conn) : conn := mkConn p (prv c) (md c) (rcb c) (wcb c) (ext c).
Definition with_prv (p : ptr) (c : conn) : conn := mkConn (nxt c) p (md c) (rcb c) (wcb c) (ext c).
Definition with_md (m : list mode) (c : conn) : conn := mkConn (nxt c) (prv c) m (rcb c) (wcb c) (ext c).
Definition with_rcb (f : option cb) (c : conn) : conn := mkConn (nxt c) (prv c) (md c) f (wcb c) (ext c).
Definition with_wcb (f : option cb) (c : conn) : conn := mkConn (nxt c) (prv c) (md c) (rcb c) f (ext c).
Definition with_ext (n : nat) (c : conn) : conn := mkConn (nxt c) (prv c) (md c) (rcb c) (wcb c) n.

(** * The list (async.cora:54-76) *)
(** :54-56 *)
Definition outside (c : conn) : bool := match nxt c, prv c with PNil, PNil => true | _, _ => false end.
(** node-set-prev! and conn-set-prev!: slot 2 of a node or a connection. The
    head is never anyone's next, and its prev is never read. *)
Definition set_prev (p : ptr) (q : ptr) (st : state) : option state :=
  match p with PConn d => Some (set_conn d (with_prv q) st) | PHead => Some st | PNil => None end.
Definition set_next (p : ptr) (q : ptr) (st : state) : option state :=
  match p with PConn d => Some (set_conn d (with_nxt q) st) | PHead => Some (set_hnext q st) | PNil => None end.
(** :58-66 *)
Definition add_conn (c : id) (st : state) : option state :=
  let st := set_conn c (with_nxt (hnext st)) st in
  match (match hnext st with PNil => Some st | p => set_prev p (PConn c) st end) with
  | Some st => Some (set_conn c (with_prv PHead) (set_hnext (PConn c) st))
  | None => None
  end.
(** :68-76; vector-set! on () is an error *)
Definition del_conn (c : id) (st : state) : option state :=
  let prev := prv (conns st c) in
  match set_next prev (nxt (conns st c)) st with
  | None => None
  | Some st =>
      match (match nxt (conns st c) with PNil => Some st | p => set_prev p prev st end) with
      | Some st => Some (set_conn c (fun x => with_prv PNil (with_nxt PNil x)) st)
      | None => None
      end
  end.

(** * Registration *)
Definition mode_bits (l : list mode) : bool * bool := (existsb (mode_eqb Rd) l, existsb (mode_eqb Wr) l).
(** net.c:247-261 and epoll.c:8-30: EPOLL_CTL_ADD fails when the descriptor is registered *)
Definition poll_add (c : id) (m : mode) (st : state) : state :=
  match poll st c with Some _ => st | None => set_poll c (Some (mode_bits [m])) st end.
(** net.c:263-271 and epoll.c:32-53: EPOLL_CTL_MOD fails when it is not *)
Definition poll_mod (c : id) (l : list mode) (st : state) : state :=
  match poll st c with Some _ => set_poll c (Some (mode_bits l)) st | None => st end.
(** net.c:273-278 and epoll.c:55-61 *)
Definition poll_del (c : id) (st : state) : state := set_poll c None st.

(** async.cora:81-106 *)
Definition event_loop_add (c : id) (m : mode) (f : cb) (st : state) : option state :=
  let st := set_conn c (match m with Rd => with_rcb (Some f) | Wr => with_wcb (Some f) end) st in
  if outside (conns st c) then
    match add_conn c st with
    | Some st => Some (set_conn c (with_md [m]) (poll_add c m st))
    | None => None
    end
  else if existsb (mode_eqb m) (md (conns st c)) then Some st
  else
    let new := m :: md (conns st c) in
    Some (set_conn c (with_md new) (poll_mod c new st)).

(** async.cora:115-122; close(2) itself is not modelled *)
Definition conn_close (c : id) (st : state) : option state :=
  if outside (conns st c) then Some st else del_conn c (poll_del c st).

(** [block pos] in a pattern: a list of two, whatever it starts with *)
Definition two (r : res) : option nat := match r with RBlock p => Some p | RErr e => Some e | ROk => None end.

(** * Operations *)
(** async.cora:180-202 with cml.cora:156-169: send, started by a task whose
    continuation is [k] *)
Definition start_send (c : id) (buf : list byte) (k : nat) (script : list snd_ret) (st : state) : option state :=
  match net_send buf 0 script with
  | None => None
  | Some (r, out) =>
      let st := log_sent k out st in
      match two r with
      | Some p =>
          let st := set_conn c (with_ext p) st in
          event_loop_add c Wr (CSend buf (ext (conns st c)) k) st
      | None => Some (resume k (GSend r) st)
      end
  end.
(** :147-156 *)
Definition start_recv (c : id) (buf : list byte) (k : nat) (st : state) : option state := event_loop_add c Rd (CRecv buf 0 k) st.
(** :204-226 *)
Definition start_accept (c : id) (k : nat) (st : state) : option state := event_loop_add c Rd (CAccept k) st.

(** A writable event (:246-261): the callback is called if there is one
    (:158-177). The handler is also reached by an event that an earlier
    net-poll has returned (the handlers call schedule, which polls again), so
    nothing is asked of the state. *)
Definition write_event (c : id) (script : list snd_ret) (st : state) : option state :=
  match wcb (conns st c) with
  | Some (CSend buf pos k) =>
      match net_send buf pos script with
      | None => None
      | Some (r, out) =>
          let st := log_sent k out st in
          match two r with
          | Some p => event_loop_add c Wr (CSend buf p k) st
          | None =>
              let st := set_conn c (with_wcb None) st in
              Some (resume k (GSend r) (poll_mod c (filter (fun m => negb (mode_eqb Wr m)) (md (conns st c))) st))
          end
      end
  | _ => Some st
  end.
(** A readable event (:128-143, :209-222) *)
Definition read_event (c : id) (script : list rcv_ret) (st : state) : option state :=
  match rcb (conns st c) with
  | Some (CRecv buf pos k) =>
      match net_recv buf pos script with
      | None => None
      | Some (r, buf', l) =>
          let st := log_recvd k l st in
          match two r with
          | Some p => event_loop_add c Rd (CRecv buf' p k) st
          | None => Some (resume k (GRecv r buf') (set_conn c (with_rcb None) st))
          end
      end
  | Some (CAccept k) => Some (resume k GConn (set_conn c (with_rcb None) st))
  | _ => Some st
  end.

(** * Histories *)
Inductive op :=
| OSend (c : id) (buf : list byte) (k : nat) (script : list snd_ret)
| ORecv (c : id) (buf : list byte) (k : nat)
| OAccept (c : id) (k : nat)
| OWrite (c : id) (script : list snd_ret)
| ORead (c : id) (script : list rcv_ret)
| OClose (c : id).
(** what the system reports *)
Definition ready (c : id) (m : mode) (st : state) : bool :=
  match poll st c with Some (r, w) => match m with Rd => r | Wr => w end | None => false end.
Definition step (o : op) (st : state) : option state :=
  match o with
  | OSend c buf k script => start_send c buf k script st
  | ORecv c buf k => start_recv c buf k st
  | OAccept c k => start_accept c k st
  | OWrite c script => write_event c script st
  | ORead c script => read_event c script st
  | OClose c => conn_close c st
  end.
Fixpoint run (l : list op) (st : state) : option state :=
  match l with
  | [] => Some st
  | o :: r => match step o st with Some st => run r st | None => None end
  end.
Definition start : state := mkState PNil (fun _ => conn_make) (fun _ => None) [] [] [].

(** blocked-queue-empty? (:228-235), following next from the head; [None] is
    fuel that has run out *)
Fixpoint idle (n : nat) (p : ptr) (st : state) : option bool :=
  match n with
  | O => None
  | S n =>
      match p with
      | PConn c =>
          match rcb (conns st c), wcb (conns st c) with
          | None, None => idle n (nxt (conns st c)) st
          | _, _ => Some false
          end
      | _ => Some true
      end
  end.
