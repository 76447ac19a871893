(** Mailboxes between procs and their name registry:
    lib/parallel/internal.c:79-329, lib/parallel.cora:46-75, and the parts of
    lib/async.cora they rely on (conn-make 28-36, the record layout 15-26).

    Simplifications.
    - Everything between mailboxLock and mailboxUnlock is one step; the code
      outside is not: polling ([mailbox-recv-try]) and going to sleep (the
      [block] function) are two steps, between which others run.
    - malloc succeeds.  Nodes are never freed (the code does not free them).
    - mailboxRegistryInit (whose size argument is too large by a factor 256,
      line 282) is not called; static storage is zero. *)
From Coq Require Import List ZArith NArith Bool.
From Verif Require Import Base LibModel.
Import ListNotations.
Local Open Scope Z_scope.
Local Open Scope out_scope.

(** ** the linked queue, lines 79-130, 171-203 *)

(** A [next] field: malloc does not initialise it. *)
Inductive ptr := PNull | PWild | PNode (i : nat).

Record node (A : Type) := mkNode { n_next : ptr; n_val : A }.
Arguments mkNode {A}. Arguments n_next {A}. Arguments n_val {A}.

Record cqueue (A : Type) := mkCQ { q_mem : list (node A); q_head : ptr; q_tail : ptr; q_len : Z }.
Arguments mkCQ {A}. Arguments q_mem {A}. Arguments q_head {A}. Arguments q_tail {A}. Arguments q_len {A}.

(** lines 89-94 *)
Definition queueInit {A} : cqueue A := mkCQ [] PNull PNull 0.

Definition load {A} (m : list (node A)) (p : ptr) : outcome (node A) :=
  match p with PNode i => match nth_error m i with Some n => Ok n | None => UB end | _ => UB end.

Fixpoint set_next {A} (m : list (node A)) (i : nat) (p : ptr) : list (node A) :=
  match m, i with
  | [], _ => []
  | n :: r, O => mkNode p (n_val n) :: r
  | n :: r, S i' => n :: set_next r i' p
  end.

Definition store_next {A} (m : list (node A)) (p x : ptr) : outcome (list (node A)) :=
  match p with PNode i => if (i <? List.length m)%nat then Ok (set_next m i x) else UB | _ => UB end.

(** lines 106-120 (enqueueData), 171-183 (enqueueBlocked) *)
Definition enqueueC {A} (q : cqueue A) (v : A) : outcome (cqueue A) :=
  let n := PNode (List.length (q_mem q)) in
  let m := q_mem q ++ [mkNode PWild v] in
  if q_len q =? 0 then Ok (mkCQ m n n 1)
  else
    do! m1 <- store_next m (q_tail q) n;
    do! m2 <- store_next m1 n PNull;
    Ok (mkCQ m2 (q_head q) n (q_len q + 1)).

(** lines 122-130 (dequeueData), 195-203 (dequeueBlocked) *)
Definition dequeueC {A} (q : cqueue A) : outcome (A * cqueue A) :=
  assertT (0 <? q_len q)
    (do! b <- load (q_mem q) (q_head q);
     do! m <- store_next (q_mem q) (q_head q) PNull;
     Ok (n_val b, mkCQ m (n_next b) (q_tail q) (q_len q - 1))).

(** ** the mailbox *)

(** A conn: the fields used here (lib/async.cora:15-36).  [conn-make] does not
    set [extra]; a new vector holds Undef. *)
Record conn := mkConn { c_readable : bool; c_extra : val }.

(** A receiving coroutine. *)
Inductive rstate :=
| RIdle                          (* has not polled, or has finished its receive *)
| RPolled                        (* mailbox-recv-try gave false *)
| RAsleep (rc : nat)             (* waiting for its read-conn *)
| RGot (v : val).                (* its receive returned v *)

Record mstate := mkM {
  m_data : cqueue val;
  m_blocked : cqueue nat;        (* write-conns *)
  m_conns : list conn;
  m_recv : nat -> rstate }.

(** lines 220-227 *)
Definition mailboxMake : mstate := mkM queueInit queueInit [] (fun _ => RIdle).

Definition set_recv (m : mstate) (r : nat) (x : rstate) : mstate :=
  mkM (m_data m) (m_blocked m) (m_conns m) (fun r' => if Nat.eqb r' r then x else m_recv m r').

Fixpoint set_conn (l : list conn) (i : nat) (c : conn) : list conn :=
  match l, i with [], _ => [] | _ :: r, O => c :: r | x :: r, S i' => x :: set_conn r i' c end.

(** lines 205-218.  The conn in the queue is the write end of the pipe;
    writing 8 bytes makes the read end, created just before it, readable. *)
Definition wakeupBlocked (cs : list conn) (w : nat) (v : val) : outcome (list conn) :=
  match nth_error cs w, nth_error cs (w - 1) with
  | Some cw, Some cr =>
      Ok (set_conn (set_conn cs w (mkConn (c_readable cw) v)) (w - 1) (mkConn true (c_extra cr)))
  | _, _ => UB
  end.

(** lines 229-242 *)
Definition mailboxSend (m : mstate) (v : val) : outcome mstate :=
  if 0 <? q_len (m_blocked m) then
    do! '(w, b) <- dequeueC (m_blocked m);
    do! cs <- wakeupBlocked (m_conns m) w v;
    Ok (mkM (m_data m) b cs (m_recv m))
  else
    do! d <- enqueueC (m_data m) v;
    Ok (mkM d (m_blocked m) (m_conns m) (m_recv m)).

(** lines 244-257 *)
Definition mailboxRecvTry (m : mstate) : outcome (val * mstate) :=
  if 0 <? q_len (m_data m) then
    do! '(v, d) <- dequeueC (m_data m);
    Ok (v, mkM d (m_blocked m) (m_conns m) (m_recv m))
  else Ok (VFalse, m).

(** lib/parallel.cora:48-74, the [block] function, called by perform
    (lib/cml.cora:161-168) when the poll gave false. *)
Definition mailbox_block (m : mstate) (r : nat) : outcome mstate :=
  if q_len (m_data m) <? 0 then                       (* (> 0 len), line 53 *)
    do! '(v, d) <- dequeueC (m_data m);
    (* the value is returned by [block], whose result perform drops *)
    Ok (mkM d (m_blocked m) (m_conns m) (m_recv m))
  else
    let rc := List.length (m_conns m) in              (* read-conn, line 60 *)
    let wc := S rc in                                 (* write-conn, line 61 *)
    do! b <- enqueueC (m_blocked m) wc;
    Ok (set_recv (mkM (m_data m) b (m_conns m ++ [mkConn false VUndef; mkConn false VUndef]) (m_recv m))
                 r (RAsleep rc)).

(** One step of some thread. *)
Inductive mstep := SSend (v : val) | SPoll (r : nat) | SBlock (r : nat) | SWake (r : nat).

Definition mbox_step (m : mstate) (s : mstep) : outcome mstate :=
  match s with
  | SSend v => mailboxSend m v
  | SPoll r =>                                        (* lib/cml.cora:160-161 *)
      match m_recv m r with
      | RIdle => do! '(v, m1) <- mailboxRecvTry m;
                 Ok (set_recv m1 r (if veqb v VFalse then RPolled else RGot v))
      | _ => Ok m
      end
  | SBlock r =>
      match m_recv m r with
      | RPolled => mailbox_block m r
      | _ => Ok m
      end
  | SWake r =>                                        (* lib/parallel.cora:63-72 *)
      match m_recv m r with
      | RAsleep rc =>
          match nth_error (m_conns m) rc with
          | Some c => if c_readable c then Ok (set_recv m r (RGot (c_extra c))) else Ok m
          | None => UB
          end
      | _ => Ok m
      end
  end.

Fixpoint mbox_run (m : mstate) (l : list mstep) : outcome mstate :=
  match l with [] => Ok m | s :: r => do! m1 <- mbox_step m s; mbox_run m1 r end.

(** ** the registry, lines 259-329 *)

Definition NUM_SLOTS : nat := 256.

(** lines 270-276; [unsigned long] has 64 bits *)
Fixpoint fnv1a_from (hash : N) (s : list N) : N :=
  match s with
  | [] => hash
  | c :: r => if (c =? 0)%N then hash
              else fnv1a_from ((N.lxor hash c * 16777619) mod 2 ^ 64)%N r
  end.
Definition fnv1aHash (s : list N) : N := fnv1a_from 2166136261 s.

(** A slot: the name and the mailbox, or NULL. *)
Notation slot := (option (list N * nat)).   

(** The slot index where the search for a name starts. *)
Definition first_slot (name : list N) : nat := N.to_nat (fnv1aHash name mod 256).

Definition next_slot (i : nat) : nat := Nat.modulo (S i) NUM_SLOTS.

Definition slot_at (t : list slot) (i : nat) : outcome slot :=
  match nth_error t i with Some s => Ok s | None => UB end.

Fixpoint set_slot (t : list slot) (i : nat) (s : slot) : list slot :=
  match t, i with [], _ => [] | _ :: r, O => s :: r | x :: r, S i' => x :: set_slot r i' s end.

(** lines 293-296; [None] = out of fuel *)
Fixpoint publish_loop (fuel : nat) (t : list slot) (idx start : nat) : option (outcome nat) :=
  match fuel with
  | O => None
  | S f =>
      match slot_at t idx with
      | Ok (Some _) => if Nat.eqb idx start then Some (Ok idx)
                       else publish_loop f t (next_slot idx) start
      | Ok None => Some (Ok idx)
      | Trap => Some Trap
      | UB => Some UB
      end
  end.

(** lines 285-306 *)
Definition publish_at (h : nat) (t : list slot) (name : list N) (m : nat) : option (outcome (list slot)) :=
  let start := Nat.modulo (h + NUM_SLOTS - 1) NUM_SLOTS in
  match publish_loop (S NUM_SLOTS) t h start with
  | Some (Ok idx) => Some (if Nat.eqb idx start then Trap else Ok (set_slot t idx (Some (name, m))))
  | Some Trap => Some Trap
  | Some UB => Some UB
  | None => None
  end.
Definition mailboxPublish (t : list slot) (name : list N) (m : nat) : option (outcome (list slot)) :=
  publish_at (first_slot name) t name m.

(** The registry has no lock: another proc may run between the search (290-302)
    and the two assignments (303-304). *)
Definition publish_find (t : list slot) (name : list N) : option (outcome nat) :=
  let h := first_slot name in
  let start := Nat.modulo (h + NUM_SLOTS - 1) NUM_SLOTS in
  match publish_loop (S NUM_SLOTS) t h start with
  | Some (Ok idx) => Some (if Nat.eqb idx start then Trap else Ok idx)
  | r => r
  end.
Definition publish_store (t : list slot) (idx : nat) (name : list N) (m : nat) : list slot := set_slot t idx (Some (name, m)).

(** lines 316-320 *)
Fixpoint resolve_loop (fuel : nat) (t : list slot) (name : list N) (idx try : nat) : option (outcome (nat * nat)) :=
  match fuel with
  | O => None
  | S f =>
      match slot_at t idx with
      | Ok (Some (n, _)) =>
          if negb (bytes_eqb name n) && (try <? NUM_SLOTS)%nat
          then resolve_loop f t name (next_slot idx) (S try)
          else Some (Ok (idx, try))
      | Ok None => Some (Ok (idx, try))
      | Trap => Some Trap
      | UB => Some UB
      end
  end.

(** lines 308-329; the result [None] is Nil *)
Definition resolve_at (h : nat) (t : list slot) (name : list N) : option (outcome (option nat)) :=
  match resolve_loop (S (S NUM_SLOTS)) t name h 0 with
  | Some (Ok (idx, try)) =>
      Some (do! s <- slot_at t idx;
            match s with
            | None => Ok None
            | Some (n, m) => if Nat.eqb try NUM_SLOTS then Ok None
                             else assertT (bytes_eqb name n) (Ok (Some m))
            end)
  | Some Trap => Some Trap
  | Some UB => Some UB
  | None => None
  end.
Definition mailboxResolve (t : list slot) (name : list N) : option (outcome (option nat)) :=
  resolve_at (first_slot name) t name.

(** lines 316-320 run by another proc after line 303 and before 304: the slot
    [half] has a mailbox and no name, and toStr (src/str.c:30-33) reads through
    NULL. [Ok tt] when the search ends without meeting it. *)
Fixpoint resolve_between (fuel : nat) (t : list slot) (half : nat) (name : list N) (idx try : nat) : option (outcome unit) :=
  match fuel with
  | O => None
  | S f =>
      if Nat.eqb idx half then Some UB
      else
        match slot_at t idx with
        | Ok (Some (n, _)) =>
            if negb (bytes_eqb name n) && (try <? NUM_SLOTS)%nat
            then resolve_between f t half name (next_slot idx) (S try)
            else Some (Ok tt)
        | Ok None => Some (Ok tt)
        | Trap => Some Trap
        | UB => Some UB
        end
  end.

(** static storage: all slots empty *)
Definition registry0 : list slot := repeat None NUM_SLOTS.
