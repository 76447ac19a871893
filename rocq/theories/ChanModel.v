(** Channels and operations: lib/chan.cora, lib/cml.cora:99-121, 156-169.

    Simplifications.
    - The queues of a channel are lists, oldest first, with enqueue at the
      end and dequeue at the front: lib/queue.cora implements exactly this
      (LibProps.queue_is_fifo), and chan.cora calls dequeue only after
      queue-empty? said false.
    - The functions given to [wrap] are pure.
    - A coroutine's [perform] is identified by its number; resuming it with a
      value, or its returning at once with a value, is an event.  The order
      of events is the order in which tasks enter the task queue
      (a FIFO, lib/cml.cora:23-24, 59). *)
From Coq Require Import List ZArith NArith Bool.
From Verif Require Import Base LibModel.
Import ListNotations.

(** A blocked sender [state resume val wrap], chan.cora:53-57. *)
Record sitem := mkS { s_state : nat; s_k : nat; s_val : val; s_wrap : val -> val }.
(** A blocked receiver [state k wrap], chan.cora:24-28. *)
Record ritem := mkR { r_state : nat; r_k : nat; r_wrap : val -> val }.

Record cstate := mkC {
  c_sendq : nat -> list sitem;     (* per channel *)
  c_recvq : nat -> list ritem;
  c_done : nat -> bool;            (* (value state) = 'Done *)
  c_gensym : nat;                  (* next state symbol *)
  c_events : list (nat * val) }.   (* oldest first *)

(** chan.cora:9-10; no channel holds anything. *)
Definition chan_init : cstate := mkC (fun _ => []) (fun _ => []) (fun _ => false) 0 [].

Definition upd1 {A} (f : nat -> A) (i : nat) (x : A) : nat -> A := fun j => if Nat.eqb j i then x else f j.

(** (enqueue-task (lambda () (resume (wrap v)))) and (set state 'Done) *)
Definition resume_task (s : cstate) (k : nat) (v : val) (st : nat) : cstate :=
  mkC (c_sendq s) (c_recvq s) (upd1 (c_done s) st true) (c_gensym s) (c_events s ++ [(k, v)]).

(** chan.cora:12-22; [l] is the send queue of channel [ch]. *)
Fixpoint recv_try (s : cstate) (ch : nat) (l : list sitem) : val * cstate :=
  match l with
  | [] => (VFalse, mkC (upd1 (c_sendq s) ch []) (c_recvq s) (c_done s) (c_gensym s) (c_events s))
  | it :: r =>
      if c_done s (s_state it) then recv_try s ch r
      else
        let s1 := mkC (upd1 (c_sendq s) ch r) (c_recvq s) (c_done s) (c_gensym s) (c_events s) in
        (s_val it, resume_task s1 (s_k it) (s_wrap it VNil) (s_state it))
  end.

(** chan.cora:38-51.  The recursive call for a stale item lacks the value: it
    is a partial application, an anonymous closure. *)
Definition send_try (s : cstate) (ch : nat) (v : val) : val * cstate :=
  match c_recvq s ch with
  | [] => (VFalse, s)
  | it :: r =>
      let s1 := mkC (c_sendq s) (upd1 (c_recvq s) ch r) (c_done s) (c_gensym s) (c_events s) in
      if c_done s (r_state it) then (VRef 0, s1)
      else (VNil, resume_task s1 (r_k it) (r_wrap it v) (r_state it))
  end.

(** chan.cora:24-28 *)
Definition recv_block (s : cstate) (ch k : nat) (w : val -> val) : cstate :=
  let st := c_gensym s in
  mkC (c_sendq s) (upd1 (c_recvq s) ch (c_recvq s ch ++ [mkR st k w])) (upd1 (c_done s) st false) (S st) (c_events s).

(** chan.cora:53-57 *)
Definition send_block (s : cstate) (ch k : nat) (v : val) (w : val -> val) : cstate :=
  let st := c_gensym s in
  mkC (upd1 (c_sendq s) ch (c_sendq s ch ++ [mkS st k v w])) (c_recvq s) (upd1 (c_done s) st false) (S st) (c_events s).

(** Operations: chan-send, chan-recv, choice-op, each with the functions
    [wrap]ped around it (cml.cora:103-104). *)
Inductive op :=
| OSend (ch : nat) (v : val) (w : val -> val)
| ORecv (ch : nat) (w : val -> val)
| OChoice (l : list op) (w : val -> val).

Definition op_wrap (o : op) : val -> val :=
  match o with OSend _ _ w => w | ORecv _ w => w | OChoice _ w => w end.

(** The [try] component; for a choice, cml.cora:106-110. *)
Fixpoint op_try (o : op) (s : cstate) : val * cstate :=
  match o with
  | OSend ch v _ => send_try s ch v
  | ORecv ch _ => recv_try s ch (c_sendq s ch)
  | OChoice l _ =>
      (fix tries (l : list op) (s : cstate) : val * cstate :=
         match l with
         | [] => (VFalse, s)
         | o1 :: r => let '(v, s1) := op_try o1 s in
                      if veqb v VFalse then tries r s1 else (op_wrap o1 v, s1)
         end) l s
  end.

(** The [block] component; for a choice, cml.cora:114-120. *)
Fixpoint op_block (o : op) (k : nat) (w : val -> val) (s : cstate) : cstate :=
  match o with
  | OSend ch v _ => send_block s ch k v w
  | ORecv ch _ => recv_block s ch k w
  | OChoice l _ =>
      (fix blocks (l : list op) (s : cstate) : cstate :=
         match l with
         | [] => s
         | o1 :: r => blocks r (op_block o1 k (fun v => w (op_wrap o1 v)) s)
         end) l s
  end.

(** cml.cora:156-169 *)
Definition perform (k : nat) (o : op) (s : cstate) : cstate :=
  let '(v, s1) := op_try o s in
  if veqb v VFalse then op_block o k (op_wrap o) s1
  else mkC (c_sendq s1) (c_recvq s1) (c_done s1) (c_gensym s1) (c_events s1 ++ [(k, op_wrap o v)]).

(** A history: the operations performed by any number of coroutines, in the
    order in which they are performed; the k-th has number k. *)
Fixpoint perform_all (k : nat) (h : list op) (s : cstate) : cstate :=
  match h with [] => s | o :: r => perform_all (S k) r (perform k o s) end.
