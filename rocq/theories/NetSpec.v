(** What lib/async.cora is for, stated on histories. *)
From Coq Require Import List ZArith Bool Arith.
From Verif Require Import NetModel.
Import ListNotations.
Local Open Scope list_scope.
Local Open Scope nat_scope.

(** The bytes of a log that were for [k]. *)
Fixpoint bytes_of (k : nat) (l : list (nat * byte)) : list byte :=
  match l with
  | [] => []
  | (j, b) :: r => if j =? k then b :: bytes_of k r else bytes_of k r
  end.

(** The tasks a history starts. *)
Fixpoint tasks (l : list op) : list nat :=
  match l with
  | OSend _ _ k _ :: r | ORecv _ _ k :: r | OAccept _ k :: r => k :: tasks r
  | _ :: r => tasks r
  | [] => []
  end.

(** Histories in which no system call fails. *)
Definition snd_fine (s : snd_ret) : Prop := match s with SErr _ => False | _ => True end.
Definition rcv_fine (s : rcv_ret) : Prop := match s with RcvErr _ => False | _ => True end.
Definition op_fine (o : op) : Prop :=
  match o with
  | OSend _ _ _ s | OWrite _ s => Forall snd_fine s
  | ORead _ s => Forall rcv_fine s
  | _ => True
  end.

(** The connections that should be in the event loop are a list: from [p],
    whose predecessor is [q], next leads through them to the end, and prev
    leads back. *)
Fixpoint linked (st : state) (q p : ptr) (l : list id) : Prop :=
  match l with
  | [] => p = PNil
  | c :: r => p = PConn c /\ prv (conns st c) = q /\ linked st (PConn c) (nxt (conns st c)) r
  end.
Definition holds (st : state) (l : list id) : Prop :=
  NoDup l /\ linked st PHead (hnext st) l /\
  forall c, ~ In c l -> nxt (conns st c) = PNil /\ prv (conns st c) = PNil.

Definition put (c : id) (l : list id) : list id := if existsb (Nat.eqb c) l then l else c :: l.
Definition drop (c : id) (l : list id) : list id := filter (fun d => negb (d =? c)) l.

(** A task waits on a connection. *)
Definition waiting (st : state) (c : id) : Prop := rcb (conns st c) <> None \/ wcb (conns st c) <> None.
Definition waits_for (m : mode) (st : state) (c : id) : Prop :=
  match m with Rd => rcb (conns st c) <> None | Wr => wcb (conns st c) <> None end.

(** The connection an operation is about. *)
Definition about (o : op) : id :=
  match o with
  | OSend c _ _ _ | ORecv c _ _ | OAccept c _ | OWrite c _ | ORead c _ | OClose c => c
  end.
(** A connection is not used once it has been closed. *)
Fixpoint used_well (l : list op) : Prop :=
  match l with
  | [] => True
  | o :: r => match o with OClose c => Forall (fun o => about o <> c) r | _ => True end /\ used_well r
  end.
(** No send that had to wait on [c] has ended. *)
Fixpoint no_late_send (c : id) (l : list op) (st : state) : Prop :=
  match l with
  | [] => True
  | o :: r =>
      match step o st with
      | Some st' =>
          match o with OWrite d _ => d = c -> resumed st' = resumed st | _ => True end /\ no_late_send c r st'
      | None => True
      end
  end.
