(** lib/net.c: opening of connections; lib/epoll.c and lib/kqueue.c: what the
    system is asked to report and what is handed to the program.

    Simplifications: the answers of the system are arguments; what is done to
    the system is a list of events in the order in which it happens; what is
    printed is left out.  The address to which a name resolves is a number. *)
From Coq Require Import ZArith Bool List Ascii.
From Verif Require Import Base StrModel.
Import ListNotations.
Local Open Scope Z_scope.
Local Open Scope out_scope.

Definition colon : ascii := ascii_of_nat 58.

(** lib/net.c:21-38; the loop up to the first colon *)
Fixpoint find_colon (s : bytes) : nat :=
  match s with
  | [] => 0
  | c :: s' => if Ascii.eqb c colon then 0%nat else S (find_colon s')
  end.
Definition splitHostAndPort (s : bytes) : option (bytes * bytes) :=
  let i := find_colon s in
  if Nat.eqb i (length s) then None else Some (firstn i s, skipn (i + 1) s).

(** a C string ends at its first NUL *)
Fixpoint upto_nul (s : bytes) : bytes :=
  match s with [] => [] | c :: s' => if Ascii.eqb c NUL then [] else c :: upto_nul s' end.

(** atoi: spaces, a sign, digits; a number outside int is undefined *)
Definition space (c : ascii) : bool :=
  let n := nat_of_ascii c in Nat.eqb n 32 || (Nat.leb 9 n && Nat.leb n 13).
Definition digit (c : ascii) : option Z :=
  let n := nat_of_ascii c in if Nat.leb 48 n && Nat.leb n 57 then Some (Z.of_nat n - 48) else None.
Fixpoint skip_spaces (s : bytes) : bytes :=
  match s with c :: s' => if space c then skip_spaces s' else s | [] => [] end.
Fixpoint digits_value (acc : Z) (s : bytes) : Z :=
  match s with
  | c :: s' => match digit c with Some d => digits_value (acc * 10 + d) s' | None => acc end
  | [] => acc
  end.
Definition atoi (s : bytes) : outcome Z :=
  let s := skip_spaces (upto_nul s) in
  let v := match s with
           | c :: s' => if Ascii.eqb c (ascii_of_nat 45) then - digits_value 0 s'
                        else if Ascii.eqb c (ascii_of_nat 43) then digits_value 0 s' else digits_value 0 s
           | [] => 0
           end in
  if (- 2^31 <=? v) && (v <? 2^31) then Ok v else UB.
(** htons takes a uint16_t; the byte order is left out *)
Definition htons (port : Z) : Z := port mod 2^16.

Inductive event :=
| ESocket (fd : Z)                   (* socket() gave a descriptor *)
| EBind (fd : Z) (port : Z)          (* bound to INADDR_ANY, this port *)
| EListen (fd : Z)
| EConnect (fd : Z) (addr : Z)       (* connected *)
| EClose (fd : Z)
| ENonBlock (fd : Z)
| EResolved                          (* getaddrinfo allocated a list *)
| EFree.                             (* freeaddrinfo *)
(** [None] is Nil *)
Notation answer := (option Z).

Definition opened (fd : Z) : list event := if fd =? -1 then [] else [ESocket fd].

(** lib/net.c:46-82.  [fd]: what socket() gives, not looked at; bind and listen on -1 fail *)
Definition netListen (s : bytes) (fd : Z) (bind_ok listen_ok : bool) : outcome (list event * answer) :=
  match splitHostAndPort s with
  | None => Ok ([], None)
  | Some (host, portStr) =>
      do! port <- atoi portStr;
      if negb (fd =? -1) && bind_ok then
        if listen_ok then Ok ([ESocket fd; EBind fd (htons port); EListen fd; ENonBlock fd], Some fd)
        else Ok ([ESocket fd; EBind fd (htons port)], None)
      else Ok (opened fd, None)
  end.

(** lib/net.c:108-116: the addresses with the answers of socket() and connect() *)
Fixpoint dial_loop (addrs : list (Z * Z * bool)) : list event * answer :=
  match addrs with
  | [] => ([], None)
  | (a, fd, ok) :: r =>
      if fd =? -1 then dial_loop r
      else if ok then ([ESocket fd; EConnect fd a], Some fd)
      else let (e, x) := dial_loop r in (ESocket fd :: EClose fd :: e, x)
  end.
(** lib/net.c:84-127; [resolve] is getaddrinfo on the two C strings *)
Definition netDial (s : bytes) (resolve : bytes -> bytes -> option (list (Z * Z * bool))) : list event * answer :=
  match splitHostAndPort s with
  | None => ([], None)
  | Some (host, port) =>
      match resolve (upto_nul host) (upto_nul port) with
      | None => ([], None)
      | Some addrs =>
          let (e, x) := dial_loop addrs in
          match x with
          | None => (EResolved :: e, None)
          | Some fd => (EResolved :: e ++ [EFree; ENonBlock fd], Some fd)
          end
      end
  end.

(** lib/net.c:209-228 *)
Definition netAccept (fd : Z) : list event * answer :=
  if fd <? 0 then ([], None) else ([ESocket fd; ENonBlock fd], Some fd).

(** ** what is reported *)
Inductive mode := MRead | MWrite | MOther.
(** what the system holds for a descriptor: for reading, for writing, and the connection *)
Notation reg := (option (bool * bool * Z)).
Definition has (m : mode) (l : list mode) : bool :=
  existsb (fun x => match x, m with MRead, MRead => true | MWrite, MWrite => true | _, _ => false end) l.

(** lib/net.c:247-261 with lib/epoll.c:8-30: adding fails when the descriptor is there *)
Definition epollAdd (m : mode) (conn : Z) (r : reg) : reg :=
  match m, r with
  | MRead, None => Some (true, false, conn)
  | MWrite, None => Some (false, true, conn)
  | _, _ => r
  end.
(** lib/epoll.c:32-53: changing fails when it is not there *)
Definition epollMod (l : list mode) (conn : Z) (r : reg) : reg :=
  match r with Some _ => Some (has MRead l, has MWrite l, conn) | None => None end.
(** lib/epoll.c:55-61 *)
Definition epollDel (r : reg) : reg := None.

(** lib/kqueue.c: reading and writing are registered one by one, each with its connection *)
Notation kreg := (option Z * option Z)%type.
(** lib/kqueue.c:20-36 *)
Definition kqueueAdd (m : mode) (conn : Z) (r : kreg) : kreg :=
  match m with MRead => (Some conn, snd r) | MWrite => (fst r, Some conn) | MOther => r end.
(** lib/kqueue.c:39-56: an array of two requests *)
Fixpoint kqueueMod_loop (n : nat) (l : list mode) (conn : Z) (r : kreg) : outcome kreg :=
  match l with
  | [] => Ok r
  | MOther :: l' => kqueueMod_loop n l' conn r
  | m :: l' => match n with O => UB | S n' => kqueueMod_loop n' l' conn (kqueueAdd m conn r) end
  end.
Definition kqueueMod (l : list mode) (conn : Z) (r : kreg) : outcome kreg := kqueueMod_loop 2 l conn r.
(** lib/kqueue.c:58-66; without a place for errors the first request that fails ends the call *)
Definition kqueueDel (r : kreg) : kreg :=
  match r with (Some _, _) => (None, None) | (None, w) => (None, w) end.

(** what epoll_wait reports: readable, writable (an error alone is neither), connection *)
Notation report := (bool * bool * Z)%type.
(** lib/epoll.c:63-92: the loop over the reports; the list is built from the front *)
Fixpoint epollList (l : list report) (ret : list (Z * mode)) : list (Z * mode) :=
  match l with
  | [] => ret
  | (rd, wr, conn) :: l' =>
      let ret := if rd then (conn, MRead) :: ret else ret in
      let ret := if wr then (conn, MWrite) :: ret else ret in
      epollList l' ret
  end.
