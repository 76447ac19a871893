(** The list functions, the queue and the hash table of the cora library.

    Modelled: init.cora:21-32, 109-114, 257-278, 380-383 (reverse, map,
    elem?, length, filter, append, assq), lib/sys.cora:11-35 (thread-local
    alist, assq, foldl, for-each, member), lib/toc.cora:15-21, 87-95 (index,
    union, diff), lib/queue.cora, lib/hash.cora, lib/hash-h.c.

    Simplifications.
    - Values are trees; a vector, closure or other heap object that is only
      passed around is [VRef] with its identity.
    - The functions passed to map, filter, foldl, for-each may have effects
      on a state of any type.
    - Numbers do not wrap around: sizes and lengths stay far below 2^47. *)
From Coq Require Import List ZArith NArith Bool.
From Verif Require Import Base.
Import ListNotations.
Local Open Scope Z_scope.
Local Open Scope out_scope.

(** src/types.h: cora values. *)
Inductive val :=
| VNum (z : Z)
| VSym (s : list N)
| VStr (s : list N)
| VNil
| VTrue
| VFalse
| VUndef
| VCons (a d : val)
| VRef (id : nat).

Definition bytes_eqb (a b : list N) : bool := if list_eq_dec N.eq_dec a b then true else false.

(** src/types.c: eq, the primitive [=]: structural on conses and strings. *)
Fixpoint veqb (a b : val) : bool :=
  match a, b with
  | VNum x, VNum y => x =? y
  | VSym x, VSym y => bytes_eqb x y
  | VStr x, VStr y => bytes_eqb x y
  | VNil, VNil | VTrue, VTrue | VFalse, VFalse | VUndef, VUndef => true
  | VCons x y, VCons u v => veqb x u && veqb y v
  | VRef i, VRef j => Nat.eqb i j
  | _, _ => false
  end.

(** (car x), (cdr x) in compiled code: PRIM_CAR, PRIM_CDR do not check. *)
Definition car (v : val) : outcome val := match v with VCons a _ => Ok a | _ => UB end.
Definition cdr (v : val) : outcome val := match v with VCons _ d => Ok d | _ => UB end.

Definition of_bool (b : bool) : val := if b then VTrue else VFalse.
(** The test of [if]: lib/toc.cora:345, [True == x]. *)
Definition is_true (v : val) : bool := match v with VTrue => true | _ => false end.

(** A cora function with effects on a state. *)
Definition fn (St : Type) := val -> St -> outcome (val * St).
Definition fn2 (St : Type) := val -> val -> St -> outcome (val * St).

(** init.cora:21-26 *)
Fixpoint reverse_h (l res : val) : val :=
  match l with VCons a d => reverse_h d (VCons a res) | _ => res end.
Definition reverse (l : val) : val := reverse_h l VNil.

(** init.cora:27-32 *)
Fixpoint map_h {St} (f : fn St) (l res : val) (s : St) : outcome (val * St) :=
  match l with
  | VCons a d => do! '(v, s1) <- f a s; map_h f d (VCons v res) s1
  | _ => Ok (reverse res, s)
  end.
Definition map {St} (f : fn St) (l : val) (s : St) : outcome (val * St) := map_h f l VNil s.

(** init.cora:109-114 *)
Fixpoint elem (x l : val) : bool :=
  match l with VCons a d => if veqb a x then true else elem x d | _ => false end.

(** init.cora:257-263 *)
Fixpoint length_h (i : Z) (l : val) : outcome Z :=
  match l with VNil => Ok i | VCons _ d => length_h (i + 1) d | _ => UB end.
Definition length (l : val) : outcome Z := length_h 0 l.

(** init.cora:265-273 *)
Fixpoint filter_h {St} (f : fn St) (l res : val) (s : St) : outcome (val * St) :=
  match l with
  | VCons a d => do! '(v, s1) <- f a s; if is_true v then filter_h f d (VCons a res) s1 else filter_h f d res s1
  | _ => Ok (reverse res, s)
  end.
Definition filter {St} (f : fn St) (l : val) (s : St) : outcome (val * St) := filter_h f l VNil s.

(** init.cora:275-278 *)
Fixpoint append (l1 l2 : val) : outcome val :=
  match l1 with
  | VNil => Ok l2
  | VCons a d => do! r <- append d l2; Ok (VCons a r)
  | _ => UB
  end.

(** init.cora:380-383, lib/sys.cora:17-20, lib/toc.cora:6-9; no clause
    matches a non-list: (error ...). *)
Fixpoint assq (x l : val) : outcome val :=
  match l with
  | VNil => Ok VNil
  | VCons (VCons k v) d => if veqb x k then Ok (VCons k v) else assq x d
  | VCons _ d => assq x d
  | _ => Trap
  end.

(** lib/sys.cora:22-24 *)
Fixpoint foldl {St} (f : fn2 St) (acc l : val) (s : St) : outcome (val * St) :=
  match l with
  | VNil => Ok (acc, s)
  | VCons a d => do! '(v, s1) <- f acc a s; foldl f v d s1
  | _ => Trap
  end.

(** lib/sys.cora:26-30 *)
Fixpoint for_each {St} (f : fn St) (l : val) (s : St) : outcome (val * St) :=
  match l with
  | VNil => Ok (VNil, s)
  | VCons a d => do! '(_, s1) <- f a s; for_each f d s1
  | _ => Trap
  end.

(** lib/sys.cora:32-35; (or a b) is (if a true (if b true false)),
    init.cora:137-145 *)
Fixpoint member (x l : val) : outcome val :=
  match l with
  | VNil => Ok VFalse
  | VCons a d => if veqb x a then Ok VTrue
                 else do! r <- member x d; Ok (if is_true r then VTrue else VFalse)
  | _ => Trap
  end.

(** lib/toc.cora:15-21 *)
Fixpoint pos_in_list0 (pos : Z) (x l : val) : outcome Z :=
  match l with
  | VNil => Ok (-1)
  | VCons a d => if veqb x a then Ok pos else pos_in_list0 (pos + 1) x d
  | _ => Trap
  end.
Definition index (x l : val) : outcome Z := pos_in_list0 0 x l.

(** lib/toc.cora:87-95 *)
Fixpoint union (l s2 : val) : outcome val :=
  match l with
  | VNil => Ok s2
  | VCons a d => if elem a s2 then union d s2 else do! r <- union d s2; Ok (VCons a r)
  | _ => Trap
  end.
Fixpoint diff (l s2 : val) : outcome val :=
  match l with
  | VNil => Ok VNil
  | VCons a d => if elem a s2 then diff d s2 else do! r <- diff d s2; Ok (VCons a r)
  | _ => Trap
  end.

(** lib/sys.cora:5-15: the thread-local association list. *)
Definition tls_get (key tls : val) : outcome val :=
  do! f <- assq key tls; match f with VNil => Trap | _ => cdr f end.
Definition tls_set (key v tls : val) : outcome val :=
  do! '(r, _) <- filter (fun x (_ : unit) => do! k <- car x; Ok (of_bool (negb (veqb key k)), tt)) tls tt;
  Ok (VCons (VCons key v) r).

(** ** vectors *)

(** src/types.c:276-291 *)
Definition vref (v : list val) (i : Z) : outcome val :=
  if (0 <=? i) && (i <? Z.of_nat (List.length v))
  then Ok (nth (Z.to_nat i) v VUndef) else Trap.

Fixpoint upd (v : list val) (i : nat) (x : val) : list val :=
  match v, i with
  | [], _ => []
  | _ :: r, O => x :: r
  | y :: r, S i' => y :: upd r i' x
  end.

Definition vset (v : list val) (i : Z) (x : val) : outcome (list val) :=
  if (0 <=? i) && (i <? Z.of_nat (List.length v)) then Ok (upd v (Z.to_nat i) x) else Trap.

(** ** lib/queue.cora: a queue is a vector of three *)

(** lines 6-12 *)
Definition queue_make : list val := [VNil; VNil; VNum 0].

(** (+ x 1) etc. on a value that is not a number trap. *)
Definition num (v : val) : outcome Z := match v with VNum z => Ok z | _ => Trap end.

(** lines 14-18 *)
Definition enqueue (q : list val) (x : val) : outcome (list val) :=
  do! sz <- vref q 2;
  do! n <- num sz;
  do! q1 <- vset q 2 (VNum (n + 1));
  do! front <- vref q1 0;
  vset q1 0 (VCons x front).

(** lines 20-34 *)
Definition dequeue (q : list val) : outcome (val * list val) :=
  do! sz <- vref q 2;
  do! n <- num sz;
  do! q1 <- (if 0 <? n then vset q 2 (VNum (n - 1)) else Ok q);
  do! back <- vref q1 1;
  do! q2 <- (if veqb back VNil
             then do! front <- vref q1 0;
                  do! qa <- vset q1 1 (reverse front);
                  vset qa 0 VNil
             else Ok q1);
  do! back2 <- vref q2 1;
  do! ret <- car back2;
  do! rest <- cdr back2;
  do! q3 <- vset q2 1 rest;
  Ok (ret, q3).

(** lines 36-40 *)
Definition queue_empty (q : list val) : outcome bool :=
  do! a <- vref q 0; do! b <- vref q 1; Ok (veqb a VNil && veqb b VNil).
Definition queue_len (q : list val) : outcome val := vref q 2.

(** ** lib/hash.cora, lib/hash-h.c *)

(** char is signed: lib/hash-h.c:4-10 *)
Definition schar (b : N) : Z := if (b <? 128)%N then Z.of_N b else Z.of_N b - 256.

Fixpoint hashForString (s : list N) : Z :=
  match s with
  | [] => 0
  | b :: r => if (b =? 0)%N then 0 else schar b + hashForString r
  end.

(** lib/hash-h.c:12-54; the int sum is taken not to overflow.  Symbols
    longer than 254 bytes trap (src/types.c:176). *)
Fixpoint hash_to_number (k : val) : outcome Z :=
  match k with
  | VNum z => Ok z
  | VSym s => if (List.length s <? 255)%nat then Ok (hashForString s) else Trap
  | VStr s => Ok (7671 + hashForString s)
  | VTrue => Ok 17
  | VFalse => Ok 37
  | VNil => Ok 41
  | VUndef => Ok 47
  | VCons a d => do! x <- hash_to_number a; do! y <- hash_to_number d; Ok (x + y)
  | VRef _ => Ok 42
  end.

(** lib/hash-h.c:64-70: the C remainder, with the sign of the dividend. *)
Definition cmod (x y : Z) : outcome Z := if y =? 0 then UB else Ok (Z.rem x y).

(** lib/hash.cora:7-10 *)
Fixpoint assoc (key l : val) : outcome val :=
  match l with
  | VNil => Ok VNil
  | VCons (VCons x y) more => if veqb key x then Ok (VCons x y) else assoc key more
  | VCons _ more => assoc key more
  | _ => Trap
  end.

(** lib/hash.cora:12-15 *)
Fixpoint assoc_set (key v l : val) : outcome val :=
  match l with
  | VNil => Ok (VCons (VCons key v) VNil)
  | VCons (VCons k1 w) more =>
      if veqb key k1 then Ok (VCons (VCons key v) more)
      else do! r <- assoc_set key v more; Ok (VCons (VCons k1 w) r)
  | VCons x more => do! r <- assoc_set key v more; Ok (VCons x r)
  | _ => Trap
  end.

(** lib/hash.cora:17-20.  In the second clause the pattern variable
    [key] is a new variable (a [let], init.cora:197): it matches any pair.
    The third clause calls assoc-rm with three arguments, that is, calls its
    result: a list, which is not a function. *)
Definition assoc_rm (key l : val) : outcome val :=
  match l with
  | VNil => Ok VNil
  | VCons (VCons _ _) more => Ok more
  | VCons _ _ => Trap
  | _ => Trap
  end.

(** lib/hash.cora:22-28; src/types.c:264-273 fills a new vector with Undef. *)
Definition hash_make (n : nat) : list val :=
  [VSym [104; 97; 115; 104]%N; VNum 0; VNum (Z.of_nat n)] ++ repeat VUndef n.

(** lib/hash.cora:34-38 *)
Definition capacity (h : list val) : outcome Z := do! c <- vref h 2; num c.
Definition hash_count (h : list val) : outcome Z := do! c <- vref h 1; num c.

(** lib/hash.cora:43-45; the slot is [Undef] before its first use. *)
Definition bucket_get (h : list val) (idx : Z) : outcome val :=
  do! r <- vref h (idx + 3);
  Ok (match r with VNil | VCons _ _ => r | _ => VNil end).

(** lib/hash.cora:50-53 *)
Definition hash_get (h : list val) (key : val) : outcome val :=
  do! k <- hash_to_number key;
  do! c <- capacity h;
  do! idx <- cmod k c;
  do! b <- bucket_get h idx;
  assoc key b.

(** lib/hash.cora:47-48, 55-64 *)
Definition hash_set (h : list val) (key v : val) : outcome (list val) :=
  do! k <- hash_to_number key;
  do! c <- capacity h;
  do! idx <- cmod k c;
  do! b <- bucket_get h idx;
  do! e <- assoc key b;
  do! h1 <- (if veqb e VNil then do! n <- hash_count h; vset h 1 (VNum (n + 1)) else Ok h);
  do! b1 <- assoc_set key v b;
  vset h1 (idx + 3) b1.

(** lib/hash.cora:66-74 *)
Definition hash_del (h : list val) (key : val) : outcome (list val) :=
  do! k <- hash_to_number key;
  do! c <- capacity h;
  do! idx <- cmod k c;
  do! b <- bucket_get h idx;
  do! e <- assoc key b;
  if veqb e VNil then Ok h
  else do! b1 <- assoc_rm key b;
       do! h1 <- vset h (idx + 3) b1;
       do! n <- hash_count h1;
       vset h1 1 (VNum (n - 1)).
