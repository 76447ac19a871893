(** src/gc.c: when a collection starts, and how much may be allocated before
    the next one.

    Simplifications.
    - The state has two values: no collection, or one that runs; the counters
      that only the debug output shows (markCount, markSkip) are left out.
    - size_t has 64 bits and int 32; conversion to int wraps (gcc).
    - Doubles are not negative here. A double is kept as an integer times a
      power of two and [rnd] rounds to 53 bits, half to even (IEEE 754); all
      values stay in the range of normal numbers. *)
From Coq Require Import ZArith Bool List.
From Verif Require Import Base StrModel.
Import ListNotations.
Local Open Scope Z_scope.
Local Open Scope out_scope.

(** The nearest number with 53 significant bits. *)
Definition rnd (n : Z) : Z :=
  let k := Z.log2 n - 52 in
  if k <=? 0 then n
  else
    let q := n / 2^k in
    let r := n mod 2^k in
    (if (2^(k-1) <? r) || ((r =? 2^(k-1)) && Z.odd q) then q + 1 else q) * 2^k.

(** src/gc.c:19 *)
Definition MEM_BLOCK_SIZE : Z := 4096.
(** The doubles nearest to 0.4 and 0.6, times 2^53. *)
Definition D04 : Z := 3602879701896397.
Definition D06 : Z := 5404319552844595.

(** src/gc.c:935-936, before the conversion to int: [0.4 * x + 0.6 * p] *)
Definition weigh (x p : Z) : Z := rnd (rnd (D04 * rnd x) + rnd (D06 * rnd p)) / 2^53.

Inductive gcState := gcNone | gcRunning.

(** src/gc.c:176-191 and gc->version, gc->state *)
Record stats := mkS {
  allocated : Z; nextSize : Z; markSize : Z; young : Z; middle : Z; old : Z; avg : Z; prevTrigger : Z; version : Z; state : gcState }.

(** src/gc.c:285-302 *)
Definition gcInitStats : stats := mkS 0 MEM_BLOCK_SIZE 0 0 0 0 0 0 2 gcNone.

(** src/gc.c:386-396 *)
Definition allocDone (s : stats) (size : Z) : stats :=
  mkS ((allocated s + size) mod 2^64) (nextSize s) (markSize s) (young s) (middle s) (old s) (avg s) (prevTrigger s) (version s) (state s).

(** src/gc.c:377-384, and gcMarkRoot (789-793) that follows when it says so
    (src/runtime.c:82-84) *)
Definition gcTriggerCheck (s : stats) : stats :=
  match state s with
  | gcNone =>
      if nextSize s <? allocated s
      then mkS 0 (nextSize s) 0 (young s) (middle s) (old s) (avg s) (prevTrigger s) (version s) gcRunning
      else s
  | gcRunning => s
  end.

(** src/gc.c:236-241 *)
Definition gcInuseSizeInc (s : stats) (size : Z) : outcome stats :=
  assertT (0 <? size)
    (Ok (mkS (allocated s) (nextSize s) ((markSize s + size) mod 2^64) (young s) (middle s) (old s) (avg s) (prevTrigger s) (version s) (state s))).

(** src/gc.c:898-909 *)
Definition generations (s : stats) : Z * Z * Z :=
  if version s mod 24 =? 0 then (young s, middle s, markSize s)
  else if version s mod 8 =? 0 then (young s, markSize s, old s)
  else if version s mod 4 =? 0 then (markSize s, middle s, old s)
  else (young s, middle s, old s).

(** src/gc.c:927-946; a double outside int is undefined *)
Definition next_size (base avgAllocated prev : Z) : outcome Z :=
  let w := weigh ((base + avgAllocated) mod 2^64) prev in
  if w <? 2^31 then
    let limit := rnd (3 * rnd prev * 2^52) in
    let next := if limit <? rnd w * 2^53 then limit / 2^53 else w in
    Ok (if next <? MEM_BLOCK_SIZE then MEM_BLOCK_SIZE else next)
  else UB.

(** src/gc.c:898-948: the end of a collection; gcRun (1045-1070) without one
    fails an assertion *)
Definition gcFinish (s : stats) : outcome stats :=
  match state s with
  | gcNone => Trap
  | gcRunning =>
      let '(y, m, o) := generations s in
      let base := to_int32 ((y + m + o) mod 2^64) in
      let a := ((allocated s + 3 * avg s) mod 2^64) / 4 in
      do! next <- next_size base a (prevTrigger s);
      Ok (mkS (allocated s) next (markSize s) y m o a next ((version s + 2) mod 2^64) gcNone)
  end.

Inductive event := Alloc (size : Z) | Check | Mark (size : Z) | Finish.
Definition step (s : stats) (e : event) : outcome stats :=
  match e with
  | Alloc n => Ok (allocDone s n)
  | Check => Ok (gcTriggerCheck s)
  | Mark n => gcInuseSizeInc s n
  | Finish => gcFinish s
  end.
Fixpoint run (es : list event) (s : stats) : outcome stats :=
  match es with [] => Ok s | e :: es => do! s <- step s e; run es s end.
