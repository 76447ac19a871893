(** src/str.c and lib/string.c, plus string-append from src/runtime.c.

    A C [str] (pointer, length) is a [list ascii]; reading at an index outside it is
    [UB].  A [strBuf] is an allocation of [length sb_data] bytes ([None] = not yet
    written) with the recorded [cap] and [len]; writing outside the allocation is
    [UB].  [char] is signed (x86-64 gcc/clang).  Lengths are [nat]: the model assumes
    they stay below 2^31, where the C code's [int]/[unsigned] mix does not wrap. *)
From Coq Require Import ZArith Bool List Ascii Arith.
From Verif Require Import Base.
Import ListNotations.
Open Scope out_scope.

Notation bytes := (list ascii).

(** value of a (signed) char *)
Definition schar (c : ascii) : Z :=
  let n := Z.of_nat (nat_of_ascii c) in if (n <? 128)%Z then n else (n - 256)%Z.

Definition NUL : ascii := Ascii.zero.

Definition charAt (s : bytes) (i : nat) : outcome ascii :=
  match nth_error s i with Some c => Ok c | None => UB end.

(** ** str.c, read-only part *)

(** inner [for] of strStr, src/str.c:45-53 *)
Inductive inner_res := IFull | IMismatch | IReturnNeg.
Fixpoint strStr_inner (h n : bytes) (pos i : nat) (k : nat) : outcome inner_res :=
  match k with
  | O => Ok IFull
  | S k' =>
      if length h <=? pos + i then Ok IReturnNeg
      else
        do! a <- charAt h (pos + i);
        do! b <- charAt n i;
        if Ascii.eqb a b then strStr_inner h n pos (S i) k' else Ok IMismatch
  end.

(** outer [while], src/str.c:43-58; [None] = out of fuel *)
Fixpoint strStr_loop (fuel : nat) (h n : bytes) (pos : nat) : option (outcome Z) :=
  match fuel with
  | O => None
  | S f =>
      if pos + length n <=? length h then
        match strStr_inner h n pos 0 (length n) with
        | Ok IFull => Some (Ok (Z.of_nat pos))
        | Ok IMismatch => strStr_loop f h n (S pos)
        | Ok IReturnNeg => Some (Ok (-1)%Z)
        | Trap => Some Trap
        | UB => Some UB
        end
      else Some (Ok (-1)%Z)
  end.
(** src/str.c:40-60 *)
Definition strStr (h n : bytes) : option (outcome Z) := strStr_loop (S (S (length h))) h n 0.

(** src/str.c:62-71 *)
Fixpoint strChr_from (s : bytes) (c : ascii) (i : nat) : Z :=
  match s with
  | [] => -1
  | x :: s' => if Ascii.eqb x c then Z.of_nat i else strChr_from s' c (S i)
  end.
Definition strChr (s : bytes) (c : ascii) : Z := strChr_from s c 0.

(** src/str.c:73-83: [pos] runs from len-1 down to 0 *)
Fixpoint strRchr_down (s : bytes) (c : ascii) (pos1 : nat) : outcome Z :=
  match pos1 with
  | O => Ok (-1)%Z
  | S pos =>
      do! x <- charAt s pos;
      if Ascii.eqb x c then Ok (Z.of_nat pos) else strRchr_down s c pos
  end.
Definition strRchr (s : bytes) (c : ascii) : outcome Z := strRchr_down s c (length s).

(** src/str.c:85-96 *)
Fixpoint strCmp (s1 s2 : bytes) : Z :=
  match s1, s2 with
  | a :: s1', b :: s2' =>
      if (schar b <? schar a)%Z then 1%Z
      else if (schar a <? schar b)%Z then (-1)%Z
      else strCmp s1' s2'
  | _, _ => (Z.of_nat (length s1) - Z.of_nat (length s2))%Z
  end.

(** src/str.c:98-110: offset of index [idx], counting from the end when negative *)
Definition ptrByIdx (len idx : Z) : option Z :=
  if (0 <=? idx)%Z then (if (idx <=? len)%Z then Some idx else None)
  else if (0 <=? idx + len)%Z then Some (len + idx)%Z else None.

(** src/str.c:112-131 *)
Definition strSub (s : bytes) (start fin : Z) : bytes :=
  let len := Z.of_nat (length s) in
  match ptrByIdx len start with
  | None => []
  | Some p1 =>
      match ptrByIdx len fin with
      | None => []
      | Some p2 =>
          if (p2 <=? p1)%Z then []
          else firstn (Z.to_nat (p2 - p1)) (skipn (Z.to_nat p1) s)
      end
  end.

(** ** string buffers *)
Record strBuf := mkBuf { sb_cap : nat; sb_len : nat; sb_data : list (option ascii) }.

Fixpoint overwrite (d : list (option ascii)) (off : nat) (src : bytes) : list (option ascii) :=
  match off, d with
  | O, _ => map Some src ++ skipn (length src) d
  | S o, x :: d' => x :: overwrite d' o src
  | S _, [] => []
  end.

(** memcpy / store into a buffer's data *)
Definition poke (d : list (option ascii)) (off : nat) (src : bytes) : outcome (list (option ascii)) :=
  if off + length src <=? length d then Ok (overwrite d off src) else UB.

(** reading [len] initialised bytes back ([toStr]) *)
Fixpoint take_init (d : list (option ascii)) (n : nat) : outcome bytes :=
  match n, d with
  | O, _ => Ok []
  | S n', Some c :: d' => omap (cons c) (take_init d' n')
  | S _, _ => UB
  end.
Definition toStr (b : strBuf) : outcome bytes := take_init (sb_data b) (sb_len b).

(** src/str.c:10-19 *)
Definition growCap (oldLen : nat) : nat :=
  if oldLen =? 0 then 16 else if oldLen <? 1024 then oldLen * 2 else oldLen * 5 / 4.

(** src/str.c:138-148 *)
Definition fromBlk (s : bytes) : outcome strBuf :=
  let len := length s in
  do! d <- poke (repeat None (len + 1)) 0 s;
  do! d <- poke d len [NUL];
  Ok (mkBuf (len + 1) len d).

(** src/str.c:156-164 *)
Definition strNew (cap : nat) : outcome strBuf :=
  assertT (0 <? cap)
    (do! d <- poke (repeat None cap) 0 [NUL]; Ok (mkBuf cap 0 d)).

(** src/str.c:177-189 *)
Definition strCpy (to : strBuf) (from : bytes) : outcome strBuf :=
  do! to <- (if sb_cap to <? length from + 1 then strNew (length from + 1) else Ok to);
  do! d <- poke (sb_data to) 0 from;
  do! d <- poke d (length from) [NUL];
  Ok (mkBuf (sb_cap to) (length from) d).

(** src/str.c:191-200 *)
Definition strBufReserve (s : strBuf) (cap : nat) : outcome strBuf :=
  if cap <=? sb_cap s then Ok s
  else do! tmp <- strNew cap; do! c <- toStr s; strCpy tmp c.

(** src/str.c:202-209 *)
Definition strCat (to : strBuf) (from : bytes) : outcome strBuf :=
  do! to <- strBufReserve to (sb_len to + length from + 1);
  do! d <- poke (sb_data to) (sb_len to) from;
  do! d <- poke d (sb_len to + length from) [NUL];
  Ok (mkBuf (sb_cap to) (sb_len to + length from) d).

(** src/str.c:211-220 *)
Definition strAppend (to : strBuf) (c : ascii) : outcome strBuf :=
  do! to <- (if sb_cap to <? sb_len to + 2 then strBufReserve to (growCap (sb_len to + 1)) else Ok to);
  do! d <- poke (sb_data to) (sb_len to) [c];
  do! d <- poke d (sb_len to + 1) [NUL];
  Ok (mkBuf (sb_cap to) (sb_len to + 1) d).

(** src/str.c:222-231; a negative [n] lengthens the buffer *)
Definition strShrink (to : strBuf) (n : Z) : outcome strBuf :=
  if (Z.of_nat (sb_len to) <=? n)%Z then
    do! d <- poke (sb_data to) 0 [NUL]; Ok (mkBuf (sb_cap to) 0 d)
  else
    let len' := Z.to_nat (Z.of_nat (sb_len to) - n) in
    do! d <- poke (sb_data to) len' [NUL]; Ok (mkBuf (sb_cap to) len' d).

(** ** builtins *)

(** conversion of an int64 to [int] (wraps) *)
Definition to_int32 (z : Z) : Z :=
  let m := (z mod 2^32)%Z in if (m <? 2^31)%Z then m else (m - 2^32)%Z.

(** memcpy from a string object at a signed offset *)
Definition peek (s : bytes) (off n : Z) : outcome bytes :=
  if ((0 <=? off) && (0 <=? n) && (off + n <=? Z.of_nat (length s)))%Z
  then Ok (firstn (Z.to_nat n) (skipn (Z.to_nat off) s)) else UB.

(** lib/string.c:9-32 *)
Definition stringSlice (s : bytes) (b e : Z) : outcome bytes :=
  let len := Z.of_nat (length s) in
  let beg := to_int32 b in
  let beg := if (beg <? 0)%Z then (len + beg)%Z else beg in
  let en := to_int32 e in
  let en := if (en <? 0)%Z then (len + en)%Z else en in
  if ((beg <? 0) || (len <? en) || (en <? beg))%Z then Ok []
  else peek s beg (en - beg).

(** lib/string.c:34-53 *)
Fixpoint hasPrefix_loop (s p : bytes) (i k : nat) : outcome bool :=
  match k with
  | O => Ok true
  | S k' =>
      do! a <- charAt p i;
      do! b <- charAt s i;
      if Ascii.eqb a b then hasPrefix_loop s p (S i) k' else Ok false
  end.
Definition stringHasPrefix (s p : bytes) : outcome bool :=
  if length s <? length p then Ok false else hasPrefix_loop s p 0 (length p).

(** lib/string.c:63-72: no bounds check. The object holds [len] bytes and a NUL. *)
Definition stringIndex (s : bytes) (i : Z) : outcome bytes :=
  peek (s ++ [NUL]) (to_int32 i) 1.

(** lib/string.c bytesRef: the index is compared as an unsigned 64-bit number *)
Definition bytesRef (s : bytes) (i : Z) : outcome Z :=
  let idx := (i mod 2^64)%Z in
  assertT (idx <? Z.of_nat (length s))%Z
    (omap schar (charAt s (Z.to_nat idx))).

(** lib/string.c stringToList *)
Definition stringToList (s : bytes) : list Z := map schar s.

(** out of fuel is reported as None at the top; [flat] merges it for use inside *)
Definition strStrO (h n : bytes) : outcome Z :=
  match strStr h n with Some o => o | None => UB end.

(** lib/string.c:93-120 *)
Definition stringReplace (raw from to : bytes) : outcome bytes :=
  do! pos <- strStrO raw from;
  if (pos <? 0)%Z then Ok raw
  else
    let cap := length raw + length to - length from + 1 in
    do! buf <- strNew cap;
    do! buf <- strCpy buf (strSub raw 0 pos);
    do! buf <- strCat buf to;
    do! buf <- strCat buf (strSub raw (pos + Z.of_nat (length from)) (Z.of_nat (length raw)));
    toStr buf.

(** lib/string.c:122-137 *)
Definition stringContain (raw from : bytes) : outcome bool :=
  do! pos <- strStrO raw from; Ok (negb (pos <? 0)%Z).

(** lib/string.c:139-161.  The C loop conses pieces in reverse and reverses at the
    end; here the list is built in order. *)
Fixpoint stringSplit_loop (fuel : nat) (s sep : bytes) : option (outcome (list bytes)) :=
  match fuel with
  | O => None
  | S f =>
      match strStrO s sep with
      | Ok pos =>
          if (0 <? pos)%Z then
            let find := strSub s 0 pos in
            let s' := strSub s (pos + Z.of_nat (length sep)) (Z.of_nat (length s)) in
            option_map (omap (cons find)) (stringSplit_loop f s' sep)
          else Some (Ok [s])
      | Trap => Some Trap
      | UB => Some UB
      end
  end.
Definition stringSplit (s sep : bytes) : option (outcome (list bytes)) :=
  stringSplit_loop (S (length s)) s sep.

(** src/runtime.c:632-646 *)
Definition builtinStringAppend (x y : bytes) : outcome bytes :=
  do! ret <- strNew (length x + length y);
  do! ret <- strCpy ret x;
  do! ret <- strCat ret y;
  toStr ret.
