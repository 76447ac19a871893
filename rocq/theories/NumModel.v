(** NaN-boxed values and integer arithmetic.
    Sources: src/gc.h 63-92, src/types.h 16-55, 81-108, src/types.c 14-17,
    src/runtime.c 836-925. An [Obj] (uintptr_t, 64 bits) is a [Z] in [0, 2^64). *)
From Coq Require Import ZArith Bool.
From Verif Require Import Base.
Open Scope Z_scope.

(** src/gc.h:70 *)
Definition OBJ_MASK : Z := 0x7FF8000000000000.
(** src/types.h:37 *)
Definition MASK : Z := 0x7FFF000000000000.

(** src/gc.h:72-83 *)
Definition ptr (o : Z) : Z := Z.land o (Z.shiftl 1 48 - 1).
Definition tag (o : Z) : Z := Z.land (Z.shiftr o 48) 7.
Definition TAG_IMMED := 1.
Definition TAG_COBJ := 2.
Definition TAG_SYMBOL := 3.
Definition TAG_BYTES := 4.
Definition TAG_CONS := 5.
Definition TAG_NATIVE := 6.
Definition TAG_PTR := 7.

(** src/gc.h:85-87 *)
Definition isobj (x : Z) : bool := Z.land x OBJ_MASK =? OBJ_MASK.
Definition isScmHead (o : Z) : bool := isobj o && (4 <=? tag o).

(** src/types.h:18 *)
Definition isNumber (x : Z) : bool := negb (Z.land x OBJ_MASK =? OBJ_MASK).

(** src/types.h:28-32. [assert((uintptr_t)ptr >> 48 == 0)] *)
Definition makeNaNPtr (p t : Z) : outcome Z :=
  assertT (Z.shiftr p 48 =? 0)
    (Ok (Z.lor (Z.lor (Z.shiftl t 48) OBJ_MASK) p)).

(** src/types.c:14-17 *)
Definition immed (k : Z) : Z := Z.lor (Z.lor (Z.shiftl TAG_IMMED 48) OBJ_MASK) k.
Definition Undef := immed 0.
Definition Nil := immed 1.
Definition True_ := immed 2.
Definition False_ := immed 3.

(** src/types.h:45-51 *)
Definition masked_tag (v t : Z) : bool :=
  Z.land v MASK =? Z.lor (Z.shiftl t 48) OBJ_MASK.
Definition iscobj (v : Z) := masked_tag v TAG_COBJ.
Definition isBytes (v : Z) := masked_tag v TAG_BYTES.
Definition iscons (v : Z) := masked_tag v TAG_CONS.
Definition isboolean (v : Z) := (v =? True_) || (v =? False_).

(** src/types.c isvector: looks at the tag bits only, then loads the head type
    from the pointed-to object.  [mem a] is the [type] byte of the object head at
    address [a], [None] when the address is not mapped. *)
Definition scmHeadVector := 5.
Definition isvector (mem : Z -> option Z) (o : Z) : outcome bool :=
  if tag o =? TAG_PTR then
    match mem (ptr o) with
    | Some t => Ok (t =? scmHeadVector)
    | None => UB
    end
  else Ok false.

(** int64 range *)
Definition int64_ok (v : Z) : bool := (- 2^63 <=? v) && (v <? 2^63).

(** C conversion int64 -> double (IEEE-754 binary64, round to nearest even),
    returning the bit pattern: [(double)v] in src/types.h:82. *)
Definition i2d (v : Z) : Z :=
  if v =? 0 then 0 else
  let s := if v <? 0 then 2^63 else 0 in
  let a := Z.abs v in
  let e := Z.log2 a in
  if e <=? 52 then s + (e + 1023) * 2^52 + (a * 2^(52 - e) - 2^52)
  else
    let sh := e - 52 in
    let q := a / 2^sh in
    let r := a mod 2^sh in
    let half := 2^(sh - 1) in
    let q' := if (half <? r) || ((r =? half) && Z.odd q) then q + 1 else q in
    s + (e + 1023) * 2^52 + (q' - 2^52).

(** The integer denoted by a double bit pattern:
    [DInt z]  : finite and equal to its [trunc];
    [DInf]    : infinite (also equal to its own [trunc]);
    [DOther]  : NaN or a finite non-integer. *)
Inductive dclass := DInt (z : Z) | DInf | DOther.
Definition dclassify (b : Z) : dclass :=
  let neg := Z.testbit b 63 in
  let E := (b / 2^52) mod 2^11 in
  let M := b mod 2^52 in
  let sgn z := if neg then - z else z in
  if E =? 2047 then (if M =? 0 then DInf else DOther)
  else if E =? 0 then (if M =? 0 then DInt 0 else DOther)
  else
    let mant := M + 2^52 in
    let x := E - 1075 in
    if 0 <=? x then DInt (sgn (mant * 2^x))
    else if mant mod 2^(- x) =? 0 then DInt (sgn (mant / 2^(- x)))
    else DOther.

(** src/types.h:19 *)
Definition isfixnum (x : Z) : bool :=
  isNumber x && match dclassify x with DOther => false | _ => true end.

(** src/types.h:21-25: traps on a non-integer; the C cast to int64 is undefined for
    infinities and for values outside int64. *)
Definition fixnum (o : Z) : outcome Z :=
  if isNumber o then
    match dclassify o with
    | DInt z => if int64_ok z then Ok z else UB
    | DInf => UB
    | DOther => Trap
    end
  else Trap.

(** src/types.h:81-87 *)
Definition makeNumber (v : Z) : outcome Z :=
  assertT (isNumber (i2d v)) (Ok (i2d v)).

(** signed 64-bit arithmetic: overflow is undefined *)
Definition chk64 (v : Z) : outcome Z := if int64_ok v then Ok v else UB.

Open Scope out_scope.

Definition prim_arith (f : Z -> Z -> Z) (x y : Z) : outcome Z :=
  do! a <- fixnum x; do! b <- fixnum y; do! c <- chk64 (f a b); makeNumber c.
(** src/types.h:102-104 *)
Definition PRIM_ADD := prim_arith Z.add.
Definition PRIM_SUB := prim_arith Z.sub.
Definition PRIM_MUL := prim_arith Z.mul.

Definition mkbool (b : bool) : Z := if b then True_ else False_.
(** src/types.h:98-99 *)
Definition PRIM_GT (x y : Z) : outcome Z :=
  do! a <- fixnum x; do! b <- fixnum y; Ok (mkbool (b <? a)).
Definition PRIM_LT (x y : Z) : outcome Z :=
  do! a <- fixnum x; do! b <- fixnum y; Ok (mkbool (a <? b)).

(** uint64 -> int64 conversion (implementation-defined, wraps) *)
Definition to_int64 (u : Z) : Z := if u <? 2^63 then u else u - 2^64.

(** src/runtime.c primDiv: divides the raw 64-bit patterns. *)
Definition primDiv (x y : Z) : outcome Z :=
  if isfixnum x && isfixnum y then
    if y =? 0 then UB else makeNumber (to_int64 (x / y))
  else Trap.

(** src/runtime.c primAdd / primSub: add and subtract the raw 64-bit patterns
    (exported in runtime.h; the compiler uses PRIM_ADD / PRIM_SUB instead). *)
Definition primAdd (x y : Z) : outcome Z :=
  if isfixnum x && isfixnum y then Ok ((x + y) mod 2^64) else Trap.
Definition primSub (x y : Z) : outcome Z :=
  if isfixnum x && isfixnum y then Ok ((x - y) mod 2^64) else Trap.
(** src/runtime.c primMul *)
Definition primMul (x y : Z) : outcome Z :=
  if isfixnum x && isfixnum y then
    do! a <- fixnum x; do! b <- fixnum y; do! c <- chk64 (a * b); makeNumber c
  else Trap.
(** src/runtime.c primNot *)
Definition primNot (x : Z) : outcome Z :=
  if x =? True_ then Ok False_ else if x =? False_ then Ok True_ else Trap.
