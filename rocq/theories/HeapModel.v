(** Heap objects at the [Obj] word level: conses, strings and vectors
    (src/types.h, src/types.c) and the equality [=]. *)
From Coq Require Import ZArith Bool List Ascii.
From Verif Require Import Base ListLib StrModel NumModel.
Import ListNotations.
Open Scope Z_scope.

(** Heap objects; the head's type field is the constructor.
    struct scmCons (types.h:54-58), struct scmBytes (types.h:110-114),
    struct scmVector (gc.h:89-94). *)
Inductive hobj :=
| HCons (a d : Z)
| HBytes (s : bytes)
| HVector (data : list Z) (cap : Z)   (** [data] has [size] elements, the rest up to [cap] is uninitialised *)
| HOther.

(** Address to object; [None] is memory not holding an object. *)
Definition heap := Z -> option hobj.
Definition hempty : heap := fun _ => None.
Definition hupd (h : heap) (a : Z) (o : hobj) : heap := fun x => if x =? a then Some o else h x.

(** types.h:72-73: the functions used by C code check the head type. *)
Definition car (h : heap) (o : Z) : outcome Z :=
  match h (ptr o) with Some (HCons a _) => Ok a | Some _ => Trap | None => UB end.
Definition cdr (h : heap) (o : Z) : outcome Z :=
  match h (ptr o) with Some (HCons _ d) => Ok d | Some _ => Trap | None => UB end.
(** types.h:95-96: the macros emitted by the compiler for [car] and [cdr]
    (lib/toc.cora:30) check nothing; on another object they read foreign bytes. *)
Definition PRIM_CAR (h : heap) (o : Z) : outcome Z :=
  match h (ptr o) with Some (HCons a _) => Ok a | _ => UB end.
Definition PRIM_CDR (h : heap) (o : Z) : outcome Z :=
  match h (ptr o) with Some (HCons _ d) => Ok d | _ => UB end.

(** types.h:116-134.  [None] is out of fuel. *)
Fixpoint eqF (fuel : nat) (h : heap) (x y : Z) : option (outcome bool) :=
  match fuel with
  | O => None
  | S fuel' =>
      if x =? y then Some (Ok true)
      else if iscons x && iscons y then
        match car h x, car h y with
        | Ok a, Ok b =>
            match eqF fuel' h a b with
            | Some (Ok true) =>
                match cdr h x, cdr h y with
                | Ok a', Ok b' => eqF fuel' h a' b'
                | Ok _, e => Some (omap (fun _ => false) e)
                | e, _ => Some (omap (fun _ => false) e)
                end
            | r => r
            end
        | Ok _, e => Some (omap (fun _ => false) e)
        | e, _ => Some (omap (fun _ => false) e)
        end
      else if isBytes x && isBytes y then
        match h (ptr x), h (ptr y) with
        | Some (HBytes s), Some (HBytes t) => Some (Ok (strCmp s t =? 0))
        | _, _ => Some UB
        end
      else Some (Ok false)
  end.

(** ** constructors; [addr] is the address gcAlloc returns *)
(** types.c:61-67 *)
Definition makeCons (h : heap) (addr a d : Z) : outcome (heap * Z) :=
  omap (fun o => (hupd h addr (HCons a d), o)) (makeNaNPtr addr TAG_CONS).
(** types.c:100-108, 124-131 *)
Definition makeString (h : heap) (addr : Z) (s : bytes) : outcome (heap * Z) :=
  omap (fun o => (hupd h addr (HBytes s), o)) (makeNaNPtr addr TAG_BYTES).

(** the conversion of a 64-bit value to [int] *)
Definition to_int (v : Z) : Z := (v + 2^31) mod 2^32 - 2^31.

(** types.c:260-273.  The allocation size [sizeof(struct scmVector) + 8 * cap] is
    passed as an [int]; the header (32 bytes) and [size] slots are then written, which
    is undefined when they do not fit the allocation. *)
Definition makeVector (h : heap) (addr : Z) (size cap : Z) : outcome (heap * Z) :=
  assertT (size <=? cap)
    (let sz := to_int (32 + 8 * cap) in
     if (32 <=? sz) && (32 + 8 * size <=? sz) then
       omap (fun o => (hupd h addr (HVector (repeat Undef (Z.to_nat size)) cap), o)) (makeNaNPtr addr TAG_PTR)
     else UB).

(** types.c:275-281 *)
Definition vectorRef (h : heap) (v idx : Z) : outcome Z :=
  match h (ptr v) with
  | Some (HVector data cap) =>
      assertT ((0 <=? idx) && (idx <? Z.of_nat (length data)))
        (match nth_error data (Z.to_nat idx) with Some x => Ok x | None => UB end)
  | Some _ => Trap
  | None => UB
  end.
(** types.c:283-291; the barriers' effect on the slot is the store (see GcModel for
    their effect on the collector). *)
Definition vectorSet (h : heap) (v idx val : Z) : outcome heap :=
  match h (ptr v) with
  | Some (HVector data cap) =>
      assertT ((0 <=? idx) && (idx <? Z.of_nat (length data)))
        (Ok (hupd h (ptr v) (HVector (list_set data (Z.to_nat idx) val) cap)))
  | Some _ => Trap
  | None => UB
  end.
(** types.c:334-342: only the tag bits are tested before the dereference *)
Definition isvectorH (h : heap) (o : Z) : outcome bool :=
  if tag o =? TAG_PTR then
    match h (ptr o) with Some (HVector _ _) => Ok true | Some _ => Ok false | None => UB end
  else Ok false.
(** types.c:293-298 *)
Definition vectorLength (h : heap) (v : Z) : outcome Z :=
  obind (isvectorH h v) (fun b => assertT b
    (match h (ptr v) with Some (HVector data _) => Ok (Z.of_nat (length data)) | _ => UB end)).

(** types.c:307-332.  [addr] is used when the vector must grow. *)
Definition vectorAppend (h : heap) (addr v val : Z) : outcome (heap * Z) :=
  obind (isvectorH h v) (fun b => assertT b
    (match h (ptr v) with
     | Some (HVector data cap) =>
         if Z.of_nat (length data) >=? cap then
           assertT (0 <? cap)
             (let newCap := if cap <? 1024 then cap * 2 else cap + cap / 4 in
              obind (makeVector h addr (Z.of_nat (length data)) newCap) (fun ht =>
              let (h', t) := ht in
              (* memcpy, then the store of val at data[size] *)
              if Z.of_nat (length data) <? newCap then
                omap (fun o => (hupd h' addr (HVector (data ++ [val]) newCap), o)) (makeNaNPtr (ptr t) TAG_PTR)
              else UB))
         else
           omap (fun o => (hupd h (ptr v) (HVector (data ++ [val]) cap), o)) (makeNaNPtr (ptr v) TAG_PTR)
     | _ => UB
     end)).

(** The builtins (src/runtime.c:555-597): indices and sizes are [fixnum] results
    (int64) passed as [int]. *)
Definition builtinVector (h : heap) (addr n : Z) : outcome (heap * Z) :=
  obind (fixnum n) (fun k => makeVector h addr (to_int k) (to_int k)).
Definition builtinVectorRef (h : heap) (v idx : Z) : outcome Z :=
  obind (fixnum idx) (fun k => vectorRef h v (to_int k)).
Definition builtinVectorSet (h : heap) (v idx val : Z) : outcome heap :=
  obind (fixnum idx) (fun k => vectorSet h v (to_int k) val).
Definition builtinVectorLength (h : heap) (v : Z) : outcome Z :=
  obind (vectorLength h v) makeNumber.
