(** src/vector.h, the growable arrays in which the runtime keeps its call
    stack, its handlers, its stack segments, the global variables and the
    packages; coraNew and addPackage of src/runtime.c.

    A field that has not been assigned is [None] ([Wild] for the pointer);
    reading one is undefined.  [mem] is the size in bytes of the largest
    allocation the system grants.  Simplification: a piece of memory is a list
    of elements, so a size that is not a multiple of the element's is rounded
    down. *)
From Coq Require Import ZArith Bool List.
From Verif Require Import Base ListLib.
Import ListNotations.
Local Open Scope Z_scope.
Local Open Scope out_scope.

Inductive data (A : Type) := Wild | Null | Blk (cells : list (option A)).
Arguments Wild {A}.
Arguments Null {A}.
Arguments Blk {A} cells.

(** src/vector.h:8-12 *)
Record vec (A : Type) := mkvec { v_data : data A; v_len : option Z; v_cap : option Z }.
Arguments mkvec {A}.
Arguments v_data {A}.
Arguments v_len {A}.
Arguments v_cap {A}.

Definition rd {A} (x : option A) : outcome A := match x with Some a => Ok a | None => UB end.
(** arithmetic on int: overflow is undefined *)
Definition int (z : Z) : outcome Z := if (- 2^31 <=? z) && (z <? 2^31) then Ok z else UB.
(** conversion to size_t *)
Definition size_t (z : Z) : Z := z mod 2^64.
(** the number of elements in an allocation for [n] of them, each [es] bytes *)
Definition bytes_for (n es : Z) : Z := size_t (size_t n * es).
Definition elems (n es : Z) : nat := Z.to_nat (bytes_for n es / es).

(** src/vector.h:33-38: the result of malloc is not looked at *)
Definition vector_init {A} (mem es cap : Z) : vec A :=
  mkvec (if bytes_for cap es <=? mem then Blk (repeat None (elems cap es)) else Null) (Some 0) (Some cap).

(** realloc; the failure ends the process (src/vector.h:21-24) *)
Definition vector_realloc {A} (mem es n : Z) (d : data A) : outcome (data A) :=
  match d with
  | Wild => UB
  | Null => if bytes_for n es <=? mem then Ok (Blk (repeat None (elems n es))) else Trap
  | Blk c => if bytes_for n es <=? mem
             then Ok (Blk (firstn (elems n es) c ++ repeat None (elems n es - length c))) else Trap
  end.

(** an element of the memory *)
Definition cell_ref {A} (d : data A) (i : Z) : outcome A :=
  match d with
  | Blk c => if 0 <=? i then match nth_error c (Z.to_nat i) with Some (Some x) => Ok x | _ => UB end else UB
  | _ => UB
  end.
Definition cell_set {A} (d : data A) (i : Z) (x : A) : outcome (data A) :=
  match d with
  | Blk c => if (0 <=? i) && (i <? Z.of_nat (length c)) then Ok (Blk (list_set c (Z.to_nat i) (Some x))) else UB
  | _ => UB
  end.

(** src/vector.h:16-31 *)
Definition vector_append {A} (mem es : Z) (v : vec A) (x : A) : outcome (vec A) :=
  do! len <- rd (v_len v);
  do! cap <- rd (v_cap v);
  do! v1 <- (if cap <=? len then
               do! new_cap <- (if 0 <? cap then int (cap * 2) else Ok 1);
               do! new_data <- vector_realloc mem es new_cap (v_data v);
               Ok (mkvec new_data (Some len) (Some new_cap))
             else Ok v);
  do! d <- cell_set (v_data v1) len x;
  do! len' <- int (len + 1);
  Ok (mkvec d (Some len') (v_cap v1)).

(** src/vector.h:40-48; free of NULL does nothing *)
Definition vector_free {A} (v : vec A) : outcome (vec A) :=
  match v_data v with Wild => UB | _ => Ok (mkvec Null (Some 0) (Some 0)) end.

(** src/vector.h:56, 63-64, 66, 68-71 *)
Definition vecLen {A} (v : vec A) : outcome Z := rd (v_len v).
Definition vecGet {A} (v : vec A) (i : Z) : outcome A := cell_ref (v_data v) i.
Definition vecPop {A} (v : vec A) : outcome (vec A * A) :=
  do! len <- rd (v_len v);
  do! len' <- int (len - 1);
  do! x <- cell_ref (v_data v) len';
  Ok (mkvec (v_data v) (Some len') (v_cap v), x).
Definition vecSet {A} (v : vec A) (i : Z) (x : A) : outcome (vec A) :=
  do! d <- cell_set (v_data v) i x; Ok (mkvec d (v_len v) (v_cap v)).
(** the length counted down without taking the element (src/runtime.c:45, 713) *)
Definition vecDrop {A} (v : vec A) : outcome (vec A) :=
  do! len <- rd (v_len v);
  do! len' <- int (len - 1);
  Ok (mkvec (v_data v) (Some len') (v_cap v)).

(** ** src/runtime.c:54-65: what coraNew leaves in the two arrays it does not set up *)
Definition fresh_globals {A} : vec A := mkvec Wild None None.
(** the same arrays in memory that is all zero *)
Definition zeroed {A} : vec A := mkvec Null (Some 0) (Some 0).

(** src/runtime.c:174-187 for a symbol that has no entry: its index and the new array *)
Definition new_global {A} (mem : Z) (globals : vec A) (undef : A) : outcome (vec A * Z) :=
  do! idx <- vecLen globals;
  do! g <- vector_append mem 8 globals undef;
  Ok (g, idx).

(** ** packages; a table is an array of bindings, [None] is NULL *)
(** src/runtime.c:1112-1114; the fuel is the number of missing entries *)
Fixpoint pad {A} (fuel : nat) (mem : Z) (pkgs : vec (option A)) (n : Z) : outcome (vec (option A)) :=
  do! len <- vecLen pkgs;
  if len <? n then
    match fuel with
    | O => UB
    | S f => do! p <- vector_append mem 8 pkgs None; pad f mem p n
    end
  else Ok pkgs.
(** src/runtime.c:1110-1116 *)
Definition addPackage {A} (mem : Z) (pkgs : vec (option (list A))) (id : Z) (table : list A) : outcome (vec (option (list A))) :=
  assertT (0 <=? id)
    (do! n <- int (id + 1);
     do! len <- vecLen pkgs;
     do! p <- pad (Z.to_nat (n - len)) mem pkgs n;
     vecSet p id (Some table)).
(** src/runtime.h:190-193 *)
Definition getBinding {A} (pkgs : vec (option (list A))) (id slot : Z) : outcome A :=
  do! t <- vecGet pkgs id;
  match t with
  | Some tb => if 0 <=? slot then rd (nth_error tb (Z.to_nat slot)) else UB
  | None => UB
  end.
