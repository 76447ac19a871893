(** Large objects, src/gc.c:398-529 and 1002-1030: one arena of 16384 blocks. *)
From Coq Require Import ZArith Bool List.
From Verif Require Import Base GcModel AllocModel.
Open Scope Z_scope.
Open Scope out_scope.

(** src/gc.c:9-20 *)
Definition BLOCKS_PER_HEAP : Z := 16384.
Definition HEAP_ARENA_SIZE : Z := BLOCKS_PER_HEAP * MEM_BLOCK_SIZE.

(** What is found at the start of a block: scmHead, and behind it the field [slots] of
    struct scmFreeNode (src/gc.c:108-112).  In the middle of an object, and in [fslots] of
    a used object, this is whatever the program stored there. *)
Record lhdr := mkH { h_used : bool; h_size : Z; h_ver : Z; h_fslots : Z }.
(** struct heapArena (src/gc.c:48-62); addresses are block numbers *)
Record arena := mkL { l_idx : Z; l_curr : Z; l_hdr : Z -> lhdr; l_base : Z -> Z }.

Definition hset (f : Z -> lhdr) (k : Z) (h : lhdr) : Z -> lhdr := fun x => if x =? k then h else f x.
Definition w_curr (a : arena) (c : Z) := mkL (l_idx a) c (l_hdr a) (l_base a).
Definition w_idx (a : arena) (i : Z) := mkL i (l_curr a) (l_hdr a) (l_base a).
Definition w_hdr (a : arena) (k : Z) (h : lhdr) := mkL (l_idx a) (l_curr a) (hset (l_hdr a) k h) (l_base a).

(** src/gc.c:64-76 *)
Definition arenaNew : arena := mkL 0 0 (fun _ => mkH false 0 0 0) (fun _ => 0).

(** src/gc.c:334-347 *)
Definition h_inuse (g : Z) (h : lhdr) : bool :=
  negb (inuse g (mkObj (h_used h) (h_ver h) false false false nil) =? 0).

Definition blocks_of (size : Z) : Z := (size + MEM_BLOCK_SIZE - 1) / MEM_BLOCK_SIZE.

(** src/gc.c:398-404 *)
Definition getLargeObjSlots (h : lhdr) : Z := if h_used h then blocks_of (h_size h) else h_fslots h.

(** src/gc.c:406-413 *)
Definition updateLargeObjectMeta (a : arena) (start slots k : Z) : arena :=
  mkL (l_idx a) (l_curr a) (l_hdr a) (fun j => if (start <=? j) && (j <? start + slots) then k else l_base a j).

(** n->type = scmHeadUnused; n->slots = s *)
Definition set_free (h : lhdr) (s : Z) : lhdr := mkH false (h_size h) (h_ver h) s.

(** the asserts src/gc.c:466-469 and 483-487 *)
Fixpoint check_base (fuel : nat) (a : arena) (j k : Z) : bool :=
  match fuel with O => true | S f => (l_base a j =? k) && check_base f a (j + 1) k end.

(** the inner loop src/gc.c:446-475: returns the arena and slots1.  In the branch that
    merges, the C code sets n->type first, then the meta data, then n->slots. *)
Fixpoint grow_loop (fuel : nat) (g : Z) (a : arena) (slots slots1 : Z) : outcome (arena * Z) :=
  match fuel with
  | O => Trap
  | S f =>
      let n := l_curr a in
      if slots1 <? slots then
        if n + slots1 =? l_idx a then
          let a1 := w_hdr (w_idx a (n + slots)) n (set_free (l_hdr a n) slots) in
          Ok (updateLargeObjectMeta a1 (n + slots1) (slots - slots1) n, slots)
        else
          let next := n + slots1 in
          if h_inuse g (l_hdr a next) then Ok (a, slots1)
          else
            let slots2 := getLargeObjSlots (l_hdr a next) in
            assertT (0 <? slots2)
              (assertT (check_base (Z.to_nat slots2) a next next)
                (let a1 := updateLargeObjectMeta a next slots2 n in
                 grow_loop f g (w_hdr a1 n (set_free (l_hdr a1 n) (slots1 + slots2))) slots (slots1 + slots2)))
      else Ok (a, slots1)
  end.

Definition LOOP : nat := Z.to_nat (BLOCKS_PER_HEAP + 2).

(** src/gc.c:415-496; [None] is NULL *)
Fixpoint alloc_loop (fuel : nat) (g : Z) (a : arena) (slots : Z) : outcome (arena * option Z) :=
  match fuel with
  | O => Trap
  | S f =>
      let n := l_curr a in
      if n + slots <=? BLOCKS_PER_HEAP then
        if n =? l_idx a then
          if BLOCKS_PER_HEAP <=? n + slots then Ok (a, None)
          else
            let a1 := updateLargeObjectMeta (w_hdr a n (set_free (l_hdr a n) slots)) n slots n in
            Ok (mkL (l_idx a1 + slots) (n + slots) (l_hdr a1) (l_base a1), Some n)
        else if h_inuse g (l_hdr a n) then
          alloc_loop f g (w_curr a (n + blocks_of (h_size (l_hdr a n)))) slots
        else
          let s1 := getLargeObjSlots (l_hdr a n) in
          assertT (0 <? s1)
            (do! '(a1, slots1) <- grow_loop LOOP g a slots s1;
             if slots1 <? slots then alloc_loop f g (w_curr a1 (n + slots1)) slots
             else
               assertT (check_base (Z.to_nat slots) a1 n n)
                 (let a2 := if slots <? slots1 then
                              updateLargeObjectMeta (w_hdr a1 (n + slots) (set_free (l_hdr a1 (n + slots)) (slots1 - slots)))
                                (n + slots) (slots1 - slots) (n + slots)
                            else a1 in
                  Ok (w_curr a2 (n + slots), Some n)))
      else Ok (a, None)
  end.
Definition heapArenaAllocLarge (g : Z) (a : arena) (slots : Z) : outcome (arena * option Z) := alloc_loop LOOP g a slots.

(** src/gc.c:498-529 on one arena, with the type set by the caller (src/types.c newObj);
    [None]: the arena is put aside until the next flip and another one is tried *)
Definition allocLarge1 (g : Z) (ph : phase) (a : arena) (size : Z) : outcome (arena * option Z) :=
  assertT (size <? HEAP_ARENA_SIZE)
    (do! '(a1, r) <- heapArenaAllocLarge g a (blocks_of size);
     match r with
     | Some k => Ok (w_hdr a1 k (mkH true size (new_version g ph) (h_fslots (l_hdr a1 k))), Some k)
     | None => Ok (a1, None)
     end).

(** src/gc.c:1004-1024, one arena *)
Fixpoint sweep_large (fuel : nat) (g : Z) (a : arena) (j : Z) : outcome arena :=
  match fuel with
  | O => Trap
  | S f =>
      if j <? l_idx a then
        let p := l_hdr a j in
        let slots := getLargeObjSlots p in
        let a1 := if h_used p && (h_ver p mod 64 =? (g - 2) mod 64)
                  then updateLargeObjectMeta (w_hdr a j (set_free p slots)) j slots j else a in
        assertT (0 <? slots) (sweep_large f g a1 (j + slots))
      else Ok a
  end.
Definition sweepLargeObjects1 (g : Z) (a : arena) : outcome arena := sweep_large LOOP g a (l_curr a).

(** ** transitions *)
(** the extents of an arena: follow the lengths from block 0 *)
Inductive bound (a : arena) : Z -> Prop :=
| bd_0 : bound a 0
| bd_next : forall k, bound a k -> k < l_idx a -> bound a (k + getLargeObjSlots (l_hdr a k)).
Definition extent (a : arena) (k : Z) : Prop := bound a k /\ k < l_idx a.

(** The program and the marking phase may change anything except, at the start of each
    extent, the type, the size of a used object and the length of a free one. *)
Definition lmutate (a a' : arena) : Prop :=
  l_idx a' = l_idx a /\ l_curr a' = l_curr a /\ l_base a' = l_base a /\
  forall k, extent a k -> h_used (l_hdr a' k) = h_used (l_hdr a k) /\
    (if h_used (l_hdr a k) then h_size (l_hdr a' k) = h_size (l_hdr a k) else h_fslots (l_hdr a' k) = h_fslots (l_hdr a k)).

Inductive lstep : arena -> arena -> Prop :=
| ls_alloc : forall g ph a size a' r, MEM_BLOCK_SIZE <= size -> allocLarge1 g ph a size = Ok (a', r) -> lstep a a'
| ls_sweep : forall g a a', sweepLargeObjects1 g a = Ok a' -> lstep a a'
| ls_flip : forall a, lstep a (w_curr a 0)                 (** src/gc.c:831-833, 861 *)
| ls_mutate : forall a a', lmutate a a' -> lstep a a'.
Inductive lreach : arena -> Prop :=
| lr_new : lreach arenaNew
| lr_step : forall a a', lreach a -> lstep a a' -> lreach a'.
