(** The small-object allocator of src/gc.c: size classes, blocks, the lists they are
    kept on, the gray queue (which lives in blocks of the same pool), sweeping and
    the recycling done at a flip. *)
From Coq Require Import ZArith Bool List.
From Verif Require Import Base ListLib GcModel.
Import ListNotations.
Open Scope Z_scope.
Open Scope out_scope.

Definition MEM_BLOCK_SIZE : Z := 4096.
Definition sizeof_scmHead : Z := 8.   (** src/gc.h:29-33: uint32, two uint8, padded *)
Definition sizeof_ptr : Z := 8.

(** ** size classes, src/gc.c:114-149 *)
Definition sizeClass : list Z :=
  [0; 16; 24; 32; 40; 48; 56; 64; 96; 128; 192; 256; 384; 512; 768; 1024; 1536; 2048; MEM_BLOCK_SIZE].
Definition sizeClassSZ : nat := 19.
Definition smallSizeClassIdx : list Z :=
  [0; 1; 1; 2; 3; 4; 5; 6; 7; 8; 8; 8; 8; 9; 9; 9; 9; 10; 10; 10; 10; 10; 10; 10; 10].
Definition mediumSizeClassIdx : list Z :=
  [-1; -1; 9; 10; 11; 12; 12; 13; 13; 14; 14; 14; 14; 15; 15; 15; 15; 16;
   16; 16; 16; 16; 16; 16; 16; 17; 17; 17; 17; 17; 17; 17; 17; 18; 18; 18;
   18; 18; 18; 18; 18; 18; 18; 18; 18; 18; 18; 18; 18; 18; 18; 18; 18; 18;
   18; 18; 18; 18; 18; 18; 18; 18; 18; 18; 18; 18; 18; 18; 18].

(** array access; outside is undefined *)
Definition aref (l : list Z) (i : Z) : outcome Z :=
  if i <? 0 then UB else match nth_error l (Z.to_nat i) with Some x => Ok x | None => UB end.

(** src/gc.c:144-149 (C division truncates; sizes are positive here) *)
Definition getSlotBySize (size : Z) : outcome Z :=
  if size <? 128 then aref smallSizeClassIdx (Z.quot (size + 7) 8)
  else aref mediumSizeClassIdx (Z.quot (size + 63) 64).

(** ** blocks.  A block's memory is viewed as cells at byte offsets: zero, an object
    header, or a pointer written by the gray queue.  The payload of objects is not
    represented. *)
Inductive cell := CZero | CHdr (used : bool) (ver : Z) | CPtr (b : nat) (off : Z).
Record block := mkB { b_class : Z; b_curr : Z; b_touch : bool; b_mem : Z -> cell }.
Definition zmem : Z -> cell := fun _ => CZero.
Definition mset (m : Z -> cell) (o : Z) (c : cell) : Z -> cell := fun x => if x =? o then c else m x.

(** [a_blk] blocks by number, [a_n] of them have been taken from the arenas
    (src/gc.c:80-93; memory from mmap is zero); [a_free] the free list; [a_cls] the list
    of each size class; [a_gray] the blocks of the gray queue from head to tail;
    [a_start], [a_end] src/gc.c:219-221; [a_pos], [a_pb] the sweep progress
    src/gc.c:151-157.  The intrusive lists (field [next]) are Gallina lists: AllocProofs
    shows that no block is ever on two of them. *)
Record ast := mkA {
  a_g : Z; a_ph : phase; a_blk : nat -> block; a_n : nat; a_free : list nat;
  a_cls : nat -> list nat; a_gray : list nat; a_start : Z; a_end : Z; a_pos : nat; a_pb : option nat
}.

Definition bset (f : nat -> block) (i : nat) (b : block) : nat -> block := fun x => if Nat.eqb x i then b else f x.
Definition cset (f : nat -> list nat) (i : nat) (l : list nat) : nat -> list nat := fun x => if Nat.eqb x i then l else f x.
Definition wblk s f := mkA (a_g s) (a_ph s) f (a_n s) (a_free s) (a_cls s) (a_gray s) (a_start s) (a_end s) (a_pos s) (a_pb s).
Definition wcls s f := mkA (a_g s) (a_ph s) (a_blk s) (a_n s) (a_free s) f (a_gray s) (a_start s) (a_end s) (a_pos s) (a_pb s).
Definition wfree s l := mkA (a_g s) (a_ph s) (a_blk s) (a_n s) l (a_cls s) (a_gray s) (a_start s) (a_end s) (a_pos s) (a_pb s).
Definition wgray s l st en := mkA (a_g s) (a_ph s) (a_blk s) (a_n s) (a_free s) (a_cls s) l st en (a_pos s) (a_pb s).
Definition wpg s p b := mkA (a_g s) (a_ph s) (a_blk s) (a_n s) (a_free s) (a_cls s) (a_gray s) (a_start s) (a_end s) p b.
Definition wph s p := mkA (a_g s) p (a_blk s) (a_n s) (a_free s) (a_cls s) (a_gray s) (a_start s) (a_end s) (a_pos s) (a_pb s).
Definition with_class (b : block) (c : Z) := mkB c (b_curr b) (b_touch b) (b_mem b).
Definition with_curr (b : block) (c : Z) := mkB (b_class b) c (b_touch b) (b_mem b).
Definition with_touch (b : block) := mkB (b_class b) (b_curr b) true (b_mem b).
Definition with_mem (b : block) (m : Z -> cell) := mkB (b_class b) (b_curr b) (b_touch b) m.

(** src/gc.c:275-309 *)
Definition ainit : ast :=
  mkA 2 PNone (fun _ => mkB 0 0 false zmem) 0 [] (fun _ => []) [] 0 0 0 None.

(** src/gc.c:334-347 on the header found at a cell; a queue pointer is not a header *)
Definition inuse_at (g : Z) (c : cell) : outcome Z :=
  match c with
  | CZero => Ok 0
  | CHdr u v => Ok (inuse g (mkObj u v false false false []))
  | CPtr _ _ => UB
  end.

(** src/gc.c:241-258: [blockNew] (a fresh block is zero, untouched, unlinked) *)
Definition blockNew (s : ast) : ast * nat :=
  (mkA (a_g s) (a_ph s) (bset (a_blk s) (a_n s) (mkB 0 0 false (b_mem (a_blk s (a_n s))))) (S (a_n s)) (a_free s) (a_cls s)
       (a_gray s) (a_start s) (a_end s) (a_pos s) (a_pb s), a_n s).

(** src/gc.c:260-270 *)
Definition blockReset (s : ast) (b : nat) : outcome ast :=
  let blk := a_blk s b in
  assertT (b_class blk =? 0) (assertT (b_curr blk =? 0)
    (Ok (wfree (wblk s (bset (a_blk s) b (with_mem blk zmem))) (b :: a_free s)))).

(** src/gc.c:357-367: from the free list, else from the arena *)
Definition takeBlock (s : ast) : outcome (ast * nat) :=
  match a_free s with
  | b :: rest =>
      let blk := a_blk s b in
      assertT (b_class blk =? 0) (assertT (b_curr blk =? 0) (assertT (negb (b_touch blk)) (Ok (wfree s rest, b))))
  | [] => Ok (blockNew s)
  end.

(** src/gc.c:349-375 *)
Definition getBlock (s : ast) (slot : nat) : outcome (ast * nat) :=
  match a_cls s slot with
  | b :: _ => assertT (negb (Nat.eqb slot 0)) (Ok (s, b))
  | [] =>
      do! '(s1, b) <- takeBlock s;
      if Nat.eqb slot 0 then Ok (s1, b)
      else match nth_error sizeClass slot with
           | Some c => Ok (wcls (wblk s1 (bset (a_blk s1) b (with_class (a_blk s1 b) c))) (cset (a_cls s1) slot [b]), b)
           | None => UB
           end
  end.

(** src/gc.c:530-552.  The loop runs at most 4096/16 times; [fuel] exhausted is [Trap], which
    the theorems exclude. *)
Fixpoint blockAlloc_loop (fuel : nat) (g : Z) (ph : phase) (blk : block) : outcome (block * option Z) :=
  match fuel with
  | O => Trap
  | S f =>
      if b_curr blk + b_class blk <=? MEM_BLOCK_SIZE then
        let off := b_curr blk in
        let blk1 := with_curr blk (off + b_class blk) in
        do! u <- inuse_at g (b_mem blk off);
        if u =? 0 then
          Ok (match ph with PNone => blk1 | _ => with_touch blk1 end, Some off)
        else if u =? 1 then blockAlloc_loop f g ph blk1
        else blockAlloc_loop f g ph (with_touch blk1)
      else Ok (blk, None)
  end.
Definition blockAlloc (g : Z) (ph : phase) (blk : block) : outcome (block * option Z) :=
  blockAlloc_loop 258 g ph blk.

(** src/gc.c:388-396: version given to a new object *)
Definition new_version (g : Z) (ph : phase) : Z :=
  match ph with PNone => g mod 64 | _ => (g + 2) mod 64 end.

(** the loop src/gc.c:568-585.  [fuel] counts blocks tried. *)
Fixpoint gcAlloc_loop (fuel : nat) (s : ast) (slot : nat) : outcome (ast * (nat * Z)) :=
  match fuel with
  | O => Trap
  | S f =>
      do! '(s1, b) <- getBlock s slot;
      do! '(blk, r) <- blockAlloc (a_g s1) (a_ph s1) (a_blk s1 b);
      let s2 := wblk s1 (bset (a_blk s1) b blk) in
      match r with
      | Some off => Ok (s2, (b, off))
      | None =>
          let rest := tl (a_cls s2 slot) in
          let s3 := wcls (wblk s2 (bset (a_blk s2) b (with_curr blk 0))) (cset (a_cls s2) slot rest) in
          let s4 := match a_ph s3, a_pb s3 with
                    | PSweep, Some p => if Nat.eqb p b then wpg s3 (a_pos s3) (hd_error rest) else s3
                    | _, _ => s3
                    end in
          gcAlloc_loop f s4 slot
      end
  end.

(** src/gc.c:552-588 for size < MEM_BLOCK_SIZE, without the gcRun at the start (which is
    a separate transition below); the caller's setting of the type (src/types.c newObj)
    is included. *)
Definition gcAllocSmall (s : ast) (size : Z) : outcome (ast * (nat * Z)) :=
  assertT (sizeof_scmHead <? size)
    (do! sl <- getSlotBySize size;
     let slot := Z.to_nat sl in
     do! '(s1, (b, off)) <- gcAlloc_loop (2 + length (a_cls s slot)) s slot;
     let blk := a_blk s1 b in
     Ok (wblk s1 (bset (a_blk s1) b (with_mem blk (mset (b_mem blk) off (CHdr true (new_version (a_g s1) (a_ph s1)))))), (b, off))).

(** ** gray queue, src/gc.c:602-652 *)
Definition gcQueueInit (s : ast) : outcome ast :=
  do! '(s1, b) <- getBlock s 0;
  Ok (wgray s1 [b] 0 0).

(** stores outside the block are undefined *)
Definition gcEnqueue (s : ast) (pb : nat) (poff : Z) : outcome ast :=
  do! '(s1, b) <- (if MEM_BLOCK_SIZE <? a_end s + sizeof_ptr then
                    do! '(s1, b) <- getBlock s 0;
                    Ok (wgray s1 (a_gray s1 ++ [b]) (a_start s1) 0, b)
                  else match a_gray s with [] => UB | x :: r => Ok (s, last r x) end);
  if (0 <=? a_end s1) && (a_end s1 + sizeof_ptr <=? MEM_BLOCK_SIZE) then
    let blk := a_blk s1 b in
    Ok (wgray (wblk s1 (bset (a_blk s1) b (with_mem blk (mset (b_mem blk) (a_end s1) (CPtr pb poff)))))
              (a_gray s1) (a_start s1) (a_end s1 + sizeof_ptr))
  else UB.

Definition read_ptr (s : ast) (b : nat) : outcome (ast * option (nat * Z)) :=
  if (0 <=? a_start s) && (a_start s + sizeof_ptr <=? MEM_BLOCK_SIZE) then
    match b_mem (a_blk s b) (a_start s) with
    | CPtr p o => Ok (wgray s (a_gray s) (a_start s + sizeof_ptr) (a_end s), Some (p, o))
    | _ => UB
    end
  else UB.

(** In the branch where the last block is used up (src/gc.c:636-639) the C code leaves
    [gray.tail] and [end] as they were; both are set again by gcQueueInit before any use. *)
Definition gcDequeue (s : ast) : outcome (ast * option (nat * Z)) :=
  match a_gray s with
  | [] => UB
  | h :: r =>
      if MEM_BLOCK_SIZE <=? a_start s then
        do! s1 <- blockReset s h;
        let s2 := wgray s1 r 0 (a_end s1) in
        match r with
        | [] => Ok (s2, None)
        | b :: r' =>
            if match r' with [] => a_end s2 <=? 0 | _ => false end
            then do! s3 <- blockReset s2 b; Ok (wgray s3 [] 0 0, None)
            else read_ptr s2 b
        end
      else
        if match r with [] => a_end s <=? a_start s | _ => false end
        then do! s1 <- blockReset s h; Ok (wgray s1 [] 0 0, None)
        else read_ptr s h
  end.

(** ** marking a slot, src/gc.c:654-693 and 726-779: a reference to slot [off] of block
    [b]; [minv] is 0 or a gray version. *)
Definition mark_ver (g v minv : Z) : Z * bool :=
  if is_odd v then
    (if negb (minv =? 0) && (0 <? versionCmp (minv mod 64) (v mod 64)) then minv else v, false)
  else
    let bump1 := v mod 64 =? g mod 64 in
    let v1 := if bump1 then nextVersion (v / 64) g else v in
    let raise := negb (minv =? 0) && (0 <? versionCmp (minv mod 64) (v1 mod 64)) in
    (if raise then minv else v1, bump1 || raise).

Definition gcMarkSlot (s : ast) (b : nat) (off minv : Z) : outcome ast :=
  let blk := a_blk s b in
  if b_class blk =? 0 then Ok s
  else
    do! u <- inuse_at (a_g s) (b_mem blk off);
    if u =? 0 then Ok s
    else match b_mem blk off with
         | CHdr t v =>
             let '(v', enq) := mark_ver (a_g s) v minv in
             let s1 := wblk s (bset (a_blk s) b (with_mem blk (mset (b_mem blk) off (CHdr t v')))) in
             if enq then
               do! s2 <- gcEnqueue s1 b off;
               Ok (wblk s2 (bset (a_blk s2) b (with_touch (a_blk s2 b))))
             else Ok s1
         | _ => UB
         end.

(** the end of one scanning step, src/gc.c:975 *)
Definition blacken (s : ast) (b : nat) (off : Z) : outcome ast :=
  let blk := a_blk s b in
  match b_mem blk off with
  | CHdr t v => Ok (wblk s (bset (a_blk s) b (with_mem blk (mset (b_mem blk) off (CHdr t ((v / 64) * 64 + (v + 1) mod 64))))))
  | _ => UB
  end.

(** ** flip, src/gc.c:827-895 and 919-920, small blocks only.  [order] is the order in which
    the arenas and their blocks are visited. *)
Definition touch_list (s : ast) (l : list nat) : ast :=
  fold_left (fun s b => wblk s (bset (a_blk s) b (with_touch (a_blk s b)))) l s.
Fixpoint touch_classes (s : ast) (i : nat) : ast :=
  match i with
  | O => s
  | S i' => let s1 := touch_classes s i' in
            wcls (touch_list s1 (a_cls s1 i')) (cset (a_cls s1) i' [])
  end.
Definition recycle (s : ast) (b : nat) : outcome ast :=
  let blk := a_blk s b in
  if b_class blk =? 0 then Ok s
  else if negb (b_touch blk) then
    blockReset (wblk s (bset (a_blk s) b (with_class (with_curr blk 0) 0))) b
  else
    do! slot <- getSlotBySize (b_class blk);
    match nth_error sizeClass (Z.to_nat slot) with
    | Some c => assertT (b_class blk =? c)
        (Ok (wcls (wblk s (bset (a_blk s) b (with_curr blk 0)))
                  (cset (a_cls s) (Z.to_nat slot) (b :: a_cls s (Z.to_nat slot)))))
    | None => UB
    end.
Fixpoint recycle_all (s : ast) (order : list nat) : outcome ast :=
  match order with
  | [] => Ok s
  | b :: r => do! s1 <- recycle s b; recycle_all s1 r
  end.
Definition gcFlipA (s : ast) (order : list nat) : outcome ast :=
  do! s1 <- recycle_all (touch_classes s sizeClassSZ) order;
  Ok (mkA (a_g s1 + 2) PNone (a_blk s1) (a_n s1) (a_free s1) (a_cls s1) (a_gray s1) (a_start s1) (a_end s1) (a_pos s1) (a_pb s1)).

(** one dequeue of src/gc.c:952-969: [Some] slot to scan, or the end of marking *)
Definition runIncremental1 (s : ast) (order : list nat) : outcome (ast * option (nat * Z)) :=
  do! '(s1, r) <- gcDequeue s;
  match r with
  | Some p => Ok (s1, Some p)
  | None =>
      if a_g s1 mod 30 =? 0
      then Ok (wpg (wph s1 PSweep) 0 (hd_error (a_cls s1 0)), None)
      else do! s2 <- gcFlipA s1 order; Ok (s2, None)
  end.

(** ** sweeping, src/gc.c:984-1003 and 1033-1043 *)
Definition sweep_cell (g : Z) (c : cell) : outcome cell :=
  do! u <- inuse_at g c;
  Ok (if u =? 0 then match c with CHdr _ v => CHdr false v | _ => c end else c).
Fixpoint sweep_loop (fuel : nat) (g : Z) (cls j : Z) (m : Z -> cell) : outcome (Z -> cell) :=
  match fuel with
  | O => Trap
  | S f => if j <? MEM_BLOCK_SIZE then
             do! c <- sweep_cell g (m j);
             sweep_loop f g cls (j + cls) (mset m j c)
           else Ok m
  end.
Definition sweep_block (g : Z) (blk : block) : outcome block :=
  do! m <- sweep_loop 258 g (b_class blk) (b_curr blk) (b_mem blk);
  Ok (with_mem blk m).

(** successor in an intrusive list *)
Fixpoint next_in (l : list nat) (b : nat) : option nat :=
  match l with
  | [] => None
  | x :: r => if Nat.eqb x b then hd_error r else next_in r b
  end.

(** The C code reads gc->sizeClass[19], one past the array, when it leaves the last class;
    the pointer obtained is never followed.  Here it is [None]. *)
Fixpoint sweepSizeClass (fuel : nat) (s : ast) : outcome ast :=
  match fuel with
  | O => Trap
  | S f =>
      if Nat.ltb (a_pos s) sizeClassSZ then
        match a_pb s with
        | None => let p := S (a_pos s) in
                  sweepSizeClass f (wpg s p (if Nat.ltb p sizeClassSZ then hd_error (a_cls s p) else None))
        | Some b =>
            do! blk <- sweep_block (a_g s) (a_blk s b);
            Ok (wpg (wblk s (bset (a_blk s) b blk)) (a_pos s) (next_in (a_cls s (a_pos s)) b))
        end
      else Ok s
  end.
Definition sweepStep (s : ast) : outcome ast := sweepSizeClass 21 s.

(** The same with the read of line 987 as the C standard has it. *)
Definition class_head (s : ast) (p : nat) : outcome (option nat) :=
  if Nat.ltb p sizeClassSZ then Ok (hd_error (a_cls s p)) else UB.
Fixpoint sweepSizeClass_std (fuel : nat) (s : ast) : outcome ast :=
  match fuel with
  | O => Trap
  | S f =>
      if Nat.ltb (a_pos s) sizeClassSZ then
        match a_pb s with
        | None => do! b <- class_head s (S (a_pos s)); sweepSizeClass_std f (wpg s (S (a_pos s)) b)
        | Some b =>
            do! blk <- sweep_block (a_g s) (a_blk s b);
            Ok (wpg (wblk s (bset (a_blk s) b blk)) (a_pos s) (next_in (a_cls s (a_pos s)) b))
        end
      else Ok s
  end.
Definition sweepStep_std (s : ast) : outcome ast := sweepSizeClass_std 21 s.

(** ** transitions *)
Inductive aop :=
| AAlloc (size : Z)
| AQInit                                   (** a collection starts *)
| AMark (b : nat) (off minv : Z)
| ARun (order : list nat)                  (** dequeue; at the end flip or start sweeping *)
| ABlack (b : nat) (off : Z)
| ASweep
| ASweepFlip (order : list nat).           (** the sweep is over, src/gc.c:1028-1030 *)

(** [slot s b off]: offset of an object slot of a small block *)
Definition is_slot (s : ast) (b : nat) (off : Z) : Prop :=
  (b < a_n s)%nat /\ b_class (a_blk s b) <> 0 /\ 0 <= off /\ off mod b_class (a_blk s b) = 0 /\
  off + b_class (a_blk s b) <= MEM_BLOCK_SIZE.

Definition apermitted (s : ast) (o : aop) : Prop :=
  match o with
  | AAlloc size => sizeof_scmHead < size < MEM_BLOCK_SIZE
  | AQInit => a_ph s = PNone
  | AMark b off minv => a_ph s = PInc /\ is_slot s b off /\
      (minv = 0 \/ (minv mod 2 = 1 /\ 0 < (minv - a_g s) mod 64 < 30))
  | ARun order => a_ph s = PInc /\ NoDup order /\ (forall b, In b order <-> (b < a_n s)%nat)
  | ABlack b off => a_ph s = PInc /\ is_slot s b off /\
      exists v, b_mem (a_blk s b) off = CHdr true v /\ v mod 2 = 1 /\ 0 < (v - a_g s) mod 64 < 30
  | ASweep => a_ph s = PSweep /\ (a_pos s < sizeClassSZ)%nat
  | ASweepFlip order => a_ph s = PSweep /\ (sizeClassSZ <= a_pos s)%nat /\
      NoDup order /\ (forall b, In b order <-> (b < a_n s)%nat)
  end.

Inductive aout := RNone | RSlot (b : nat) (off : Z) | RDeq (r : option (nat * Z)).

Definition astep (s : ast) (o : aop) : outcome (ast * aout) :=
  match o with
  | AAlloc size => do! '(s1, (b, off)) <- gcAllocSmall s size; Ok (s1, RSlot b off)
  | AQInit => do! s1 <- gcQueueInit s; Ok (wph s1 PInc, RNone)
  | AMark b off minv => do! s1 <- gcMarkSlot s b off minv; Ok (s1, RNone)
  | ARun order => do! '(s1, r) <- runIncremental1 s order; Ok (s1, RDeq r)
  | ABlack b off => do! s1 <- blacken s b off; Ok (s1, RNone)
  | ASweep => do! s1 <- sweepStep s; Ok (s1, RNone)
  | ASweepFlip order => do! s1 <- gcFlipA s order; Ok (s1, RNone)
  end.

(** the values produced along an execution *)
Inductive aexec : ast -> list aop -> outcome (ast * list aout) -> Prop :=
| ax_nil : forall s, aexec s [] (Ok (s, []))
| ax_cons : forall s o ops s1 r1 s2 rs, apermitted s o -> astep s o = Ok (s1, r1) -> aexec s1 ops (Ok (s2, rs)) ->
    aexec s (o :: ops) (Ok (s2, r1 :: rs))
| ax_later : forall s o ops s1 r1 e, apermitted s o -> astep s o = Ok (s1, r1) -> aexec s1 ops e ->
    (forall x, e <> Ok x) -> aexec s (o :: ops) e
| ax_trap : forall s o ops, apermitted s o -> astep s o = Trap -> aexec s (o :: ops) Trap
| ax_ub : forall s o ops, apermitted s o -> astep s o = UB -> aexec s (o :: ops) UB.
