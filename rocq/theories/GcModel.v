(** The collector of src/gc.c as a transition system: versions, marking, write
    barriers, remembered set, incremental scanning, sweeping and flips, interleaved
    with an arbitrary mutator.  Addresses are object slots; the allocator that picks
    a free slot is in AllocModel. *)
From Coq Require Import ZArith Bool List.
From Verif Require Import Base ListLib.
Import ListNotations.
Open Scope Z_scope.

(** ** versions, src/gc.c:157-174.  The asserts (v < 64) hold at every call since the
    arguments are masked. *)
Definition VERSION_MASKED (v : Z) : Z := v mod 64.
Definition versionCmp (v1 v2 : Z) : Z :=
  let diff := v2 - v1 in
  if diff =? 0 then 0
  else if (-32 <? diff) && (diff <? 32) then (if 0 <? diff then -1 else 1)
  else (if 0 <? diff then 1 else -1).

(** src/gc.c:701 *)
Definition GEN_INCREMENTS (i : nat) : Z :=
  match i with 0%nat => 2 | 1%nat => 4 | 2%nat => 8 | _ => 24 end.

(** the loop of src/gc.c:712-718 *)
Fixpoint bump_loop (i : nat) (ver : Z) : Z :=
  let inc := GEN_INCREMENTS i in
  if ver mod inc =? 0 then ver + inc - 1
  else match i with O => ver | S i' => bump_loop i' ver end.

(** src/gc.c:708-723; the result is the byte (gen << 6) | (ver % 64) *)
Definition nextVersion (gen : Z) (ver : Z) : Z :=
  let v := bump_loop (Z.to_nat gen) ver in
  let gen' := if gen <? 3 then gen + 1 else gen in
  gen' * 64 + v mod 64.

(** ** objects and collector state *)
Inductive value := Imm | Ptr (a : nat).

(** scmHead / scmHeadEx (src/gc.h:29-42) plus the outgoing references.
    [o_used]: type <> scmHeadUnused; [o_ver]: the version byte;
    [o_mut]: a vector or gensym, which has the scmHeadEx header and can be assigned;
    [o_large]: lives in a large-object arena. *)
Record obj := mkObj {
  o_used : bool; o_ver : Z; o_mut : bool; o_large : bool; o_inrset : bool; o_fields : list value
}.
(** zeroed memory *)
Definition zero_obj := mkObj false 0 false false false [].

Inductive phase := PNone | PInc | PSweep.

(** [mut]: the values held by the running program (stack frames, globals, registers). *)
Record st := mkSt {
  g : Z; ph : phase; heap : nat -> obj; queue : list nat; rset : list nat; mut : list value
}.

(** src/gc.c:275-309 *)
Definition init : st := mkSt 2 PNone (fun _ => zero_obj) [] [] [].

Definition upd (h : nat -> obj) (a : nat) (o : obj) : nat -> obj :=
  fun x => if Nat.eqb x a then o else h x.
Definition set_ver (o : obj) (v : Z) : obj :=
  mkObj (o_used o) v (o_mut o) (o_large o) (o_inrset o) (o_fields o).
Definition set_inrset (o : obj) (b : bool) : obj :=
  mkObj (o_used o) (o_ver o) (o_mut o) (o_large o) b (o_fields o).
Definition set_fields (o : obj) (f : list value) : obj :=
  mkObj (o_used o) (o_ver o) (o_mut o) (o_large o) (o_inrset o) f.
Definition set_unused (o : obj) : obj :=
  mkObj false (o_ver o) (o_mut o) (o_large o) (o_inrset o) (o_fields o).

(** src/gc.c:334-347 (0 = not in use) *)
Definition inuse (gv : Z) (o : obj) : Z :=
  if negb (o_used o) then 0
  else
    let cmp := versionCmp (gv mod 64) (o_ver o mod 64) in
    if 0 <? cmp then 0 else if cmp =? 0 then 1 else 2.
Definition is_inuse (gv : Z) (o : obj) : bool := negb (inuse gv o =? 0).

Definition is_odd (v : Z) : bool := v mod 2 =? 1.

Definition with_obj (s : st) (a : nat) (o : obj) : st :=
  mkSt (g s) (ph s) (upd (heap s) a o) (queue s) (rset s) (mut s).
Definition enqueue (s : st) (a : nat) : st :=
  mkSt (g s) (ph s) (heap s) (queue s ++ [a]) (rset s) (mut s).

(** src/gc.c:726-765.  [minv] is a version byte, 0 for none. *)
Definition markObject (s : st) (a : nat) (minv : Z) : st :=
  let o := heap s a in
  let v := o_ver o in
  if is_odd v then
    if negb (minv =? 0) && (0 <? versionCmp (minv mod 64) (v mod 64))
    then with_obj s a (set_ver o minv) else s
  else
    let bump1 := v mod 64 =? g s mod 64 in
    let v1 := if bump1 then nextVersion (v / 64) (g s) else v in
    let raise := negb (minv =? 0) && (0 <? versionCmp (minv mod 64) (v1 mod 64)) in
    let v2 := if raise then minv else v1 in
    if bump1 || raise then enqueue (with_obj s a (set_ver o v2)) a else s.

(** src/gc.c:767-779, 654-693: only slots in use are marked *)
Definition gcMark (s : st) (v : value) (minv : Z) : st :=
  match v with
  | Imm => s
  | Ptr a => if is_inuse (g s) (heap s a) then markObject s a minv else s
  end.
Definition gcMarkAll (s : st) (vs : list value) (minv : Z) : st :=
  fold_left (fun s v => gcMark s v minv) vs s.

Definition with_rset (s : st) (l : list nat) : st :=
  mkSt (g s) (ph s) (heap s) (queue s) l (mut s).

(** src/gc.c:1122-1164: walk the remembered set; drop expired members, mark the
    fields of the others.  [kept] accumulates the members that stay, in order. *)
Fixpoint gcRSet (s : st) (l : list nat) (kept : list nat) : st :=
  match l with
  | [] => with_rset s (rev kept)
  | a :: l' =>
      let o := heap s a in
      if 0 <=? versionCmp (g s mod 64) (o_ver o mod 64)
      then gcRSet (with_obj s a (set_inrset o false)) l' kept
      else gcRSet (gcMarkAll s (o_fields o) 0) l' (a :: kept)
  end.

Definition with_phase (s : st) (p : phase) : st :=
  mkSt (g s) p (heap s) (queue s) (rset s) (mut s).

(** src/gc.c:789-805.  [junk]: stale words found in stack frames, which the
    conservative check accepts when they happen to point at a slot in use. *)
Definition gcMarkRoot (s : st) (junk : list value) : st :=
  let s1 := mkSt (g s) (ph s) (heap s) [] (rset s) (mut s) in
  let s2 := gcMarkAll s1 (mut s ++ junk) 0 in
  let s3 := gcRSet s2 (rset s2) [] in
  with_phase s3 PInc.

(** src/gc.c:919-920 (the block lists are in AllocModel) *)
Definition gcFlip (s : st) : st :=
  mkSt (g s + 2) PNone (heap s) (queue s) (rset s) (mut s).

(** One iteration of src/gc.c:955-979 *)
Definition gcStep (s : st) : outcome st :=
  match queue s with
  | [] => if g s mod 30 =? 0 then Ok (with_phase s PSweep) else Ok (gcFlip s)
  | q :: rest =>
      let s1 := mkSt (g s) (ph s) (heap s) rest (rset s) (mut s) in
      let minv := o_ver (heap s q) in
      if is_odd minv then
        let s2 := gcMarkAll s1 (o_fields (heap s q)) minv in
        let o := heap s2 q in
        Ok (with_obj s2 q (set_ver o ((o_ver o / 64) * 64 + (o_ver o + 1) mod 64)))
      else Trap   (** assert, src/gc.c:973 *)
  end.

(** src/gc.c:993-995 for small slots, 1010-1020 for large objects *)
Definition sweep_obj (gv : Z) (o : obj) : obj :=
  if o_large o
  then (if (o_ver o mod 64 =? (gv - 2) mod 64) then set_unused o else o)
  else (if is_inuse gv o then o else set_unused o).
Definition sweep1 (s : st) (a : nat) : st := with_obj s a (sweep_obj (g s) (heap s a)).
Definition sweep_all (s : st) : st :=
  mkSt (g s) (ph s) (fun a => sweep_obj (g s) (heap s a)) (queue s) (rset s) (mut s).

(** ** the mutator *)
(** src/gc.c:388-396 *)
Definition alloc_version (s : st) : Z :=
  match ph s with PNone => g s mod 64 | _ => (g s + 2) mod 64 end.
Definition alloc (s : st) (a : nat) (mutable large : bool) (fields : list value) : st :=
  mkSt (g s) (ph s) (upd (heap s) a (mkObj true (alloc_version s) mutable large false fields))
       (queue s) (rset s) (Ptr a :: mut s).

Definition add_rset (s : st) (a : nat) : st :=
  let o := heap s a in
  if o_inrset o then s
  else mkSt (g s) (ph s) (upd (heap s) a (set_inrset o true)) (queue s) (a :: rset s) (mut s).

(** src/gc.c:1073-1081 *)
Definition writeBarrierForIncremental (s : st) (a : nat) (i : nat) (val : value) : st :=
  let s1 := match ph s with
            | PInc => gcMark s (nth i (o_fields (heap s a)) Imm) 0
            | _ => s
            end in
  with_obj s1 a (set_fields (heap s1 a) (list_set (o_fields (heap s1 a)) i val)).

(** src/gc.c:1083-1120 *)
Definition writeBarrierForGeneration (s : st) (a : nat) (val : value) : st :=
  match val with
  | Imm => s
  | Ptr b =>
      let v := o_ver (heap s a) in
      let h := o_ver (heap s b) in
      if versionCmp (v mod 64) (h mod 64) <=? 0 then s
      else match ph s with
           | PInc =>
               if is_odd v && ((h + 1) mod 64 =? v mod 64) then s
               else gcMark (add_rset s a) val 0
           | _ => add_rset s a
           end
  end.

(** vectorSet, types.c:283-291; primSet on gensyms, runtime.c:212-216 *)
Definition store (s : st) (a : nat) (i : nat) (val : value) : st :=
  writeBarrierForGeneration (writeBarrierForIncremental s a i val) a val.

(** ** transitions *)
Inductive op :=
| OAlloc (a : nat) (mutable large : bool) (fields : list value)  (** the allocator hands out slot [a] *)
| ORead (a : nat) (i : nat)            (** load a field into the program's values *)
| OWrite (a : nat) (i : nat) (v : value)
| ORoots (l : list value)              (** forget values, overwrite stack slots *)
| OMarkOld (v : value)                 (** deletion barrier on a global variable *)
| OMarkRoot (junk : list value)        (** a collection starts *)
| OStep                                (** one incremental step *)
| OSweep (a : nat)
| OSweepEnd.

(** What a program can do: it only uses values it holds, the allocator only hands out
    slots not in use (AllocProps), the collector's steps happen in their phases. *)
Definition permitted (s : st) (o : op) : Prop :=
  match o with
  | OAlloc a _ _ fields =>
      is_inuse (g s) (heap s a) = false /\ forall b, In (Ptr b) fields -> In (Ptr b) (mut s)
  | ORead a i => In (Ptr a) (mut s)
  | OWrite a i v =>
      In (Ptr a) (mut s) /\ (forall b, v = Ptr b -> In v (mut s)) /\ o_mut (heap s a) = true
  | ORoots l => forall v, In v l -> In v (mut s)
  | OMarkOld v => ph s = PInc /\ forall b, v = Ptr b -> In v (mut s)
  | OMarkRoot _ => ph s = PNone
  | OStep => ph s = PInc
  | OSweep _ => ph s = PSweep
  | OSweepEnd => ph s = PSweep
  end.

Definition step (s : st) (o : op) : outcome st :=
  match o with
  | OAlloc a m l fields => Ok (alloc s a m l fields)
  | ORead a i => Ok (mkSt (g s) (ph s) (heap s) (queue s) (rset s) (nth i (o_fields (heap s a)) Imm :: mut s))
  | OWrite a i v => Ok (store s a i v)
  | ORoots l => Ok (mkSt (g s) (ph s) (heap s) (queue s) (rset s) l)
  | OMarkOld v => Ok (gcMark s v 0)
  | OMarkRoot junk => Ok (gcMarkRoot s junk)
  | OStep => gcStep s
  | OSweep a => Ok (sweep1 s a)
  | OSweepEnd => Ok (gcFlip (sweep_all s))
  end.

Inductive exec : st -> list op -> outcome st -> Prop :=
| exec_nil : forall s, exec s [] (Ok s)
| exec_cons : forall s o ops s' r, permitted s o -> step s o = Ok s' -> exec s' ops r -> exec s (o :: ops) r
| exec_trap : forall s o ops, permitted s o -> step s o = Trap -> exec s (o :: ops) Trap
| exec_ub : forall s o ops, permitted s o -> step s o = UB -> exec s (o :: ops) UB.
