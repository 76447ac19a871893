(** vectorAppend (src/types.c:307-332) as a transition of the collector's
    state.

    The fields of a vector are its data[0 .. cap), with immediate values in the
    slots that are not filled yet; the collector scans data[0 .. size), which
    marks the same objects.  Simplification: a vector that grows is handed out
    by the allocator with the old contents and the new value in place; between
    makeVector and the last assignment (src/types.c:319-330) nothing looks into
    it. *)
From Coq Require Import ZArith Bool List Arith.
From Verif Require Import Base ListLib GcModel.
Import ListNotations.

(** src/types.c:329-331 without growth: the slot is assigned, no barrier *)
Definition append_room (s : st) (a i : nat) (v : value) : st :=
  with_obj s a (set_fields (heap s a) (list_set (o_fields (heap s a)) i v)).

(** src/types.c:319-331: [b] is the new vector, [cap] its capacity; line 323 is
    the deletion barrier on the local variable that held the old vector *)
Definition append_grow (s : st) (a b : nat) (large : bool) (cap i : nat) (v : value) : st :=
  let old := o_fields (heap s a) in
  let s1 := alloc s b true large (list_set (old ++ repeat Imm (cap - length old)) i v) in
  match ph s with PInc => gcMark s1 (Ptr a) 0 | _ => s1 end.

(** src/types.c:314-318 *)
Definition new_cap (cap : nat) : nat := if Nat.ltb cap 1024 then cap * 2 else cap + cap / 4.

(** [i] is the size; the result is held by the program *)
Definition vectorAppend (s : st) (a b : nat) (large : bool) (i : nat) (v : value) : st :=
  let cap := length (o_fields (heap s a)) in
  if Nat.leb cap i then append_grow s a b large (new_cap cap) i v else append_room s a i v.

(** the operations of GcModel.v, and appending *)
Inductive vop := VOp (o : op) | VAppend (a b : nat) (large : bool) (i : nat) (v : value).
Definition vpermitted (s : st) (o : vop) : Prop :=
  match o with
  | VOp o => permitted s o
  | VAppend a b large i v =>
      In (Ptr a) (mut s) /\ (forall c, v = Ptr c -> In v (mut s)) /\ o_mut (heap s a) = true /\
      (i <= length (o_fields (heap s a)))%nat /\ o_fields (heap s a) <> [] /\ nth i (o_fields (heap s a)) Imm = Imm /\
      is_inuse (g s) (heap s b) = false
  end.
Definition vstep (s : st) (o : vop) : outcome st :=
  match o with
  | VOp o => step s o
  | VAppend a b large i v => Ok (vectorAppend s a b large i v)
  end.
Inductive vexec (also : st -> vop -> Prop) : st -> list vop -> outcome st -> Prop :=
| vexec_nil : forall s, vexec also s [] (Ok s)
| vexec_cons : forall s o ops s' r, vpermitted s o -> also s o -> vstep s o = Ok s' -> vexec also s' ops r -> vexec also s (o :: ops) r
| vexec_trap : forall s o ops, vpermitted s o -> also s o -> vstep s o = Trap -> vexec also s (o :: ops) Trap
| vexec_ub : forall s o ops, vpermitted s o -> also s o -> vstep s o = UB -> vexec also s (o :: ops) UB.
