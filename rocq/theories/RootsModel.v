(** What the collector looks at when a collection starts: the frames of the
    virtual machine (VmModel.v), its result register, and from there the
    objects.

    Modelled: src/runtime.c:1130-1154 (coraGCFunc) but for the globals,
    src/runtime.c:755-766 (continuationGCFunc) and, for closures and pairs,
    which objects the collector follows (src/types.c:69-75, 220-227).
    A collection starts between two turns of the trampoline
    (src/runtime.c:79-84), that is in any state of the machine between two
    [VmModel.step]s.

    Simplification: the globals are left out; what they hold is there for
    every collection. *)
From Coq Require Import List Arith.
From Verif Require Import Base VmModel.
Import ListNotations.
Local Open Scope out_scope.

(** [for (Obj *p = f->bp; p < f->sp; p++)], src/runtime.c:1140 and 1150 *)
Definition frame_slots (f : frame) : list addr :=
  map (fun i => (fst (f_bp f), i)) (seq (snd (f_bp f)) (snd (f_sp f) - snd (f_bp f))).

(** reading [*p] for each of them *)
Fixpoint read_all (m : memory) (l : list addr) : outcome (list obj) :=
  match l with
  | [] => Ok []
  | a :: r => do! v <- mread m a; do! vs <- read_all m r; Ok (v :: vs)
  end.

(** src/runtime.c:1130-1154: the values handed to gcMark. *)
Definition coraGCFunc (s : vm) : outcome (list obj) :=
  do! cur <- read_all (v_mem s) (frame_slots (v_ctx s));
  do! rest <- read_all (v_mem s) (concat (map frame_slots (rev (v_callstack s))));
  Ok (cur ++ v_res s :: rest).

(** src/runtime.c:755-766: the values a continuation hands to gcMark. *)
Definition continuationGCFunc (s : vm) (frames : list frame) : outcome (list obj) :=
  read_all (v_mem s) (concat (map frame_slots (rev frames))).

(** What a collection finds. *)
Inductive found (s : vm) : obj -> Prop :=
| fd_root : forall l o, coraGCFunc s = Ok l -> In o l -> found s o
| fd_car : forall a d, found s (OCons a d) -> found s a
| fd_cdr : forall a d, found s (OCons a d) -> found s d
| fd_data : forall c nf rq d o, found s (ONative c nf rq d) -> In o d -> found s o
| fd_cont : forall id fs sg l o, found s (OCont id) -> v_conts s id = Some (fs, sg) ->
    continuationGCFunc s fs = Ok l -> In o l -> found s o.
