(** The virtual machine: segmented stack, calls, tail calls, returns,
    partial and over-application, apply, try / throw / resume.

    Modelled: src/runtime.c:17-173 (segments, coraRun, coraCall, callCurry,
    makeCurry, coraDispatch), src/runtime.c:364-388 (apply),
    src/runtime.c:661-833 (try, throw, continuations), src/runtime.h:60-190
    (stackAlloc, coraReturn, coraCall0-4, saveCont) and the protocol that
    compiled code follows (lib/toc.cora:372-411).

    Simplifications.
    - An [Obj *] into the stack is a pair (segment number, offset).  Segment
      numbers are never reused: freed memory stays recognisable.
    - A heap object is the value it holds; continuations have an identity.
      The collector is not part of this file (see Gc*.v).
    - Compiled code is represented by what it does to the machine: at each
      step of a user function an arbitrary [action] is performed.
    - The nested [coraRun] of an over-application is a C stack frame; the
      field [v_cst] holds, innermost first, the arguments such frames still
      have to pass on. *)
From Coq Require Import List Arith Bool ZArith Lia.
From Verif Require Import Base.
Import ListNotations.
Local Open Scope out_scope.

(** The functions a closure's [fn] field can point to: compiled user code
    (number n) or one of the runtime's own.  src/runtime.c:121, 365, 665,
    769, 800 *)
Inductive code :=
| CUser (n : nat)
| CCurry
| CApply
| CTry
| CThrow
| CCont.

(** src/types.h: values.  [ONative] is struct scmNative (fn, nframe,
    required, data[captured]), src/types.c:195-212. *)
Inductive obj :=
| OImm (z : Z)
| ONil
| OCons (a d : obj)
| ONative (c : code) (nframe required : nat) (data : list obj)
| OCont (id : nat).

Definition addr := (nat * nat)%type.

(** src/runtime.h:12-18: struct Frame; [fn = NULL] is [None]. *)
Record frame := mkF { f_fn : option code; f_label : nat; f_bp : addr; f_sp : addr }.

Definition segment := nat -> obj.
Definition memory := nat -> option segment.

(** src/runtime.h:41-57: struct Cora.  Vectors are lists with the last
    element (the top) first.  [v_cur] is stk.begin (and stk.end - 256). *)
Record vm := mkV {
  v_ctx : frame;
  v_callstack : list frame;
  v_segs : list nat;
  v_cur : nat;
  v_mem : memory;
  v_next : nat;                                  (* next segment malloc returns *)
  v_res : obj;
  v_try : list (nat * nat);                      (* (callstackPos, segmentStackPos) *)
  v_conts : nat -> option (list frame * list nat); (* continuation objects *)
  v_nextk : nat;
  v_cst : list (list obj) }.

Definition set_ctx s c := mkV c (v_callstack s) (v_segs s) (v_cur s) (v_mem s) (v_next s) (v_res s) (v_try s) (v_conts s) (v_nextk s) (v_cst s).
Definition set_callstack s c := mkV (v_ctx s) c (v_segs s) (v_cur s) (v_mem s) (v_next s) (v_res s) (v_try s) (v_conts s) (v_nextk s) (v_cst s).
Definition set_mem s m := mkV (v_ctx s) (v_callstack s) (v_segs s) (v_cur s) m (v_next s) (v_res s) (v_try s) (v_conts s) (v_nextk s) (v_cst s).
Definition set_res s r := mkV (v_ctx s) (v_callstack s) (v_segs s) (v_cur s) (v_mem s) (v_next s) r (v_try s) (v_conts s) (v_nextk s) (v_cst s).
Definition set_try s t := mkV (v_ctx s) (v_callstack s) (v_segs s) (v_cur s) (v_mem s) (v_next s) (v_res s) t (v_conts s) (v_nextk s) (v_cst s).
Definition set_cst s c := mkV (v_ctx s) (v_callstack s) (v_segs s) (v_cur s) (v_mem s) (v_next s) (v_res s) (v_try s) (v_conts s) (v_nextk s) c.
Definition set_segs s l c := mkV (v_ctx s) (v_callstack s) l c (v_mem s) (v_next s) (v_res s) (v_try s) (v_conts s) (v_nextk s) (v_cst s).

(** src/runtime.c:17 *)
Definition INIT_STACK_SIZE := 256.

(** Reads and writes through an [Obj *]: undefined outside a live segment. *)
Definition mread (m : memory) (a : addr) : outcome obj :=
  match m (fst a) with
  | Some sg => if snd a <? INIT_STACK_SIZE then Ok (sg (snd a)) else UB
  | None => UB
  end.

Definition mwrite (m : memory) (a : addr) (v : obj) : outcome memory :=
  match m (fst a) with
  | Some sg =>
      if snd a <? INIT_STACK_SIZE
      then Ok (fun g => if g =? fst a
                        then Some (fun o => if o =? snd a then v else sg o)
                        else m g)
      else UB
  | None => UB
  end.

(** p[0] = v0; p[1] = v1; ... *)
Fixpoint mwrites (m : memory) (a : addr) (vs : list obj) : outcome memory :=
  match vs with
  | [] => Ok m
  | v :: vs' => do! m1 <- mwrite m a v; mwrites m1 (fst a, S (snd a)) vs'
  end.

Fixpoint mreads (m : memory) (a : addr) (n : nat) : outcome (list obj) :=
  match n with
  | O => Ok []
  | S n' => do! v <- mread m a; do! vs <- mreads m (fst a, S (snd a)) n'; Ok (v :: vs)
  end.

(** src/runtime.c:19-25, 33-40: segmentStackAlloc, stackAllocSlowPath. *)
Definition stackAllocSlowPath (s : vm) (n : nat) : outcome vm :=
  assertT (n <? INIT_STACK_SIZE)
    (let g := v_next s in
     let c := v_ctx s in
     Ok (mkV (mkF (f_fn c) (f_label c) (g, 0) (g, n)) (v_callstack s) (g :: v_segs s) g
             (fun x => if x =? g then Some (fun _ => OImm 0) else v_mem s x)
             (S g) (v_res s) (v_try s) (v_conts s) (v_nextk s) (v_cst s))).

(** src/runtime.h:61-72: stackAlloc.  The test [ctx.sp + n < stk.end]
    compares pointers into the same segment, otherwise it is undefined. *)
Definition stackAlloc (s : vm) (n : nat) : outcome vm :=
  let c := v_ctx s in
  assertT (0 <? n)
    (if fst (f_sp c) =? v_cur s
     then if snd (f_sp c) + n <? INIT_STACK_SIZE
          then Ok (set_ctx s (mkF (f_fn c) (f_label c) (f_sp c) (fst (f_sp c), snd (f_sp c) + n)))
          else stackAllocSlowPath s n
     else UB).

(** sp inside [stk.begin, stk.end) *)
Definition inside (s : vm) (a : addr) : bool :=
  (fst a =? v_cur s) && (snd a <? INIT_STACK_SIZE).

(** src/runtime.c:42-54 *)
Definition coraReturnSlowPath (s : vm) : outcome vm :=
  match v_segs s with
  | [] => UB
  | g :: gs =>
      assertT (g =? v_cur s)
        (match v_mem s g with
         | None => UB                                   (* free of freed memory *)
         | Some _ =>
             match gs with
             | [] => UB                                 (* vecGet(data, -1) *)
             | g2 :: _ =>
                 let s1 := set_mem (set_segs s gs g2)
                             (fun x => if x =? g then None else v_mem s x) in
                 assertT (inside s1 (f_sp (v_ctx s))) (Ok s1)
             end
         end)
  end.

(** src/runtime.h:75-84 (and runtime.c:88-89 under CORA_IMPLEMENTATION) *)
Definition coraReturn (s : vm) (val : obj) : outcome vm :=
  match v_callstack s with
  | [] => UB                                            (* vecPop of an empty vector *)
  | f :: fs =>
      let s1 := set_ctx (set_callstack (set_res s val) fs) f in
      if inside s1 (f_sp f) then Ok s1 else coraReturnSlowPath s1
  end.

(** src/types.c:214-218 *)
Definition mustNative (o : obj) : outcome (code * nat * nat * list obj) :=
  match o with
  | ONative c nf rq d => Ok (c, nf, rq, d)
  | _ => Trap
  end.

(** src/runtime.c:133-147 *)
Definition makeCurry (fn : obj) (args : list obj) : outcome obj :=
  do! '(c, nf, rq, d) <- mustNative fn;
  assertT (length args <? rq)
    (Ok (ONative CCurry nf (rq - length args) (fn :: args))).

(** Allocate the callee's frame, store closure and arguments, set fn and
    label: the common part of src/runtime.h:97-101 etc. and
    src/runtime.c:106-119. *)
Definition enter (s : vm) (fn : obj) (c : code) (nframe : nat) (args : list obj) : outcome vm :=
  do! s1 <- stackAlloc s nframe;
  do! m <- mwrites (v_mem s1) (f_bp (v_ctx s1)) (fn :: args);
  Ok (set_ctx (set_mem s1 m) (mkF (Some c) 0 (f_bp (v_ctx s1)) (f_sp (v_ctx s1)))).

(** src/runtime.c:150-173: coraDispatch.  The over-application starts a
    nested coraRun (src/runtime.c:70-77 pushes the exit frame). *)
Definition coraDispatch (s : vm) (fn : obj) (args : list obj) : outcome vm :=
  do! '(c, nf, rq, d) <- mustNative fn;
  assertT (negb (length args =? rq))
    (if length args <? rq
     then do! clo <- makeCurry fn args; coraReturn s clo
     else do! s1 <- enter s fn c nf (firstn rq args);
          let exit := mkF None 0 (f_bp (v_ctx s1)) (f_sp (v_ctx s1)) in
          Ok (set_cst (set_callstack s1 (exit :: v_callstack s1))
                      (skipn rq args :: v_cst s1))).

(** src/runtime.c:95-119 *)
Definition coraCall (s : vm) (fn : obj) (args : list obj) : outcome vm :=
  do! '(c, nf, rq, d) <- mustNative fn;
  if negb (rq =? length args) then coraDispatch s fn args
  else assertT (length args <=? nf) (enter s fn c nf args).

(** src/runtime.h:91-173: coraCall0 ... coraCall4; more arguments go through
    coraCall (lib/toc.cora:388-410). *)
Definition coraCallN (s : vm) (fn : obj) (args : list obj) : outcome vm :=
  match args with
  | [] =>
      do! '(c, nf, rq, d) <- mustNative fn;
      if negb (rq =? 0) then coraReturn s fn else enter s fn c nf []
  | [_] | [_; _] | [_; _; _] | [_; _; _; _] =>
      do! '(c, nf, rq, d) <- mustNative fn;
      if negb (rq =? length args) then coraCall s fn args else enter s fn c nf args
  | _ => coraCall s fn args
  end.

(** src/runtime.c:121-131 *)
Definition callCurry (s : vm) : outcome vm :=
  let R := f_bp (v_ctx s) in
  do! fn <- mread (v_mem s) R;
  do! '(c, nf, rq, d) <- mustNative fn;
  do! moved <- mreads (v_mem s) (fst R, snd R + 1) rq;
  do! m1 <- mwrites (v_mem s) (fst R, snd R + length d) moved;
  do! m2 <- mwrites m1 R d;
  do! f0 <- mread m2 R;
  do! '(c0, nf0, rq0, d0) <- mustNative f0;
  Ok (set_ctx (set_mem s m2) (mkF (Some c0) 0 R (f_sp (v_ctx s)))).

(** listLen (src/runtime.c:352-362) and the copying loop of apply: the
    elements of a list; car of anything else traps. *)
Fixpoint list_elems (o : obj) : outcome (list obj) :=
  match o with
  | ONil => Ok []
  | OCons a d => do! l <- list_elems d; Ok (a :: l)
  | _ => Trap
  end.

(** src/runtime.c:364-388 *)
Definition builtinApply (s : vm) : outcome vm :=
  let R := f_bp (v_ctx s) in
  do! fn <- mread (v_mem s) (fst R, snd R + 1);
  do! args <- mread (v_mem s) (fst R, snd R + 2);
  do! l <- list_elems args;
  do! '(c, nf, rq, d) <- mustNative fn;
  assertT (rq =? length l) (enter s fn c nf l).

(** src/runtime.c:664-717 *)
Definition builtinTryCatch (s : vm) : outcome vm :=
  let R := f_bp (v_ctx s) in
  match f_label (v_ctx s) with
  | O =>
      do! s1 <- stackAllocSlowPath s 3;
      do! r0 <- mread (v_mem s1) R;
      do! r1 <- mread (v_mem s1) (fst R, snd R + 1);
      do! r2 <- mread (v_mem s1) (fst R, snd R + 2);
      do! m <- mwrites (v_mem s1) (f_bp (v_ctx s1)) [r0; r1; r2];
      let s2 := set_mem s1 m in
      let cont := mkF (Some CTry) 1 (f_bp (v_ctx s2)) (f_sp (v_ctx s2)) in
      let mark := (length (v_callstack s2), length (v_segs s2) - 1) in
      let s3 := set_callstack (set_try s2 (mark :: v_try s2)) (cont :: v_callstack s2) in
      do! chunk <- mread (v_mem s3) (fst (f_bp (v_ctx s3)), snd (f_bp (v_ctx s3)) + 1);
      coraCallN s3 chunk []
  | _ => coraReturn (set_try s (tl (v_try s))) (v_res s)
  end.

(** src/runtime.c:799-833, with makeContinuation (734-752) inlined. *)
Definition builtinThrow (s : vm) : outcome vm :=
  let R := f_bp (v_ctx s) in
  match v_try s with
  | [] => UB                                            (* vecPop of an empty vector *)
  | (cpos, spos) :: marks =>
      do! v <- mread (v_mem s) (fst R, snd R + 1);
      let len := length (v_callstack s) - cpos in
      let count := length (v_segs s) - spos in
      let frames := firstn len (v_callstack s) in
      let segs := firstn count (v_segs s) in
      let id := v_nextk s in
      let clo := ONative CCont 2 1 [OCont id] in
      match last (map (@Some frame) frames) None,
            skipn count (v_segs s), skipn len (v_callstack s) with
      | Some try, g :: gs, beforeTry :: fs =>
          do! handler <- mread (v_mem s) (fst (f_bp try), snd (f_bp try) + 2);
          let s1 := mkV (mkF (f_fn (v_ctx s)) (f_label (v_ctx s)) (f_bp beforeTry) (f_sp beforeTry))
                        (beforeTry :: fs) (g :: gs) g (v_mem s) (v_next s) (v_res s) marks
                        (fun k => if k =? id then Some (frames, segs) else v_conts s k)
                        (S id) (v_cst s) in
          coraCallN s1 handler [v; clo]
      | _, _, _ => UB                                   (* vecGet out of range *)
      end
  end.

(** src/runtime.c:768-797 *)
Definition continuationAsClosure (s : vm) : outcome vm :=
  let R := f_bp (v_ctx s) in
  do! this <- mread (v_mem s) R;
  do! '(c, nf, rq, d) <- mustNative this;
  match d with
  | OCont id :: _ =>
      match v_conts s id with
      | Some (frames, segs) =>
          let mark := (length (v_callstack s), length (v_segs s)) in
          let segs' := segs ++ v_segs s in
          match segs' with
          | [] => UB
          | g :: _ =>
              let s1 := set_segs (set_callstack (set_try s (mark :: v_try s))
                                                (frames ++ v_callstack s)) segs' g in
              do! val <- mread (v_mem s1) (fst R, snd R + 1);
              coraReturn s1 val
          end
      | None => UB
      end
  | _ => UB
  end.

(** What a step of compiled code does to the machine, lib/toc.cora:372-411:
    store into its frame ([R[i] = v], save-to-frame); a call with the frame
    saved under a label; a tail call, [co->ctx.sp = R] first; a return. *)
Inductive action :=
| AWrite (i : nat) (v : obj)
| ACall (label : nat) (fn : obj) (args : list obj)
| ATail (fn : obj) (args : list obj)
| ARet (v : obj).

Definition user_step (s : vm) (n : nat) (a : action) : outcome vm :=
  let c := v_ctx s in
  match a with
  | AWrite i v =>
      do! m <- mwrite (v_mem s) (fst (f_bp c), snd (f_bp c) + i) v; Ok (set_mem s m)
  | ACall l fn args =>
      let saved := mkF (Some (CUser n)) l (f_bp c) (f_sp c) in
      coraCallN (set_callstack s (saved :: v_callstack s)) fn args
  | ATail fn args =>
      coraCallN (set_ctx s (mkF (f_fn c) (f_label c) (f_bp c) (f_bp c))) fn args
  | ARet v => coraReturn s v
  end.

(** One turn of the trampoline, src/runtime.c:79-84.  When [ctx.fn] is NULL
    the innermost coraRun returns: to coraDispatch, which makes the next call
    (src/runtime.c:169), or to the program that started the machine. *)
Definition step (s : vm) (a : action) : outcome vm :=
  match f_fn (v_ctx s) with
  | None =>
      match v_cst s with
      | [] => Ok s
      | rest :: cs => coraCall (set_cst s cs) (v_res s) rest
      end
  | Some (CUser n) => user_step s n a
  | Some CCurry => callCurry s
  | Some CApply => builtinApply s
  | Some CTry => builtinTryCatch s
  | Some CThrow => builtinThrow s
  | Some CCont => continuationAsClosure s
  end.

Fixpoint steps (s : vm) (l : list action) : outcome vm :=
  match l with
  | [] => Ok s
  | a :: l' => do! s1 <- step s a; steps s1 l'
  end.

(** src/runtime.c:55-66: coraNew. *)
Definition coraNew : vm :=
  mkV (mkF None 0 (0, 0) (0, 0)) [] [0] 0
      (fun x => if x =? 0 then Some (fun _ => OImm 0) else None)
      1 (OImm 0) [] (fun _ => None) 0 [].

(** src/main.c, src/runtime.c:70-77: call the initial thunk, enter coraRun. *)
Definition start (thunk : obj) : outcome vm :=
  do! s <- coraCallN coraNew thunk [];
  Ok (set_callstack s [mkF None 0 (f_bp (v_ctx s)) (f_sp (v_ctx s))]).
