(** src/trace.h, src/trace.c, lib/trace.c: the tracer, and tools/trace.go,
    which reads what it wrote.

    Simplifications: one thread traces (the buffer is not protected); every
    trace-enable names a new file, and writing succeeds; the clock is given
    with each event; a name is the bytes before the first NUL. *)
From Coq Require Import List ZArith Bool.
Import ListNotations.
Local Open Scope list_scope.
Local Open Scope Z_scope.

Definition byte := Z.

(** little endian, as the packed struct of trace.h:18-25 is laid out; the
    value wraps *)
Fixpoint le (n : nat) (v : Z) : list byte :=
  match n with
  | O => []
  | S n => v mod 256 :: le n (v / 256)
  end.

Record event := mkEvent { ph : byte; name : list byte; tid : Z; eid : Z; ts : Z }.

(** trace.h:57-64; name_len is a uint8_t, tid a uint16_t, id a uint32_t *)
Definition encode (e : event) : list byte :=
  [ph e; Z.of_nat (length (name e)) mod 256] ++ le 2 (tid e) ++ le 4 (eid e) ++ le 8 (ts e) ++ name e.

(** trace.h:29 *)
Definition buffer_size : Z := 1048576.

(** The files written so far, newest first; whether trace_file is set; and
    what is in the buffer before trace_offset. *)
Record tracer := mkTracer { files : list (list byte); opened : bool; buf : list byte }.
Definition tracer_start : tracer := mkTracer [] false [].

(** trace.h:39-45 *)
Definition flush (t : tracer) : tracer :=
  match opened t, files t with
  | true, f :: r => mkTracer ((f ++ buf t) :: r) true []
  | _, _ => t
  end.
(** trace.c:18-23; the buffer is emptied, the file that was open is dropped *)
Definition enable (t : tracer) : tracer := mkTracer ([] :: files t) true [].
(** trace.c:10-16 *)
Definition disable (t : tracer) : tracer := let t := flush t in mkTracer (files t) false (buf t).
(** trace.h:47-66; [None] when the event is written past the buffer *)
Definition emit (e : event) (t : tracer) : option tracer :=
  if opened t then
    let total := 16 + Z.of_nat (length (name e)) in
    let t := if buffer_size <=? Z.of_nat (length (buf t)) + total then flush t else t in
    if Z.of_nat (length (buf t)) + total <=? buffer_size then Some (mkTracer (files t) (opened t) (buf t ++ encode e)) else None
  else Some t.

Inductive top := TEnable | TDisable | TEmit (e : event).
Definition tstep (o : top) (t : tracer) : option tracer :=
  match o with
  | TEnable => Some (enable t)
  | TDisable => Some (disable t)
  | TEmit e => emit e t
  end.
Fixpoint trun (l : list top) (t : tracer) : option tracer :=
  match l with
  | [] => Some t
  | o :: r => match tstep o t with Some t => trun r t | None => None end
  end.

(** * tools/trace.go *)
Fixpoint unle (l : list byte) : Z := match l with [] => 0 | b :: r => b + 256 * unle r end.
(** trace.go:45-49 *)
Definition known_phase (b : byte) : bool := existsb (Z.eqb b) [66; 69; 98; 101; 115; 102].
(** one round of the loop of trace.go:35-78; [None] is a failure *)
Definition decode1 (l : list byte) : option (event * list byte) :=
  match l with
  | p :: n :: t0 :: t1 :: i0 :: i1 :: i2 :: i3 :: s0 :: s1 :: s2 :: s3 :: s4 :: s5 :: s6 :: s7 :: r =>
      if known_phase p then
        if Z.to_nat n <=? length r then
          Some (mkEvent p (firstn (Z.to_nat n) r) (unle [t0; t1]) (unle [i0; i1; i2; i3]) (unle [s0; s1; s2; s3; s4; s5; s6; s7]), skipn (Z.to_nat n) r)
        else None
      else None
  | _ => None
  end%nat.
Fixpoint decode (n : nat) (l : list byte) : option (list event) :=
  match n with
  | O => None
  | S n =>
      match l with
      | [] => Some []
      | _ =>
          match decode1 l with
          | Some (e, r) => match decode n r with Some es => Some (e :: es) | None => None end
          | None => None
          end
      end
  end.
Definition read_trace (l : list byte) : option (list event) := decode (S (length l)) l.

(** * lib/trace.c *)
(** A function: one of the program's, or a wrapper of a function for a name. *)
Inductive fn := Plain (f : nat) | Wrap (f : fn) (sym : list byte).
Definition globals := list byte -> option fn.
Definition list_eqb (a b : list byte) : bool := if list_eq_dec Z.eq_dec a b then true else false.
Definition gset (g : globals) (s : list byte) (v : fn) : globals := fun x => if list_eqb x s then Some v else g x.
(** :32-41; [None] when the name has no function *)
Definition trace (s : list byte) (g : globals) : option globals :=
  match g s with Some f => Some (gset g s (Wrap f s)) | None => None end.
(** :43-55 *)
Definition untrace (s : list byte) (g : globals) : option globals :=
  match g s with
  | Some (Wrap f s') => Some (if list_eqb s' s then gset g s f else g)
  | Some (Plain _) => Some g
  | None => None
  end.
(** :19-30, what a call enters in the end, with the events around it; names of
    255 bytes and more stop the program (types.c:171-178) *)
Fixpoint enter (f : fn) (tid ts0 ts1 : Z) : option (list event * nat * list event) :=
  match f with
  | Plain n => Some ([], n, [])
  | Wrap f s =>
      if (length s <? 255)%nat then
        match enter f tid ts0 ts1 with
        | Some (b, n, a) => Some (mkEvent 66 s tid 0 ts0 :: b, n, a ++ [mkEvent 69 s tid 0 ts1])
        | None => None
        end
      else None
  end.
