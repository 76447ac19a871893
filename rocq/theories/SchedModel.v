(** The scheduler of tasks: lib/cml.cora:14-96, 156-169.
    What tasks compute between calls of the scheduler is left open: a task is a state of any
    type [S] and [code] tells what it does next.  A state of a task is the continuation that
    yield and perform capture (C25 is about continuations).  External schedulers
    (register-scheduler) are functions of the time-out and of the world outside, of any type
    [E]. *)
From Coq Require Import List Bool PeanoNat.
Import ListNotations.

Section Sched.
Variables (S E : Type).

(** What a task does next: end; write something a user sees; spawn another task and go on;
    yield; perform an operation that blocks; wake a blocked task (what the operation of
    another task does, lib/chan.cora:20, 49); register an external scheduler is done at the
    start only (lib/async.cora:273). *)
Inductive cmd :=
| CEnd
| CShow (n : nat) (s : S)
| CSpawn (child s : S)
| CYield (s : S)
| CBlock (s : S)
| CWake (i : nat) (s : S).
Variable code : S -> cmd.

(** An external scheduler: [true] for the time-out -1, [false] for 0; it answers whether it
    has more work, the tasks that it enqueues, and the world; [None]: it waits for ever. *)
Definition external := bool -> E -> option (bool * list S * E).

(** lib/queue.cora:6-37: the two lists of a queue (its size is not used here) *)
Definition queue := (list S * list S)%type.
Definition queue_make : queue := ([], []).
Definition enqueue (q : queue) (x : S) : queue := (x :: fst q, snd q).
Definition queue_empty (q : queue) : bool :=
  match fst q, snd q with [], [] => true | _, _ => false end.
Definition dequeue (q : queue) : option (S * queue) :=
  let (a, b) := match snd q with [] => ([], rev (fst q)) | b => (fst q, b) end in
  match b with [] => None | x :: b' => Some (x, (a, b')) end.

(** The thread: what runs, the task queue, the continuations that blocked operations hold, the
    world, and how many calls of schedule-loop wait for their call of schedule to return
    (lib/cml.cora:67: the call is not a tail call).  [started] and [enqueued] are records of
    what happened, not read by the code. *)
Inductive mode :=
| MLoop            (* about to call schedule-loop *)
| MSchedule        (* about to call schedule *)
| MRun (s : S)     (* a task runs *)
| MReturn          (* a value is returned to the innermost schedule-loop *)
| MExit            (* cml-entry has returned *)
| MWait.           (* an external scheduler waits for ever *)
Record thread := mkT {
  t_mode : mode; t_queue : queue; t_blocked : list S; t_world : E; t_loops : nat;
  t_shown : list nat; t_started : list S; t_enqueued : list S }.

Variable externals : list external.

Definition enqueue_all (q : queue) (l : list S) : queue := fold_left enqueue l q.

(** lib/cml.cora:39-44: all are called, in order; the tasks they enqueue are in the queue
    afterwards. *)
Fixpoint run_externals (l : list external) (timeout : bool) (succ : bool) (new : list S) (e : E)
  : option (bool * list S * E) :=
  match l with
  | [] => Some (succ, new, e)
  | f :: l' =>
      match f timeout e with
      | None => None
      | Some (res, ts, e') => run_externals l' timeout (succ || res) (new ++ ts) e'
      end
  end.

Fixpoint remove_at (i : nat) (l : list S) : option (S * list S) :=
  match l, i with
  | [], _ => None
  | x :: l', O => Some (x, l')
  | x :: l', Datatypes.S i' =>
      match remove_at i' l' with Some (y, r) => Some (y, x :: r) | None => None end
  end.

(** One step; [None] after the end. *)
Definition step (t : thread) : option thread :=
  let '(mkT m q bl e d sh st en) := t in
  match m with
  | MExit | MWait => None
  (* lib/cml.cora:64-67 *)
  | MLoop => Some (mkT MSchedule q bl e (Datatypes.S d) sh st en)
  (* lib/cml.cora:48-62 *)
  | MSchedule =>
      match run_externals externals false false [] e with
      | None => Some (mkT MWait q bl e d sh st en)
      | Some (more, new, e1) =>
          let q1 := enqueue_all q new in
          let en1 := en ++ new in
          if queue_empty q1 then
            if more then
              match run_externals externals true false [] e1 with
              | None => Some (mkT MWait q1 bl e1 d sh st en1)
              | Some (_, new2, e2) =>
                  Some (mkT MReturn (enqueue_all q1 new2) bl e2 d sh st (en1 ++ new2))
              end
            else Some (mkT MReturn q1 bl e1 d sh st en1)
          else
            match dequeue q1 with
            | Some (task, q2) => Some (mkT (MRun task) q2 bl e1 d sh (st ++ [task]) en1)
            | None => None
            end
      end
  | MRun s =>
      match code s with
      | CEnd => Some (mkT MReturn q bl e d sh st en)
      | CShow n s' => Some (mkT (MRun s') q bl e d (sh ++ [n]) st en)
      (* lib/cml.cora:27-31 *)
      | CSpawn c s' => Some (mkT (MRun s') (enqueue q c) bl e d sh st (en ++ [c]))
      (* lib/cml.cora:92-96: the handler of the task calls schedule-loop in place of the task *)
      | CYield s' => Some (mkT MLoop (enqueue q s') bl e d sh st (en ++ [s']))
      (* lib/cml.cora:162-168: the handler calls schedule in place of the task *)
      | CBlock s' => Some (mkT MSchedule q (bl ++ [s']) e d sh st en)
      | CWake i s' =>
          match remove_at i bl with
          | Some (w, bl') => Some (mkT (MRun s') (enqueue q w) bl' e d sh st (en ++ [w]))
          | None => Some (mkT (MRun s') q bl e d sh st en)
          end
      end
  (* lib/cml.cora:69-74 *)
  | MReturn =>
      match d with
      | O => Some (mkT MExit q bl e d sh st en)
      | Datatypes.S d' =>
          if queue_empty q then
            match run_externals externals false false [] e with
            | None => Some (mkT MWait q bl e d sh st en)
            | Some (more, new, e1) =>
                let q1 := enqueue_all q new in
                if more then Some (mkT MLoop q1 bl e1 d' sh st (en ++ new))
                else Some (mkT MReturn q1 bl e1 d' sh st (en ++ new))
            end
          else Some (mkT MLoop q bl e d' sh st en)
      end
  end.

(** lib/cml.cora:77-90, after the initialisation *)
Definition entry (main : S) (e : E) : thread :=
  mkT MLoop (enqueue queue_make main) [] e 0 [] [] [main].

Inductive steps : nat -> thread -> thread -> Prop :=
| steps_0 : forall t, steps 0 t t
| steps_S : forall n t t1 t2, steps n t t1 -> step t1 = Some t2 -> steps (Datatypes.S n) t t2.

Definition waiting (q : queue) : list S := snd q ++ rev (fst q).
End Sched.
