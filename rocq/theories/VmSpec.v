(** What calls, returns, partial application, apply, try, throw and resume
    are supposed to mean, without stack segments, frame addresses, marks or
    trampolines.

    A pending computation is a list of activations, the innermost first.
    Each activation owns its slots.  [try] is an activation of its own in
    that list; [throw] cuts the list at the innermost one; a continuation is
    the piece cut off, and using it puts the piece back.  A continuation can
    be used once. *)
From Coq Require Import List Arith ZArith.
From Verif Require Import VmModel.
Import ListNotations.
Local Open Scope nat_scope.

(** An activation: the code, where to continue, and its slots; [None] is a
    slot nothing has been stored in. *)
Record act := mkA { a_code : code; a_label : nat; a_slots : list (option obj) }.

(** A pending item: an activation waiting for a result, or the remaining
    arguments of an over-application, to be passed to the result. *)
Inductive item := IAct (a : act) | IArgs (rest : list obj).

Record sst := mkS {
  s_cur : option act;                       (* None: finished, or a value is to be passed on *)
  s_pend : list item;
  s_wait : option (list obj);               (* arguments to pass to the result *)
  s_res : obj;
  s_k : nat -> option (list item);          (* continuations not yet used *)
  s_nextk : nat }.

Definition is_try (i : item) : bool :=
  match i with IAct (mkA CTry 1 _) => true | _ => false end.

(** Give a value to whatever is waiting for it. *)
Definition s_return (S : sst) (v : obj) : option sst :=
  match s_pend S with
  | [] => Some (mkS None [] None v (s_k S) (s_nextk S))
  | IAct a :: p => Some (mkS (Some a) p None v (s_k S) (s_nextk S))
  | IArgs l :: p => Some (mkS None p (Some l) v (s_k S) (s_nextk S))
  end.

Definition fresh_slots (fn : obj) (args : list obj) (nframe : nat) : list (option obj) :=
  map (@Some obj) (fn :: args) ++ repeat None (nframe - S (length args)).

(** Call [fn]: too few arguments give a closure that remembers them, too many
    are kept for the result. *)
Definition s_call (S : sst) (fn : obj) (args : list obj) : option sst :=
  match fn with
  | ONative c nf rq d =>
      if length args <? rq then
        s_return S (match args with [] => fn | _ => ONative CCurry nf (rq - length args) (fn :: args) end)
      else
        let now := firstn rq args in
        let later := skipn rq args in
        let p := match later with [] => s_pend S | _ => IArgs later :: s_pend S end in
        Some (mkS (Some (mkA c 0 (fresh_slots fn now nf))) p None (s_res S) (s_k S) (s_nextk S))
  | _ => None
  end.

Definition with_pend (S : sst) (p : list item) : sst :=
  mkS (s_cur S) p (s_wait S) (s_res S) (s_k S) (s_nextk S).

(** Split at the innermost try: what is above it (and the try itself), its
    handler, what is below. *)
Fixpoint cut (p : list item) : option (list item * obj * list item) :=
  match p with
  | [] => None
  | i :: q =>
      if is_try i then
        match i with
        | IAct (mkA _ _ [_; _; Some h]) => Some ([i], h, q)
        | _ => None
        end
      else
        match cut q with
        | Some (up, h, below) => Some (i :: up, h, below)
        | None => None
        end
  end.

Fixpoint elems (o : obj) : option (list obj) :=
  match o with
  | ONil => Some []
  | OCons a d => option_map (cons a) (elems d)
  | _ => None
  end.

Fixpoint upd {A} (l : list A) (i : nat) (x : A) : list A :=
  match l, i with
  | [], _ => []
  | _ :: r, O => x :: r
  | y :: r, S i' => y :: upd r i' x
  end.

Definition s_step (S : sst) (a : action) : option sst :=
  match s_cur S with
  | None =>
      match s_wait S with
      | None => Some S
      | Some l => s_call (mkS None (s_pend S) None (s_res S) (s_k S) (s_nextk S)) (s_res S) l
      end
  | Some (mkA (CUser n) l sl) =>
      match a with
      | AWrite i v =>
          if i <? length sl
          then Some (mkS (Some (mkA (CUser n) l (upd sl i (Some v)))) (s_pend S) None (s_res S) (s_k S) (s_nextk S))
          else None
      | ACall l' fn args => s_call (with_pend S (IAct (mkA (CUser n) l' sl) :: s_pend S)) fn args
      | ATail fn args => s_call S fn args
      | ARet v => s_return S v
      end
  | Some (mkA CCurry _ (Some (ONative CCurry nf rq (f :: xs)) :: sl)) =>
      (* the closure made by a partial application: call f with the
         remembered and the new arguments *)
      match f with
      | ONative c _ _ _ =>
          Some (mkS (Some (mkA c 0 (map (@Some obj) (f :: xs) ++ firstn rq sl ++
                                    repeat None (nf - (length (f :: xs) + rq)))))
                    (s_pend S) None (s_res S) (s_k S) (s_nextk S))
      | _ => None
      end
  | Some (mkA CApply _ (_ :: Some fn :: Some args :: _)) =>
      match fn, elems args with
      | ONative _ _ rq _, Some l => if rq =? length l then s_call S fn l else None
      | _, _ => None
      end
  | Some (mkA CTry 0 [Some self; Some thunk; Some h]) =>
      s_call (with_pend S (IAct (mkA CTry 1 [Some self; Some thunk; Some h]) :: s_pend S)) thunk []
  | Some (mkA CTry 1 _) => s_return S (s_res S)
  | Some (mkA CThrow _ (_ :: Some v :: _)) =>
      match cut (s_pend S) with
      | Some (up, h, below) =>
          let id := s_nextk S in
          s_call (mkS (s_cur S) below None (s_res S)
                      (fun k => if k =? id then Some up else s_k S k) (1 + id))
                 h [v; ONative CCont 2 1 [OCont id]]
      | None => None
      end
  | Some (mkA CCont _ (Some (ONative _ _ _ [OCont id]) :: Some v :: _)) =>
      match s_k S id with
      | Some up =>
          s_return (mkS (s_cur S) (up ++ s_pend S) None (s_res S)
                        (fun k => if k =? id then None else s_k S k) (s_nextk S)) v
      | None => None
      end
  | _ => None
  end.

Fixpoint s_steps (S : sst) (l : list action) : option sst :=
  match l with
  | [] => Some S
  | a :: l' => match s_step S a with Some S1 => s_steps S1 l' | None => None end
  end.

Definition s_start (thunk : obj) : option sst :=
  s_call (mkS None [] None (OImm 0%Z) (fun _ => None) 0) thunk [].
