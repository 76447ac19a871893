(** lib/ukanren.cora: unification, goals and streams.

    Simplifications.
    - Values are trees.  A logic variable (a vector of length 1 holding its
      number, :13-15) is [TVar]; other vectors, which var? (:17) takes for logic
      variables as well, do not occur in terms.
    - The body of a goal function is an expression ([goal]) instead of a
      closure.
    - [None] is lack of fuel; [Crash] is the error of a match without matching
      rule. *)
From Coq Require Import List ZArith String Bool Arith.
From Verif Require Import KanSpec Base.
Import ListNotations.
Local Open Scope list_scope.
Local Open Scope nat_scope.

Inductive term := TVar (n : nat) | TAtom (a : atom) | TPair (x y : term).
Notation sub := (list (nat * term)).

Definition atom_eq_dec : forall a b : atom, {a = b} + {a <> b}.
Proof. decide equality; solve [apply Z.eq_dec | apply string_dec]. Defined.

(** :22-26 with the predicate of :30; [None] is the empty list *)
Fixpoint assp (u : nat) (s : sub) : option (nat * term) :=
  match s with
  | [] => None
  | (v, t) :: more => if u =? v then Some (v, t) else assp u more
  end.

(** :28-34 *)
Fixpoint walk (n : nat) (u : term) (s : sub) : option term :=
  match n with
  | O => None
  | S n' =>
      match u with
      | TVar x => match assp x s with None => Some u | Some (_, t) => walk n' t s end
      | _ => Some u
      end
  end.

(** :41-42 *)
Definition ext_s (x v : term) (s : sub) : sub :=
  match x with TVar k => (k, v) :: s | _ => s end.

(** :44-57: unify, with unify1 inlined; the empty list is the failure *)
Fixpoint unify (n : nat) (u v : term) (s : sub) : option sub :=
  match n with
  | O => None
  | S n' =>
      match walk n' u s, walk n' v s with
      | Some u1, Some v1 =>
          match u1, v1 with
          | TVar x, TVar y => if x =? y then Some s else Some (ext_s u1 v1 s)
          | TVar _, _ => Some (ext_s u1 v1 s)
          | _, TVar _ => Some (ext_s v1 u1 s)
          | TPair a1 a2, TPair b1 b2 =>
              match unify n' a1 b1 s with
              | Some s1 => match s1 with [] => Some [] | _ => unify n' a2 b2 s1 end
              | None => None
              end
          | TAtom a, TAtom b => if atom_eq_dec a b then Some s else Some []
          | _, _ => Some []
          end
      | _, _ => None
      end
  end.

(** a state: the substitution and the number of the next variable *)
Notation state := (sub * nat)%type.

(** A stream.  [Susp] is a closure without parameters: procedure? (:9-11) asks
    whether it is a list starting with the symbol lambda, which no closure is,
    so the rules of mplus, bind and pull for closures never apply. *)
Inductive stream := Stop | Next (st : state) (r : stream) | Susp (g : goal) (env : list term) (st : state).

Inductive answer := Crash | Good (s : stream).

(** :87-90 *)
Fixpoint mplus (x y : stream) : answer :=
  match x with
  | Stop => Good y
  | Susp _ _ _ => Crash
  | Next h t => match mplus t y with Good r => Good (Next h r) | Crash => Crash end
  end.

Fixpoint build (e : expr) (env : list term) : option term :=
  match e with
  | EV i => nth_error env i
  | EA a => Some (TAtom a)
  | EP x y => match build x env, build y env with Some a, Some b => Some (TPair a b) | _, _ => None end
  end.
Fixpoint build_all (es : list expr) (env : list term) : option (list term) :=
  match es with
  | [] => Some []
  | e :: r => match build e env, build_all r env with Some a, Some l => Some (a :: l) | _, _ => None end
  end.

Section Run.
  Variable defs : nat -> option goal.

  (** :92-95; [run] runs the second goal in a state *)
  Fixpoint bind (run : state -> option answer) (x : stream) : option answer :=
    match x with
    | Stop => Some (Good Stop)
    | Susp _ _ _ => Some Crash
    | Next h t =>
        match run h with
        | None => None
        | Some Crash => Some Crash
        | Some (Good a) =>
            match bind run t with
            | None => None
            | Some Crash => Some Crash
            | Some (Good b) => Some (mplus a b)
            end
        end
    end.

  (** a goal applied to a state: :58-65 (==), 67-73 (call/fresh), 75-77 (disj),
      79-81 (conj), 97-102 (Zzz) *)
  Fixpoint run (n : nat) (g : goal) (env : list term) (st : state) : option answer :=
    match n with
    | O => None
    | S n' =>
        match g with
        | GEq u v =>
            match build u env, build v env with
            | Some a, Some b =>
                match unify n' a b (fst st) with
                | Some s1 => Some (Good (match s1 with [] => Stop | _ => Next (s1, snd st) Stop end))
                | None => None
                end
            | _, _ => None
            end
        | GFresh b => run n' b (TVar (snd st) :: env) (fst st, snd st + 1)
        | GDisj g1 g2 =>
            match run n' g1 env st, run n' g2 env st with
            | Some (Good a), Some (Good b) => Some (mplus a b)
            | Some _, Some _ => Some Crash
            | _, _ => None
            end
        | GConj g1 g2 =>
            match run n' g1 env st with
            | Some (Good a) => bind (run n' g2 env) a
            | r => r
            end
        | GDelay b => Some (Good (Susp b env st))
        | GCall r es =>
            match build_all es env, defs r with
            | Some args, Some b => run n' b args st
            | _, _ => None
            end
        end
    end.
End Run.

(** :143-148 with pull, :138-141: [None] is the crash *)
Fixpoint take_all (x : stream) : option (list state) :=
  match x with
  | Stop => Some []
  | Next h t => match take_all t with Some l => Some (h :: l) | None => None end
  | Susp _ _ _ => None
  end.

(** :159-165 *)
Fixpoint walk_star (n : nat) (v : term) (s : sub) : option term :=
  match n with
  | O => None
  | S n' =>
      match walk n' v s with
      | None => None
      | Some (TPair h t) =>
          match walk_star n' h s, walk_star n' t s with Some a, Some b => Some (TPair a b) | _, _ => None end
      | Some u => Some u
      end
  end.

(** :182-184: the package calls string.append, which is not defined (the name is
    string-append); calling what is not a function ends the process *)
Definition reify_name (n : nat) : outcome term := Trap.

(** :173-180 *)
Fixpoint reify_s (n : nat) (v : term) (s : sub) : option (outcome sub) :=
  match n with
  | O => None
  | S n' =>
      match walk n' v s with
      | None => None
      | Some (TVar x) => Some (omap (fun nm => (x, nm) :: s) (reify_name (List.length s)))
      | Some (TPair h t) =>
          match reify_s n' h s with
          | Some (Ok s1) => reify_s n' t s1
          | r => r
          end
      | Some (TAtom _) => Some (Ok s)
      end
  end.

(** :169-171 *)
Definition reify_state (n : nat) (st : state) : option (outcome term) :=
  match walk_star n (TVar 0) (fst st) with
  | None => None
  | Some v =>
      match reify_s n v [] with
      | Some (Ok s) => option_map Ok (walk_star n v s)
      | Some Trap => Some Trap
      | Some UB => Some UB
      | None => None
      end
  end.
(** :166-167 *)
Fixpoint reify (n : nat) (l : list state) : option (outcome (list term)) :=
  match l with
  | [] => Some (Ok [])
  | st :: l' =>
      match reify_state n st with
      | Some (Ok t) => option_map (omap (cons t)) (reify n l')
      | Some Trap => Some Trap
      | Some UB => Some UB
      | None => None
      end
  end.
