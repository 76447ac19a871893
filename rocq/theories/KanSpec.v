(** What a goal of lib/ukanren.cora means: a relation on finite data.  There is
    no search and no substitution here. *)
From Coq Require Import List ZArith String.
Import ListNotations.
Local Open Scope list_scope.
Local Open Scope nat_scope.

Inductive atom := ANum (z : Z) | ASym (s : string) | AStr (s : string) | ATrue | AFalse | ANil.

(** finite data *)
Inductive datum := DAtom (a : atom) | DPair (x y : datum).

(** Terms as a program writes them; [EV i] is the variable bound by the i-th
    enclosing call/fresh or parameter, innermost first. *)
Inductive expr := EV (i : nat) | EA (a : atom) | EP (x y : expr).

(** Goals.  [GDelay g] is (lambda (s) (lambda () (g s))), which conj+, disj+ and
    fresh put around every goal; [GCall r es] calls the relation number [r]. *)
Inductive goal :=
| GEq (u v : expr) | GFresh (g : goal) | GConj (g1 g2 : goal) | GDisj (g1 g2 : goal)
| GDelay (g : goal) | GCall (r : nat) (es : list expr).

Fixpoint den (e : expr) (rho : list datum) : option datum :=
  match e with
  | EV i => nth_error rho i
  | EA a => Some (DAtom a)
  | EP x y => match den x rho, den y rho with Some a, Some b => Some (DPair a b) | _, _ => None end
  end.

(** [means defs rho g]: the goal holds when its variables stand for [rho] *)
Inductive means (defs : nat -> option goal) : list datum -> goal -> Prop :=
| m_eq rho u v d : den u rho = Some d -> den v rho = Some d -> means defs rho (GEq u v)
| m_fresh rho g d : means defs (d :: rho) g -> means defs rho (GFresh g)
| m_conj rho g1 g2 : means defs rho g1 -> means defs rho g2 -> means defs rho (GConj g1 g2)
| m_left rho g1 g2 : means defs rho g1 -> means defs rho (GDisj g1 g2)
| m_right rho g1 g2 : means defs rho g2 -> means defs rho (GDisj g1 g2)
| m_delay rho g : means defs rho g -> means defs rho (GDelay g)
| m_call rho r es ds b : Forall2 (fun e d => den e rho = Some d) es ds -> defs r = Some b -> means defs ds b ->
    means defs rho (GCall r es).
