(** What expanding an expression means, as rules, for any macros. *)
From Coq Require Import List ZArith String.
From Verif Require Import CoreSpec.
Import ListNotations.
Local Open Scope list_scope.

Section Rules.
  Context {St : Type}.
  Definition mac := sexp -> St -> option (sexp * St).
  (** the macros defined in a state, the newest first *)
  Context (defs : St -> list (sexp * mac)).

  (** the symbol that protects what follows it: the first one gensym makes *)
  Definition mark : sexp := SSym (NG 0).

  Definition atom (e : sexp) : Prop := forall a d, e <> SCons a d.

  (** [f] is the newest definition of [k] *)
  Definition newest (l : list (sexp * mac)) (k : sexp) (f : mac) : Prop :=
    exists l1 l2, l = l1 ++ (k, f) :: l2 /\ ~ In k (map fst l1).

  Definition special (h : sexp) : Prop := h = mark \/ h = SSym (NS "lambda") \/ h = SSym (NS "quote").

  (** [Exp e s e' s']: [e] in state [s] expands to [e'], leaving state [s'] *)
  Inductive Exp : sexp -> St -> sexp -> St -> Prop :=
  | X_atom : forall e s, atom e -> Exp e s e s
  | X_mark : forall t s, Exp (SCons mark t) s t s
  | X_quote : forall t s,
      Exp (SCons (SSym (NS "quote")) t) s (SCons (SSym (NS "quote")) t) s
  | X_lambda : forall ps b more s b' s', Exp b s b' s' ->
      Exp (SCons (SSym (NS "lambda")) (SCons ps (SCons b more))) s
          (SCons (SSym (NS "lambda")) (SCons ps (SCons b' SNil))) s'
  | X_macro : forall h t s f e1 s1 e' s', ~ special h -> newest (defs s) h f ->
      f (SCons h t) s = Some (e1, s1) -> e1 <> SCons h t -> Exp e1 s1 e' s' -> Exp (SCons h t) s e' s'
  | X_same : forall h t s f s1 e' s', ~ special h -> newest (defs s) h f ->
      f (SCons h t) s = Some (SCons h t, s1) -> Exps (SCons h t) s1 e' s' -> Exp (SCons h t) s e' s'
  | X_form : forall h t s e' s', ~ special h -> ~ In h (map fst (defs s)) ->
      Exps (SCons h t) s e' s' -> Exp (SCons h t) s e' s'
  (** the elements one after the other; what follows the last dot is dropped *)
  with Exps : sexp -> St -> sexp -> St -> Prop :=
  | Xs_end : forall e s, atom e -> Exps e s SNil s
  | Xs_cons : forall a d s a' s1 d' s', Exp a s a' s1 -> Exps d s1 d' s' -> Exps (SCons a d) s (SCons a' d') s'.

  (** An expression in which nothing is left to expand with the macros [l]. *)
  Inductive Expanded (l : list (sexp * mac)) : sexp -> Prop :=
  | E_atom : forall e, atom e -> Expanded l e
  | E_quote : forall t, Expanded l (SCons (SSym (NS "quote")) t)
  | E_lambda : forall ps b, Expanded l b ->
      Expanded l (SCons (SSym (NS "lambda")) (SCons ps (SCons b SNil)))
  | E_form : forall h t, ~ special h -> ~ In h (map fst l) -> Expanded_list l (SCons h t) -> Expanded l (SCons h t)
  with Expanded_list (l : list (sexp * mac)) : sexp -> Prop :=
  | El_nil : Expanded_list l SNil
  | El_cons : forall a d, Expanded l a -> Expanded_list l d -> Expanded_list l (SCons a d).
End Rules.

(** [k] is no part of [e] *)
Fixpoint without (k e : sexp) : Prop :=
  e <> k /\ match e with SCons a d => without k a /\ without k d | _ => True end.
