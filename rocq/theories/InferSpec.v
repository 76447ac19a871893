(** Types and simple typing, the yardstick for lib/infer.cora (C56, C57).
    Written from the usual rules; there are no substitutions here. *)
From Coq Require Import List ZArith Bool String Arith.
From Verif Require Import CoreSpec.
Import ListNotations.
Local Open Scope list_scope.
Local Open Scope nat_scope.

(** Types without variables: those of values, functions without arguments,
    functions of one argument, lists. *)
Inductive sty := KInt | KBool | KString | KSymbol | KThunk (a : sty) | KArr (a b : sty) | KList (a : sty).

(** Types with numbered variables, and their instances. *)
Inductive ty := TInt | TBool | TString | TSymbol | TVar (v : nat) | TThunk (a : ty) | TArr (a b : ty) | TList (a : ty).
Fixpoint inst (th : nat -> sty) (t : ty) : sty :=
  match t with
  | TInt => KInt | TBool => KBool | TString => KString | TSymbol => KSymbol
  | TVar v => th v
  | TThunk a => KThunk (inst th a)
  | TArr a b => KArr (inst th a) (inst th b)
  | TList a => KList (inst th a)
  end.

(** An assignment of types to variables solves a list of equations. *)
Definition solves (th : nat -> sty) (s : list (nat * ty)) : Prop := forall v t, In (v, t) s -> th v = inst th t.

Definition keyword (e : sexp) : bool :=
  existsb (fun k => is_sym k e) ["quote"; "if"; "do"; "lambda"; "let"; "set"]%string.

(** [typed D g e T]: [D] are the types of the declared names, one for each,
    [g] those of the local variables. *)
Section Typing.
  Context (D : list (name * sty)).
  Local Notation S s := (SSym (NS s)).
  Local Notation "'L' l" := (fold_right SCons SNil l) (at level 9, l at level 0).
  Inductive typed : list (name * sty) -> sexp -> sty -> Prop :=
  | t_num g z : typed g (SNum z) KInt
  | t_true g : typed g STrue KBool
  | t_false g : typed g SFalse KBool
  | t_str g s : typed g (SStr s) KString
  | t_quote g x : typed g (L [S "quote"; SSym x]) KSymbol
  | t_nil g a : typed g SNil (KList a)
  | t_local g x a : lookup x g = Some a -> typed g (SSym x) a
  | t_declared g x a : lookup x g = None -> lookup x D = Some a -> typed g (SSym x) a
  | t_if g e1 e2 e3 a : typed g e1 KBool -> typed g e2 a -> typed g e3 a -> typed g (L [S "if"; e1; e2; e3]) a
  | t_do g e1 e2 a b : typed g e1 a -> typed g e2 b -> typed g (L [S "do"; e1; e2]) b
  | t_let g x e1 e2 a b : typed g e1 a -> typed ((x, a) :: g) e2 b -> typed g (L [S "let"; SSym x; e1; e2]) b
  | t_thunk g e a : typed g e a -> typed g (L [S "lambda"; SNil; e]) (KThunk a)
  | t_lam g x e a b : typed ((x, a) :: g) e b -> typed g (L [S "lambda"; L [SSym x]; e]) (KArr a b)
  | t_lams g x y ps e a b : typed ((x, a) :: g) (L [S "lambda"; SCons (SSym y) ps; e]) b ->
      typed g (L [S "lambda"; SCons (SSym x) (SCons (SSym y) ps); e]) (KArr a b)
  | t_force g f a : keyword f = false -> typed g f (KThunk a) -> typed g (L [f]) a
  | t_app g f x a b : keyword f = false -> typed g f (KArr a b) -> typed g x a -> typed g (L [f; x]) b
  | t_apps g f x y l b : keyword f = false -> typed g (SCons (L [f; x]) (SCons y (L l))) b -> typed g (SCons f (SCons x (SCons y (L l)))) b.
End Typing.

(** * Equations as unification leaves them: each variable once, and what it
    stands for mentions only variables bound later in time *)
Fixpoint vars (t : ty) : list nat :=
  match t with
  | TVar v => [v]
  | TThunk a | TList a => vars a
  | TArr a b => vars a ++ vars b
  | _ => []
  end.
Definition keys (s : list (nat * ty)) : list nat := map fst s.
Fixpoint tri (s : list (nat * ty)) : Prop :=
  match s with
  | [] => True
  | (v, t) :: r => tri r /\ ~ In v (keys r) /\ forall w, In w (vars t) -> w <> v /\ ~ In w (keys r)
  end.

(** types without lists and without functions of no argument *)
Fixpoint arrows (t : ty) : bool :=
  match t with TThunk _ | TList _ => false | TArr a b => arrows a && arrows b | _ => true end.
Definition sarrows (s : list (nat * ty)) : Prop := forall v t, In (v, t) s -> arrows t = true.

(** * Side conditions of C57 *)
(** the variables of a type are below a number *)
Definition below (n : nat) (t : ty) : Prop := forall v, In v (vars t) -> v < n.
Definition ebelow (n : nat) (env : list (name * ty)) : Prop := forall x t, In (x, t) env -> below n t.
Definition tinst (th : nat -> sty) (env : list (name * ty)) : list (name * sty) := map (fun p => (fst p, inst th (snd p))) env.
Fixpoint cells (e : sexp) : list sexp := match e with SCons a d => a :: cells d | _ => [] end.
(** no [(do e ())] and no local variable named cons, here *)
Definition bad (e : sexp) : bool :=
  match e with
  | SCons h (SCons a (SCons b _)) =>
      (is_sym "do" h && match b with SNil => true | _ => false end)
      || (is_sym "let" h && is_sym "cons" a)
      || (is_sym "lambda" h && existsb (is_sym "cons") (cells a))
  | _ => false
  end.
Fixpoint fine (e : sexp) : bool :=
  match e with SCons a d => negb (bad e) && fine a && fine d | _ => true end.


Definition earrows (env : list (name * ty)) : Prop := forall x u, In (x, u) env -> arrows u = true.

(** First-order expressions, of the names declared in [D] and the locals [xs]:
    only declared names of a type without variables are called. [FCall] are
    the calls, and the names, that stand in the place of a function. With
    [thunks] false there are no functions of no argument. *)
Inductive mode := FExp | FCall.
Section FirstOrder.
  Context (D : list (name * ty)) (thunks : bool).
  Local Notation S s := (SSym (NS s)).
  Local Notation "'L' l" := (fold_right SCons SNil l) (at level 9, l at level 0).
  Inductive fo : mode -> list name -> sexp -> Prop :=
  | fo_num xs z : fo FExp xs (SNum z)
  | fo_true xs : fo FExp xs STrue
  | fo_false xs : fo FExp xs SFalse
  | fo_str xs s : fo FExp xs (SStr s)
  | fo_quote xs x : fo FExp xs (L [S "quote"; SSym x])
  | fo_var xs x : In x xs \/ (exists t, lookup x D = Some t) -> fo FExp xs (SSym x)
  | fo_if xs e1 e2 e3 : fo FExp xs e1 -> fo FExp xs e2 -> fo FExp xs e3 -> fo FExp xs (L [S "if"; e1; e2; e3])
  | fo_let xs x e1 e2 : fo FExp xs e1 -> fo FExp (x :: xs) e2 -> fo FExp xs (L [S "let"; SSym x; e1; e2])
  | fo_thunk xs e : thunks = true -> fo FExp xs e -> fo FExp xs (L [S "lambda"; SNil; e])
  | fo_lam xs x e : fo FExp (x :: xs) e -> fo FExp xs (L [S "lambda"; L [SSym x]; e])
  | fo_lams xs x y ps e : fo FExp (x :: xs) (L [S "lambda"; SCons (SSym y) ps; e]) ->
      fo FExp xs (L [S "lambda"; SCons (SSym x) (SCons (SSym y) ps); e])
  | fo_head xs f t : ~ In f xs -> lookup f D = Some t -> vars t = [] -> keyword (SSym f) = false -> f <> NS "cons" -> fo FCall xs (SSym f)
  | fo_force xs f : thunks = true -> fo FCall xs f -> fo FExp xs (L [f])
  | fo_call xs m f x : fo FCall xs f -> fo FExp xs x -> fo m xs (L [f; x])
  | fo_calls xs f x y l : keyword f = false -> f <> S "cons" -> fo FExp xs (SCons (L [f; x]) (SCons y (L l))) ->
      fo FExp xs (SCons f (SCons x (SCons y (L l)))).
End FirstOrder.
