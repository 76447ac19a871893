(** lib/infer.cora: type variables, unification and the type checker.

    Simplifications.
    - Types are int, bool, string, symbol, variables, functions without and
      with one argument, and lists: tuple, maybe, monad and what a program
      adds with deftype are left out.
    - A parameter, the variable of a let or the name in a set that is not a
      symbol binds nothing: it could never be looked up.
    - What is printed is left out.
    - [None] is fuel that has run out. *)
From Coq Require Import List ZArith Bool String Arith.
From Verif Require Import CoreSpec InferSpec.
Import ListNotations.
Local Open Scope list_scope.
Local Open Scope nat_scope.

Definition subst := list (nat * ty).

(** (assq v s) on numbers *)
Fixpoint assv (v : nat) (s : subst) : option ty :=
  match s with
  | [] => None
  | (w, t) :: r => if v =? w then Some t else assv v r
  end.

(** (= x y) on types *)
Definition ty_eq_dec (a b : ty) : {a = b} + {a <> b}.
Proof. decide equality. apply Nat.eq_dec. Defined.

(** infer.cora:53-61, whose first argument is always a number *)
Fixpoint occur (v : nat) (t : ty) : bool :=
  match t with
  | TArr a b => occur v a || occur v b   (* :59 *)
  | TVar w => v =? w                     (* :61 *)
  | _ => false                           (* :61 *)
  end.

(** infer.cora:63-74 *)
Fixpoint apply_subst (n : nat) (t : ty) (s : subst) : option ty :=
  match n with
  | O => None
  | S k =>
      match t with
      | TInt | TBool | TString | TSymbol => Some t
      | TThunk a => match apply_subst k a s with Some a' => Some (TThunk a') | None => None end
      | TArr a b =>
          match apply_subst k a s, apply_subst k b s with
          | Some a', Some b' => Some (TArr a' b')
          | _, _ => None
          end
      | TList a => match apply_subst k a s with Some a' => Some (TList a') | None => None end
      | TVar v => match assv v s with None => Some t | Some u => apply_subst k u s end
      end
  end.

(** ['fail] and ['succ s] *)
Inductive ures := Fail | Succ (s : subst).

Definition number (t : ty) : option nat := match t with TVar v => Some v | _ => None end.
Definition may_bind (x y : ty) : option nat :=
  match number x with Some v => if occur v y then None else Some v | None => None end.

(** infer.cora:43-51; [rec] is unify *)
Definition unify1 (rec : ty -> ty -> subst -> option ures) (x y : ty) (s : subst) : option ures :=
  if ty_eq_dec x y then Some (Succ s)
  else match may_bind x y with
  | Some v => Some (Succ ((v, y) :: s))
  | None =>
  match may_bind y x with
  | Some v => Some (Succ ((v, x) :: s))
  | None =>
  match x, y with
  | TThunk a, TThunk b => rec a b s
  | TArr a b, TArr c d =>
      match rec a c s with                     (* bind-s, :39-41 *)
      | Some (Succ s1) => rec b d s1
      | r => r
      end
  | TList a, TList b => rec a b s
  | _, _ => Some Fail
  end end end.

(** infer.cora:36-37 *)
Fixpoint unify (n : nat) (x y : ty) (s : subst) : option ures :=
  match n with
  | O => None
  | S k =>
      match apply_subst k x s, apply_subst k y s with
      | Some x', Some y' => unify1 (unify k) x' y' s
      | _, _ => None
      end
  end.

(** *tvar* (:22) and *type-env* (:28) *)
Record state := mkSt { next : nat; tenv : list (name * ty) }.
Definition tvar (st : state) : nat * state := (next st, mkSt (S (next st)) (tenv st)).
Definition answer := option (ures * state).

(** infer.cora:39-41 *)
Definition bind_s (r : answer) (f : subst -> state -> answer) : answer :=
  match r with
  | Some (Succ s, st) => f s st
  | r => r
  end.
Definition pure (r : option ures) (st : state) : answer := match r with Some u => Some (u, st) | None => None end.

(** infer.cora:76-77 *)
Definition extend (env : list (name * ty)) (x : sexp) (t : ty) : list (name * ty) :=
  match x with SSym v => (v, t) :: env | _ => env end.

(** infer.cora:143-146 *)
Definition forget (a b : nat) (s : subst) : subst :=
  filter (fun p => negb ((fst p =? a) || (fst p =? b))) s.

Definition lam1 (x e : sexp) : sexp := SCons (SSym (NS "lambda")) (SCons (SCons x SNil) (SCons e SNil)).
Definition lam (ps e : sexp) : sexp := SCons (SSym (NS "lambda")) (SCons ps (SCons e SNil)).

(** [check_type n false] is check-type (infer.cora:154-160) with the rule for
    lists (:162-167), [check_type n true] is check-type-h (:95-148), in the
    order of the clauses. *)
Fixpoint check_type (n : nat) (h : bool) (e : sexp) (t : ty) (env : list (name * ty)) (s : subst) (st : state) : answer :=
  match n with
  | O => None
  | S k =>
      let chk := check_type k false in
      let chkh := check_type k true in
      if negb h then
        match t with
        | TList a =>
            match slist e with
            | Some [] => Some (Succ s, st)                                             (* :163 *)
            | Some [c; x; y] =>                                                        (* :164-166 *)
                if is_sym "cons" c then bind_s (chk x a env s st) (fun s1 st => chk y (TList a) env s1 st)
                else chkh e t env s st
            | _ => chkh e t env s st                                                   (* :167 *)
            end
        | _ => chkh e t env s st
        end
      else
        match e with
        | SNum _ => pure (unify k TInt t s) st                                         (* :97 *)
        | STrue | SFalse => pure (unify k TBool t s) st                                (* :98 *)
        | SStr _ => pure (unify k TString t s) st                                      (* :99 *)
        | SNil => match t with TVar _ => Some (Succ s, st) | _ => Some (Fail, st) end  (* :96, :148 *)
        | SSym x =>                                                                    (* :101-111 *)
            match lookup x env with
            | Some u => pure (unify k u t s) st
            | None => match lookup x (tenv st) with Some u => pure (unify k u t s) st | None => Some (Succ s, st) end
            end
        | SCons _ _ =>
            match slist e with
            | None => Some (Fail, st)
            | Some l =>
                let app (_ : unit) :=
                  match l with
                  | [f] => chkh f (TThunk t) env s st                                  (* :135 *)
                  | [f; x] =>                                                          (* :136-146 *)
                      let (a, st) := tvar st in
                      let (b, st) := tvar st in
                      bind_s (chkh f (TArr (TVar a) (TVar b)) env s st) (fun s1 st =>
                        match apply_subst k (TVar a) s1 with
                        | None => None
                        | Some ta =>
                            bind_s (chk x ta env s1 st) (fun s2 st =>
                              bind_s (pure (unify k t (TVar b) s2) st) (fun s3 st => Some (Succ (forget a b s3), st)))
                        end)
                  | f :: x :: more =>                                                  (* :147 *)
                      chk (SCons (SCons f (SCons x SNil)) (fold_right SCons SNil more)) t env s st
                  | [] => Some (Fail, st)
                  end in
                match l with
                | [q; x] => if is_sym "quote" q then pure (unify k TSymbol t s) st else app tt          (* :100 *)
                | [i; e1; e2; e3] =>
                    if is_sym "if" i then                                              (* :112-116 *)
                      bind_s (chkh e1 TBool env s st) (fun s1 st =>
                        bind_s (chk e2 t env s1 st) (fun s2 st => chk e3 t env s2 st))
                    else if is_sym "let" i then                                        (* :130-133 *)
                      let (tb, st) := tvar st in
                      bind_s (chk e2 (TVar tb) env s st) (fun s1 st => chk e3 t (extend env e1 (TVar tb)) s1 st)
                    else app tt
                | [i; e1; e2] =>
                    if is_sym "do" i then                                              (* :117-119 *)
                      let (u, st) := tvar st in
                      bind_s (chkh e1 (TVar u) env s st) (fun _ st => chkh e2 t env s st)
                    else if is_sym "lambda" i then
                      match e1 with
                      | SNil =>                                                        (* :120-123 *)
                          let (a, st) := tvar st in
                          bind_s (chk e2 (TVar a) env s st) (fun s1 st => pure (unify k t (TThunk (TVar a)) s1) st)
                      | SCons x SNil =>                                                (* :124-128 *)
                          let (tx, st) := tvar st in
                          let (te, st) := tvar st in
                          bind_s (chk e2 (TVar te) (extend env x (TVar tx)) s st) (fun s1 st =>
                            pure (unify k t (TArr (TVar tx) (TVar te)) s1) st)
                      | SCons x more => chk (lam1 x (lam more e2)) t env s st          (* :129 *)
                      | _ => app tt
                      end
                    else if is_sym "set" i then
                      match slist e1 with
                      | Some [q; x] =>                                                 (* :134, :81-93 *)
                          if is_sym "quote" q then
                            match match x with SSym v => lookup v (tenv st) | _ => None end with
                            | Some u => chk e2 u env s st
                            | None =>
                                let (u, st) := tvar st in
                                match chk e2 (TVar u) (tenv st) [] st with
                                | Some (Succ s1, st1) =>
                                    match apply_subst k (TVar u) s1 with
                                    | Some tu => Some (Succ s1, mkSt (next st1) (extend (tenv st1) x tu))
                                    | None => None
                                    end
                                | r => r
                                end
                            end
                          else app tt
                      | _ => app tt
                      end
                    else app tt
                | _ => app tt
                end
            end
        end
  end.

(** infer.cora:210-219; [None] inside is the error *)
Definition check_type_bang (n : nat) (e : sexp) (t : ty) (st : state) : option (option subst * state) :=
  match check_type n false e t [] [] st with
  | Some (Succ s, st1) => Some (Some s, st1)
  | Some (Fail, st1) => Some (None, st1)
  | None => None
  end.
