(** lib/peval.cora: the partial evaluator that runs after macro expansion and
    renaming (init.cora:307-312 and lib/peval.cora:129).

    Simplifications.
    - A run-time error of the partial evaluator (a match failure, an arithmetic
      error) and lack of fuel are [None].
    - Numbers and strings are compared by value, lists by structure.
    - The environment is a Coq list of pairs; its keys are expressions, as in
      the code, where (let 5 e b) puts the key 5 into it. *)
From Coq Require Import List ZArith Bool String Arith.
From Verif Require Import CoreSpec TocModel.
Import ListNotations.
Local Open Scope list_scope.
Local Open Scope nat_scope.

Notation penv := (list (sexp * sexp)).

(** lib/peval.cora:5-7 *)
Definition const_symbol (x : sexp) : bool :=
  match x with SCons a _ => is_sym "quote" a | _ => false end.

(** lib/peval.cora:9-14 *)
Definition const (x : sexp) : bool :=
  match x with
  | SNil | STrue | SFalse | SNum _ | SStr _ => true
  | SSym _ => false
  | SCons _ _ => const_symbol x
  end.

(** lib/peval.cora:16-20 *)
Fixpoint const_list (e : sexp) : bool :=
  match e with
  | SCons h (SCons x (SCons more SNil)) =>
      is_sym "cons" h && (const x && (sexp_eqb more SNil || const_list more))
  | _ => false
  end.

(** lib/peval.cora:22-24 *)
Fixpoint const_list_length (e : sexp) : option nat :=
  match e with
  | SCons h (SCons _ (SCons more SNil)) =>
      if is_sym "cons" h then
        if sexp_eqb more SNil then Some 1
        else match const_list_length more with Some k => Some (S k) | None => None end
      else None
  | _ => None
  end.

(** lib/sys.cora:32-35 *)
Fixpoint member (x l : sexp) : option bool :=
  match l with
  | SNil => Some false
  | SCons y z => if sexp_eqb x y then Some true else member x z
  | _ => None
  end.

(** lib/peval.cora:26-29 with filter, init.cora:265-273 *)
Fixpoint shrink_env (params : sexp) (env : penv) : option penv :=
  match env with
  | [] => Some []
  | (x, e) :: r =>
      match member x params, shrink_env params r with
      | Some b, Some r' => Some (if b then r' else (x, e) :: r')
      | _, _ => None
      end
  end.

(** lib/sys.cora:17-20 *)
Fixpoint assq (x : sexp) (env : penv) : option sexp :=
  match env with
  | [] => None
  | (y, e) :: r => if sexp_eqb x y then Some e else assq x r
  end.

(** init.cora:27-32: the tail of an improper list is dropped *)
Section Map.
  Variable f : sexp -> option sexp.
  Fixpoint pmap (l : sexp) : option (list sexp) :=
    match l with
    | SCons a d =>
        match f a with
        | Some a' => match pmap d with Some r => Some (a' :: r) | None => None end
        | None => None
        end
    | _ => Some []
    end.
End Map.

(** lib/peval.cora:52-67; the sum over an application is the foldl of
    lib/sys.cora:22-24 *)
Fixpoint ref_count (n : nat) (x e : sexp) : option nat :=
  match n with
  | O => None
  | S n' =>
      if const e || const_list e then Some 0
      else
        match e with
        | SCons h r =>
            let plus a b := match a, b with Some i, Some j => Some (i + j) | _, _ => None end in
            let sum := fix sum (l : sexp) : option nat :=
              match l with
              | SNil => Some 0
              | SCons a d => plus (ref_count n' x a) (sum d)
              | _ => None
              end in
            if is_sym "if" h then
              match slist r with Some [a; b; c] => plus (ref_count n' x a) (plus (ref_count n' x b) (ref_count n' x c)) | _ => sum e end
            else if is_sym "do" h then
              match slist r with Some [a; b] => plus (ref_count n' x a) (ref_count n' x b) | _ => sum e end
            else if is_sym "let" h then
              match slist r with
              | Some [v; b; c] => plus (ref_count n' x b) (if sexp_eqb v x then Some 0 else ref_count n' x c)
              | _ => sum e
              end
            else if is_sym "lambda" h then
              match slist r with
              | Some [ps; b] =>
                  match member x ps with Some true => Some 0 | Some false => ref_count n' x b | None => None end
              | _ => sum e
              end
            else sum e
        | _ => Some (if sexp_eqb x e then 1 else 0)
        end
  end.

(** lib/peval.cora:69-72 *)
Definition is_lambda (e : sexp) : bool := match e with SCons h _ => is_sym "lambda" h | _ => false end.
Definition side_effect_free (e : sexp) : bool := is_lambda e || const e || const_list e.

(** init.cora:275-278 *)
Fixpoint append_sexp (l : list sexp) (d : sexp) : sexp :=
  match l with [] => d | a :: r => SCons a (append_sexp r d) end.

(** lib/peval.cora:89-97 *)
Fixpoint extend_env_h (retp reta : list sexp) (params : sexp) (args : list sexp) (env : penv) {struct args}
  : option (sexp * list sexp * penv) :=
  match params, args with
  | SCons p ps, a :: r =>
      if const a || const_list a then extend_env_h retp reta ps r ((p, a) :: env)
      else extend_env_h (p :: retp) (a :: reta) ps r env
  | SNil, _ => Some (of_list (rev retp), rev reta ++ args, env)
  | _, [] => Some (append_sexp (rev retp) params, rev reta, env)
  | _, _ => None
  end.
Definition extend_env := extend_env_h [] [].

(** lib/peval.cora:99-102 *)
Definition peval_apply_lambda (params : sexp) (args : list sexp) (body : sexp) : sexp :=
  match params, args with
  | SNil, [] => body
  | _, [] => of_list [ssym "lambda"; params; body]
  | _, _ => SCons (of_list [ssym "lambda"; params; body]) (of_list args)
  end.

Section Peval.
  Variable ar : arith.

  (** lib/peval.cora:105-115: the clauses that do not call peval *)
  Definition fold_app (l : list sexp) : option (option sexp) :=
    let cell e := match slist e with Some [h; a; d] => if is_sym "cons" h then Some (a, d) else None | _ => None end in
    match l with
    | [f; e] =>
        if is_sym "cons?" f then match cell e with Some _ => Some (Some STrue) | None => None end
        else if is_sym "car" f then match cell e with Some (a, _) => Some (Some a) | None => None end
        else if is_sym "cdr" f then match cell e with Some (_, d) => Some (Some d) | None => None end
        else if is_sym "null?" f then
          if sexp_eqb e SNil then Some (Some STrue) else match cell e with Some _ => Some (Some SFalse) | None => None end
        else if is_sym "not" f then
          if sexp_eqb e STrue then Some (Some SFalse) else if sexp_eqb e SFalse then Some (Some STrue) else None
        else None
    | [f; a; b] =>
        if is_sym "and" f then if sexp_eqb a STrue && sexp_eqb b STrue then Some (Some STrue) else None
        else if is_sym "+" f then
          match a, b with
          | SNum x, SNum y => Some (match ar PAdd x y with Some z => Some (SNum z) | None => None end)
          | _, _ => None
          end
        else if is_sym "-" f then
          match a, b with
          | SNum x, SNum y => Some (match ar PSub x y with Some z => Some (SNum z) | None => None end)
          | _, _ => None
          end
        else None
    | _ => None
    end.

  (** lib/peval.cora:31-50 (peval), 74-86 (peval-let), 104-121 (peval-app).
      [n] bounds the depth of the recursion. *)
  Fixpoint peval (n : nat) (env : penv) (e : sexp) : option sexp :=
    match n with
    | O => None
    | S n' =>
        let ev := peval n' in
        let let_ v b c :=
          if const b || match b with SSym _ => true | _ => false end
             || (const_list b && match const_list_length b with Some k => k <? 3 | None => false end)
          then ev ((v, b) :: env) c
          else
            match ref_count n' v c with
            | None => None
            | Some refs =>
                let safe := side_effect_free b in
                if refs =? 0 then
                  if safe then ev env c
                  else match ev env c with Some c' => Some (of_list [ssym "do"; b; c']) | None => None end
                else if (refs =? 1) && safe then ev ((v, b) :: env) c
                else
                  match shrink_env (of_list [v]) env with
                  | Some env' => match ev env' c with Some c' => Some (of_list [ssym "let"; v; b; c']) | None => None end
                  | None => None
                  end
            end in
        let app l :=
          match fold_app l with
          | Some r => r
          | None =>
              match l with
              | f :: args =>
                  match slist f with
                  | Some [h; params; body] =>
                      if is_sym "lambda" h then
                        match extend_env params args env with
                        | Some (params1, args1, env1) =>
                            match shrink_env params1 env1 with
                            | Some env2 =>
                                match ev env2 body with
                                | Some body1 => Some (peval_apply_lambda params1 args1 body1)
                                | None => None
                                end
                            | None => None
                            end
                        | None => None
                        end
                      else Some (of_list l)
                  | _ => Some (of_list l)
                  end
              | [] => Some (of_list l)
              end
          end in
        match e with
        | SSym _ => Some (match assq e env with Some s => s | None => e end)
        | SCons h r =>
            let whole := match pmap (ev env) e with Some l => app l | None => None end in
            if is_sym "quote" h then match slist r with Some [_] => Some e | _ => whole end
            else if is_sym "if" h then
              match slist r with
              | Some [a; b; c] =>
                  match ev env a with
                  | None => None
                  | Some v =>
                      if sexp_eqb v STrue then ev env b
                      else if sexp_eqb v SFalse then ev env c
                      else
                        match ev env b, ev env c with
                        | Some b', Some c' => Some (of_list [ssym "if"; v; b'; c'])
                        | _, _ => None
                        end
                  end
              | _ => whole
              end
            else if is_sym "do" h then
              match slist r with
              | Some [a; b] =>
                  match ev env a with
                  | None => None
                  | Some a1 =>
                      match ev env b with
                      | None => None
                      | Some b1 => Some (if is_lambda a1 then b1 else of_list [ssym "do"; a1; b1])
                      end
                  end
              | _ => whole
              end
            else if is_sym "lambda" h then
              match slist r with
              | Some [ps; b] =>
                  match shrink_env ps env with
                  | Some env' => match ev env' b with Some b' => Some (of_list [ssym "lambda"; ps; b']) | None => None end
                  | None => None
                  end
              | _ => whole
              end
            else if is_sym "let" h then
              match slist r with
              | Some [v; b; c] => match ev env b with Some b' => let_ v b' c | None => None end
              | _ => whole
              end
            else whole
        | _ => Some e
        end
    end.
End Peval.
