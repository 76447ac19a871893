(** Expressions of the core language as a data type, substitution, and the runs
    of the partial evaluator that C42 speaks about.

    [careful] follows lib/peval.cora clause by clause, but gives up ([None])
    where the code goes on although a condition that makes the step meaningful
    fails: a substituted variable would be captured or is not local, a dropped
    operand might have an effect, a primitive's name is a local variable, a
    function that is called on the spot gets too few arguments, the second pass
    over the body of such a function meets a variable that the first one has
    already replaced. *)
From Coq Require Import List ZArith Bool String Arith.
From Verif Require Import CoreSpec TocModel.
Import ListNotations.
Local Open Scope list_scope.
Local Open Scope nat_scope.

Inductive cx :=
| KC (s : sexp) | KQ (s : sexp) | KV (x : name) | KL (ps : list name) (b : cx)
| KI (a b c : cx) | KD (a b : cx) | KT (x : name) (b c : cx) | KA (f : cx) (args : list cx).

Definition cx_eq_dec : forall a b : cx, {a = b} + {a <> b}.
Proof.
  assert (N : forall x y : name, {x = y} + {x <> y}) by (decide equality; [apply string_dec|apply Nat.eq_dec]).
  assert (X : forall x y : sexp, {x = y} + {x <> y}) by (decide equality; [apply Z.eq_dec|apply string_dec]).
  fix IH 1. decide equality; apply list_eq_dec; assumption.
Defined.
Definition cx_eqb (a b : cx) : bool := if cx_eq_dec a b then true else false.

(** the expression as the partial evaluator sees it *)
Fixpoint show (e : cx) : sexp :=
  match e with
  | KC s => s
  | KQ s => of_list [ssym "quote"; s]
  | KV x => SSym x
  | KL ps b => of_list [ssym "lambda"; of_list (map SSym ps); show b]
  | KI a b c => of_list [ssym "if"; show a; show b; show c]
  | KD a b => of_list [ssym "do"; show a; show b]
  | KT x b c => of_list [ssym "let"; SSym x; show b; show c]
  | KA f args => SCons (show f) (of_list (map show args))
  end.

(** no keyword is called, and a constant is no list *)
Definition keyword (x : name) : bool :=
  existsb (name_eqb x) [NS "quote"; NS "lambda"; NS "if"; NS "do"; NS "let"].
Definition headok (f : cx) : bool := match f with KV x => negb (keyword x) | _ => true end.
Fixpoint wf (e : cx) : bool :=
  match e with
  | KC s => match s with SSym _ | SCons _ _ => false | _ => true end
  | KQ _ | KV _ => true
  | KL _ b => wf b
  | KI a b c => wf a && wf b && wf c
  | KD a b => wf a && wf b
  | KT _ b c => wf b && wf c
  | KA f args => headok f && wf f && forallb wf args
  end.

(** * Free variables and substitution *)
Definition mem (x : name) (l : list name) : bool := existsb (name_eqb x) l.
Definition remove_all (ps l : list name) : list name := filter (fun x => negb (mem x ps)) l.
Fixpoint fv (e : cx) : list name :=
  match e with
  | KC _ | KQ _ => []
  | KV x => [x]
  | KL ps b => remove_all ps (fv b)
  | KI a b c => fv a ++ fv b ++ fv c
  | KD a b => fv a ++ fv b
  | KT x b c => fv b ++ remove_all [x] (fv c)
  | KA f args => fv f ++ flat_map fv args
  end.

Notation csub := (list (name * cx)).
Definition minus (ps : list name) (s : csub) : csub := filter (fun '(x, _) => negb (mem x ps)) s.
Fixpoint subst (s : csub) (e : cx) : cx :=
  match e with
  | KC _ | KQ _ => e
  | KV x => match lookup x s with Some r => r | None => e end
  | KL ps b => KL ps (subst (minus ps s) b)
  | KI a b c => KI (subst s a) (subst s b) (subst s c)
  | KD a b => KD (subst s a) (subst s b)
  | KT x b c => KT x (subst s b) (subst (minus [x] s) c)
  | KA f args => KA (subst s f) (map (subst s) args)
  end.

(** no variable of a substituted expression is captured *)
Definition fresh_binders (ps : list name) (s : csub) (b : cx) : bool :=
  forallb (fun '(x, r) => negb (mem x (fv b)) || forallb (fun p => negb (mem p (fv r))) ps) (minus ps s).
Fixpoint no_capture (s : csub) (e : cx) : bool :=
  match e with
  | KC _ | KQ _ | KV _ => true
  | KL ps b => fresh_binders ps s b && no_capture (minus ps s) b
  | KI a b c => no_capture s a && no_capture s b && no_capture s c
  | KD a b => no_capture s a && no_capture s b
  | KT x b c => no_capture s b && (fresh_binders [x] s c && no_capture (minus [x] s) c)
  | KA f args => no_capture s f && forallb (no_capture s) args
  end.

(** * Careful runs *)

(** Expressions without effect whose value does not depend on the global
    variables; [D] are the local variables in scope. *)
Fixpoint pure (D : list name) (e : cx) : bool :=
  match e with
  | KC _ | KQ _ | KL _ _ => true
  | KV x => mem x D
  | KA (KV f) [a; b] => name_eqb f (NS "cons") && negb (mem f D) && pure D a && pure D b
  | _ => false
  end.

Definition guard {A} (b : bool) (o : option A) : option A := if b then o else None.
Fixpoint all_some {A} (l : list (option A)) : option (list A) :=
  match l with
  | [] => Some []
  | o :: r => match o, all_some r with Some a, Some r' => Some (a :: r') | _, _ => None end
  end.

Definition as_prim (D : list name) (f : cx) : option prim :=
  match f with KV x => if mem x D then None else prim_of x | _ => None end.
Definition as_pair (D : list name) (e : cx) : option (cx * cx) :=
  match e with
  | KA f [a; d] => match as_prim D f with Some PCons => Some (a, d) | _ => None end
  | _ => None
  end.

(** constants, lists of constants, and how often a variable occurs *)
Definition kconst (e : cx) : bool := match e with KC _ | KQ _ => true | _ => false end.
Definition is_nil (e : cx) : bool := match e with KC SNil => true | _ => false end.
Definition is_lam (e : cx) : bool := match e with KL _ _ => true | _ => false end.
Definition kpair (e : cx) : bool := match e with KA (KV f) [_; _] => name_eqb f (NS "cons") | _ => false end.
Fixpoint klist (e : cx) : bool :=
  match e with KA (KV f) [a; d] => name_eqb f (NS "cons") && (kconst a && (is_nil d || klist d)) | _ => false end.
Fixpoint klength (e : cx) : nat := match e with KA _ [_; d] => S (klength d) | _ => 0 end.
Fixpoint depth (e : cx) : nat :=
  match e with
  | KC _ | KQ _ | KV _ => 1
  | KL _ b => S (depth b)
  | KI a b c => S (max (depth a) (max (depth b) (depth c)))
  | KD a b => S (max (depth a) (depth b))
  | KT _ b c => S (max (depth b) (depth c))
  | KA f args => S (max (depth f) (list_max (map depth args)))
  end.
Fixpoint count (x : name) (e : cx) : nat :=
  if klist e then 0
  else
    match e with
    | KC _ | KQ _ => 0
    | KV y => if name_eqb x y then 1 else 0
    | KL ps b => if mem x ps then 0 else count x b
    | KI a b c => count x a + (count x b + count x c)
    | KD a b => count x a + count x b
    | KT y b c => count x b + (if name_eqb y x then 0 else count x c)
    | KA f args => count x f + list_sum (map (count x) args)
    end.
(** a call that the code takes for one of a primitive *)
Definition would_fold (l : list cx) : bool :=
  let named s f := match f with KV x => name_eqb x (NS s) | _ => false end in
  match l with
  | [f; e] =>
      (named "cons?" f || named "car" f || named "cdr" f) && kpair e
      || named "null?" f && (is_nil e || kpair e)
      || named "not" f && match e with KC STrue | KC SFalse => true | _ => false end
  | [f; a; b] =>
      named "and" f && match a, b with KC STrue, KC STrue => true | _, _ => false end
      || (named "+" f || named "-" f) && match a, b with KC (SNum _), KC (SNum _) => true | _, _ => false end
  | _ => false
  end%string.

Section Careful.
  Variable ar : arith.

  (** the clauses of peval-app for primitives *)
  Definition cfold (D : list name) (l : list cx) : option cx :=
    match l with
    | [f; e] =>
        match as_prim D f, as_pair D e with
        | Some PIsCons, Some (a, d) => guard (pure D a && pure D d) (Some (KC STrue))
        | Some PCar, Some (a, d) => guard (pure D d) (Some a)
        | Some PCdr, Some (a, d) => guard (pure D a) (Some d)
        | Some PNot, None =>
            match e with KC STrue => Some (KC SFalse) | KC SFalse => Some (KC STrue) | _ => None end
        | _, _ => None
        end
    | [f; a; b] =>
        match as_prim D f, a, b with
        | Some PAdd, KC (SNum x), KC (SNum y) => match ar PAdd x y with Some z => Some (KC (SNum z)) | None => None end
        | Some PSub, KC (SNum x), KC (SNum y) => match ar PSub x y with Some z => Some (KC (SNum z)) | None => None end
        | _, _, _ => None
        end
    | _ => None
    end.

  (** a call of a lambda expression: constants are moved into the body.  The
      result has the remaining parameters and arguments, the body after the
      substitution, and the substitution. *)
  Fixpoint cbeta (D ps0 : list name) (args0 : list cx) (ps : list name) (args : list cx) (b : cx) (s : csub) {struct args}
    : option (list name * list cx * cx * csub) :=
    match ps, args with
    | [], _ => Some (ps0, args0 ++ args, b, s)
    | p :: ps', a :: args' =>
        if kconst a || klist a then
          guard (pure D a && headok a && negb (mem p ps0) && (List.length ps' <=? List.length args')
                 && forallb (fun q => negb (mem q (fv a))) (ps0 ++ ps') && no_capture [(p, a)] b)
            (cbeta D ps0 args0 ps' args' (subst [(p, a)] b) ((p, a) :: s))
        else cbeta D (ps0 ++ [p]) (args0 ++ [a]) ps' args' b s
    | _ :: _, [] => None
    end.

  Definition capply (ps : list name) (args : list cx) (b : cx) : cx :=
    match ps, args with
    | [], [] => b
    | _, _ => KA (KL ps b) args
    end.

  (** the operator of a call after simplification *)
  Definition opok (f f' : cx) : bool :=
    match f' with
    | KV y => match f with KV _ => negb (keyword y) | _ => negb (keyword y) && match prim_of y with None => true | _ => false end end
    | _ => true
    end.

  Fixpoint careful (n : nat) (D : list name) (s : csub) (e : cx) : option cx :=
    match n with
    | O => None
    | S n' =>
        let ev := careful n' in
        match e with
        | KC _ | KQ _ => Some e
        | KV x => Some (match lookup x s with Some r => r | None => e end)
        | KI a b c =>
            match ev D s a with
            | None => None
            | Some (KC STrue) => ev D s b
            | Some (KC SFalse) => ev D s c
            | Some a' => match ev D s b, ev D s c with Some b', Some c' => Some (KI a' b' c') | _, _ => None end
            end
        | KD a b =>
            match ev D s a, ev D s b with
            | Some (KL _ _), Some b' => Some b'
            | Some a', Some b' => Some (KD a' b')
            | _, _ => None
            end
        | KL ps b => match ev (ps ++ D) (minus ps s) b with Some b' => Some (KL ps b') | None => None end
        | KT x b c =>
            match ev D s b with
            | None => None
            | Some b' =>
                let c1 := subst (minus [x] s) c in
                let inline :=
                  guard (pure D b' && headok b' && no_capture [(x, b')] c1
                         && cx_eqb (subst [(x, b')] c1) (subst ((x, b') :: s) c)) (ev D ((x, b') :: s) c) in
                let unused := negb (mem x (fv c1)) && cx_eqb c1 (subst s c) in
                let safe := is_lam b' || kconst b' || klist b' in
                if kconst b' || match b' with KV _ => true | _ => false end || (klist b' && (klength b' <? 3))
                then inline
                else
                  guard (depth c <=? n')
                    (if count x c =? 0 then
                       guard unused
                         (if safe then guard (pure D b') (ev D s c)
                          else match ev D s c with Some c' => Some (KD b' c') | None => None end)
                     else if (count x c =? 1) && safe then inline
                     else match ev (x :: D) (minus [x] s) c with Some c' => Some (KT x b' c') | None => None end)
            end
        | KA f args =>
            match ev D s f, all_some (map (ev D s) args) with
            | Some f', Some args' =>
                match cfold D (f' :: args') with
                | Some r => guard (opok f f') (Some r)
                | None =>
                    if would_fold (f' :: args') then None
                    else
                        match f' with
                        | KL ps b =>
                            match cbeta D [] [] ps args' b [] with
                            | None => None
                            | Some (ps1, args1, b1, s1) =>
                                let s2 := minus ps1 (s1 ++ s) in
                                guard (cx_eqb b1 (subst s2 b))
                                  match ev (ps1 ++ D) s2 b with
                                  | Some b2 => Some (capply ps1 args1 b2)
                                  | None => None
                                  end
                            end
                        | _ => guard (opok f f') (Some (KA f' args'))
                        end
                end
            | _, _ => None
            end
        end
    end.
End Careful.
