(** Which programs, as they are written, the compiler and the C generator
    handle: conditions on names, literals and the scope of variables only. *)
From Coq Require Import List ZArith Bool String Ascii Arith.
From Verif Require Import Base GenCond GenSource SurfSpec CoreSpec TocParse TocTotal FineCore FineNs.
Import ListNotations.
Local Open Scope list_scope.
Local Open Scope nat_scope.

(** The variables that lets and patterns bind, outside the functions inside.
    A clause of match is a function, except the first one. *)
Definition clause_lets {P} (vars : P -> list string) (f : src -> list string) (cs : list (P * option src * src)) : list string :=
  match cs with
  | [] => []
  | q :: _ => vars (fst (fst q)) ++ match snd (fst q) with Some g => f g | None => [] end ++ f (snd q)
  end.
Fixpoint slets (x : src) : list string :=
  match x with
  | XLit _ | XQuote _ | XVar _ | XLam _ _ | XDefun _ _ _ | XFunc _ _ => []
  | XIf a b c => slets a ++ slets b ++ slets c
  | XDo a b => slets a ++ slets b
  | XApp f args => slets f ++ flat_map slets args
  | XLet bs b => flat_map (fun q => fst q :: slets (snd q)) bs ++ slets b
  | XCond cs => flat_map (fun q => slets (fst q) ++ slets (snd q)) cs
  | XAnd l | XOr l | XBegin l | XList l => flat_map slets l
  | XListRest l t => flat_map slets l ++ slets t
  | XBack t => slets_tmpl t
  | XMatch v cs => slets v ++ clause_lets pvars slets cs
  | XDef _ e => slets e
  | XNs _ _ b => slets b
  end
with slets_tmpl (t : tmpl) : list string :=
  match t with
  | TData _ | TSym _ => []
  | TUnquote e => slets e
  | TList l => flat_map slets_tmpl l
  end.

Definition disjoint (l l' : list string) : bool := forallb (fun s => negb (among s l')) l.
Fixpoint pairwise (ls : list (list string)) : bool :=
  match ls with [] => true | l :: r => disjoint l (List.concat r) && pairwise r end.
Fixpoint unique (l : list string) : bool := match l with [] => true | s :: r => negb (among s r) && unique r end.

(** a local variable: not called like a primitive or a form, and a name that C
    can express *)
Definition sgood (s : string) : bool := FineCore.good 0 (NS s).
Definition a_symbol (s : sexp) : bool := match s with SSym _ => symbol_ok s | _ => false end.

Fixpoint neat_pat (p : pat) : bool :=
  match p with
  | QVar x => sgood x
  | QLit s => literals s
  | QQuote s => a_symbol s
  | QCons p q => neat_pat p && neat_pat q
  | QList l => forallb neat_pat l
  | QListRest l q => forallb neat_pat l && neat_pat q
  end.
(** new names for what is bound *)
Definition fresh (env vs : list string) : bool := unique vs && disjoint vs env.

(** [neat env x]: with the local variables [env] in sight.  A variable that a
    let or a pattern binds has a name that is not in sight; two parts of an
    expression that are both evaluated do not bind the same name. *)
Fixpoint neat (env : list string) (x : src) : bool :=
  match x with
  | XLit s => literals s
  | XQuote s => a_symbol s
  | XVar x => among x env || short x
  | XLam ps b => unique ps && forallb sgood ps && neat (ps ++ env) b
  | XIf a b c => neat env a && neat env b && neat env c && disjoint (slets a) (slets b ++ slets c)
  | XDo a b => neat env a && neat env b && disjoint (slets a) (slets b)
  | XApp f args =>
      neat env f && forallb (neat env) args && pairwise (slets f :: map slets args) &&
      match f with
      | XVar s => match prim_of (NS s) with Some p => prim_arity p =? List.length args | None => true end
      | _ => true
      end &&
      match import_call x with Some p => short p | None => true end
  | XLet bs b =>
      (fix go (env : list string) (bs : list (string * src)) : bool :=
         match bs with
         | [] => neat env b
         | (x, e) :: r =>
             sgood x && negb (among x env) && neat env e && negb (among x (slets e)) &&
             disjoint (slets e) (flat_map (fun q => fst q :: slets (snd q)) r ++ slets b) && go (x :: env) r
         end) env bs
  | XCond cs =>
      (fix go (cs : list (src * src)) : bool :=
         match cs with
         | [] => true
         | (a, b) :: r =>
             neat env a && neat env b &&
             disjoint (slets a) (slets b ++ flat_map (fun q => slets (fst q) ++ slets (snd q)) r) && go r
         end) cs
  | XAnd l | XOr l | XBegin l | XList l => forallb (neat env) l && pairwise (map slets l)
  | XListRest l t => forallb (neat env) l && neat env t && pairwise (map slets l ++ [slets t])
  | XBack t => neat_tmpl env t
  | XMatch v cs =>
      neat env v && disjoint (slets v) (clause_lets pvars slets cs) &&
      forallb (fun q => neat_pat (fst (fst q)) && fresh env (pvars (fst (fst q))) &&
                 match snd (fst q) with
                 | Some g => neat (pvars (fst (fst q)) ++ env) g && disjoint (slets g) (slets (snd q))
                 | None => true
                 end && neat (pvars (fst (fst q)) ++ env) (snd q)) cs
  | XDef x e => short x && neat env e
  | XDefun f ps b => short f && unique ps && forallb sgood ps && neat (ps ++ env) b
  | XFunc f cs =>
      short f &&
      forallb (fun q => forallb neat_pat (fst (fst q)) && fresh env (flat_map pvars (fst (fst q))) &&
                 match snd (fst q) with
                 | Some g => neat (flat_map pvars (fst (fst q)) ++ env) g && disjoint (slets g) (slets (snd q))
                 | None => true
                 end && neat (flat_map pvars (fst (fst q)) ++ env) (snd q)) cs
  | XNs p imports b => short p && forallb short imports && neat env b
  end
with neat_tmpl (env : list string) (t : tmpl) : bool :=
  match t with
  | TData s => literals s
  | TSym x => symbol_ok (SSym x)
  | TUnquote e => neat env e
  | TList l => forallb (neat_tmpl env) l && pairwise (map slets_tmpl l)
  end.
