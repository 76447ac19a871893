(** Which runs of a program the prompt promises to carry out (C55): the
    language of NsSpec.v, outside of any package, with three things watched.
    A run gets stuck if
    - a function is called with more or with fewer arguments than it needs;
    - a primitive is called by name and the global variable of that name does
      not hold the primitive;
    - a package form or an import is reached. *)
From Coq Require Import List ZArith Bool String Arith.
From Verif Require Import CoreSpec NsSpec.
Import ListNotations.
Local Open Scope list_scope.
Local Open Scope nat_scope.

Section Careful.
  Context (gt : nat -> string) (exports : string -> list name) (ar : arith).
  Notation nval := (val ncode).

  Definition prim_eq_dec (p q : prim) : {p = q} + {p <> q}.
  Proof. decide equality. Defined.
  Definition holds (v : option nval) (p : prim) : bool :=
    match v with Some (VPrim q) => if prim_eq_dec p q then true else false | _ => false end.

  Fixpoint each (ev : sexp -> store ncode -> option (nval * store ncode)) (l : list sexp) (G : store ncode)
    : option (list nval * store ncode) :=
    match l with
    | [] => Some ([], G)
    | e :: r =>
        match ev e G with
        | Some (v, G1) => match each ev r G1 with Some (vs, G2) => Some (v :: vs, G2) | None => None end
        | None => None
        end
    end.

  Fixpoint careful_run (n : nat) (c : ctx) (rho : list (name * nval)) (e : sexp) (G : store ncode)
    : option (nval * store ncode) :=
    match n with
    | O => None
    | S n' =>
        let ev := careful_run n' in
        let run c vs args G := ev (nc_ctx c) (combine (nc_ps c) args ++ combine (nc_env c) vs) (nc_body c) G in
        let call f args G :=
          match need (fun c => List.length (nc_ps c)) f with
          | Some k => if k =? List.length args then exact ar run f args G else None
          | None => None
          end in
        match nview e with
        | NCore (FConst s) => Some (quoted s, G)
        | NCore (FVar x) =>
            match lookup x rho with
            | Some v => Some (v, G)
            | None => match g_val G (global_of gt exports c x) with Some v => Some (v, G) | None => None end
            end
        | NCore (FLam ps b) => Some (VClo (mkNC ps b (map fst rho) c) (map snd rho), G)
        | NCore (FIf a b d) =>
            match ev c rho a G with
            | Some (VTrue, G1) => ev c rho b G1
            | Some (_, G1) => ev c rho d G1
            | None => None
            end
        | NCore (FDo a b) => match ev c rho a G with Some (_, G1) => ev c rho b G1 | None => None end
        | NCore (FLet x b d) => match ev c rho b G with Some (v, G1) => ev c ((x, v) :: rho) d G1 | None => None end
        | NCore (FApp f args) =>
            match op_prim rho f with
            | Some p =>
                if match f with SSym x => holds (g_val G x) p | _ => false end then
                  match each (ev c rho) args G with Some (l, G1) => call (VPrim p) l G1 | None => None end
                else None
            | None =>
                match ev c rho f G with
                | Some (v, G1) => match each (ev c rho) args G1 with Some (l, G2) => call v l G2 | None => None end
                | None => None
                end
            end
        | NDef x b => match ev c rho b G with Some (v, G1) => Some (v, g_set G1 (defined_as gt c x) v) | None => None end
        | NCore FBad | NNs _ _ _ | NImport _ _ => None
        end
    end.
End Careful.

(** Programs without a package form or an import in which every form is a
    proper one and no parameter is listed twice. *)
Fixpoint distinct (l : list name) : bool :=
  match l with [] => true | x :: r => negb (existsb (name_eqb x) r) && distinct r end.
Fixpoint plain (k : nat) (e : sexp) : bool :=
  match k with
  | O => false
  | S k' =>
      match nview e with
      | NCore (FConst _) | NCore (FVar _) => true
      | NCore (FLam ps b) => distinct ps && plain k' b
      | NCore (FIf a b d) => plain k' a && plain k' b && plain k' d
      | NCore (FDo a b) => plain k' a && plain k' b
      | NCore (FLet _ b c) => plain k' b && plain k' c
      | NCore (FApp f args) => plain k' f && forallb (plain k') args
      | NDef _ b => plain k' b
      | NCore FBad | NNs _ _ _ | NImport _ _ => false
      end
  end.
