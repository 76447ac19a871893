(** What a program with packages means (C39): an evaluator in which a free name
    is looked up by the rules of the package it stands in.  Written from the
    language: there is no renaming here. *)
From Coq Require Import List ZArith Bool String Ascii Arith.
From Verif Require Import CoreSpec.
Import ListNotations.
Local Open Scope list_scope.
Local Open Scope nat_scope.

(** a name that is already qualified contains a # *)
Fixpoint has_hash (s : string) : bool :=
  match s with
  | EmptyString => false
  | String c r => Ascii.eqb c "#"%char || has_hash r
  end.

(** where an expression stands: the package it belongs to ("" is none) and the
    packages imported there, the first one taking precedence *)
Record ctx := mkX { x_ns : string; x_imports : list string }.

Section Ns.
  (** how a gensym is printed, and what each package exports *)
  Context (gt : nat -> string) (exports : string -> list name).

  Definition text (x : name) : string := match x with NS s => s | NG k => gt k end.
  Definition qualified (p : string) (x : name) : name := NS (p ++ "#" ++ text x).

  (** The global variable that a free name stands for: a built-in is itself;
      otherwise it belongs to the first import that exports it; otherwise to
      the package itself, where a name containing # is not qualified again. *)
  Definition global_of (c : ctx) (x : name) : name :=
    match prim_of x with
    | Some _ => x
    | None =>
        match List.find (fun p => existsb (name_eqb x) (exports p)) (x_imports c) with
        | Some p => qualified p x
        | None => if String.eqb (x_ns c) "" || has_hash (text x) then x else qualified (x_ns c) x
        end
    end.
  (** the global variable that a definition sets *)
  Definition defined_as (c : ctx) (x : name) : name :=
    if String.eqb (x_ns c) "" || has_hash (text x) then x else qualified (x_ns c) x.

  Inductive nform :=
  | NCore (f : form)
  | NDef (x : name) (e : sexp)                          (* (def x e) *)
  | NNs (p : string) (imports : list string) (e : sexp) (* (ns p (import ...) e) *)
  | NImport (p : string) (e : sexp).                    (* (do (import p) e) *)

  Fixpoint strings (l : list sexp) : option (list string) :=
    match l with
    | [] => Some []
    | SStr s :: r => match strings r with Some ss => Some (s :: ss) | None => None end
    | _ => None
    end.
  Definition import_of (e : sexp) : option string :=
    match slist e with
    | Some [h; SStr p] => if is_sym "import" h then Some p else None
    | _ => None
    end.
  Definition nview (e : sexp) : nform :=
    match slist e with
    | Some [h; a; b] =>
        if is_sym "def" h then match a with SSym x => NDef x b | _ => NCore FBad end
        else if is_sym "do" h then match import_of a with Some p => NImport p b | None => NCore (FDo a b) end
        else NCore (view e)
    | Some [h; a; b; c] =>
        if is_sym "ns" h then
          match a, slist b with
          | SStr p, Some l => match strings l with Some ss => NNs p ss c | None => NCore FBad end
          | _, _ => NCore FBad
          end
        else NCore (view e)
    | _ => NCore (view e)
    end.

  (** a closure remembers where it was written *)
  Record ncode := mkNC { nc_ps : list name; nc_body : sexp; nc_env : list name; nc_ctx : ctx }.
  Notation nval := (val ncode).
  Notation nenv := (list (name * val ncode)).

  Fixpoint neval (ar : arith) (strict : bool) (n : nat) (c : ctx) (rho : nenv) (e : sexp) (G : store ncode)
    : option (opnd ncode * store ncode) :=
    match n with
    | O => None
    | S n' =>
        let ev := neval ar strict n' in
        let run c vs args G :=
          result (ev (nc_ctx c) (combine (nc_ps c) args ++ combine (nc_env c) vs) (nc_body c) G) in
        let call f args G :=
          match use strict f G, use_all strict args G with
          | Some f, Some args =>
              match apply ar (fun c => List.length (nc_ps c)) run n' f args G with
              | Some (v, G1) => Some (value v, G1)
              | None => None
              end
          | _, _ => None
          end in
        match nview e with
        | NCore (FConst s) => Some (value (quoted s), G)
        | NCore (FVar x) =>
            match lookup x rho with
            | Some v => Some (value v, G)
            | None =>
                let y := global_of c x in
                match g_val G y with
                | Some v => Some (mkA v (Some (y, g_ver G y)), G)
                | None => None
                end
            end
        | NCore (FLam ps b) => Some (value (VClo (mkNC ps b (map fst rho) c) (map snd rho)), G)
        | NCore (FIf a b d) =>
            match result (ev c rho a G) with
            | Some (VTrue, G1) => ev c rho b G1
            | Some (_, G1) => ev c rho d G1
            | None => None
            end
        | NCore (FDo a b) =>
            match result (ev c rho a G) with
            | Some (_, G1) => ev c rho b G1
            | None => None
            end
        | NCore (FLet x b d) =>
            match result (ev c rho b G) with
            | Some (v, G1) => ev c ((x, v) :: rho) d G1
            | None => None
            end
        | NCore (FApp f args) =>
            match op_prim rho f with
            | Some p =>
                match ev_args (ev c rho) args G with
                | Some (l, G1) => call (value (VPrim p)) l G1
                | None => None
                end
            | None =>
                match ev c rho f G with
                | Some (a, G1) =>
                    match ev_args (ev c rho) args G1 with
                    | Some (l, G2) => call a l G2
                    | None => None
                    end
                | None => None
                end
            end
        | NCore FBad => None
        | NDef x b =>
            match result (ev c rho b G) with
            | Some (v, G1) => Some (value v, g_set G1 (defined_as c x) v)
            | None => None
            end
        | NNs p imports b => ev (mkX p imports) rho b G
        | NImport p b =>
            match result (ev c rho (SCons (SSym (NS "import")) (SCons (SStr p) SNil)) G) with
            | Some (_, G1) => ev (mkX (x_ns c) (p :: x_imports c)) rho b G1
            | None => None
            end
        end
    end.

  (** The value of a whole file, which stands in no package. *)
  Definition nprogram (ar : arith) (strict : bool) (n : nat) (e : sexp) (G : store ncode)
    : option (nval * store ncode) := result (neval ar strict n (mkX "" []) [] e G).

  (** A local variable may have any name except one with a # in it and except
      set; and what is called is not itself a (ns ...) form. *)
  Definition local_ok (x : name) : bool :=
    match x with NS s => negb (has_hash s) && negb (String.eqb s "set") | NG _ => true end.
  Definition is_ns (e : sexp) : bool := match nview e with NNs _ _ _ => true | _ => false end.
  Fixpoint scoped (k : nat) (e : sexp) : bool :=
    match k with
    | O => false
    | S k' =>
        match nview e with
        | NCore (FConst _) | NCore (FVar _) => true
        | NCore (FLam ps b) => forallb local_ok ps && scoped k' b
        | NCore (FIf a b c) => scoped k' a && scoped k' b && scoped k' c
        | NCore (FDo a b) => scoped k' a && scoped k' b
        | NCore (FLet x b c) => local_ok x && scoped k' b && scoped k' c
        | NCore (FApp f args) => negb (is_ns f) && scoped k' f && forallb (scoped k') args
        | NCore FBad => false
        | NDef _ b | NNs _ _ b | NImport _ b => scoped k' b
        end
    end.
End Ns.
