(** What the derived forms of the language mean (C37, C38): the language as it
    is written, with its own evaluator.  There is no expansion here: let, cond,
    and, or, begin, list, backquote, match, defun and func are evaluated
    directly. *)
From Coq Require Import List ZArith Bool String Arith.
From Verif Require Import CoreSpec NsSpec.
Import ListNotations.
Local Open Scope list_scope.
Local Open Scope nat_scope.

(** * Patterns *)
Inductive pat :=
| QVar (x : string)               (* x *)
| QLit (s : sexp)                 (* 1  "a"  true  false  () *)
| QQuote (s : sexp)               (* 'a *)
| QCons (p q : pat)               (* (cons p q) *)
| QList (l : list pat)            (* [p ...] *)
| QListRest (l : list pat) (q : pat). (* [p ... . q] *)

Section Match.
  Context {C : Type}.
  Notation binds := (list (name * val C)).

  (** The variables of a pattern and the parts of the value they stand for;
      [None] if the value does not match. *)
  Fixpoint pmatch (p : pat) (v : val C) : option binds :=
    match p with
    | QVar x => Some [(NS x, v)]
    | QLit s | QQuote s => match veq (quoted s) v with Some true => Some [] | _ => None end
    | QCons p q =>
        match v with
        | VCons a d =>
            match pmatch p a, pmatch q d with Some b1, Some b2 => Some (b2 ++ b1) | _, _ => None end
        | _ => None
        end
    | QList l =>
        (fix go (l : list pat) (v : val C) : option binds :=
           match l with
           | [] => match v with VNil => Some [] | _ => None end
           | p :: l =>
               match v with
               | VCons a d => match pmatch p a, go l d with Some b1, Some b2 => Some (b2 ++ b1) | _, _ => None end
               | _ => None
               end
           end) l v
    | QListRest l q =>
        (fix go (l : list pat) (v : val C) : option binds :=
           match l with
           | [] => pmatch q v
           | p :: l =>
               match v with
               | VCons a d => match pmatch p a, go l d with Some b1, Some b2 => Some (b2 ++ b1) | _, _ => None end
               | _ => None
               end
           end) l v
    end.
  Fixpoint pmatch_all (ps : list pat) (vs : list (val C)) : option binds :=
    match ps, vs with
    | [], [] => Some []
    | p :: ps, v :: vs =>
        match pmatch p v, pmatch_all ps vs with Some b1, Some b2 => Some (b2 ++ b1) | _, _ => None end
    | _, _ => None
    end.
End Match.

(** * Expressions *)
Inductive src :=
| XLit (s : sexp) | XQuote (s : sexp) | XVar (x : string)
| XLam (ps : list string) (b : src)
| XIf (a b c : src) | XDo (a b : src)
| XApp (f : src) (args : list src)
| XLet (bs : list (string * src)) (b : src)             (* (let x a y b ... c) *)
| XCond (cs : list (src * src))                         (* (cond (a b) ...) *)
| XAnd (l : list src) | XOr (l : list src) | XBegin (l : list src)
| XList (l : list src)                                  (* [a ...] *)
| XListRest (l : list src) (t : src)                    (* [a ... . b] *)
| XBack (t : tmpl)                                      (* `t *)
| XMatch (v : src) (cs : list (pat * option src * src)) (* (match v p b p (where g b) ...) *)
| XDef (x : string) (e : src)
| XDefun (f : string) (ps : list string) (b : src)
| XFunc (f : string) (cs : list (list pat * option src * src)) (* (func f p ... => b p ... => b where g ...) *)
| XNs (p : string) (imports : list string) (b : src)
with tmpl :=
| TData (s : sexp) | TSym (x : name) | TUnquote (e : src) | TList (l : list tmpl).

(** * Evaluation *)

(** the code of a function: of a lambda, or of a func with its clauses *)
Inductive xbody :=
| BExp (ps : list string) (b : src)
| BRules (k : nat) (cs : list (list pat * option src * src)).
Record xcode := mkXC { xc_body : xbody; xc_env : list name; xc_ctx : ctx }.
Definition x_arity (c : xcode) : nat :=
  match xc_body c with BExp ps _ => List.length ps | BRules k _ => k end.
Notation xval := (val xcode).
Notation xenv := (list (name * val xcode)).
Notation xres := (option (opnd xcode * store xcode)).

(** (import "p"), which when it starts a do or a begin makes what p exports
    visible in the rest *)
Definition import_call (x : src) : option string :=
  match x with
  | XApp (XVar i) [XLit (SStr p)] => if String.eqb i "import" then Some p else None
  | _ => None
  end.
Definition after (x : src) (c : ctx) : ctx :=
  match import_call x with Some p => mkX (x_ns c) (p :: x_imports c) | None => c end.

Section Forms.
  Variable ev : ctx -> xenv -> src -> store xcode -> xres.

  Fixpoint ev_let (c : ctx) (rho : xenv) (bs : list (string * src)) (b : src) (G : store xcode) : xres :=
    match bs with
    | [] => ev c rho b G
    | (x, e) :: r =>
        match result (ev c rho e G) with
        | Some (v, G1) => ev_let c ((NS x, v) :: rho) r b G1
        | None => None
        end
    end.
  Fixpoint ev_cond (c : ctx) (rho : xenv) (cs : list (src * src)) (G : store xcode) : xres :=
    match cs with
    | [] => None
    | (a, b) :: r =>
        match result (ev c rho a G) with
        | Some (VTrue, G1) => ev c rho b G1
        | Some (_, G1) => ev_cond c rho r G1
        | None => None
        end
    end.
  Fixpoint ev_and (c : ctx) (rho : xenv) (l : list src) (G : store xcode) : xres :=
    match l with
    | [] => Some (value VTrue, G)
    | a :: r =>
        match result (ev c rho a G) with
        | Some (VTrue, G1) => ev_and c rho r G1
        | Some (_, G1) => Some (value VFalse, G1)
        | None => None
        end
    end.
  Fixpoint ev_or (c : ctx) (rho : xenv) (l : list src) (G : store xcode) : xres :=
    match l with
    | [] => Some (value VFalse, G)
    | a :: r =>
        match result (ev c rho a G) with
        | Some (VTrue, G1) => Some (value VTrue, G1)
        | Some (_, G1) => ev_or c rho r G1
        | None => None
        end
    end.
  Fixpoint ev_begin (c : ctx) (rho : xenv) (l : list src) (G : store xcode) : xres :=
    match l with
    | [] => None
    | [x] => ev c rho x G
    | x :: r =>
        match result (ev c rho x G) with
        | Some (_, G1) => ev_begin (after x c) rho r G1
        | None => None
        end
    end.

  (** the first clause that matches and whose guard, if any, holds *)
  Fixpoint ev_rules {P} (m : P -> option xenv) (c : ctx) (rho : xenv) (cs : list (P * option src * src)) (G : store xcode)
    : xres :=
    match cs with
    | [] => None
    | (p, guard, b) :: r =>
        match m p with
        | None => ev_rules m c rho r G
        | Some bs =>
            match guard with
            | None => ev c (bs ++ rho) b G
            | Some g =>
                match result (ev c (bs ++ rho) g G) with
                | Some (VTrue, G1) => ev c (bs ++ rho) b G1
                | Some (_, G1) => ev_rules m c rho r G1
                | None => None
                end
            end
        end
    end.

  (** the list of the values of some operands, ending in [t] *)
  Definition listing (strict : bool) (l : list (opnd xcode)) (t : opnd xcode) (G : store xcode) : xres :=
    match use_all strict l G, use strict t G with
    | Some vs, Some w => Some (value (fold_right VCons w vs), G)
    | _, _ => None
    end.
  Fixpoint ev_tmpl (strict : bool) (c : ctx) (rho : xenv) (t : tmpl) (G : store xcode) : xres :=
    match t with
    | TData s => Some (value (quoted s), G)
    | TSym x => Some (value (VSym x), G)
    | TUnquote e => ev c rho e G
    | TList l =>
        match (fix go (l : list tmpl) (G : store xcode) : option (list (opnd xcode) * store xcode) :=
                 match l with
                 | [] => Some ([], G)
                 | t :: r =>
                     match ev_tmpl strict c rho t G with
                     | Some (o, G1) => match go r G1 with Some (os, G2) => Some (o :: os, G2) | None => None end
                     | None => None
                     end
                 end) l G with
        | Some (os, G1) => listing strict os (value VNil) G1
        | None => None
        end
    end.
End Forms.

Section Eval.
  (** as in NsSpec.v *)
  Context (gt : nat -> string) (exports : string -> list name).

  Definition x_prim (rho : xenv) (f : src) : option prim :=
    match f with
    | XVar x => match lookup (NS x) rho with Some _ => None | None => prim_of (NS x) end
    | _ => None
    end.

  Fixpoint xeval (ar : arith) (strict : bool) (n : nat) (c : ctx) (rho : xenv) (x : src) (G : store xcode) : xres :=
    match n with
    | O => None
    | S n' =>
        let ev := xeval ar strict n' in
        let run c vs args G :=
          match xc_body c with
          | BExp ps b => result (ev (xc_ctx c) (combine (map NS ps) args ++ combine (xc_env c) vs) b G)
          | BRules _ cs =>
              result (ev_rules ev (fun ps => pmatch_all ps args) (xc_ctx c) (combine (xc_env c) vs) cs G)
          end in
        let call f args G :=
          match use strict f G, use_all strict args G with
          | Some f, Some args =>
              match apply ar x_arity run n' f args G with
              | Some (v, G1) => Some (value v, G1)
              | None => None
              end
          | _, _ => None
          end in
        let closure b := VClo (mkXC b (map fst rho) c) (map snd rho) in
        let define x v G := Some (value v, g_set G (defined_as gt c (NS x)) v) in
        match x with
        | XLit s | XQuote s => Some (value (quoted s), G)
        | XVar x =>
            match lookup (NS x) rho with
            | Some v => Some (value v, G)
            | None =>
                let y := global_of gt exports c (NS x) in
                match g_val G y with
                | Some v => Some (mkA v (Some (y, g_ver G y)), G)
                | None => None
                end
            end
        | XLam ps b => Some (value (closure (BExp ps b)), G)
        | XIf a b d =>
            match result (ev c rho a G) with
            | Some (VTrue, G1) => ev c rho b G1
            | Some (_, G1) => ev c rho d G1
            | None => None
            end
        | XDo a b =>
            match result (ev c rho a G) with
            | Some (_, G1) => ev (after a c) rho b G1
            | None => None
            end
        | XApp f args =>
            match x_prim rho f with
            | Some p =>
                match ev_args (ev c rho) args G with
                | Some (l, G1) => call (value (VPrim p)) l G1
                | None => None
                end
            | None =>
                match ev c rho f G with
                | Some (a, G1) =>
                    match ev_args (ev c rho) args G1 with
                    | Some (l, G2) => call a l G2
                    | None => None
                    end
                | None => None
                end
            end
        | XLet bs b => ev_let ev c rho bs b G
        | XCond cs => ev_cond ev c rho cs G
        | XAnd l => ev_and ev c rho l G
        | XOr l => ev_or ev c rho l G
        | XBegin l => ev_begin ev c rho l G
        | XList l =>
            match ev_args (ev c rho) l G with
            | Some (os, G1) => listing strict os (value VNil) G1
            | None => None
            end
        | XListRest l t =>
            match ev_args (ev c rho) l G with
            | Some (os, G1) =>
                match ev c rho t G1 with
                | Some (o, G2) => listing strict os o G2
                | None => None
                end
            | None => None
            end
        | XBack t => ev_tmpl ev strict c rho t G
        | XMatch v cs =>
            match result (ev c rho v G) with
            | Some (w, G1) => ev_rules ev (fun p => pmatch p w) c rho cs G1
            | None => None
            end
        | XDef x e =>
            match result (ev c rho e G) with
            | Some (v, G1) => define x v G1
            | None => None
            end
        | XDefun f ps b => define f (closure (BExp ps b)) G
        | XFunc f cs => define f (closure (BRules match cs with (ps, _, _) :: _ => List.length ps | [] => 0 end cs)) G
        | XNs p imports b => ev (mkX p imports) rho b G
        end
    end.

  (** The value of a whole file. *)
  Definition xprogram (ar : arith) (strict : bool) (n : nat) (x : src) (G : store xcode)
    : option (xval * store xcode) := result (xeval ar strict n (mkX "" []) [] x G).
End Eval.

(** * How it is written: what the reader delivers *)
Section Show.
  Local Notation Y s := (SSym (NS s)).
  Definition seq_of (l : list sexp) : sexp := fold_right SCons SNil l.

  Fixpoint show_pat (p : pat) : sexp :=
    match p with
    | QVar x => Y x
    | QLit s => s
    | QQuote s => seq_of [Y "quote"; s]
    | QCons p q => seq_of [Y "cons"; show_pat p; show_pat q]
    | QList l => seq_of (Y "list" :: map show_pat l)
    | QListRest l q => seq_of (Y "list-rest" :: map show_pat l ++ [show_pat q])
    end.

  Fixpoint show (x : src) : sexp :=
    match x with
    | XLit s => s
    | XQuote s => seq_of [Y "quote"; s]
    | XVar x => Y x
    | XLam ps b => seq_of [Y "lambda"; seq_of (map (fun x => Y x) ps); show b]
    | XIf a b c => seq_of [Y "if"; show a; show b; show c]
    | XDo a b => seq_of [Y "do"; show a; show b]
    | XApp f args => seq_of (show f :: map show args)
    | XLet bs b => SCons (Y "let") (fold_right (fun q r => SCons (Y (fst q)) (SCons (show (snd q)) r)) (seq_of [show b]) bs)
    | XCond cs => seq_of (Y "cond" :: map (fun q => seq_of [show (fst q); show (snd q)]) cs)
    | XAnd l => seq_of (Y "and" :: map show l)
    | XOr l => seq_of (Y "or" :: map show l)
    | XBegin l => seq_of (Y "begin" :: map show l)
    | XList l => seq_of (Y "list" :: map show l)
    | XListRest l t => seq_of (Y "list-rest" :: map show l ++ [show t])
    | XBack t => seq_of [Y "backquote"; show_tmpl t]
    | XMatch v cs =>
        SCons (Y "match") (SCons (show v)
          (fold_right (fun q r =>
             SCons (show_pat (fst (fst q)))
               (SCons (match snd (fst q) with
                       | None => show (snd q)
                       | Some g => seq_of [Y "where"; show g; show (snd q)]
                       end) r)) SNil cs))
    | XDef x e => seq_of [Y "def"; Y x; show e]
    | XDefun f ps b => seq_of [Y "defun"; Y f; seq_of (map (fun x => Y x) ps); show b]
    | XFunc f cs =>
        SCons (Y "func") (SCons (Y f)
          (fold_right (fun q r =>
             fold_right SCons
               (SCons (Y "=>") (SCons (show (snd q))
                  (match snd (fst q) with
                   | None => r
                   | Some g => SCons (Y "where") (SCons (show g) r)
                   end))) (map show_pat (fst (fst q)))) SNil cs))
    | XNs p imports b => seq_of [Y "ns"; SStr p; seq_of (map SStr imports); show b]
    end
  with show_tmpl (t : tmpl) : sexp :=
    match t with
    | TData s => s
    | TSym x => SSym x
    | TUnquote e => seq_of [Y "unquote"; show e]
    | TList l => seq_of (map show_tmpl l)
    end.
End Show.

(** * Which programs *)
Section Ok.
  Local Open Scope string_scope.
  Definition among (s : string) (l : list string) : bool := existsb (String.eqb s) l.

  (** not the name of a local variable: the functions that expansions use, and
      the punctuation of func *)
  Definition binder (s : string) : bool :=
    negb (among s ["cons"; "car"; "cdr"; "cons?"; "="; "where"; "=>"]).
  (** not the name of a function: the macros and the core forms *)
  Definition operator (s : string) : bool :=
    negb (among s ["package"; "fold-apply"; "backquote"; "begin"; "func"; "match"; "list-rest"; "and"; "or"; "cond"; "let";
                   "defun"; "list"; "defmacro"; "quote"; "lambda"; "if"; "do"; "def"; "ns"; "where"]).
  Definition is_atom (s : sexp) : bool := match s with SSym _ | SCons _ _ => false | _ => true end.
  Definition some_of {A} (l : list A) : bool := match l with [] => false | _ => true end.

  (** the variables of a pattern *)
  Fixpoint pvars (p : pat) : list string :=
    match p with
    | QVar x => [x]
    | QLit _ | QQuote _ => []
    | QCons p q => pvars p ++ pvars q
    | QList l => flat_map pvars l
    | QListRest l q => flat_map pvars l ++ pvars q
    end.
  Fixpoint ok_pat (p : pat) : bool :=
    match p with
    | QVar x => binder x
    | QLit s => is_atom s
    | QQuote _ => true
    | QCons p q => ok_pat p && ok_pat q
    | QList l => forallb ok_pat l
    | QListRest l q => some_of l && forallb ok_pat l && ok_pat q
    end.

  (** no definition, package or import inside *)
  Fixpoint quiet (x : src) : bool :=
    match x with
    | XLit _ | XQuote _ | XVar _ => true
    | XLam _ b => quiet b
    | XIf a b c => quiet a && quiet b && quiet c
    | XDo a b => quiet a && quiet b
    | XApp f args =>
        match import_call x with Some _ => false | None => quiet f && forallb quiet args end
    | XLet bs b => forallb (fun q => quiet (snd q)) bs && quiet b
    | XCond cs => forallb (fun q => quiet (fst q) && quiet (snd q)) cs
    | XAnd l | XOr l | XBegin l | XList l => forallb quiet l
    | XListRest l t => forallb quiet l && quiet t
    | XBack t => quiet_tmpl t
    | XMatch v cs =>
        quiet v && forallb (fun q => match snd (fst q) with Some g => quiet g | None => true end && quiet (snd q)) cs
    | XDef _ _ | XDefun _ _ _ | XFunc _ _ | XNs _ _ _ => false
    end
  with quiet_tmpl (t : tmpl) : bool :=
    match t with
    | TData _ | TSym _ => true
    | TUnquote e => quiet e
    | TList l => forallb quiet_tmpl l
    end.

  (** What match takes apart is either computed once by code whose own value
      is not written with cons or list ([computed]), or is built by cons and
      list from constants and local variables that no clause binds again
      ([plain]). *)
  Fixpoint simple (locals : string -> bool) (x : src) : bool :=
    match x with
    | XLit s => is_atom s
    | XQuote _ => true
    | XVar s => locals s
    | XList l => forallb (simple locals) l
    | XListRest l t => some_of l && forallb (simple locals) l && simple locals t
    | XApp (XVar s) [a; b] => (s =? "cons") && simple locals a && simple locals b
    | _ => false
    end.
  Definition computed (x : src) : bool :=
    match x with
    | XLit _ | XVar _ | XList _ | XListRest _ _ | XBack _ => false
    | XAnd l | XOr l => some_of l
    | XApp (XVar s) _ => negb (s =? "cons")
    | _ => true
    end.

  Fixpoint ok (env : list string) (x : src) : bool :=
    match x with
    | XLit s => is_atom s
    | XQuote _ | XVar _ => true
    | XLam ps b => forallb binder ps && ok (ps ++ env) b
    | XIf a b c => ok env a && ok env b && ok env c
    | XDo a b => ok env a && ok env b
    | XApp f args => match f with XVar s => operator s | _ => true end && ok env f && forallb (ok env) args
    | XLet bs b =>
        some_of bs &&
        (fix go (env : list string) (bs : list (string * src)) : bool :=
           match bs with
           | [] => ok env b
           | (x, e) :: r => binder x && ok env e && go (x :: env) r
           end) env bs
    | XCond cs => forallb (fun q => ok env (fst q) && ok env (snd q)) cs
    | XAnd l => forallb (fun x => match x with XLit SFalse => false | _ => true end && ok env x) l
    | XOr l => forallb (fun x => match x with XLit STrue => false | _ => true end && ok env x) l
    | XBegin l => match l with _ :: _ :: _ => true | _ => false end && forallb (ok env) l
    | XList l => forallb (ok env) l
    | XListRest l t => some_of l && forallb (ok env) l && ok env t
    | XBack t => match t with TUnquote _ | TData (SStr _) => false | _ => true end && ok_tmpl env t
    | XMatch v cs =>
        ok env v && quiet v &&
        (computed v ||
         simple (fun s => among s env && forallb (fun q => negb (among s (pvars (fst (fst q))))) cs) v) &&
        forallb (fun q => ok_pat (fst (fst q)) &&
                   match snd (fst q) with Some g => ok (pvars (fst (fst q)) ++ env) g | None => true end &&
                   ok (pvars (fst (fst q)) ++ env) (snd q)) cs
    | XDef _ e => ok env e
    | XDefun _ ps b => forallb binder ps && ok (ps ++ env) b
    | XFunc _ cs =>
        match cs with
        | [] => false
        | (ps, _, _) :: _ =>
            forallb (fun q => (List.length (fst (fst q)) =? List.length ps)%nat && forallb ok_pat (fst (fst q)) &&
                       match snd (fst q) with Some g => ok (flat_map pvars (fst (fst q)) ++ env) g | None => true end &&
                       ok (flat_map pvars (fst (fst q)) ++ env) (snd q)) cs
        end
    | XNs _ _ b => ok env b
    end
  with ok_tmpl (env : list string) (t : tmpl) : bool :=
    match t with
    | TData s => is_atom s
    | TSym _ => true
    | TUnquote e => ok env e
    | TList l =>
        some_of l && match l with [TSym (NS s); _] => negb (s =? "unquote") | _ => true end && forallb (ok_tmpl env) l
    end.

  (** Locals have no # in their name and are not called set, and what is called
      is not a (ns ...) form: what the packages need (NsSpec.v). *)
  Definition plain_local (s : string) : bool := negb (has_hash s) && negb (s =? "set").
  Definition is_xns (x : src) : bool := match x with XNs _ _ _ => true | _ => false end.
  Fixpoint tidy (x : src) : bool :=
    match x with
    | XLit _ | XQuote _ | XVar _ => true
    | XLam ps b => forallb plain_local ps && tidy b
    | XIf a b c => tidy a && tidy b && tidy c
    | XDo a b => tidy a && tidy b
    | XApp f args => negb (is_xns f) && tidy f && forallb tidy args
    | XLet bs b => forallb (fun q => plain_local (fst q) && tidy (snd q)) bs && tidy b
    | XCond cs => forallb (fun q => tidy (fst q) && tidy (snd q)) cs
    | XAnd l | XOr l | XBegin l | XList l => forallb tidy l
    | XListRest l t => forallb tidy l && tidy t
    | XBack t => tidy_tmpl t
    | XMatch v cs =>
        tidy v && forallb (fun q => forallb plain_local (pvars (fst (fst q))) &&
                             match snd (fst q) with Some g => tidy g | None => true end && tidy (snd q)) cs
    | XDef _ e => tidy e
    | XDefun _ ps b => forallb plain_local ps && tidy b
    | XFunc _ cs =>
        forallb (fun q => forallb plain_local (flat_map pvars (fst (fst q))) &&
                   match snd (fst q) with Some g => tidy g | None => true end && tidy (snd q)) cs
    | XNs _ _ b => tidy b
    end
  with tidy_tmpl (t : tmpl) : bool :=
    match t with
    | TData _ | TSym _ => true
    | TUnquote e => tidy e
    | TList l => forallb tidy_tmpl l
    end.
End Ok.
