(** init.cora: the renaming of names inside packages, which every expression
    goes through after macro expansion.

    Simplifications.
    - An export list is a list of symbols; [exports p] is the value of the
      global variable p#*ns-export*, and [] when it has none.
    - Names of 255 bytes or more, on which symbol-cooked? aborts, are not
      distinguished.
    - The package of a (ns ...) must be a string, its imports a list of
      strings, and the name in a (def ...) a symbol; otherwise [None]. *)
From Coq Require Import List ZArith Bool String Ascii Arith.
From Verif Require Import CoreSpec TocModel.
Import ListNotations.
Local Open Scope list_scope.
Local Open Scope nat_scope.

(** src/runtime.c:649-660, the loop *)
Fixpoint symbol_cooked (s : string) : bool :=
  match s with
  | EmptyString => false
  | String c r => if Ascii.eqb c "#"%char then true else symbol_cooked r
  end.

(** the elements of a list, ignoring what ends it: what map visits,
    init.cora:27-32 *)
Fixpoint cells (e : sexp) : list sexp :=
  match e with SCons a d => a :: cells d | _ => [] end.
Fixpoint the_symbols (l : list sexp) : list name :=
  match l with
  | [] => []
  | SSym x :: r => x :: the_symbols r
  | _ :: r => the_symbols r
  end.
Fixpoint the_strings (l : list sexp) : option (list string) :=
  match l with
  | [] => Some []
  | SStr s :: r => match the_strings r with Some ss => Some (s :: ss) | None => None end
  | _ => None
  end.

(** (map f l) of a function that may fail *)
Fixpoint map_opt (f : sexp -> option sexp) (l : list sexp) : option (list sexp) :=
  match l with
  | [] => Some []
  | x :: r => match f x, map_opt f r with Some y, Some ys => Some (y :: ys) | _, _ => None end
  end.

(** Which clause of cora/init#parse (init.cora:388-404) a list takes. *)
Inductive pclause :=
| PQuote                              (* :390 *)
| PLam (args body : sexp)             (* :395 *)
| PImport (i : sexp) (p : string) (y : sexp) (* :396-397 *)
| PMap                                (* :398-399 *)
| PLet (a b c : sexp)                 (* :400 *)
| PNs (p imports body : sexp)         (* :401 *)
| PDef (x v : sexp)                   (* :402-403 *)
| PRest.                              (* :404 *)
Definition one (t : sexp) : bool := match t with SCons _ SNil => true | _ => false end.
Definition two (t : sexp) : option (sexp * sexp) :=
  match t with SCons a (SCons b SNil) => Some (a, b) | _ => None end.
Definition three (t : sexp) : option (sexp * sexp * sexp) :=
  match t with SCons a (SCons b (SCons c SNil)) => Some (a, b, c) | _ => None end.
Definition clause (h t : sexp) : pclause :=
  if is_sym "quote" h && one t then PQuote
  else match (if is_sym "lambda" h then two t else None) with
  | Some (args, body) => PLam args body
  | None =>
  match (if is_sym "do" h then
           match two t with
           | Some (SCons i (SCons (SStr p) SNil), y) => if is_sym "import" i then Some (i, p, y) else None
           | _ => None
           end
         else None) with
  | Some (i, p, y) => PImport i p y
  | None =>
  if is_sym "if" h || is_sym "do" h then PMap
  else match (if is_sym "let" h then three t else None) with
  | Some (a, b, c) => PLet a b c
  | None =>
  match (if is_sym "ns" h then three t else None) with
  | Some (a, b, c) => PNs a b c
  | None =>
  match (if is_sym "def" h then two t else None) with
  | Some (a, b) => PDef a b
  | None => PRest
  end end end end end.

Section Ns.
  Context (gt : nat -> string) (exports : string -> list name).

  (** symbol->string *)
  Definition symbol_string (x : name) : string := match x with NS s => s | NG k => gt k end.

  (** init.cora:361-365 *)
  Definition var_with_ns (x : name) (ns : string) : name :=
    if String.eqb ns "" then x
    else if symbol_cooked (symbol_string x) then x
    else NS (ns ++ ("#" ++ symbol_string x)).

  (** init.cora:367-372; the exports of a package are p#*ns-export* *)
  Fixpoint lookup_var (s : name) (ns : string) (imports : list string) : name :=
    match imports with
    | [] => var_with_ns s ns
    | p :: more => if mem s (exports p) then NS (p ++ ("#" ++ symbol_string s)) else lookup_var s ns more
    end.

  (** init.cora:374-386 *)
  Definition builtin (x : name) : bool :=
    match x with NS s => existsb (fun q => String.eqb s (fst q)) prim_names | NG _ => false end.

  (** init.cora:388-404, clause by clause *)
  Fixpoint nsparse (fuel : nat) (env : list name) (ns : string) (imports : list string) (x : sexp) : option sexp :=
    match fuel with
    | O => None
    | S k =>
        match x with
        | SNum _ | SStr _ | STrue | SFalse | SNil => Some x                      (* :389 *)
        | SSym s =>                                                              (* :391-394 *)
            if mem s env then Some x
            else if builtin s then Some x
            else Some (SSym (lookup_var s ns imports))
        | SCons h t =>
            match clause h t with
            | PQuote => Some x
            | PLam args body =>
                match slist args with
                | Some l =>
                    match nsparse k (the_symbols l ++ env) ns imports body with
                    | Some b => Some (of_list [h; args; b])
                    | None => None
                    end
                | None => None
                end
            | PImport i pkg y =>
                match nsparse k env ns imports (of_list [i; SStr pkg]), nsparse k env ns (pkg :: imports) y with
                | Some a, Some b => Some (of_list [h; a; b])
                | _, _ => None
                end
            | PMap =>
                match map_opt (nsparse k env ns imports) (cells t) with
                | Some l => Some (SCons h (of_list l))
                | None => None
                end
            | PLet a b c =>
                match nsparse k env ns imports b,
                      nsparse k (match a with SSym s => s :: env | _ => env end) ns imports c with
                | Some b1, Some c1 => Some (of_list [h; a; b1; c1])
                | _, _ => None
                end
            | PNs path imps body =>
                match path, slist imps with
                | SStr p, Some l =>
                    match the_strings l with
                    | Some ss => nsparse k env p ss body
                    | None => None
                    end
                | _, _ => None
                end
            | PDef var v =>
                match var, nsparse k env ns imports v with
                | SSym s, Some v1 =>
                    Some (of_list [ssym "set"; of_list [ssym "quote"; SSym (var_with_ns s ns)]; v1])
                | _, _ => None
                end
            | PRest =>
                match map_opt (nsparse k env ns imports) (cells x) with
                | Some l => Some (of_list l)
                | None => None
                end
            end
        end
    end.

  (** init.cora:303-304 *)
  Definition rewrite_namespace (fuel : nat) (e : sexp) : option sexp := nsparse fuel [] "" [] e.
End Ns.
