(** What a macro-expanded cora program means: a direct evaluator of
    S-expressions, with environments and closures.  This is the yardstick for
    the compiler (C34-C36) and for the macros (C37, C38); it is written from
    the language, not from the compiler.

    Values are parametrised by the representation [C] of a closure's code, so
    that the same primitives and the same rules for partial and
    over-application serve every intermediate language of the compiler. *)
From Coq Require Import List ZArith Bool String Arith.
Import ListNotations.
Local Open Scope list_scope.
Local Open Scope nat_scope.

(** An interned symbol, or the k-th symbol made by gensym: a gensym is
    different from every interned symbol and from every other gensym. *)
Inductive name := NS (s : string) | NG (k : nat).

Definition name_eqb (a b : name) : bool :=
  match a, b with
  | NS s, NS t => String.eqb s t
  | NG j, NG k => j =? k
  | _, _ => false
  end.

Inductive sexp :=
| SNum (z : Z) | SSym (x : name) | SStr (s : string) | STrue | SFalse | SNil | SCons (a d : sexp).

(** The primitives the compiler knows (lib/toc.cora:29-33). *)
Inductive prim :=
| PSet | PCar | PCdr | PCons | PIsCons | PAdd | PSub | PMul | PDiv | PEq | PGt | PLt
| PGensym | PIsSymbol | PNot | PIsInt | PIsStr.

Definition prim_arity (p : prim) : nat :=
  match p with
  | PGensym => 0
  | PCar | PCdr | PIsCons | PIsSymbol | PNot | PIsInt | PIsStr => 1
  | _ => 2
  end.

Local Open Scope string_scope.
Definition prim_names : list (string * prim) :=
  [("set", PSet); ("car", PCar); ("cdr", PCdr); ("cons", PCons); ("cons?", PIsCons);
   ("+", PAdd); ("-", PSub); ("*", PMul); ("/", PDiv);
   ("=", PEq); (">", PGt); ("<", PLt); ("gensym", PGensym); ("symbol?", PIsSymbol);
   ("not", PNot); ("integer?", PIsInt); ("string?", PIsStr)].
Local Close Scope string_scope.

Fixpoint assoc_str {A} (s : string) (l : list (string * A)) : option A :=
  match l with
  | [] => None
  | (t, a) :: r => if String.eqb s t then Some a else assoc_str s r
  end.
Definition prim_of (x : name) : option prim :=
  match x with NS s => assoc_str s prim_names | NG _ => None end.

(** * Values *)

(** [VClo code captured] is a closure, [VPap f args] a function that has been
    given some of its arguments, [VPrim] a primitive as a value. *)
Inductive val (C : Type) :=
| VNum (z : Z) | VSym (x : name) | VStr (s : string) | VTrue | VFalse | VNil
| VCons (a d : val C) | VClo (c : C) (vs : list (val C)) | VPap (f : val C) (args : list (val C))
| VPrim (p : prim).
Arguments VNum {C}. Arguments VSym {C}. Arguments VStr {C}. Arguments VTrue {C}. Arguments VFalse {C}.
Arguments VNil {C}. Arguments VCons {C}. Arguments VClo {C}. Arguments VPap {C}. Arguments VPrim {C}.

Fixpoint quoted {C} (s : sexp) : val C :=
  match s with
  | SNum z => VNum z | SSym x => VSym x | SStr t => VStr t | STrue => VTrue | SFalse => VFalse
  | SNil => VNil | SCons a d => VCons (quoted a) (quoted d)
  end.

(** Global variables, how often each has been set, and the number of symbols
    made so far. *)
Record store (C : Type) := mkG { g_val : name -> option (val C); g_ver : name -> nat; g_next : nat }.
Arguments mkG {C}. Arguments g_val {C}. Arguments g_ver {C}. Arguments g_next {C}.

Definition g_set {C} (G : store C) (x : name) (v : val C) : store C :=
  mkG (fun y => if name_eqb y x then Some v else g_val G y)
      (fun y => if name_eqb y x then S (g_ver G y) else g_ver G y) (g_next G).

(** Any meaning for the arithmetic primitives; a comparison gives 0 or 1. *)
Definition arith := prim -> Z -> Z -> option Z.

Definition of_bool {C} (b : bool) : val C := if b then VTrue else VFalse.

Definition is_fun {C} (v : val C) : bool :=
  match v with VClo _ _ | VPap _ _ | VPrim _ => true | _ => false end.

(** Equality of data.  Two functions are not compared. *)
Fixpoint veq {C} (a b : val C) : option bool :=
  match a, b with
  | VNum x, VNum y => Some (Z.eqb x y)
  | VSym x, VSym y => Some (name_eqb x y)
  | VStr x, VStr y => Some (String.eqb x y)
  | VTrue, VTrue | VFalse, VFalse | VNil, VNil => Some true
  | VCons a1 d1, VCons a2 d2 =>
      match veq a1 a2 with
      | Some true => veq d1 d2
      | r => r
      end
  | _, _ => if is_fun a && is_fun b then None else Some false
  end.

Definition prim_sem {C} (ar : arith) (p : prim) (args : list (val C)) (G : store C)
  : option (val C * store C) :=
  match p, args with
  | PSet, [VSym x; v] => Some (v, g_set G x v)
  | PCar, [VCons a _] => Some (a, G)
  | PCdr, [VCons _ d] => Some (d, G)
  | PCons, [a; d] => Some (VCons a d, G)
  | PIsCons, [v] => Some (of_bool match v with VCons _ _ => true | _ => false end, G)
  | (PAdd | PSub | PMul | PDiv), [VNum x; VNum y] =>
      match ar p x y with Some z => Some (VNum z, G) | None => None end
  | (PGt | PLt), [VNum x; VNum y] =>
      match ar p x y with Some z => Some (of_bool (Z.eqb z 1), G) | None => None end
  | PEq, [a; b] => match veq a b with Some r => Some (of_bool r, G) | None => None end
  | PGensym, [] => Some (VSym (NG (g_next G)), mkG (g_val G) (g_ver G) (S (g_next G)))
  | PIsSymbol, [v] => Some (of_bool match v with VSym _ => true | _ => false end, G)
  | PNot, [VTrue] => Some (VFalse, G)
  | PNot, [VFalse] => Some (VTrue, G)
  | PIsInt, [v] => Some (of_bool match v with VNum _ => true | _ => false end, G)
  | PIsStr, [v] => Some (of_bool match v with VStr _ => true | _ => false end, G)
  | _, _ => None
  end.

(** * Calling a function *)
Section Apply.
  Context {C : Type} (ar : arith) (arity : C -> nat).
  Variable run : C -> list (val C) -> list (val C) -> store C -> option (val C * store C).

  (** how many arguments a function still needs *)
  Fixpoint need (f : val C) : option nat :=
    match f with
    | VClo c _ => Some (arity c)
    | VPrim p => Some (prim_arity p)
    | VPap g a => match need g with Some k => Some (k - List.length a) | None => None end
    | _ => None
    end.

  (** call with exactly the needed arguments *)
  Fixpoint exact (f : val C) (args : list (val C)) (G : store C) : option (val C * store C) :=
    match f with
    | VClo c vs => run c vs args G
    | VPrim p => prim_sem ar p args G
    | VPap g a => exact g (a ++ args) G
    | _ => None
    end.

  (** call with any number of arguments: too few are remembered, the rest of
      too many is passed to the result *)
  Fixpoint apply (n : nat) (f : val C) (args : list (val C)) (G : store C) : option (val C * store C) :=
    match n with
    | O => None
    | S n' =>
        match need f with
        | None => None
        | Some rq =>
            if List.length args <? rq then Some (match args with [] => f | _ => VPap f args end, G)
            else
              match exact f (firstn rq args) G with
              | None => None
              | Some (v, G1) =>
                  match skipn rq args with
                  | [] => Some (v, G1)
                  | l => apply n' v l G1
                  end
              end
        end
    end.
End Apply.

(** * Environments *)
Fixpoint lookup {A} (x : name) (l : list (name * A)) : option A :=
  match l with
  | [] => None
  | (y, v) :: r => if name_eqb x y then Some v else lookup x r
  end.

(** * Source programs *)
Inductive form :=
| FConst (s : sexp) | FVar (x : name) | FLam (ps : list name) (b : sexp)
| FIf (a b c : sexp) | FDo (a b : sexp) | FLet (x : name) (b c : sexp)
| FApp (f : sexp) (args : list sexp) | FBad.

Fixpoint slist (e : sexp) : option (list sexp) :=
  match e with
  | SNil => Some []
  | SCons a d => match slist d with Some l => Some (a :: l) | None => None end
  | _ => None
  end.
Fixpoint symbols (l : list sexp) : option (list name) :=
  match l with
  | [] => Some []
  | SSym x :: r => match symbols r with Some xs => Some (x :: xs) | None => None end
  | _ => None
  end.
Definition is_sym (s : string) (e : sexp) : bool :=
  match e with SSym x => name_eqb x (NS s) | _ => false end.

(** the core forms: constants, quote, lambda, if, do, let, application *)
Definition view (e : sexp) : form :=
  match e with
  | SSym x => FVar x
  | SCons _ _ =>
      match slist e with
      | Some (h :: r) =>
          if is_sym "quote" h then match r with [x] => FConst x | _ => FBad end
          else if is_sym "lambda" h then
            match r with
            | [ps; b] =>
                match slist ps with
                | Some l => match symbols l with Some xs => FLam xs b | None => FBad end
                | None => FBad
                end
            | _ => FBad
            end
          else if is_sym "if" h then match r with [a; b; c] => FIf a b c | _ => FBad end
          else if is_sym "do" h then match r with [a; b] => FDo a b | _ => FBad end
          else if is_sym "let" h then match r with [SSym x; b; c] => FLet x b c | _ => FBad end
          else FApp h r
      | _ => FBad
      end
  | _ => FConst e
  end.

Record scode := mkSC { sc_ps : list name; sc_body : sexp; sc_env : list name }.
Notation sval := (val scode).
Notation senv := (list (name * val scode)).

(** a symbol in operator position that is not a local variable and names a
    primitive *)
Definition op_prim {A} (rho : list (name * A)) (f : sexp) : option prim :=
  match f with
  | SSym x => match lookup x rho with Some _ => None | None => prim_of x end
  | _ => None
  end.

(** The value of an operand.  Operands are evaluated from left to right.  When
    an operand is just the name of a global variable, remember which one and
    which setting of it was read. *)
Record opnd (C : Type) := mkA { a_val : val C; a_from : option (name * nat) }.
Arguments mkA {C}. Arguments a_val {C}. Arguments a_from {C}.
Notation operand := (opnd scode).
Definition value {C} (v : val C) : opnd C := mkA v None.

(** Using an operand.  With [strict] off, an operand may be used whatever
    happened since it was evaluated: this is the language.  With [strict] on,
    a run gets stuck if a global variable that was read as an operand has been
    set again before the operand is used. *)
Definition use {C} (strict : bool) (a : opnd C) (G : store C) : option (val C) :=
  match a_from a with
  | Some (x, k) => if strict && negb (g_ver G x =? k) then None else Some (a_val a)
  | None => Some (a_val a)
  end.
Fixpoint use_all {C} (strict : bool) (l : list (opnd C)) (G : store C) : option (list (val C)) :=
  match l with
  | [] => Some []
  | a :: r =>
      match use strict a G, use_all strict r G with
      | Some v, Some vs => Some (v :: vs)
      | _, _ => None
      end
  end.

Fixpoint ev_args {C E} (ev : E -> store C -> option (opnd C * store C)) (l : list E) (G : store C)
  : option (list (opnd C) * store C) :=
  match l with
  | [] => Some ([], G)
  | e :: r =>
      match ev e G with
      | None => None
      | Some (a, G1) =>
          match ev_args ev r G1 with
          | None => None
          | Some (la, G2) => Some (a :: la, G2)
          end
      end
  end.

Definition result {C} (r : option (opnd C * store C)) : option (val C * store C) :=
  match r with Some (a, G) => Some (a_val a, G) | None => None end.

Fixpoint eval (ar : arith) (strict : bool) (n : nat) (rho : senv) (e : sexp) (G : store scode)
  : option (operand * store scode) :=
  match n with
  | O => None
  | S n' =>
      let ev := eval ar strict n' in
      let run c vs args G := result (ev (combine (sc_ps c) args ++ combine (sc_env c) vs) (sc_body c) G) in
      let call f args G :=
        match use strict f G, use_all strict args G with
        | Some f, Some args =>
            match apply ar (fun c => List.length (sc_ps c)) run n' f args G with
            | Some (v, G1) => Some (value v, G1)
            | None => None
            end
        | _, _ => None
        end in
      match view e with
      | FConst s => Some (value (quoted s), G)
      | FVar x =>
          match lookup x rho with
          | Some v => Some (value v, G)
          | None =>
              match g_val G x with
              | Some v => Some (mkA v (Some (x, g_ver G x)), G)
              | None => None
              end
          end
      | FLam ps b => Some (value (VClo (mkSC ps b (map fst rho)) (map snd rho)), G)
      | FIf a b c =>
          match result (ev rho a G) with
          | Some (VTrue, G1) => ev rho b G1
          | Some (_, G1) => ev rho c G1
          | None => None
          end
      | FDo a b =>
          match result (ev rho a G) with
          | Some (_, G1) => ev rho b G1
          | None => None
          end
      | FLet x b c =>
          match result (ev rho b G) with
          | Some (v, G1) => ev ((x, v) :: rho) c G1
          | None => None
          end
      | FApp f args =>
          match op_prim rho f with
          | Some p =>
              match ev_args (ev rho) args G with
              | Some (l, G1) => call (value (VPrim p)) l G1
              | None => None
              end
          | None =>
              match ev rho f G with
              | Some (a, G1) =>
                  match ev_args (ev rho) args G1 with
                  | Some (l, G2) => call a l G2
                  | None => None
                  end
              | None => None
              end
          end
      | FBad => None
      end
  end.

(** The value of a whole program, and the global variables it leaves. *)
Definition program (ar : arith) (strict : bool) (n : nat) (e : sexp) (G : store scode)
  : option (sval * store scode) := result (eval ar strict n [] e G).
