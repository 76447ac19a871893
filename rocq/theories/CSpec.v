(** A subset of C, enough for the files that lib/toc.cora writes: how text is
    split into tokens, how tokens are grouped into declarations, statements
    and expressions, and what a function of such a file does when the
    trampoline of the runtime calls it.  Written from the C standard and from
    the declarations in src/runtime.h and src/types.h, not from the
    generator.

    Simplifications.
    - Lines that start with a preprocessor directive are skipped; the macros
      they define (src/types.h:93-106) are treated as functions that are not
      usable while a local variable hides a name they expand to.
    - No comments, no operators but [==] and [*], at most one of them in an
      expression; declarations have an initialiser.
    - The values and the activations are those of CoreSpec.v and TocMach.v.
      An address of a function is its position in the file, counted from the
      end.
    - A primitive that may change the store is called only as the initialiser
      of a declaration; anywhere else it is not given a meaning. *)
From Coq Require Import List ZArith Bool String Ascii Arith.
From Verif Require Import Base StrModel CoreSpec TocModel TocSem TocMach EmitProps.
Import ListNotations.
Local Open Scope string_scope.
Local Open Scope list_scope.
Local Open Scope nat_scope.

(** * Tokens (C11 6.4) *)
Inductive tok :=
| KId (x : string) | KNum (n : Z) | KStr (s : string)
| LP | RP | LB | RB | LC | RC | SEMI | COMMA | DOT | COLON | STAR | ASSIGN | ARROW | EQEQ | MINUS | KBad.

Definition digitb (c : ascii) : bool := (48 <=? nat_of c) && (nat_of c <=? 57).
Definition idstart (c : ascii) : bool :=
  ((97 <=? nat_of c) && (nat_of c <=? 122)) || ((65 <=? nat_of c) && (nat_of c <=? 90)) || (nat_of c =? 95).
Definition idchar (c : ascii) : bool := idstart c || digitb c.
Definition blank (c : ascii) : bool := (nat_of c =? 32) || (nat_of c =? 10) || (nat_of c =? 9).
Definition is_ch (c : ascii) (k : nat) : bool := nat_of c =? k.

Definition punct (c : ascii) : option tok :=
  if is_ch c 40 then Some LP else if is_ch c 41 then Some RP
  else if is_ch c 91 then Some LB else if is_ch c 93 then Some RB
  else if is_ch c 123 then Some LC else if is_ch c 125 then Some RC
  else if is_ch c 59 then Some SEMI else if is_ch c 44 then Some COMMA
  else if is_ch c 46 then Some DOT else if is_ch c 58 then Some COLON
  else if is_ch c 42 then Some STAR else None.

(** a decimal constant; a leading 0 would make it octal *)
Definition value_of (ds : bytes) : Z := fold_left (fun a c => (10 * a + (Z.of_nat (nat_of c) - 48))%Z) ds 0%Z.
Definition num_tok (ds : bytes) : tok :=
  match ds with
  | c :: _ :: _ => if is_ch c 48 then KBad else KNum (value_of ds)
  | _ => KNum (value_of ds)
  end.
(** a string literal; [read_lit] is in EmitProps.v *)
Definition str_tok (raw : bytes) : tok :=
  match read_lit RText (raw ++ [ascii_of_nat 34]) with
  | Some (s, []) => KStr (string_of_list_ascii s)
  | _ => KBad
  end.

(** what has been read of the token at hand; the characters are in reverse *)
Inductive mode := Idle | InId (acc : bytes) | InNum (acc : bytes) | InStr (acc : bytes) | InEsc (acc : bytes)
  | AtMinus | AtEq | InLine.

Definition flush (m : mode) : list tok :=
  match m with
  | Idle | InLine => []
  | InId acc => [KId (string_of_list_ascii (rev acc))]
  | InNum acc => [num_tok (rev acc)]
  | InStr _ | InEsc _ => [KBad]
  | AtMinus => [MINUS]
  | AtEq => [ASSIGN]
  end.

Definition start (c : ascii) : list tok * mode :=
  if blank c then ([], Idle)
  else if idstart c then ([], InId [c])
  else if digitb c then ([], InNum [c])
  else if is_ch c 34 then ([], InStr [])
  else if is_ch c 45 then ([], AtMinus)
  else if is_ch c 61 then ([], AtEq)
  else if is_ch c 35 then ([], InLine)
  else match punct c with Some t => ([t], Idle) | None => ([KBad], Idle) end.

Definition again (m : mode) (c : ascii) : list tok * mode := (flush m ++ fst (start c), snd (start c)).

Definition lex_step (m : mode) (c : ascii) : list tok * mode :=
  match m with
  | Idle => start c
  | InId acc => if idchar c then ([], InId (c :: acc)) else again m c
  | InNum acc =>
      if digitb c then ([], InNum (c :: acc))
      else if idstart c || is_ch c 46 then ([KBad], Idle) else again m c
  | InStr acc =>
      if is_ch c 34 then ([str_tok (rev acc)], Idle)
      else if is_ch c 92 then ([], InEsc (c :: acc))
      else if is_ch c 10 then ([KBad], Idle)
      else ([], InStr (c :: acc))
  | InEsc acc => ([], InStr (c :: acc))
  | AtMinus => if is_ch c 62 then ([ARROW], Idle) else again m c
  | AtEq => if is_ch c 61 then ([EQEQ], Idle) else again m c
  | InLine => if is_ch c 10 then ([], Idle) else ([], InLine)
  end.

Fixpoint lex_run (m : mode) (s : bytes) : list tok * mode :=
  match s with
  | [] => ([], m)
  | c :: r => let '(t, m1) := lex_step m c in let '(u, m2) := lex_run m1 r in (t ++ u, m2)
  end.
Definition lex (s : bytes) : list tok := let '(t, m) := lex_run Idle s in t ++ flush m.

(** * Syntax *)
Inductive cexp :=
| XId (x : string) | XNum (z : Z) | XStr (s : string) | XSizeof (t : string)
| XField (e : cexp) (f : string) | XArrow (e : cexp) (f : string)
| XIdx (e i : cexp) | XCall (e : cexp) (args : list cexp)
| XEq (a b : cexp) | XMul (a b : cexp).

Record ctype := mkT { t_name : string; t_stars : nat }.

Inductive cstmt :=
| CDecl (t : ctype) (x : string) (e : cexp)                       (* Obj x = e; *)
| CArray (t : ctype) (x : string) (n : Z) (es : list cexp)        (* Obj x[n] = {es}; *)
| CAssign (l e : cexp)
| CExp (e : cexp)
| CIf (c : cexp) (a : list cstmt) (b : list cstmt)
| CSwitch (e : cexp) (cases : list (Z * list cstmt))
| CReturn.

Inductive cdecl :=
| DVar (t : ctype) (x : string) (e : cexp)
| DProto (r : ctype) (f : string) (ps : list (ctype * string))
| DFun (r : ctype) (f : string) (ps : list (ctype * string)) (body : list cstmt).

Definition in_names (x : string) (l : list string) : bool := existsb (String.eqb x) l.

(** C11 6.4.1 *)
Definition keywords : list string :=
  ["auto"; "break"; "case"; "char"; "const"; "continue"; "default"; "do"; "double"; "else"; "enum"; "extern";
   "float"; "for"; "goto"; "if"; "inline"; "int"; "long"; "register"; "restrict"; "return"; "short"; "signed";
   "sizeof"; "static"; "struct"; "switch"; "typedef"; "union"; "unsigned"; "void"; "volatile"; "while";
   "_Alignas"; "_Alignof"; "_Atomic"; "_Bool"; "_Complex"; "_Generic"; "_Imaginary"; "_Noreturn";
   "_Static_assert"; "_Thread_local"].
(** the type names of src/types.h and src/runtime.h that the files use *)
Definition typedefs : list string := ["Obj"; "Binding"].
Definition usable (x : string) : bool := negb (in_names x keywords || in_names x typedefs).

Fixpoint stars (ts : list tok) : nat * list tok :=
  match ts with STAR :: r => let '(k, r1) := stars r in (S k, r1) | _ => (0, ts) end.

Definition p_type (ts : list tok) : option (ctype * list tok) :=
  match ts with
  | KId s :: r =>
      if String.eqb s "struct" then
        match r with
        | KId t :: r1 => let '(k, r2) := stars r1 in Some (mkT t k, r2)
        | _ => None
        end
      else if in_names s ["void"; "int"] || in_names s typedefs then let '(k, r2) := stars r in Some (mkT s k, r2)
      else None
  | _ => None
  end.

(** an expression: a postfix expression, or two with an operator between *)
Fixpoint p_exp (n : nat) (ts : list tok) {struct n} : option (cexp * list tok) :=
  match n with
  | O => None
  | S k =>
      match p_post k ts with
      | Some (a, STAR :: r) => match p_post k r with Some (b, r1) => Some (XMul a b, r1) | None => None end
      | Some (a, EQEQ :: r) => match p_post k r with Some (b, r1) => Some (XEq a b, r1) | None => None end
      | q => q
      end
  end
with p_post (n : nat) (ts : list tok) {struct n} : option (cexp * list tok) :=
  match n with
  | O => None
  | S k =>
      match ts with
      | KId x :: r =>
          if String.eqb x "sizeof" then
            match r with LP :: KId t :: RP :: r1 => Some (XSizeof t, r1) | _ => None end
          else if usable x then p_suffix k (XId x) r else None
      | KNum z :: r => Some (XNum z, r)
      | MINUS :: KNum z :: r => Some (XNum (- z), r)
      | KStr s :: r => Some (XStr s, r)
      | _ => None
      end
  end
with p_suffix (n : nat) (e : cexp) (ts : list tok) {struct n} : option (cexp * list tok) :=
  match n with
  | O => None
  | S k =>
      match ts with
      | DOT :: KId f :: r => p_suffix k (XField e f) r
      | ARROW :: KId f :: r => p_suffix k (XArrow e f) r
      | LB :: r => match p_exp k r with Some (i, RB :: r1) => p_suffix k (XIdx e i) r1 | _ => None end
      | LP :: RP :: r => p_suffix k (XCall e []) r
      | LP :: r => match p_list k r with Some (es, RP :: r1) => p_suffix k (XCall e es) r1 | _ => None end
      | _ => Some (e, ts)
      end
  end
(** one or more expressions with commas between *)
with p_list (n : nat) (ts : list tok) {struct n} : option (list cexp * list tok) :=
  match n with
  | O => None
  | S k =>
      match p_exp k ts with
      | Some (e, COMMA :: r) => match p_list k r with Some (es, r1) => Some (e :: es, r1) | None => None end
      | Some (e, r) => Some ([e], r)
      | None => None
      end
  end.

(** statements up to the closing brace, which is consumed *)
Fixpoint p_stmt (n : nat) (ts : list tok) {struct n} : option (cstmt * list tok) :=
  match n with
  | O => None
  | S k =>
      match ts with
      | KId x :: r =>
          if String.eqb x "return" then match r with SEMI :: r1 => Some (CReturn, r1) | _ => None end
          else if String.eqb x "if" then
            match r with
            | LP :: r1 =>
                match p_exp k r1 with
                | Some (c, RP :: LC :: r2) =>
                    match p_stmts k r2 with
                    | Some (a, KId s :: LC :: r3) =>
                        if String.eqb s "else" then
                          match p_stmts k r3 with Some (b, r4) => Some (CIf c a b, r4) | None => None end
                        else Some (CIf c a [], KId s :: LC :: r3)
                    | Some (a, r3) => Some (CIf c a [], r3)
                    | None => None
                    end
                | _ => None
                end
            | _ => None
            end
          else if String.eqb x "switch" then
            match r with
            | LP :: r1 =>
                match p_exp k r1 with
                | Some (c, RP :: LC :: r2) =>
                    match p_cases k r2 with Some (l, r3) => Some (CSwitch c l, r3) | None => None end
                | _ => None
                end
            | _ => None
            end
          else if in_names x typedefs then
            match p_type ts with
            | Some (t, KId y :: ASSIGN :: r1) =>
                if usable y then
                  match p_exp k r1 with Some (e, SEMI :: r2) => Some (CDecl t y e, r2) | _ => None end
                else None
            | Some (t, KId y :: LB :: KNum z :: RB :: ASSIGN :: LC :: r1) =>
                if usable y then
                  match p_list k r1 with Some (es, RC :: SEMI :: r2) => Some (CArray t y z es, r2) | _ => None end
                else None
            | _ => None
            end
          else
            match p_exp k ts with
            | Some (l, ASSIGN :: r1) => match p_exp k r1 with Some (e, SEMI :: r2) => Some (CAssign l e, r2) | _ => None end
            | Some (e, SEMI :: r1) => Some (CExp e, r1)
            | _ => None
            end
      | _ => None
      end
  end
with p_stmts (n : nat) (ts : list tok) {struct n} : option (list cstmt * list tok) :=
  match n with
  | O => None
  | S k =>
      match ts with
      | RC :: r => Some ([], r)
      | _ =>
          match p_stmt k ts with
          | Some (s, r) => match p_stmts k r with Some (l, r1) => Some (s :: l, r1) | None => None end
          | None => None
          end
      end
  end
with p_cases (n : nat) (ts : list tok) {struct n} : option (list (Z * list cstmt) * list tok) :=
  match n with
  | O => None
  | S k =>
      match ts with
      | RC :: r => Some ([], r)
      | KId s :: KNum z :: COLON :: LC :: r =>
          if String.eqb s "case" then
            match p_stmts k r with
            | Some (b, r1) => match p_cases k r1 with Some (l, r2) => Some ((z, b) :: l, r2) | None => None end
            | None => None
            end
          else None
      | _ => None
      end
  end.

(** after the opening parenthesis *)
Fixpoint p_params (n : nat) (ts : list tok) : option (list (ctype * string) * list tok) :=
  match n with
  | O => None
  | S k =>
      match p_type ts with
      | Some (t, KId x :: COMMA :: r) =>
          if usable x then match p_params k r with Some (l, r1) => Some ((t, x) :: l, r1) | None => None end else None
      | Some (t, KId x :: RP :: r) => if usable x then Some ([(t, x)], r) else None
      | _ => None
      end
  end.

Fixpoint p_file (n : nat) (ts : list tok) : option (list cdecl) :=
  match n with
  | O => None
  | S k =>
      match ts with
      | [] => Some []
      | KId s :: r =>
          match p_type (if String.eqb s "static" then r else ts) with
          | Some (t, KId f :: LP :: r1) =>
              if usable f then
                match p_params k r1 with
                | Some (ps, SEMI :: r2) => match p_file k r2 with Some l => Some (DProto t f ps :: l) | None => None end
                | Some (ps, LC :: r2) =>
                    match p_stmts k r2 with
                    | Some (b, r3) => match p_file k r3 with Some l => Some (DFun t f ps b :: l) | None => None end
                    | None => None
                    end
                | _ => None
                end
              else None
          | Some (t, KId x :: ASSIGN :: r1) =>
              if usable x then
                match p_exp k r1 with
                | Some (e, SEMI :: r2) => match p_file k r2 with Some l => Some (DVar t x e :: l) | None => None end
                | _ => None
                end
              else None
          | _ => None
          end
      | _ => None
      end
  end.

(** the file that a text is, if it is one *)
Definition c_file (s : bytes) : option (list cdecl) := let ts := lex s in p_file (4 * List.length ts + 16) ts.

(** * Meaning *)

(** the functions of a file, the last one first; those declared before *)
Definition defs (d : list cdecl) : list (string * (list (ctype * string) * list cstmt)) :=
  rev (flat_map (fun x => match x with DFun _ f ps b => [(f, (ps, b))] | _ => [] end) d).
Definition protos (d : list cdecl) : list string :=
  flat_map (fun x => match x with DProto _ f _ => [f] | _ => [] end) d.
Fixpoint position (x : string) (l : list string) : option nat :=
  match l with
  | [] => None
  | y :: r => if String.eqb x y then Some 0 else match position x r with Some i => Some (S i) | None => None end
  end.
Fixpoint no_twins (l : list string) : bool :=
  match l with [] => true | x :: r => negb (in_names x r) && no_twins r end.
Definition address (d : list cdecl) (f : string) : option nat :=
  if in_names f (protos d) then position f (map fst (defs d)) else None.

(** what a local name stands for *)
Inductive cval := CCo | CInt (z : Z) | CFrame | CRaw | CObj (v : lval) | CArr (vs : list lval).
Definition scope := list (string * cval).

(** how the function hands control back to the trampoline *)
Inductive action := ARet (v : lval) | ACall (f : lval) (args : list lval).
Record cst := mkC {
  c_env : list scope;                        (* the innermost block first *)
  c_R : slots;
  c_G : store lcode;
  c_conts : list (nat * nat * slots);        (* saveCont: function, label, frame *)
  c_sp : bool;                               (* co->ctx.sp = R *)
  c_act : option action }.

Fixpoint find_in (x : string) (s : scope) : option cval :=
  match s with [] => None | (y, v) :: r => if String.eqb x y then Some v else find_in x r end.
Fixpoint find (x : string) (l : list scope) : option cval :=
  match l with [] => None | s :: r => match find_in x s with Some v => Some v | None => find x r end end.

Section Meaning.
  Variable d : list cdecl.
  Variable table : list name.                (* the symbols of the package *)
  Variable res : lval.                       (* co->res *)

  Section Exp.
    Variable env : list scope.
    Variable R : slots.
    Variable G : store lcode.

    Definition is_co (e : cexp) : bool :=
      match e with XId c => match find c env with Some CCo => true | _ => false end | _ => false end.
    Definition is_gc (e : cexp) : bool := match e with XArrow c f => is_co c && String.eqb f "gc" | _ => false end.
    Definition is_frame (e : cexp) : bool :=
      match e with XId r => match find r env with Some CFrame => true | _ => false end | _ => false end.
    (** the name is not hidden by a local one *)
    Definition free (x : string) : bool := match find x env with None => true | Some _ => false end.
    Definition calls (f : string) (e : cexp) : bool :=
      match e with XId g => String.eqb g f && free f | _ => false end.

    Definition natural (e : cexp) : option nat :=
      match e with XNum z => if (0 <=? z)%Z then Some (Z.to_nat z) else None | _ => None end.

    (** getBinding(co, packageID, k): src/runtime.h, src/runtime.c *)
    Definition binding (e : cexp) : option name :=
      match e with
      | XCall g [c; XId p; k] =>
          if calls "getBinding" g && is_co c && String.eqb p "packageID" && free "packageID" then
            match natural k with Some i => nth_error table i | None => None end
          else None
      | _ => None
      end.

    Definition fun_name (e : cexp) : option nat :=
      match e with XId f => if free f then address d f else None | _ => None end.

    (** an expression without effect; makeNumber is exact up to 2^53
        (src/types.h:86-92) *)
    Fixpoint c_eval (e : cexp) : option lval :=
      let evals := fix evals (l : list cexp) : option (list lval) :=
        match l with
        | [] => Some []
        | a :: r => match c_eval a with
                    | Some v => match evals r with Some vs => Some (v :: vs) | None => None end
                    | None => None
                    end
        end in
      match e with
      | XId x =>
          match find x env with
          | Some (CObj v) => Some v
          | Some _ => None
          | None =>
              if String.eqb x "Nil" then Some VNil else if String.eqb x "True" then Some VTrue
              else if String.eqb x "False" then Some VFalse else None
          end
      | XIdx r i =>
          if is_frame r then
            match natural i with
            | Some k => match nth_error R k with Some o => o | None => None end
            | None => None
            end
          else None
      | XArrow c f => if is_co c && String.eqb f "res" then Some res else None
      | XField b f =>
          if String.eqb f "name" then match binding b with Some x => Some (VSym x) | None => None end else None
      | XCall (XId f) args =>
          if negb (free f) then None
          else if String.eqb f "MAKE_NUMBER" then
            match args with
            | [XNum z] => if (Z.abs z <=? 2 ^ 53)%Z && free "makeNumber" then Some (VNum z) else None
            | _ => None
            end
          else if String.eqb f "makeCString" then
            match args with
            | [g; XStr s] => if is_gc g then Some (VStr s) else None
            | _ => None
            end
          else if String.eqb f "globalRef" then
            match args with
            | [c; b] => if is_co c then match binding b with Some x => g_val G x | None => None end else None
            | _ => None
            end
          else if String.eqb f "closureRef" then
            match args with
            | [XIdx r z; i] =>
                if is_frame r then
                  match natural z, natural i with
                  | Some 0, Some k => captured R k
                  | _, _ => None
                  end
                else None
            | _ => None
            end
          else if String.eqb f "makeNative" then
            match args with
            | g :: nf :: fn :: na :: nc :: caps =>
                if is_gc g then
                  match natural nf, fun_name fn, natural na, natural nc, evals caps with
                  | Some nf, Some lab, Some na, Some nc, Some vs =>
                      if nc =? List.length vs then Some (VClo (mkL lab na nf) vs) else None
                  | _, _, _, _, _ => None
                  end
                else None
            | _ => None
            end
          else None
      | _ => None
      end.

    Fixpoint c_evals (l : list cexp) : option (list lval) :=
      match l with
      | [] => Some []
      | a :: r => match c_eval a with
                  | Some v => match c_evals r with Some vs => Some (v :: vs) | None => None end
                  | None => None
                  end
      end.

    (** the C functions and macros for the primitives (src/types.h:93-106,
        src/runtime.h) and what comes before the operands *)
    Definition prim_call (f : string) : option (prim * nat) :=
      assoc_str f
        [("primSet", (PSet, 1)); ("PRIM_CAR", (PCar, 0)); ("PRIM_CDR", (PCdr, 0)); ("makeCons", (PCons, 2));
         ("PRIM_ISCONS", (PIsCons, 0)); ("PRIM_ADD", (PAdd, 0)); ("PRIM_SUB", (PSub, 0)); ("PRIM_MUL", (PMul, 0));
         ("primDiv", (PDiv, 0)); ("PRIM_EQ", (PEq, 0)); ("PRIM_GT", (PGt, 0)); ("PRIM_LT", (PLt, 0));
         ("primGenSym", (PGensym, 1)); ("primIsSymbol", (PIsSymbol, 0)); ("primNot", (PNot, 0));
         ("primIsNumber", (PIsInt, 0)); ("primIsString", (PIsStr, 0))].
    (** names the macros expand to *)
    Definition macro_names : list string :=
      ["True"; "False"; "ptr"; "scmCons"; "iscons"; "eq"; "fixnum"; "makeNumber"; "MAKE_NUMBER"].

    Definition c_init (ar : arith) (e : cexp) : option (lval * store lcode) :=
      match e with
      | XCall (XId f) args =>
          match prim_call f with
          | Some (p, k) =>
              if free f && forallb free macro_names then
                match k, args with
                | 0, _ => match c_evals args with Some vs => prim_sem ar p vs G | None => None end
                | 1, c :: r => if is_co c then match c_evals r with Some vs => prim_sem ar p vs G | None => None end else None
                | 2, g :: r => if is_gc g then match c_evals r with Some vs => prim_sem ar p vs G | None => None end else None
                | _, _ => None
                end
              else None
          | None => match c_eval e with Some v => Some (v, G) | None => None end
          end
      | _ => match c_eval e with Some v => Some (v, G) | None => None end
      end.

    (** [==] on two words; two objects in the heap are not compared *)
    Definition word (v : lval) : bool :=
      match v with VNum _ | VSym _ | VTrue | VFalse | VNil => true | _ => false end.
    Definition same_word (a b : lval) : option bool :=
      if word a || word b then veq a b else None.
  End Exp.

  Definition set_slot (i : nat) (v : lval) (R : slots) : option slots :=
    if i <? List.length R then Some (firstn i R ++ Some v :: skipn (S i) R)%list else None.

  (** coraReturn, coraCall0..4, coraCall, saveCont: src/runtime.h *)
  Definition call_n (f : string) : option nat :=
    assoc_str f [("coraCall0", 0); ("coraCall1", 1); ("coraCall2", 2); ("coraCall3", 3); ("coraCall4", 4)].
  Definition act (s : cst) (a : action) : option cst :=
    match c_act s with
    | None => Some (mkC (c_env s) (c_R s) (c_G s) (c_conts s) (c_sp s) (Some a))
    | Some _ => None
    end.
  Definition c_effect (s : cst) (e : cexp) : option cst :=
    let ev := c_eval (c_env s) (c_R s) (c_G s) in
    match e with
    | XCall (XId f) (c :: r) =>
        if free (c_env s) f && is_co (c_env s) c then
          if String.eqb f "coraReturn" then
            match r with [x] => match ev x with Some v => act s (ARet v) | None => None end | _ => None end
          else if String.eqb f "saveCont" then
            match r with
            | [fn; l; b] =>
                match fun_name (c_env s) fn, natural l with
                | Some a, Some k =>
                    if is_frame (c_env s) b then
                      Some (mkC (c_env s) (c_R s) (c_G s) ((a, k, c_R s) :: c_conts s) (c_sp s) (c_act s))
                    else None
                | _, _ => None
                end
            | _ => None
            end
          else if String.eqb f "coraCall" then
            match r with
            | [g; n; XId x] =>
                match ev g, natural n, find x (c_env s) with
                | Some fv, Some k, Some (CArr vs) => if k =? List.length vs then act s (ACall fv vs) else None
                | _, _, _ => None
                end
            | _ => None
            end
          else
            match call_n f, r with
            | Some n, g :: args =>
                match ev g, c_evals (c_env s) (c_R s) (c_G s) args with
                | Some fv, Some vs => if n =? List.length vs then act s (ACall fv vs) else None
                | _, _ => None
                end
            | _, _ => None
            end
        else None
    | _ => None
    end.

  (** declaring a name in the innermost block *)
  Definition declare (x : string) (v : cval) (l : list scope) : option (list scope) :=
    match l with
    | s :: r => match find_in x s with None => Some (((x, v) :: s) :: r) | Some _ => None end
    | [] => None
    end.
  Definition with_env (s : cst) (env : list scope) : cst :=
    mkC env (c_R s) (c_G s) (c_conts s) (c_sp s) (c_act s).

  (** [true]: the function has returned *)
  Fixpoint c_exec (ar : arith) (t : cstmt) (s : cst) {struct t} : option (bool * cst) :=
    let execs := fix execs (l : list cstmt) (s : cst) {struct l} : option (bool * cst) :=
      match l with
      | [] => Some (false, s)
      | t :: r => match c_exec ar t s with
                  | Some (true, s1) => Some (true, s1)
                  | Some (false, s1) => execs r s1
                  | None => None
                  end
      end in
    let block l s :=
      match execs l (with_env s ([] :: c_env s)) with
      | Some (b, s1) => Some (b, with_env s1 (tl (c_env s1)))
      | None => None
      end in
    match t with
    | CDecl ty x e =>                          (* the new name is visible in e *)
        if String.eqb (t_name ty) "Obj" && (t_stars ty =? 0) then
          match declare x CRaw (c_env s) with
          | Some env =>
              match c_init env (c_R s) (c_G s) ar e with
              | Some (v, G1) =>
                  match declare x (CObj v) (c_env s) with
                  | Some env1 => Some (false, mkC env1 (c_R s) G1 (c_conts s) (c_sp s) (c_act s))
                  | None => None
                  end
              | None => None
              end
          | None => None
          end
        else None
    | CArray ty x z es =>
        if String.eqb (t_name ty) "Obj" && (t_stars ty =? 0) then
          match declare x CRaw (c_env s) with
          | Some env =>
              match c_evals env (c_R s) (c_G s) es with
              | Some vs =>
                  if (z =? Z.of_nat (List.length vs))%Z then
                    match declare x (CArr vs) (c_env s) with
                    | Some env1 => Some (false, with_env s env1)
                    | None => None
                    end
                  else None
              | None => None
              end
          | None => None
          end
        else None
    | CAssign l e =>
        match l with
        | XIdx r i =>                          (* R[i] = e; *)
            if is_frame (c_env s) r then
              match natural i, c_eval (c_env s) (c_R s) (c_G s) e with
              | Some k, Some v =>
                  match set_slot k v (c_R s) with
                  | Some R1 => Some (false, mkC (c_env s) R1 (c_G s) (c_conts s) (c_sp s) (c_act s))
                  | None => None
                  end
              | _, _ => None
              end
            else None
        | XField (XArrow c f) g =>             (* co->ctx.sp = R; *)
            if is_co (c_env s) c && String.eqb f "ctx" && String.eqb g "sp" && is_frame (c_env s) e then
              Some (false, mkC (c_env s) (c_R s) (c_G s) (c_conts s) true (c_act s))
            else None
        | _ => None
        end
    | CExp e =>
        match c_effect s e with
        | Some s1 => Some (false, s1)
        | None => match c_eval (c_env s) (c_R s) (c_G s) e with Some _ => Some (false, s) | None => None end
        end
    | CIf c a b =>
        match c with
        | XEq x y =>
            match c_eval (c_env s) (c_R s) (c_G s) x, c_eval (c_env s) (c_R s) (c_G s) y with
            | Some v, Some w =>
                match same_word v w with
                | Some true => block a s
                | Some false => block b s
                | None => None
                end
            | _, _ => None
            end
        | _ => None
        end
    | CSwitch (XId x) cases =>                 (* control falls from one case into the next *)
        match find x (c_env s) with
        | Some (CInt z) =>
            (fix from (on : bool) (l : list (Z * list cstmt)) (s : cst) {struct l} : option (bool * cst) :=
               match l with
               | [] => Some (false, s)
               | (k, b) :: r =>
                   if on || (k =? z)%Z then
                     match block b s with
                     | Some (true, s1) => Some (true, s1)
                     | Some (false, s1) => from true r s1
                     | None => None
                     end
                   else from false r s
               end) false cases s
        | _ => None
        end
    | CSwitch _ _ => None
    | CReturn => Some (true, s)
    end.

  Fixpoint c_execs (ar : arith) (l : list cstmt) (s : cst) : option (bool * cst) :=
    match l with
    | [] => Some (false, s)
    | t :: r => match c_exec ar t s with
                | Some (true, s1) => Some (true, s1)
                | Some (false, s1) => c_execs ar r s1
                | None => None
                end
    end.

  (** the values a basicBlock is called with: src/types.h, coraRun *)
  Definition param (label : nat) (p : ctype * string) : option (string * cval) :=
    let '(t, x) := p in
    if String.eqb (t_name t) "Cora" && (t_stars t =? 1) then Some (x, CCo)
    else if String.eqb (t_name t) "int" && (t_stars t =? 0) then Some (x, CInt (Z.of_nat label))
    else if String.eqb (t_name t) "Obj" && (t_stars t =? 1) then Some (x, CFrame)
    else None.

  (** one turn of the trampoline into the function at address [a] *)
  Definition c_turn (ar : arith) (a label : nat) (R : slots) (G : store lcode) : option cst :=
    match nth_error (defs d) a with
    | Some (_, ([p1; p2; p3], body)) =>
        match param label p1, param label p2, param label p3 with
        | Some (x1, CCo), Some (x2, CInt z), Some (x3, CFrame) =>
            match c_execs ar body (mkC [[(x1, CCo); (x2, CInt z); (x3, CFrame)]] R G [] false None) with
            | Some (_, s) => Some s
            | None => None
            end
        | _, _, _ => None
        end
    | _ => None
    end.
End Meaning.

(** a call needs the frame to be given back or kept by saveCont *)
Definition c_finish (M : mst) (s : cst) : option mst :=
  let p := (map (fun c => MAct (mkMA (MUser (fst (fst c))) (snd (fst c)) (snd c))) (c_conts s) ++ m_pend M)%list in
  let M1 := mkM (m_cur M) p None (m_res M) (c_G s) in
  match c_act s with
  | Some (ARet v) => Some (m_return M1 v)
  | Some (ACall f args) => if c_sp s || negb (match c_conts s with [] => true | _ => false end) then m_call M1 f args else None
  | None => None
  end.

(** A step of the runtime with the functions of the file loaded: everything
    that is not a function of the file is as in TocMach.v. *)
Definition c_step (ar : arith) (d : list cdecl) (table : list name) (M : mst) : option mst :=
  match m_cur M with
  | Some (mkMA (MUser a) label R) =>
      match c_turn d table (m_res M) ar a label R (m_G M) with
      | Some s => c_finish M s
      | None => None
      end
  | _ => mstep ar [] M
  end.
Fixpoint c_steps (ar : arith) (d : list cdecl) (table : list name) (k : nat) (M : mst) : option mst :=
  match k with
  | O => Some M
  | S k' => match c_step ar d table M with Some M1 => c_steps ar d table k' M1 | None => None end
  end.

(** * The function [entry], which load-so calls first *)
Record est := mkE {
  e_id : bool;                               (* packageID has been allocated *)
  e_arr : option (string * list (option name));
  e_pkg : option (list (option name));       (* addPackage *)
  e_fn : option nat; e_label : option nat }.

Definition e_stmt (d : list cdecl) (t : cstmt) (s : est) : option est :=
  match t with
  | CIf (XEq (XId p) (XNum z)) [CAssign (XId q) (XCall (XId f) [])] [] =>
      if String.eqb p "packageID" && (z =? -1)%Z && String.eqb q "packageID" && String.eqb f "packageIDAlloc"
      then Some (mkE true (e_arr s) (e_pkg s) (e_fn s) (e_label s)) else None
  | CDecl (mkT ty 1) x (XCall (XId m) [XMul (XSizeof ty') n]) =>
      if String.eqb ty "Binding" && String.eqb ty' "Binding" && String.eqb m "malloc" then
        match natural n with
        | Some k => Some (mkE (e_id s) (Some (x, repeat None k)) (e_pkg s) (e_fn s) (e_label s))
        | None => None
        end
      else None
  | CAssign (XIdx (XId a) i) (XCall (XId b) [XId c; XCall (XId f) [XStr str]]) =>
      if String.eqb b "bindSymbol" && String.eqb c "co" && String.eqb f "intern" then
        match e_arr s, natural i with
        | Some (x, l), Some k =>
            if String.eqb x a && (k <? List.length l) then
              Some (mkE (e_id s) (Some (x, firstn k l ++ Some (NS str) :: skipn (S k) l)%list) (e_pkg s) (e_fn s) (e_label s))
            else None
        | _, _ => None
        end
      else None
  | CExp (XCall (XId f) [XId c; XId p; XId a]) =>
      if String.eqb f "addPackage" && String.eqb c "co" && String.eqb p "packageID" && e_id s then
        match e_arr s with
        | Some (x, l) => if String.eqb x a then Some (mkE (e_id s) (e_arr s) (Some l) (e_fn s) (e_label s)) else None
        | None => None
        end
      else None
  | CAssign (XField (XArrow (XId c) f) g) e =>
      if String.eqb c "co" && String.eqb f "ctx" then
        if String.eqb g "fn" then
          match e with
          | XId fn => match address d fn with Some a => Some (mkE (e_id s) (e_arr s) (e_pkg s) (Some a) (e_label s)) | None => None end
          | _ => None
          end
        else if String.eqb g "label" then
          match natural e with Some k => Some (mkE (e_id s) (e_arr s) (e_pkg s) (e_fn s) (Some k)) | None => None end
        else None
      else None
  | _ => None
  end.
Fixpoint e_stmts (d : list cdecl) (l : list cstmt) (s : est) : option est :=
  match l with
  | [] => Some s
  | t :: r => match e_stmt d t s with Some s1 => e_stmts d r s1 | None => None end
  end.
Fixpoint all_bound (l : list (option name)) : option (list name) :=
  match l with
  | [] => Some []
  | Some x :: r => match all_bound r with Some xs => Some (x :: xs) | None => None end
  | None :: _ => None
  end.

(** loading a file for the first time: the symbols of its package and the
    function and label to continue with *)
Definition c_load (d : list cdecl) : option (list name * nat * nat) :=
  if no_twins (map fst (defs d)) then
    match rev (defs d), find_in "packageID" (flat_map (fun x => match x with DVar (mkT t 0) x (XNum z) => if String.eqb t "int" then [(x, CInt z)] else [] | _ => [] end) d) with
    | (f, (_, body)) :: _, Some (CInt z) =>
        if String.eqb f "entry" && (z =? -1)%Z then
          match e_stmts d body (mkE false None None None None) with
          | Some (mkE _ _ (Some l) (Some a) (Some k)) =>
              match all_bound l with Some xs => Some (xs, a, k) | None => None end
          | _ => None
          end
        else None
    | _, _ => None
    end
  else None.
