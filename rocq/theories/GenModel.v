(** lib/toc.cora:257-605: writing the C file for a list of functions.

    The functions are those of TocModel.v, which are what the compiler passes
    to generate-c, as constructors instead of lists.

    Simplifications.
    - The output stream is the bytes written; a write never fails.
    - [gs k] is the text of the k-th symbol made by gensym, which
      src/types.c:185 prints as the letter x and the value of its pointer.
    - Statements that only occur before the last pass (a closure with its
      code, a call with its continuation inside) are [Trap]. *)
From Coq Require Import List ZArith Bool Ascii String Arith.
From Verif Require Import Base StrModel ReaderModel EmitModel CoreSpec TocModel.
Import ListNotations.
Local Open Scope string_scope.
Local Open Scope list_scope.
Local Open Scope nat_scope.

(** (begin (generate-str w ...) ...): one text after the other *)
Definition cat (a b : outcome bytes) : outcome bytes :=
  match a with Ok x => match b with Ok y => Ok (x ++ y) | Trap => Trap | UB => UB end | Trap => Trap | UB => UB end.
Infix ";;" := cat (at level 61, right associativity).
Definition str (s : string) : outcome bytes := Ok (list_ascii_of_string s).
Definition nl : outcome bytes := Ok [LF].
Definition quo : outcome bytes := Ok [QUO].
(** lib/toc/internal.c:38-45 *)
Definition num (n : nat) : outcome bytes := Ok (printNum (Z.of_nat n)).

(** toc.cora:263-270; -1 when it is not there *)
Fixpoint symbol_offset_h (idx : Z) (sym : sexp) (globals : list sexp) : Z :=
  match globals with
  | [] => -1
  | a :: r => if sexp_eqb sym a then idx else symbol_offset_h (idx + 1) sym r
  end.
Definition symbol_offset (sym : sexp) (globals : list sexp) : outcome bytes :=
  Ok (printNum (symbol_offset_h 0 sym globals)).

(** toc.cora:29-43 and 336-344: the C name of a builtin and what follows it *)
Definition builtin_name (p : prim) : string :=
  match p with
  | PSet => "primSet" | PCar => "PRIM_CAR" | PCdr => "PRIM_CDR" | PCons => "makeCons" | PIsCons => "PRIM_ISCONS"
  | PAdd => "PRIM_ADD" | PSub => "PRIM_SUB" | PMul => "PRIM_MUL" | PDiv => "primDiv" | PEq => "PRIM_EQ"
  | PGt => "PRIM_GT" | PLt => "PRIM_LT" | PGensym => "primGenSym" | PIsSymbol => "primIsSymbol" | PNot => "primNot"
  | PIsInt => "primIsNumber" | PIsStr => "primIsString"
  end.
Definition builtin_open (p : prim) : string :=
  match p with PSet => "(co, " | PGensym => "(co" | PCons => "(co->gc, " | _ => "(" end.

(** toc.cora:444-447 *)
Definition group_name (label : nat) : outcome bytes := str "clofun";; num label.

Section Gen.
  Variable gs : nat -> bytes.
  Variable globals : list sexp.

  (** symbolStr, src/types.c:170-189 *)
  Definition name_text (x : name) : bytes := match x with NS s => list_ascii_of_string s | NG k => gs k end.
  Definition gsym (x : name) : outcome bytes := generate_sym (name_text x).

  (** toc.cora:311-326 *)
  Definition gen_const (c : sexp) : outcome bytes :=
    match c with
    | SSym _ => str "getBinding(co, packageID, ";; symbol_offset c globals;; str ").name"
    | SNum z => str "MAKE_NUMBER(";; Ok (printNum z);; str ")"
    | SStr s => str "makeCString(co->gc, ";; generate_string_const (list_ascii_of_string s)
    | SNil => str "Nil"
    | STrue => str "True"
    | SFalse => str "False"
    | SCons _ _ => Trap                                   (* no cond match *)
    end.

  (** toc.cora:294-326, 353-367; the list is generate-inst-list, :417-432 *)
  Fixpoint gen_simple (s : simple) : outcome bytes :=
    let gen_list := fix gen_list (l : list simple) : outcome bytes :=
      match l with
      | [] => Ok []
      | a :: b => gen_simple a;; (match b with [] => Ok [] | _ => str ", " end);; gen_list b
      end in
    match s with
    | SmVar x => gsym x
    | SmGlob x => str "globalRef(co, getBinding(co, packageID, ";; symbol_offset (SSym x) globals;; str "))"
    | SmRef i => str "closureRef(R[0], ";; num i;; str ")"
    | SmConst c => gen_const c
    | SmLab label nargs nframe frees =>
        str "makeNative(co->gc, ";; num nframe;; str ", ";; group_name label;; str ", ";; num nargs;; str ", ";;
        num (List.length frees);;
        (match frees with [] => Ok [] | _ => str ", ";; gen_list frees end);; str ")"
    | SmClo _ _ _ => Trap
    end.
  Fixpoint gen_list (l : list simple) : outcome bytes :=
    match l with
    | [] => Ok []
    | a :: b => gen_simple a;; (match b with [] => Ok [] | _ => str ", " end);; gen_list b
    end.

  (** toc.cora:272-281 *)
  Fixpoint save_to_frame (acc : nat) (l : list name) : outcome bytes :=
    match l with
    | [] => Ok []
    | v :: r => str "R[";; num acc;; str "] = ";; gsym v;; str ";";; nl;; save_to_frame (acc + 1) r
    end.
  (** toc.cora:283-292 *)
  Fixpoint recover_from_frame (acc : nat) (l : list name) : outcome bytes :=
    match l with
    | [] => Ok []
    | v :: r => str "Obj ";; gsym v;; str " = R[";; num acc;; str "];";; nl;; recover_from_frame (acc + 1) r
    end.

  (** [f . args], toc.cora:390-413 *)
  Definition gen_call (f : simple) (args : list simple) : outcome bytes :=
    let nargs := List.length args in
    if 4 <? nargs then
      str "Obj __args[";; num nargs;; str "] = {";; gen_list args;; str "};";; nl;;
      str "coraCall(co, ";; gen_simple f;; str ", ";; num nargs;; str ", __args);";; nl
    else
      str "coraCall";; num nargs;; str "(co, ";; gen_simple f;;
      (if 0 <? nargs then str ", ";; gen_list args else Ok []);; str ");";; nl.

  (** toc.cora:327-389 *)
  Fixpoint gen_stm (self : nat) (t : stm) : outcome bytes :=
    match t with
    | TLet x s k => str "Obj ";; gsym x;; str " = ";; gen_simple s;; str ";";; nl;; gen_stm self k
    | TPrim x p args k =>
        str "Obj ";; gsym x;; str " = ";;
        str (builtin_name p);; str (builtin_open p);; gen_list args;; str ")";;
        str ";";; nl;; gen_stm self k
    | TIf s a b =>
        str "if (True == ";; gen_simple s;; str ") {";; nl;; gen_stm self a;;
        str "} else {";; nl;; gen_stm self b;; str "}";; nl
    | TDo s k => gen_simple s;; str ";";; nl;; gen_stm self k
    | TRet s => str "coraReturn(co, ";; gen_simple s;; str ");";; nl;; str "return;";; nl
    | TTail f args => str "co->ctx.sp = R;";; nl;; gen_call f args;; str "return;";; nl
    | TJump f args label live =>
        save_to_frame 1 live;; str "saveCont(co, ";; group_name self;; str ", ";; num label;; str ", R);";; nl;;
        gen_call f args;; str "return;";; nl
    | TCall _ _ _ _ _ => Trap
    end.

  (** toc.cora:434-442 *)
  Definition gen_cont (self : nat) (k : cont) : outcome bytes :=
    str "Obj ";; gsym (k_var k);; str "= co->res;";; nl;; recover_from_frame 1 (k_live k);; gen_stm self (k_body k).

  (** toc.cora:449-454 *)
  Definition func_declare (label : nat) : outcome bytes :=
    str "static void ";; group_name label;; str "(struct Cora* co, int label, Obj *R";; str ")".

  Fixpoint gen_conts (self acc : nat) (l : list cont) : outcome bytes :=
    match l with
    | [] => Ok []
    | k :: r =>
        str "case ";; num acc;; str ":";; nl;; str "{";; nl;; gen_cont self k;; str "}";; nl;; gen_conts self (acc + 1) r
    end.

  (** toc.cora:540-566 *)
  Definition gen_toplevel_lambda (label : nat) (F : func) : outcome bytes :=
    func_declare label;; str " {";; nl;; str " switch (label) {";; nl;;
    str "case 0:";; nl;; str "{";; nl;; recover_from_frame 1 (f_ps F);; gen_stm label (f_first F);; str "}";; nl;;
    gen_conts label 1 (f_conts F);; str "}";; nl;; str "}";; nl;; nl.

  (** (symbol->string sym), src/runtime.c:231-238 *)
  Definition symbol_string (s : sexp) : outcome bytes :=
    match s with
    | SSym x => assertT (List.length (name_text x) + 1 <? 256) (Ok (cstr (name_text x)))
    | _ => Trap
    end.

  Fixpoint gen_symbols (acc : nat) (l : list sexp) : outcome bytes :=
    match l with
    | [] => Ok []
    | s :: r =>
        str "__symbolTable[";; num acc;; str "] = bindSymbol(co, intern(";; quo;; symbol_string s;; quo;; str "));";; nl;;
        gen_symbols (acc + 1) r
    end.

  (** toc.cora:568-589 *)
  Definition gen_entry (label : nat) : outcome bytes :=
    str "void entry(struct Cora *co, int label, Obj *R) {";; nl;;
    str "if (packageID == -1) { packageID = packageIDAlloc(); }";; nl;;
    str "Binding *__symbolTable = malloc(sizeof(Binding) * ";; num (List.length globals);; str ");";; nl;;
    gen_symbols 0 globals;;
    str "addPackage(co, packageID, __symbolTable);";; nl;;
    str "co->ctx.fn = ";; group_name label;; str ";";; nl;;
    str "co->ctx.label = 0;";; nl;; str "}";; nl;; nl.

  (** toc.cora:596-600: the prototypes; [bc] is (label function), the last
      one first *)
  Fixpoint gen_protos (bc : list (nat * func)) : outcome bytes :=
    match bc with
    | [] => Ok []
    | (label, _) :: r => func_declare label;; str ";";; nl;; gen_protos r
    end.
  Fixpoint gen_lambdas (bc : list (nat * func)) : outcome bytes :=
    match bc with
    | [] => Ok []
    | (label, F) :: r => gen_toplevel_lambda label F;; gen_lambdas r
    end.

  (** toc.cora:591-605 *)
  Definition gen_c (bc : list (nat * func)) : outcome bytes :=
    str "#include ";; quo;; str "types.h";; quo;; nl;;
    str "#include ";; quo;; str "runtime.h";; quo;; nl;; nl;;
    str "static int packageID = -1;";; nl;;
    gen_protos bc;; nl;; nl;;
    match bc with
    | (label, _) :: _ => gen_entry label;; gen_lambdas bc
    | [] => Trap                                          (* (caar bc) *)
    end.
End Gen.

(** append-result (toc.cora:230-236) numbers the functions and puts the
    newest first *)
Definition numbered (fs : list func) : list (nat * func) := rev (combine (seq 0 (List.length fs)) fs).
Definition generate_c (gs : nat -> bytes) (fs : list func) (globals : list sexp) : outcome bytes :=
  gen_c gs globals (numbered fs).
