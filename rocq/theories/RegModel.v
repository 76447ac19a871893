(** Functions written in C: how a module registers them under a package
    (src/runtime.c:997-1060), and those that every program starts with
    (src/runtime.c:1062-1107).

    Simplifications.
    - Objects are known by their content: [objects] gives the word for a symbol
      with some name, a pair of two words, and a function with a frame size, a
      C function and a number of arguments.  (That a symbol is one object is
      C14; that objects keep their content is C10.)
    - The string buffers hold the concatenation of what was put in them (C06).
    - A C function is known by its name, an int argument count is not
      negative. *)
From Coq Require Import List ZArith Bool Ascii String.
From Verif Require Import Base StrModel NumModel TrieModel.
Import ListNotations.
Local Open Scope list_scope.
Local Open Scope Z_scope.

Record objects := mkObjects {
  a_sym : bytes -> Z;
  a_cons : Z -> Z -> Z;
  a_native : nat -> string -> nat -> Z }.

(** src/runtime.h:243-247; the entry with a null function ends the table *)
Record entry := mkEn { e_name : bytes; e_func : string; e_args : nat }.

Definition chars (s : string) : bytes := list_ascii_of_string s.
Definition hash_sign : ascii := "#".

(** src/runtime.c:1010-1019 and 1036-1045: the variable a function is put in,
    as intern reads its name, up to a NUL byte *)
Definition variable (pkg name : bytes) : bytes :=
  if (Z.of_nat (List.length pkg) >? 0)%Z then cstr (pkg ++ [hash_sign] ++ cstr name) else cstr name.

(** src/runtime.c:1003-1023, the loop *)
Fixpoint reg_loop (A : objects) (pkg : bytes) (es : list entry) (g : genv) (exports : Z) : outcome (genv * Z) :=
  match es with
  | [] => Ok (g, exports)
  | e :: r =>
      do! g <- primSet g (variable pkg (e_name e)) (a_native A (e_args e + 1) (e_func e) (e_args e));
      reg_loop A pkg r g (a_cons A (a_sym A (cstr (e_name e))) exports)
  end.
(** src/runtime.c:997-1031 *)
Definition registerAPI (A : objects) (g : genv) (es : list entry) (pkg : bytes) : outcome genv :=
  do! '(g, exports) <- reg_loop A pkg es g Nil;
  if (Z.of_nat (List.length pkg) >? 0)%Z then primSet g (cstr (pkg ++ chars "#*ns-export*")) exports else Ok g.

(** src/runtime.c:1033-1060; [pkg] is a C string or null *)
Definition coraRegisterAPI (A : objects) (g : genv) (pkg : option bytes) (e : entry) : outcome genv :=
  let v := match pkg with
           | Some p => cstr (cstr p ++ [hash_sign] ++ cstr (e_name e))
           | None => cstr (e_name e)
           end in
  do! g <- primSet g v (a_native A (e_args e + 1) (e_func e) (e_args e));
  match pkg with
  | None => Ok g
  | Some p =>
      let (g, b) := bindSymbol g (cstr (cstr p ++ chars "#*ns-export*")) in
      do! exports <- globalRef g b;
      let exports := if exports =? Undef then Nil else exports in
      globalSet g b (a_cons A (a_sym A (cstr (e_name e))) exports)
  end.

(** What lib/io.c:134-144 and lib/parallel/internal.c:332-348 do: one call for
    each function *)
Fixpoint register_each (A : objects) (g : genv) (pkg : option bytes) (es : list entry) : outcome genv :=
  match es with
  | [] => Ok g
  | e :: r => do! g <- coraRegisterAPI A g pkg e; register_each A g pkg r
  end.

(** src/runtime.c:1062-1107, without the symbols of the reader; [tls] is the
    address of the machine as %p prints it *)
Definition init_table : list (string * nat * string * nat) :=
  [("symbol->string", 2, "symbolToString", 1); ("intern", 2, "builtinIntern", 1); ("number?", 2, "builtinIsNumber", 1);
   ("read-file-as-sexp", 2, "builtinReadFileAsSexp", 1); ("string-append", 3, "builtinStringAppend", 2);
   ("value", 2, "builtinValue", 1); ("value-or", 3, "builtinValueOr", 2); ("apply", 3, "builtinApply", 2);
   ("load-so", 3, "builtinLoadSo", 2); ("import", 2, "builtinImport", 1); ("load", 2, "builtinLoad", 1);
   ("vector", 2, "builtinVector", 1); ("vector?", 2, "builtinIsVector", 1); ("vector-set!", 4, "builtinVectorSet", 3);
   ("vector-ref", 3, "builtinVectorRef", 2); ("vector-length", 2, "builtinVectorLength", 1); ("bytes", 2, "builtinBytes", 1);
   ("bytes-length", 2, "builtinBytesLength", 1); ("try", 3, "builtinTryCatch", 2); ("throw", 2, "builtinThrow", 1)]%string%nat.
Definition init_table2 : list (string * nat * string * nat) :=
  [("symbol-cooked?", 2, "builtinSymbolCooked", 1); ("cora/lib/eval#make-closure-for-eval", 4, "makeClosureForEval", 3);
   ("cora/lib/sys#vm-symbol-for-tls", 1, "vmSymbolForTLS", 0)]%string%nat.
Fixpoint init_loop (A : objects) (g : genv) (l : list (string * nat * string * nat)) : outcome genv :=
  match l with
  | [] => Ok g
  | (n, fr, f, req) :: r => do! g <- primSet g (chars n) (a_native A fr f req); init_loop A g r
  end.
Definition coraInit (A : objects) (tls : bytes) : outcome genv :=
  do! g <- init_loop A genv_empty init_table;
  do! g <- primSet g (chars "cora/init#*imported*") Nil;
  do! g <- init_loop A g init_table2;
  primSet g tls Nil.
