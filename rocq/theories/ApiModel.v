(** src/export.c: the functions of cora.h for programs that embed the language,
    as far as they deal with numbers, strings and global variables.

    Simplifications: a symbol is given by its name (C14); the memory a char*
    points into is the list of bytes from there on. *)
From Coq Require Import ZArith Bool List Ascii.
From Verif Require Import Base StrModel NumModel TrieModel.
Import ListNotations.
Local Open Scope Z_scope.
Local Open Scope out_scope.

(** src/export.c:66-69; the argument is an int *)
Definition coraMakeNumber (v : Z) : outcome Z := makeNumber v.
(** src/export.c:91-94; the result is an int *)
Definition coraFixnum (o : Z) : outcome Z := do! z <- fixnum o; Ok (to_int32 z).

(** src/export.c:46-49, src/types.c:124-131 *)
Definition coraMakeString (s : bytes) (len : Z) : outcome bytes := peek s 0 len.
(** src/export.c:51-54, src/types.c:133-136; the memory must have a zero byte *)
Definition coraMakeCString (s : bytes) : outcome bytes :=
  if existsb (Ascii.eqb NUL) s then Ok (cstr s) else UB.
(** src/export.c:61-64: a zero byte follows the bytes of a string *)
Definition coraBytesData (s : bytes) : bytes := s ++ [NUL].

(** src/export.c:56-59 *)
Definition coraMakeSymbol (s : bytes) : bytes := cstr s.
(** src/export.c:36-39 *)
Definition coraPrimSet (g : genv) (sym : bytes) (v : Z) : outcome genv := primSet g sym v.
(** src/export.c:31-34 *)
Definition coraSymbolGet (g : genv) (sym : bytes) : outcome (genv * Z) := symbolGet g sym.
