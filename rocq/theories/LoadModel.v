(** load: src/runtime.c:408-460 (builtinLoad) and src/config.c:5.

    Simplifications.
    - Compiling the file to C (the call of compile-to-c), running the command
      (system) and load-so are actions recorded in order; [status] gives what
      system returns for a command. The result of compile-to-c is not looked
      at in the C code either (426-428).
    - [src] is coraSrcDir, fixed when the runtime is built.
    - getpwuid finds the user ([home]). *)
From Coq Require Import List ZArith Bool Ascii String Arith.
From Verif Require Import Base StrModel ReaderModel IoSpec PkgModel.
Import ListNotations.
Local Open Scope list_scope.
Local Open Scope out_scope.

Notation "$ s" := (list_ascii_of_string s%string) (at level 1, only parsing).

(** snprintf(buf, n, ...) of a text; "%s" takes a C string *)
Definition snprintf (n : nat) (text : bytes) : bytes := firstn (n - 1) text.

Inductive action := Compile (file cfile : bytes) | System (cmd : bytes).
Inductive result := Loaded (so : bytes) | Status (z : Z).

(** src/runtime.c:421 *)
Definition c_file (idx : Z) : bytes := snprintf 512 ($"/tmp/cora-xxx-" ++ printNum idx ++ $".c").

(** src/runtime.c:431-441: toCStr(tmp) *)
Definition so_file (env : option bytes) (home : bytes) (idx : Z) (file : bytes) : outcome bytes :=
  do! path <- getCoraPath env home;
  do! root <- toStr path;
  if (0 <? strCmp file root)%Z then
    do! tmp <- strNew (List.length file - 2);                (* len - 5 + 3 *)
    do! tmp <- strCat tmp (strSub file 0 (Z.of_nat (List.length file) - 5));
    do! tmp <- strCat tmp ($".so");
    do! s <- toStr tmp;
    Ok (IoSpec.cstr s)
  else
    Ok (snprintf 30 ($"/tmp/cora-xxx-" ++ printNum idx ++ $".so")).

(** src/runtime.c:443-446 *)
Definition command (src : bytes) (idx : Z) (so : bytes) : bytes :=
  snprintf 512 ($"gcc -shared -I" ++ src ++ $" -g -fPIC /tmp/cora-xxx-" ++ printNum idx ++ $".c -o " ++ so ++
                $" -ldl -lm -L" ++ src ++ $" -lcora").

(** src/runtime.c:410-460; [unique] (408) before and after. Its increment
    overflows at the largest int. *)
Definition builtinLoad (env : option bytes) (home src : bytes) (status : bytes -> Z) (unique : Z) (file : bytes)
  : outcome (Z * list action * result) :=
  if (unique =? 2^31 - 1)%Z then UB
  else
    do! so <- so_file env home unique file;
    let cmd := command src unique so in
    Ok ((unique + 1)%Z, [Compile file (c_file unique); System cmd],
        if (status cmd =? 0)%Z then Loaded so else Status (status cmd)).

(** One process: the files it loads, in order. *)
Fixpoint loads (env : option bytes) (home src : bytes) (status : bytes -> Z) (unique : Z) (files : list bytes)
  : outcome (list (list action * result)) :=
  match files with
  | [] => Ok []
  | f :: files =>
      do! r <- builtinLoad env home src status unique f;
      let '(unique, acts, res) := r in
      do! rest <- loads env home src status unique files;
      Ok ((acts, res) :: rest)
  end.
(** src/runtime.c:408 *)
Definition unique0 : Z := 1.
