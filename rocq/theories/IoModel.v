(** lib/io.c, lib/os.c and lib/rand.c.

    Simplifications: a file system (IoSpec.v) is a set of directories and of
    files with their contents; permissions, links, the names . and .. and the
    limits of the system are left out.  A stream that is read has bytes left
    and possibly a read error after some of them; a stream that is written has
    room for some number of bytes or no limit.  Buffering is left out. *)
From Coq Require Import List ZArith Bool Ascii Arith.
From Verif Require Import Base NumModel StrModel IoSpec.
Import ListNotations.
Local Open Scope list_scope.
Local Open Scope nat_scope.

Definition slash : ascii := "/".

(** io.c:33-39: [pre] is tmp up to p, [rest] the bytes from p *)
Fixpoint mkdirP_loop (fs : filesys) (pre rest : bytes) : filesys :=
  match rest with
  | [] => fs
  | c :: r =>
      let fs := if Ascii.eqb c slash then fst (mkdir fs pre) else fs in
      mkdirP_loop fs (pre ++ [c]) r
  end.

(** io.c:17-42.  [path] is a C string: its bytes up to the first NUL.  When it
    is empty the loop starts behind the terminator, at a byte that was never
    written. *)
Definition mkdirP (fs : filesys) (path : bytes) : outcome (filesys * bool) :=
  let tmp := firstn 1023 (cstr path) in
  match tmp with
  | [] => UB
  | c :: _ =>
      let tmp := if Ascii.eqb (last tmp NUL) slash then removelast tmp else tmp in
      let fs := match tmp with [] => fs | c :: r => mkdirP_loop fs [c] r end in
      Ok (mkdir fs tmp)
  end.

(** io.c:44-63; the result is the file, or none for a null pointer *)
Definition openOutputFile (fs : filesys) (path : bytes) : outcome (option place * filesys) :=
  obind (strRchr path slash) (fun pos =>
  obind (if (0 <? pos)%Z then omap fst (mkdirP fs (firstn (Z.to_nat pos) path)) else Ok fs) (fun fs =>
  Ok (fopen_w fs (cstr path)))).

(** fread(buf, 1, n, f) (C11 7.21.8.1): as many bytes as there are before the
    end or an error *)
Definition fread (f : instream) (n : nat) : bytes * instream :=
  match i_error f with
  | Some e =>
      let k := Nat.min n (Nat.min e (length (i_rest f))) in
      (firstn k (i_rest f), mkIn (skipn k (i_rest f)) (Some (e - k)) (i_eof f || ((length (i_rest f) <? n) && (length (i_rest f) <? e))))
  | None => (firstn n (i_rest f), mkIn (skipn n (i_rest f)) None (i_eof f || (length (i_rest f) <? n)))
  end.

(** fwrite(data, 1, n, f) (C11 7.21.8.2): the number of bytes written *)
Definition fwrite (f : outstream) (data : bytes) : nat * outstream :=
  match o_room f with
  | Some r =>
      let k := Nat.min r (length data) in (k, mkOut (o_data f ++ firstn k data) (Some (r - k)))
  | None => (length data, mkOut (o_data f ++ data) None)
  end.

Definition BATCH_SIZE := 64.

(** io.c:82-92; [None]: out of fuel *)
Fixpoint read_all_loop (fuel : nat) (f : instream) (dest : bytes) : option (bytes * instream) :=
  match fuel with
  | O => None
  | S fuel =>
      if i_eof f then Some (dest, f)
      else
        let (x, f) := fread f BATCH_SIZE in
        let dest := dest ++ x in
        if length x <? BATCH_SIZE then Some (dest, f) else read_all_loop fuel f dest
  end.
(** io.c:77-96 *)
Definition ioReadAll (fuel : nat) (f : instream) : option (bytes * instream) := read_all_loop fuel f [].

(** io.c:105-113; the word returned is what feof answers, not boxed *)
Fixpoint ioCopy (fuel : nat) (from : instream) (to : outstream) : option (Z * instream * outstream) :=
  match fuel with
  | O => None
  | S fuel =>
      let answer (f : instream) := if i_eof f then 1%Z else 0%Z in
      if i_eof from then Some (answer from, from, to)
      else
        let (x, from) := fread from BATCH_SIZE in
        let to := snd (fwrite to x) in
        if length x <? BATCH_SIZE then Some (answer from, from, to) else ioCopy fuel from to
  end.

(** io.c:117-132; [off] bytes have been written.  The test for an error
    compares an unsigned number with 0 and never succeeds. *)
Fixpoint ioWrite_loop (fuel : nat) (to : outstream) (data : bytes) (off : nat) : option (outcome Z * outstream) :=
  match fuel with
  | O => None
  | S fuel =>
      if off <? length data then
        let (sz, to) := fwrite to (skipn off data) in
        ioWrite_loop fuel to data (off + sz)
      else Some (makeNumber (Z.of_nat (length data)), to)
  end.
Definition ioWrite (fuel : nat) (to : outstream) (data : bytes) : option (outcome Z * outstream) := ioWrite_loop fuel to data 0.

(** os.c:7-18 *)
Fixpoint cmdListStr (args : list bytes) (cmd : bytes) : bytes :=
  match args with
  | [] => cmd
  | s :: r => cmdListStr r ((cmd ++ s) ++ [" "%char])
  end.
(** os.c:20-27: what system() is given, and what is returned for its answer *)
Definition exec_command (args : list bytes) : bytes := cstr (cmdListStr args []).
Definition exec_result (exitCode : Z) : outcome Z := makeNumber exitCode.
(** os.c:42-48: the answer of pclose, an int, converted to a word *)
Definition pclose_result (res : Z) : Z := (res mod 2 ^ 64)%Z.

(** rand.c:4-9; [val] is what rand() answered *)
Definition randN (val n : Z) : outcome Z :=
  obind (fixnum n) (fun n => if (n =? 0)%Z then UB else makeNumber (Z.rem val n)).
