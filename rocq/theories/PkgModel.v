(** import: src/runtime.c:390-406 (getCoraPath), 463-497 (safeToUseSo),
    504-553 (builtinImport), and the part of builtinLoad / builtinLoadSo
    (326-352, 411-460) that decides whether the body of the package runs.

    Simplifications.
    - The file system is a function from paths to modification times (None:
      access fails).  It does not change during one call of builtinImport; it
      may change arbitrarily between calls.  [stat] succeeds where [access]
      does.
    - Whether compiling and linking a .cora file, or dlopen of a .so, succeeds
      is an arbitrary input ([loads]); if it does, the entry function runs,
      which is the body of the package.
    - A body may do anything; what matters here is only which imports it
      performs and when it ends (normally or by an uncaught throw). *)
From Coq Require Import List ZArith NArith Bool Ascii String.
From Verif Require Import Base StrModel.
Import ListNotations.
Local Open Scope list_scope.
Local Open Scope out_scope.

Definition fsys := bytes -> option Z.

(** src/runtime.c:390-406; [env] is getenv("CORAPATH"). *)
Definition getCoraPath (env : option bytes) (home : bytes) : outcome strBuf :=
  do! tmp <- strNew 512;
  do! tmp <- match env with
             | None => do! t <- strCpy tmp home; strCat t (list_ascii_of_string "/.local/share/cora/")
             | Some p => strCpy tmp p
             end;
  match sb_len tmp with
  | O => UB                                   (* toCStr(tmp)[-1] *)
  | S n => match nth_error (sb_data tmp) n with
           | Some (Some c) => if Ascii.eqb c "/"%char then Ok tmp else strCat tmp ["/"%char]
           | _ => UB
           end
  end.

(** src/runtime.c:463-497 *)
Definition safeToUseSo (fs : fsys) (so : strBuf) : outcome bool :=
  do! soName <- toStr so;
  match fs soName with
  | None => Ok false
  | Some soTime =>
      do! tmp <- strNew (List.length soName + 3);
      do! tmp <- strCpy tmp soName;
      do! tmp <- strShrink tmp 3;
      do! tmp <- strCat tmp (list_ascii_of_string ".cora");
      do! name <- toStr tmp;
      match fs name with
      | None => Ok true
      | Some coraTime => Ok (negb (soTime <? coraTime)%Z)
      end
  end.

Inductive request := LoadSo (path pkg : bytes) | LoadCora (path pkg : bytes).

Definition beqb (a b : bytes) : bool := if list_eq_dec ascii_dec a b then true else false.

(** the loop of src/runtime.c:513-519; eq on strings compares contents *)
Fixpoint was_imported (l : list bytes) (pkg : bytes) : bool :=
  match l with
  | [] => false
  | e :: r => if beqb e pkg then true else was_imported r pkg
  end.

(** src/runtime.c:504-553: new value of the imported list, what to load *)
Definition builtinImport (fs : fsys) (env : option bytes) (home : bytes) (imported : list bytes) (pkg : bytes)
  : outcome (list bytes * option request) :=
  if was_imported imported pkg then Ok (imported, None)
  else
    let imported := pkg :: imported in
    do! tmp <- getCoraPath env home;
    do! tmp <- strCat tmp (list_ascii_of_string "pkg/");
    do! tmp <- strCat tmp pkg;
    do! tmp <- strCat tmp (list_ascii_of_string ".so");
    do! use <- safeToUseSo fs tmp;
    if use then do! p <- toStr tmp; Ok (imported, Some (LoadSo p pkg))
    else
      do! tmp <- strShrink tmp 3;
      do! tmp <- strCat tmp (list_ascii_of_string ".cora");
      do! p <- toStr tmp;
      Ok (imported, Some (LoadCora p pkg)).

(** The system: the imported list, the packages whose bodies are running
    (innermost first), the bodies started so far (latest first). *)
Record psys := mkP { p_imported : list bytes; p_running : list bytes; p_started : list (bytes * request) }.

Definition psys0 : psys := mkP [] [] [].

(** What may happen next, whatever the bodies do. *)
Inductive pevent :=
| EImport (fs : fsys) (pkg : bytes) (loads : bool)   (* the running code calls (import pkg) *)
| EEnd.                                              (* the innermost body ends *)

Definition pstep (env : option bytes) (home : bytes) (s : psys) (e : pevent) : outcome psys :=
  match e with
  | EEnd => Ok (mkP (p_imported s) (tl (p_running s)) (p_started s))
  | EImport fs pkg loads =>
      do! '(imp, req) <- builtinImport fs env home (p_imported s) pkg;
      match req with
      | None => Ok (mkP imp (p_running s) (p_started s))
      | Some r => if loads then Ok (mkP imp (pkg :: p_running s) ((pkg, r) :: p_started s))
                  else Ok (mkP imp (p_running s) (p_started s))
      end
  end.

Fixpoint pruns (env : option bytes) (home : bytes) (s : psys) (es : list pevent) : outcome psys :=
  match es with
  | [] => Ok s
  | e :: r => do! s1 <- pstep env home s e; pruns env home s1 r
  end.
