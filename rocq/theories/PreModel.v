(** Reading a file and preparing it for the compiler: src/runtime.c:599-630 and
    lib/toc.cora:607-679.

    Simplifications.
    - The file exists and is read without error; [int count] does not overflow.
    - The effect of (import p) in handle-import-eagerly is recorded as [p].
    - A failing match is [None]. *)
From Coq Require Import List ZArith Bool String Ascii Arith.
From Verif Require Import Base StrModel ReaderModel CoreSpec TocModel NsModel MacroModel CSpec GenModel PreSpec.
Import ListNotations.
Local Open Scope list_scope.

(** the loop of runtime.c:612-619: [acc] is [result], the last form first *)
Fixpoint read_loop (n fuel : nat) (s : bytes) (acc : list datum) : option (outcome (list datum)) :=
  match n with
  | O => None
  | S n' =>
      match sexpRead fuel s with
      | None => None
      | Some Trap => Some Trap
      | Some UB => Some UB
      | Some (Ok (_, _, true)) => Some (Ok acc)
      | Some (Ok (d, r, false)) => read_loop n' fuel r (d :: acc)
      end
  end.

(** builtinReadFileAsSexp, runtime.c:599-630; car of the empty list reads
    through a word that is no pointer (src/types.h:72) *)
Definition s_begin : bytes := map ch [98; 101; 103; 105; 110]%nat.
Definition read_file_as_sexp (fuel : nat) (s : bytes) : option (outcome datum) :=
  match read_loop fuel fuel s [] with
  | None => None
  | Some Trap => Some Trap
  | Some UB => Some UB
  | Some (Ok []) => Some UB
  | Some (Ok [d]) => Some (Ok d)
  | Some (Ok l) => Some (Ok (DCons (DSym s_begin) (dlist (reverse l []))))
  end.

(** handle-import-eagerly, toc.cora:607-617: the packages imported, in order *)
Fixpoint handle_import_eagerly (e : sexp) : list sexp :=
  match e with
  | SCons h t =>
      let other :=
        if is_sym "begin" h then handle_import_eagerly t
        else
          match h with
          | SCons i a =>
              if is_sym "export" i then handle_import_eagerly t
              else if is_sym "import" i then
                match a with SCons p SNil => p :: handle_import_eagerly t | _ => [] end
              else []
          | _ => []
          end in
      match t with
      | SCons _ r => if is_sym "package" h then handle_import_eagerly r else other
      | _ => other
      end
  | _ => []
  end.

(** the check of one form, toc.cora:624 *)
Definition check_of (exp : sexp) : sexp :=
  of_list [ssym "cora/lib/infer#check-type!";
           of_list [ssym "macroexpand"; SCons (ssym "backquote") (SCons exp SNil)];
           of_list [ssym "cora/lib/infer#tvar"]].
(** split-type-and-code, toc.cora:619-625, with the continuation applied to its result *)
Fixpoint split_type_and_code (l : sexp) (type code : list sexp) : option (list sexp * list sexp) :=
  match l with
  | SNil => Some (rev type, rev code)
  | SCons exp more =>
      let plain := split_type_and_code more (check_of exp :: type) (exp :: code) in
      match exp with
      | SCons h e =>
          if is_sym ":type" h then split_type_and_code more (SCons (ssym "begin") e :: type) code
          else if is_sym ":declare" h then split_type_and_code more (SCons (ssym "declare") e :: type) code
          else plain
      | _ => plain
      end
  | _ => None
  end.

(** extract-typecheck-body, toc.cora:627-632 *)
Fixpoint extract_typecheck_body (e : sexp) (k : sexp -> option sexp) : option sexp :=
  match e with
  | SCons h t =>
      let keep x r := match r with Some y => Some (SCons x y) | None => None end in
      let other :=
        match h with
        | SCons i a =>
            if is_sym "import" i && match a with SCons _ SNil => true | _ => false end
            then keep h (extract_typecheck_body t k)
            else if is_sym "export" i then keep h (extract_typecheck_body t k)
            else k e
        | _ => if is_sym "begin" h then keep h (extract_typecheck_body t k) else k e
        end in
      match t with
      | SCons name more => if is_sym "package" h then keep h (keep name (extract_typecheck_body more k)) else other
      | _ => other
      end
  | _ => k e
  end.

(** generate-typecheck-code, toc.cora:634-637; [typecheck] is cora/lib/infer#*typecheck* *)
Definition generate_typecheck_code (typecheck : bool) (type code : list sexp) : list sexp :=
  if typecheck then type ++ code else code.

(** split-type-and-code-toplevel, toc.cora:639-653 *)
Definition split_type_and_code_toplevel (typecheck : bool) (e : sexp) : option sexp :=
  let split body :=
    match split_type_and_code body [] [] with
    | Some (type, code) => Some (of_list (generate_typecheck_code typecheck type code))
    | None => None
    end in
  let single :=
    match split_type_and_code (of_list [e]) [] [] with
    | Some (type, code) => Some (SCons (ssym "begin") (of_list (generate_typecheck_code typecheck type code)))
    | None => None
    end in
  match e with
  | SCons h _ => if is_sym "package" h || is_sym "begin" h then extract_typecheck_body e split else single
  | _ => single
  end.

(** preprocess, toc.cora:657-665: the imports made and the program to compile *)
Definition preprocess (typecheck : bool) (fuel : nat) (text : bytes) : option (outcome (list sexp * sexp)) :=
  match read_file_as_sexp fuel text with
  | None => None
  | Some Trap => Some Trap
  | Some UB => Some UB
  | Some (Ok d) =>
      match split_type_and_code_toplevel typecheck (form_of d) with
      | Some e => Some (Ok (handle_import_eagerly (form_of d), e))
      | None => Some Trap
      end
  end.

(** compile-to-c, toc.cora:667-679: what is written to the output file.  [n] is
    the next gensym; [globals] is one itself (668). *)
Definition compile_to_c (gt : nat -> string) (exports : string -> list name) (gs : nat -> bytes) (typecheck : bool)
    (fuel n : nat) (text : bytes) : option (outcome bytes) :=
  match preprocess typecheck fuel text with
  | None => None
  | Some Trap => Some Trap
  | Some UB => Some UB
  | Some (Ok (_, e)) =>
      match macroexpand gt exports fuel e (S n) with
      | Some (e1, n1) =>
          match compile fuel n1 e1 with
          | Some (fs, gl) => Some (generate_c gs fs gl)
          | None => None
          end
      | None => None
      end
  end.
