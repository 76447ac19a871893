(** main.c: the loop behind the prompt and scripts (main.c:7-44), the first line
    and the arguments of a script (main.c:46-79).

    Simplifications.
    - The file exists and is read without error.
    - macroexpand and cora/lib/eval#eval are the functions that are loaded at
      the start (main.c:93-109): a script does not assign these names.
    - The list of imported packages does not change during the run.
    - The counter of gensym is the one of the store, which the expander and the
      program share.
    - What is printed is left out: the values are in the events.
    - [None] is an error of the expander or the interpreter, or fuel that has
      run out. *)
From Coq Require Import List ZArith Bool String Ascii Arith.
From Verif Require Import Base StrModel ReaderModel CoreSpec TocModel TocWhole NsModel MacroModel PreSpec PreModel PevalModel HookModel ReplModel.
Import ListNotations.
Local Open Scope list_scope.
Local Open Scope nat_scope.

(** fgets(buf, 256, f), main.c:62: up to 255 bytes, up to and with a newline;
    what is read and what is left *)
Fixpoint fgets_loop (n : nat) (s : bytes) : bytes * bytes :=
  match n, s with
  | S n', c :: r => if is c cNL then ([c], r) else let (l, r') := fgets_loop n' r in (c :: l, r')
  | _, _ => ([], s)
  end.
Definition fgets (buf s : bytes) : option (bytes * bytes) :=
  match s with
  | [] => None
  | _ => let (l, r) := fgets_loop 255 s in Some (l ++ ch 0 :: skipn (S (List.length l)) buf, r)
  end.

(** main.c:60-70; [buf] is what the uninitialised buffer happens to hold;
    [Some None] is exit(-1) *)
Fixpoint skip_first_line (n : nat) (buf s : bytes) : option (option bytes) :=
  match n with
  | O => None
  | S n' =>
      match fgets buf s with
      | None => Some None
      | Some (buf1, r) => if is (nth 254 buf1 (ch 0)) cNL then skip_first_line n' buf1 r else Some (Some r)
      end
  end.

(** main.c:72-77: consed from the first on, then reversed; argv[0] left out *)
Fixpoint cons_args (argv : list string) (args : sexp) : sexp :=
  match argv with [] => args | a :: r => cons_args r (SCons (SStr a) args) end.
Fixpoint reverse_sexp (l acc : sexp) : sexp := match l with SCons a d => reverse_sexp d (SCons a acc) | _ => acc end.
Definition command_line_args (argv : list string) : sexp := reverse_sexp (cons_args argv SNil) SNil.
Definition set_args (argv : list string) (B : base) : base :=
  fun x => if name_eqb x (NS "*command-line-args*") then Some (inl (command_line_args argv)) else B x.

(** one round of the loop: the code that the form was expanded to, the counter
    after that, the value, and the global variables after it *)
Record event := mkEv { ev_code : sexp; ev_count : nat; ev_value : ival; ev_store : store icode }.

Section Repl.
  Context (gt : nat -> string) (exports : string -> list name) (imported : list string) (ar : arith).

  (** main.c:20-37, for one form *)
  Definition round (fuel : nat) (e : sexp) (G : store icode) : option event :=
    match hmacroexpand gt exports (installed ar) fuel e (g_next G) with
    | Some (e1, k) =>
        match interp gt exports imported ar fuel e1 [] (mkG (g_val G) (g_ver G) k) with
        | Some (v, G1) => Some (mkEv e1 k v G1)
        | None => None
        end
    | None => None
    end.

  (** main.c:7-44 *)
  Fixpoint repl (n fuel : nat) (s : bytes) (G : store icode) : option (outcome (list event)) :=
    match n with
    | O => None
    | S n' =>
        match sexpRead fuel s with
        | None => None
        | Some Trap => Some Trap
        | Some UB => Some UB
        | Some (Ok (_, _, true)) => Some (Ok [])
        | Some (Ok (d, r, false)) =>
            match round fuel (form_of d) G with
            | Some ev =>
                match repl n' fuel r (ev_store ev) with
                | Some (Ok l) => Some (Ok (ev :: l))
                | other => other
                end
            | None => None
            end
        end
    end.

  (** main.c:46-79; [Some None] is exit(-1) *)
  Definition shebang (n fuel : nat) (argv : list string) (buf s : bytes) (B : base) (g : nat) : option (option (outcome (list event))) :=
    match skip_first_line n buf s with
    | None => None
    | Some None => Some None
    | Some (Some r) => match repl n fuel r (init (set_args argv B) g) with Some o => Some (Some o) | None => None end
    end.
End Repl.
