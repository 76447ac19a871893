(** lib/peg.cora:118-123: @seq with any number of parsers.

    Simplification: the rules of a func are tried in order and a value that
    none matches is an error (None); the state of the expander is not
    touched. *)
From Coq Require Import List String.
From Verif Require Import CoreSpec TocModel NsModel MacroModel UmacModel.
Import ListNotations.
Local Open Scope list_scope.

(** the symbol that stands in the results of the macro, lib/peg.cora:119-120 *)
Definition seq_sym : sexp := ssym "@seq".

(** lib/peg.cora:118-120 *)
Fixpoint rewrite_seq (e : sexp) : option sexp :=
  match e with
  | SCons p (SCons q SNil) => Some (of_list [seq_sym; p; q])
  | SCons p ((SCons _ _) as rest) =>
      match rewrite_seq rest with
      | Some r => Some (of_list [seq_sym; p; r])
      | None => None
      end
  | _ => None
  end.

(** lib/peg.cora:122-123 *)
Definition seq_macro {St} : macro St := fun e s =>
  match e with
  | SCons _ args => match rewrite_seq args with Some r => Some (r, s) | None => None end
  | _ => None
  end.
