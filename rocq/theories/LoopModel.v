(** lib/let-loop.cora: the macro let-loop.

    Simplifications: gensym is a counter; no matching clause is [None]. *)
From Coq Require Import List String.
From Verif Require Import CoreSpec TocModel.
Import ListNotations.
Local Open Scope string_scope.
Local Open Scope list_scope.

(** let-loop.cora:18-20 *)
Fixpoint extract_params_h (res : list sexp) (l : sexp) : option (list sexp) :=
  match l with
  | SNil => Some (rev res)
  | SCons x (SCons y l) => extract_params_h (x :: res) l
  | _ => None
  end.
(** :22-24 *)
Fixpoint extract_init_h (res : list sexp) (l : sexp) : option (list sexp) :=
  match l with
  | SNil => Some (rev res)
  | SCons x (SCons y l) => extract_init_h (y :: res) l
  | _ => None
  end.
(** :26-34; [k] symbols have been made before *)
Definition rewrite_let_loop (e : sexp) (k : nat) : option sexp :=
  match e with
  | SCons recur (SCons param_init (SCons body SNil)) =>
      match extract_params_h [] param_init, extract_init_h [] param_init with
      | Some params, Some inits =>
          let meta := SSym (NG k) in
          let f := SSym (NG (S k)) in
          Some (SCons (of_list [ssym "let"; f;
                   of_list [ssym "lambda"; SCons meta (of_list params); of_list [ssym "let"; recur; of_list [meta; meta]; body]];
                   of_list [f; f]]) (of_list inits))
      | _, _ => None
      end
  | _ => None
  end.
