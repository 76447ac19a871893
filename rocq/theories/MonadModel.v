(** lib/monad.cora, and values, let-values and call-with-values of
    lib/sys.cora.

    The functions are given by their text, which the models of the reader, of
    the macro expander and of the renaming of packages turn into an expression
    of the core language; the macros are functions on expressions.

    Simplifications: the comments of the files are left out, and so is the form
    that adds the macro shift (its function is [rewrite_shift]). *)
From Coq Require Import List String ZArith.
From Verif Require Import CoreSpec TocModel MacroModel StrModel.
Import ListNotations.
Local Open Scope string_scope.
Local Open Scope list_scope.

(** lib/monad.cora:1-68 *)
Definition monad_source : string :=
"(package ""cora/lib/monad""

	 (export state-bind state-return)

	 (defun state-return (x)
	   (lambda (s k)
	     (k s x)))
	 
	 (defun state-bind (m f)
	   (lambda (s)
	     ((m s)
	      (lambda (s1 v)
		(f v s1)))))

	 (defun cont-return (x) (lambda (k) (k x)))

	 (defun cont-bind (m f)
	   (lambda (k)
	     (m (lambda (res)
		  (f res k)))))

	 (defun id (x) x)

	 (defun run-cc (c k)
	   (c k))

	 (defun reset (cc)
	   (run-cc cc id))
	 )
".

(** lib/monad.cora:62-65.  [exp] is the whole form (shift k body ...) *)
Definition rewrite_shift (exp : sexp) : option sexp :=
  match ocadr exp, ocddr exp with
  | Some k, Some body => Some (SCons (ssym "lambda") (SCons (SCons k SNil) body))
  | _, _ => None
  end.

(** lib/sys.cora:38-43; [n] symbols have been made before *)
Definition rewrite_values (exp : sexp) (n : nat) : option sexp :=
  match ocdr exp with
  | Some val_list => let k := SSym (NG n) in
      Some (SCons (ssym "lambda") (SCons (SCons k SNil) (SCons (SCons k val_list) SNil)))
  | None => None
  end.
(** lib/sys.cora:45-51 *)
Definition rewrite_let_values (exp : sexp) : option sexp :=
  match ocadr exp, ocaddr exp, ocdddr exp with
  | Some bind, Some m, Some body =>
      Some (SCons (ssym "call-with-values") (SCons m (SCons (SCons (ssym "lambda") (SCons bind body)) SNil)))
  | _, _, _ => None
  end.

(** lib/sys.cora:1-3, 53-55 *)
Definition sys_source : string :=
"(package ""cora/lib/sys""

  (export assq foldl for-each member thread-local-get thread-local-set call-with-values)

    (defun call-with-values (m k)
        (m k))
  )
".
