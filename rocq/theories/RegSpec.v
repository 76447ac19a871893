(** C82, independently of the code: what a table of functions registered under
    a package means. *)
From Coq Require Import List ZArith Ascii String.
From Verif Require Import Base StrModel NumModel TrieModel RegModel.
Import ListNotations.
Local Open Scope list_scope.

(** What a program sees of the global variables. *)
Definition look (g : genv) (s : bytes) : outcome Z := omap snd (symbolGet g s).

(** The last function of the table with a name. *)
Fixpoint last_named (es : list entry) (n : bytes) : option entry :=
  match es with
  | [] => None
  | e :: r =>
      match last_named r n with
      | Some x => Some x
      | None => if list_eq_dec ascii_dec (e_name e) n then Some e else None
      end
  end.

(** The list of the symbols, the first name last, in front of another list. *)
Definition symbols (A : objects) (names : list bytes) (rest : Z) : Z :=
  fold_right (fun n d => a_cons A (a_sym A n) d) rest (rev names).

(** The function a program calls. *)
Definition callable (A : objects) (e : entry) : Z := a_native A (S (e_args e)) (e_func e) (e_args e).

Definition export_name : bytes := chars "*ns-export*".
Definition in_package (pkg n : bytes) : bytes := pkg ++ chars "#" ++ n.

(** Names as C writes them: no NUL byte. *)
Definition c_names (es : list entry) : Prop := Forall (fun e => ~ In NUL (e_name e)) es.

(** The functions of every program and the number of arguments they take. *)
Definition builtins : list (string * string * nat) :=
  [("symbol->string", "symbolToString", 1); ("intern", "builtinIntern", 1); ("number?", "builtinIsNumber", 1);
   ("read-file-as-sexp", "builtinReadFileAsSexp", 1); ("string-append", "builtinStringAppend", 2);
   ("value", "builtinValue", 1); ("value-or", "builtinValueOr", 2); ("apply", "builtinApply", 2); ("load-so", "builtinLoadSo", 2);
   ("import", "builtinImport", 1); ("load", "builtinLoad", 1); ("vector", "builtinVector", 1); ("vector?", "builtinIsVector", 1);
   ("vector-set!", "builtinVectorSet", 3); ("vector-ref", "builtinVectorRef", 2); ("vector-length", "builtinVectorLength", 1);
   ("bytes", "builtinBytes", 1); ("bytes-length", "builtinBytesLength", 1); ("try", "builtinTryCatch", 2); ("throw", "builtinThrow", 1);
   ("symbol-cooked?", "builtinSymbolCooked", 1); ("cora/lib/eval#make-closure-for-eval", "makeClosureForEval", 3);
   ("cora/lib/sys#vm-symbol-for-tls", "vmSymbolForTLS", 0)]%string%nat.
