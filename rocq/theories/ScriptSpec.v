(** Scripts (C71): which text is a script, what its names stand for, and which
    code the interpreter is asked to run.  Written from the language. *)
From Coq Require Import List ZArith Bool String Ascii Arith.
From Verif Require Import Base StrModel ReaderModel CoreSpec TocWhole NsSpec ReplSpec.
Import ListNotations.
Local Open Scope list_scope.
Local Open Scope nat_scope.

(** a first line, which is skipped, and the rest.  The line is at most 253
    bytes long, without the newline that ends it *)
Definition script_text (t rest : bytes) : Prop :=
  exists line, t = line ++ cNL :: rest /\ ~ In cNL line /\ List.length line <= 253.

(** the global variables before a script runs: those of the interpreter, and
    the arguments of the command line, the script itself first *)
Fixpoint strings_list (l : list string) : sexp := match l with [] => SNil | s :: r => SCons (SStr s) (strings_list r) end.
Definition with_args (argv : list string) (B : base) : base :=
  fun x => if name_eqb x (NS "*command-line-args*") then Some (inl (strings_list argv)) else B x.

Section Names.
  Context (gt : nat -> string) (exports : string -> list name) (imported : list string).
  (** the global variable that a name of the script stands for, when [imported]
      are the packages imported so far *)
  Definition stands_for (x : name) : name := global_of gt exports (mkX "" imported) x.
  (** the same variables under the names that the script uses for them *)
  Definition through (B : base) : base := fun x => B (stands_for x).
  Definition seen_through {C} (G : store C) : store C := mkG (fun x => g_val G (stands_for x)) (g_ver G) (g_next G).
  (** neither a primitive nor an imported name has been assigned *)
  Definition respected {C} (G : store C) : Prop :=
    (forall x q, prim_of x = Some q -> g_ver G x = 0) /\
    (forall x, stands_for x <> x -> g_ver G x = 0 /\ g_ver G (stands_for x) = 0).
End Names.

(** core code: no package form, import or definition, no name listed twice as a
    parameter, no local variable with a name that stands for something else *)
Fixpoint clean (k : nat) (e : sexp) : bool :=
  match k with
  | O => false
  | S k' =>
      match nview e with
      | NCore (FConst _) | NCore (FVar _) => true
      | NCore (FLam ps b) => ReplSpec.distinct ps && forallb local_ok ps && clean k' b
      | NCore (FIf a b c) => clean k' a && clean k' b && clean k' c
      | NCore (FDo a b) => clean k' a && clean k' b
      | NCore (FLet x b c) => local_ok x && clean k' b && clean k' c
      | NCore (FApp f args) => negb (is_ns f) && clean k' f && forallb (clean k') args
      | NCore FBad | NDef _ _ | NNs _ _ _ | NImport _ _ => false
      end
  end.
