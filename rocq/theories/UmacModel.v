(** init.cora: the macro expander with the macros a program defines.

    Modelled: init.cora:34-88 (the table of macros, adding to it, macroexpand1,
    macroexpand-boot) and map as it uses it (init.cora:26-32).

    Simplifications.
    - A macro is any function from an expression and a state to an expression
      and a state, or an error; the state stands for everything a macro can
      read and change (the counter of gensym, global variables, and the
      table of macros itself, which [macros] gets from the state).
    - The protecting symbol is the first symbol gensym makes.
    - Numbers and strings are compared by value, lists by structure. *)
From Coq Require Import List ZArith Bool String Arith.
From Verif Require Import CoreSpec TocModel NsModel MacroModel.
Import ListNotations.
Local Open Scope list_scope.
Local Open Scope nat_scope.

Inductive result (St : Type) :=
| Done (e : sexp) (s : St)
| Error
| NoFuel.
Arguments Done {St} e s.
Arguments Error {St}.
Arguments NoFuel {St}.

Definition macro (St : Type) := sexp -> St -> option (sexp * St).
(** the table of macros, the newest first, init.cora:35-39 *)
Definition table (St : Type) := list (sexp * macro St).

(** init.cora:37-39 *)
Definition add_macro {St} (n : sexp) (v : macro St) (t : table St) : table St := (n, v) :: t.

(** init.cora:46-58 *)
Fixpoint expand1_h {St} (e : sexp) (t : table St) (s : St) : option (sexp * St) :=
  match t with
  | [] => Some (e, s)
  | item :: r =>
      if match e with SCons a _ => sexp_eqb a (fst item) | _ => false end
      then snd item e s
      else expand1_h e r s
  end.

(** init.cora:26-32: map over the cells of a list; the tail of an improper
    list is dropped *)
Fixpoint map_u {St} (f : sexp -> St -> result St) (l : list sexp) (s : St) : result St :=
  match l with
  | [] => Done SNil s
  | x :: r =>
      match f x s with
      | Done y s1 =>
          match map_u f r s1 with
          | Done ys s2 => Done (SCons y ys) s2
          | o => o
          end
      | o => o
      end
  end.

Section Expander.
  Context {St : Type} (macros : St -> table St).

  (** init.cora:60-62 *)
  Definition expand1_u (e : sexp) (s : St) : option (sexp * St) := expand1_h e (macros s) s.

  (** init.cora:74-88 *)
  Fixpoint uboot (fuel : nat) (e : sexp) (s : St) : result St :=
    match fuel with
    | O => NoFuel
    | S k =>
        match e with
        | SCons h t =>
            if is_protect h then Done t s
            else if is_sym "lambda" h then
              match ocadr e, ocaddr e with
              | Some ps, Some b =>
                  match uboot k b s with
                  | Done b1 s1 => Done (of_list [ssym "lambda"; ps; b1]) s1
                  | o => o
                  end
              | _, _ => Error
              end
            else if is_sym "quote" h then Done e s
            else
              match expand1_u e s with
              | None => Error
              | Some (e1, s1) =>
                  if sexp_eqb e1 e then map_u (uboot k) (cells e1) s1 else uboot k e1 s1
              end
        | _ => Done e s
        end
    end.
End Expander.
