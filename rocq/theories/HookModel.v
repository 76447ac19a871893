(** The expander and the compiler with the partial evaluator installed.

    main.c:93-109 loads cora/init, cora/lib/toc and cora/lib/eval before it
    reads anything.  cora/lib/eval imports cora/lib/peval (lib/eval.cora:3),
    which sets cora/init#peval (lib/peval.cora:129), the hook that macroexpand
    calls (init.cora:307-312).  From then on every call of macroexpand ends with
    the partial evaluator, also the calls that match makes for its value and its
    patterns (init.cora:217, 224).

    Simplification: fuel bounds the depth of recursion; [None] is lack of fuel
    or a run-time error of a pass. *)
From Coq Require Import List ZArith Bool String Arith.
From Verif Require Import Base StrModel CoreSpec TocModel NsModel MacroModel GenModel PreModel PevalModel.
Import ListNotations.
Local Open Scope list_scope.
Local Open Scope nat_scope.

Section Hook.
  Context (gt : nat -> string) (exports : string -> list name) (hook : nat -> sexp -> option sexp).

  (** init.cora:74-88 (macroexpand-boot), with macroexpand of init.cora:309-312 *)
  Fixpoint hboot (fuel : nat) (e : sexp) (n : nat) : option (sexp * nat) :=
    match fuel with
    | O => None
    | S k =>
        match e with
        | SCons h t =>
            if is_protect h then Some (t, n)
            else if is_sym "lambda" h then
              match ocadr e, ocaddr e with
              | Some ps, Some b =>
                  match hboot k b n with
                  | Some (b1, n1) => Some (of_list [ssym "lambda"; ps; b1], n1)
                  | None => None
                  end
              | _, _ => None
              end
            else if is_sym "quote" h then Some (e, n)
            else
              let mx x m :=
                match hboot k x m with
                | Some (y, m1) =>
                    match nsparse gt exports k [] "" [] y with
                    | Some z => match hook k z with Some w => Some (w, m1) | None => None end
                    | None => None
                    end
                | None => None
                end in
              match expand1 mx e n with
              | Some (e1, n1) =>
                  if sexp_eqb e1 e then
                    match map_gen (hboot k) (cells e1) n1 with
                    | Some (l, n2) => Some (of_list l, n2)
                    | None => None
                    end
                  else hboot k e1 n1
              | None => None
              end
        | _ => Some (e, n)
        end
    end.

  (** init.cora:309-312 *)
  Definition hmacroexpand (fuel : nat) (e : sexp) (n : nat) : option (sexp * nat) :=
    match hboot fuel e n with
    | Some (e1, n1) =>
        match nsparse gt exports fuel [] "" [] e1 with
        | Some e2 => match hook fuel e2 with Some e3 => Some (e3, n1) | None => None end
        | None => None
        end
    | None => None
    end.

  (** compile-to-c, lib/toc.cora:666-679 *)
  Definition hcompile_to_c (gs : nat -> bytes) (typecheck : bool) (fuel n : nat) (text : bytes) : option (outcome bytes) :=
    match preprocess typecheck fuel text with
    | None => None
    | Some Trap => Some Trap
    | Some UB => Some UB
    | Some (Ok (_, e)) =>
        match hmacroexpand fuel e (S n) with
        | Some (e1, n1) =>
            match compile fuel n1 e1 with
            | Some (fs, gl) => Some (generate_c gs fs gl)
            | None => None
            end
        | None => None
        end
    end.
End Hook.

(** the hook as lib/peval.cora:129 sets it *)
Definition installed (ar : arith) (k : nat) (e : sexp) : option sexp := peval ar k [] e.

(** the hook where it changes nothing *)
Definition unchanged (hook : nat -> sexp -> option sexp) (k : nat) (e : sexp) : option sexp :=
  match hook k e with Some e' => if sexp_eqb e' e then Some e else None | None => None end.
