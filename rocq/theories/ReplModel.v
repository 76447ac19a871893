(** lib/eval.cora: the interpreter behind the prompt and scripts (main.c:7-44),
    with the closures and the apply of src/runtime.c that it uses.

    Simplifications.
    - The list cora/init#*imported* does not change while one expression is
      evaluated: import is not modelled here.
    - Parameters and the variable of a let are symbols, parameter lists and
      argument lists end in the empty list; otherwise [None].
    - The value of gensym, (lambda () (gensym)), is the primitive itself.
    - The frame of a closure made here has room for three arguments
      (runtime.c:979); that more are written behind it is not modelled.
    - [None] is an assertion, an error, or fuel that has run out. *)
From Coq Require Import List ZArith Bool String Arith.
From Verif Require Import CoreSpec NsModel.
Import ListNotations.
Local Open Scope list_scope.
Local Open Scope nat_scope.

(** what make-closure-for-eval captures, src/runtime.c:972-981 *)
Record icode := mkIC { ic_ps : list name; ic_body : sexp; ic_env : list name }.
Notation ival := (val icode).
Notation ienv := (list (name * val icode)).

Definition i_arity (c : icode) : nat := List.length (ic_ps c).

(** src/runtime.c:961-966, the loop over the parameters *)
Fixpoint push_args (ps : list name) (args : list ival) (env : ienv) : ienv :=
  match ps, args with
  | p :: ps', v :: args' => push_args ps' args' ((p, v) :: env)
  | _, _ => env
  end.

Section Eval.
  Context (gt : nat -> string) (exports : string -> list name) (imported : list string) (ar : arith).

  (** lib/eval.cora:35-37 *)
  Fixpoint lookup_env (s : name) (env : ienv) : option ival :=
    match env with
    | [] => None
    | (a, b) :: more => if name_eqb s a then Some b else lookup_env s more
    end.

  (** src/runtime.c:364-388: apply wants exactly the arguments that are missing *)
  Definition native_apply (run : icode -> list ival -> list ival -> store icode -> option (ival * store icode))
      (f : ival) (args : list ival) (G : store icode) : option (ival * store icode) :=
    match need i_arity f with
    | Some k => if k =? List.length args then exact ar run f args G else None
    | None => None
    end.

  Section Args.
    Variable ev : sexp -> store icode -> option (ival * store icode).
    (** (map (lambda (x) (eval x env)) args): map goes from left to right,
        init.cora:27-32 *)
    Fixpoint map_eval (l : list sexp) (G : store icode) : option (list ival * store icode) :=
      match l with
      | [] => Some ([], G)
      | e :: r =>
          match ev e G with
          | Some (v, G1) => match map_eval r G1 with Some (vs, G2) => Some (v :: vs, G2) | None => None end
          | None => None
          end
      end.
  End Args.

  (** lib/eval.cora:39-51, rule by rule *)
  Fixpoint interp (n : nat) (exp : sexp) (env : ienv) (G : store icode) : option (ival * store icode) :=
    match n with
    | O => None
    | S n' =>
        let call h t :=
          match interp n' h env G, slist t with
          | Some (f, G1), Some l =>
              match map_eval (fun x => interp n' x env) l G1 with
              | Some (args, G2) =>
                  native_apply (fun c vs args => interp n' (ic_body c) (push_args (ic_ps c) args (combine (ic_env c) vs))) f args G2
              | None => None
              end
          | _, _ => None
          end in
        match exp with
        | SNum _ | SStr _ | STrue | SFalse | SNil => Some (quoted exp, G)
        | SSym x =>
            match lookup_env x env with
            | Some v => Some (v, G)
            | None => match g_val G (lookup_var gt exports x "" imported) with Some v => Some (v, G) | None => None end
            end
        | SCons h t =>
            if is_sym "quote" h then match t with SCons more SNil => Some (quoted more, G) | _ => call h t end
            else if is_sym "if" h then
              match three t with
              | Some (a, b, c) =>
                  match interp n' a env G with
                  | Some (VTrue, G1) => interp n' b env G1
                  | Some (_, G1) => interp n' c env G1
                  | None => None
                  end
              | None => call h t
              end
            else if is_sym "do" h then
              match two t with
              | Some (a, b) => match interp n' a env G with Some (_, G1) => interp n' b env G1 | None => None end
              | None => call h t
              end
            else if is_sym "def" h then
              match two t with
              | Some (SSym x, b) => match interp n' b env G with Some (v, G1) => Some (v, g_set G1 x v) | None => None end
              | Some _ => None
              | None => call h t
              end
            else if is_sym "let" h then
              match three t with
              | Some (SSym x, b, c) => match interp n' b env G with Some (v, G1) => interp n' c ((x, v) :: env) G1 | None => None end
              | Some _ => None
              | None => call h t
              end
            else if is_sym "lambda" h then
              match two t with
              | Some (params, body) =>
                  match slist params with
                  | Some l =>
                      match symbols l with
                      | Some ps => Some (VClo (mkIC ps body (map fst env)) (map snd env), G)
                      | None => None
                      end
                  | None => None
                  end
              | None => call h t
              end
            else call h t
        end
    end.
End Eval.
