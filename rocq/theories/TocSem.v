(** Meaning of the compiler's intermediate languages.  These evaluators only
    serve the proofs: the theorems of TocProps.v relate the source evaluator
    of CoreSpec.v to the run of the final code. *)
From Coq Require Import List ZArith Bool String Arith.
From Verif Require Import CoreSpec TocModel.
Import ListNotations.
Local Open Scope list_scope.
Local Open Scope nat_scope.

(** * Answers

    The compiled code reads a global variable that is an operand when the
    call, primitive, binding, test or return it is an operand of happens.  An
    answer is a value or a global still to be read. *)
Inductive ans (C : Type) := AVal (v : val C) | AGlob (x : name).
Arguments AVal {C}. Arguments AGlob {C}.

Definition force {C} (a : ans C) (G : store C) : option (val C) :=
  match a with AVal v => Some v | AGlob x => g_val G x end.

Fixpoint force_all {C} (l : list (ans C)) (G : store C) : option (list (val C)) :=
  match l with
  | [] => Some []
  | a :: r =>
      match force a G, force_all r G with
      | Some v, Some vs => Some (v :: vs)
      | _, _ => None
      end
  end.

Fixpoint ev_list {C E} (ev : E -> store C -> option (ans C * store C)) (l : list E) (G : store C)
  : option (list (ans C) * store C) :=
  match l with
  | [] => Some ([], G)
  | e :: r =>
      match ev e G with
      | None => None
      | Some (a, G1) =>
          match ev_list ev r G1 with
          | None => None
          | Some (la, G2) => Some (a :: la, G2)
          end
      end
  end.

Definition forced {C} (r : option (ans C * store C)) : option (val C * store C) :=
  match r with
  | None => None
  | Some (a, G) => match force a G with Some v => Some (v, G) | None => None end
  end.

(** * Expressions, before and after closure conversion *)
Record ecode := mkE { e_ps : list name; e_body : exp; e_env : list name }.
Definition e_arity (c : ecode) : nat := List.length (e_ps c).

(** the value of a captured variable *)
Definition free_val {C} (rho : list (name * val C)) (phi : list (val C)) (e : exp) : option (val C) :=
  match e with
  | EVar x => lookup x rho
  | ERef i => nth_error phi i
  | _ => None
  end.
Fixpoint opts {A B} (f : A -> option B) (l : list A) : option (list B) :=
  match l with
  | [] => Some []
  | x :: r => match f x, opts f r with Some v, Some vs => Some (v :: vs) | _, _ => None end
  end.

Fixpoint ev1 (ar : arith) (n : nat) (rho : list (name * val ecode)) (phi : list (val ecode)) (e : exp)
  (G : store ecode) : option (ans ecode * store ecode) :=
  match n with
  | O => None
  | S n' =>
      let ev := ev1 ar n' in
      let run c vs args G := forced (ev (combine (e_ps c) args ++ combine (e_env c) vs) vs (e_body c) G) in
      match e with
      | EConst s => Some (AVal (quoted s), G)
      | EGlob x => Some (AGlob x, G)
      | EVar x => match lookup x rho with Some v => Some (AVal v, G) | None => None end
      | ERef i => match nth_error phi i with Some v => Some (AVal v, G) | None => None end
      | ELam ps b => Some (AVal (VClo (mkE ps b (map fst rho)) (map snd rho)), G)
      | EClo ps b frees =>
          match opts (free_val rho phi) frees with
          | Some vs => Some (AVal (VClo (mkE ps b []) vs), G)
          | None => None
          end
      | EIf a b c =>
          match forced (ev rho phi a G) with
          | Some (VTrue, G1) => ev rho phi b G1
          | Some (_, G1) => ev rho phi c G1
          | None => None
          end
      | EDo a b =>
          match forced (ev rho phi a G) with
          | Some (_, G1) => ev rho phi b G1
          | None => None
          end
      | ELet x b c =>
          match forced (ev rho phi b G) with
          | Some (v, G1) => ev ((x, v) :: rho) phi c G1
          | None => None
          end
      | EPrim p args =>
          match ev_list (ev rho phi) args G with
          | Some (l, G1) =>
              match force_all l G1 with
              | Some vs =>
                  match prim_sem ar p vs G1 with
                  | Some (v, G2) => Some (AVal v, G2)
                  | None => None
                  end
              | None => None
              end
          | None => None
          end
      | EApp f args =>
          match ev rho phi f G with
          | Some (a, G1) =>
              match ev_list (ev rho phi) args G1 with
              | Some (l, G2) =>
                  match force a G2, force_all l G2 with
                  | Some f, Some vs =>
                      match apply ar e_arity run n' f vs G2 with
                      | Some (v, G3) => Some (AVal v, G3)
                      | None => None
                      end
                  | _, _ => None
                  end
              | None => None
              end
          | None => None
          end
      end
  end.

(** * Statements *)
Record tcode := mkT { t_ps : list name; t_body : stm }.
Definition t_arity (c : tcode) : nat := List.length (t_ps c).

Definition free_sval {C} (sg : list (name * val C)) (phi : list (val C)) (s : simple) : option (val C) :=
  match s with
  | SmVar x => lookup x sg
  | SmRef i => nth_error phi i
  | _ => None
  end.

Definition ev_simple (sg : list (name * val tcode)) (phi : list (val tcode)) (s : simple) : option (ans tcode) :=
  match s with
  | SmVar x => match lookup x sg with Some v => Some (AVal v) | None => None end
  | SmConst c => Some (AVal (quoted c))
  | SmGlob x => Some (AGlob x)
  | SmRef i => match nth_error phi i with Some v => Some (AVal v) | None => None end
  | SmClo ps b frees =>
      match opts (free_sval sg phi) frees with
      | Some vs => Some (AVal (VClo (mkT ps b) vs))
      | None => None
      end
  | SmLab _ _ _ _ => None
  end.

Definition sval_of sg phi s (G : store tcode) : option (val tcode) :=
  match ev_simple sg phi s with Some a => force a G | None => None end.

(** the variables kept across a call *)
Definition keep {C} (live : option (list name)) (sg : list (name * val C)) : option (list (name * val C)) :=
  match live with
  | None => Some sg
  | Some l => opts (fun x => match lookup x sg with Some v => Some (x, v) | None => None end) l
  end.

Fixpoint exec (ar : arith) (n : nat) (sg : list (name * val tcode)) (phi : list (val tcode)) (t : stm)
  (G : store tcode) : option (val tcode * store tcode) :=
  match n with
  | O => None
  | S n' =>
      let run c vs args G := exec ar n' (combine (t_ps c) args) vs (t_body c) G in
      match t with
      | TRet s => match sval_of sg phi s G with Some v => Some (v, G) | None => None end
      | TTail f args =>
          match sval_of sg phi f G, opts (fun s => sval_of sg phi s G) args with
          | Some fv, Some vs => apply ar t_arity run n' fv vs G
          | _, _ => None
          end
      | TCall f args v k live =>
          match sval_of sg phi f G, opts (fun s => sval_of sg phi s G) args with
          | Some fv, Some vs =>
              match keep live sg with
              | Some sg1 =>
                  match apply ar t_arity run n' fv vs G with
                  | Some (r, G1) => exec ar n' ((v, r) :: sg1) phi k G1
                  | None => None
                  end
              | None => None
              end
          | _, _ => None
          end
      | TJump _ _ _ _ => None
      | TLet x s k =>
          match sval_of sg phi s G with
          | Some v => exec ar n' ((x, v) :: sg) phi k G
          | None => None
          end
      | TPrim x p args k =>
          match opts (fun s => sval_of sg phi s G) args with
          | Some vs =>
              match prim_sem ar p vs G with
              | Some (v, G1) => exec ar n' ((x, v) :: sg) phi k G1
              | None => None
              end
          | None => None
          end
      | TIf s a b =>
          match sval_of sg phi s G with
          | Some VTrue => exec ar n' sg phi a G
          | Some _ => exec ar n' sg phi b G
          | None => None
          end
      | TDo s k =>
          match sval_of sg phi s G with
          | Some _ => exec ar n' sg phi k G
          | None => None
          end
      end
  end.
