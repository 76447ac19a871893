(** lib/define-record.cora: the macro define-record, which turns the
    description of a record type into definitions of functions on vectors.

    Simplifications: gensym is a counter; a rule that does not match any
    pattern is [None]; the namespace pass that follows is NsModel.v's. *)
From Coq Require Import List ZArith Bool String Arith.
From Verif Require Import CoreSpec TocModel.
Import ListNotations.
Local Open Scope list_scope.
Local Open Scope nat_scope.

Fixpoint list_of (e : sexp) : option (list sexp) :=
  match e with
  | SNil => Some []
  | SCons a d => match list_of d with Some l => Some (a :: l) | None => None end
  | _ => None
  end.

(** :8-11; no clause for the empty list *)
Fixpoint field_index_h (idx : Z) (f : sexp) (fields : sexp) : option Z :=
  match fields with
  | SCons (SCons x _) r => if sexp_eqb x f then Some idx else field_index_h (idx + 1) f r
  | _ => None
  end.
(** :13-14 *)
Definition field_index (f fields : sexp) : option Z := field_index_h 0 f fields.

(** :16-29; [k] is the number of symbols made so far *)
Definition rewrite_field_h (fields : sexp) (fld : sexp) (k : nat) : option (sexp * nat) :=
  match list_of fld with
  | Some [f; g; s] =>
      match field_index f fields with
      | Some i =>
          let arg := SSym (NG k) in
          let val := SSym (NG (S k)) in
          let idx := SNum (i + 1) in
          Some (of_list [ssym "begin";
                  of_list [ssym "defun"; g; of_list [arg]; of_list [ssym "vector-ref"; arg; idx]];
                  of_list [ssym "defun"; s; of_list [arg; val]; of_list [ssym "vector-set!"; arg; idx; val]]], S (S k))
      | None => None
      end
  | Some [f; g] =>
      match field_index f fields with
      | Some i =>
          let arg := SSym (NG k) in
          Some (of_list [ssym "defun"; g; of_list [arg]; of_list [ssym "vector-ref"; arg; SNum (i + 1)]], S k)
      | None => None
      end
  | Some [f] => Some (SNil, k)
  | _ => None
  end.

(** (map (rewrite-field-h fields) l) *)
Fixpoint rewrite_fields (fields : sexp) (l : list sexp) (k : nat) : option (list sexp * nat) :=
  match l with
  | [] => Some ([], k)
  | x :: r =>
      match rewrite_field_h fields x k with
      | Some (e, k) => match rewrite_fields fields r k with Some (es, k) => Some (e :: es, k) | None => None end
      | None => None
      end
  end.

(** :34-36 *)
Fixpoint init_record (ret : sexp) (fields : sexp) (l : list sexp) : option (list sexp) :=
  match l with
  | [] => Some []
  | x :: r =>
      match field_index x fields, init_record ret fields r with
      | Some i, Some es => Some (of_list [ssym "vector-set!"; ret; SNum (1 + i); x] :: es)
      | _, _ => None
      end
  end.

(** :31-51 *)
Definition rewrite_define_record (e : sexp) (k : nat) : option (sexp * nat) :=
  match e with
  | SCons typename (SCons (SCons constructor inits) (SCons predicate fields)) =>
      match list_of inits, list_of fields with
      | Some il, Some fl =>
          let ret := SSym (NG k) in
          let arg := SSym (NG (S k)) in
          let size := SNum (1 + Z.of_nat (List.length fl)) in
          match init_record ret fields il, rewrite_fields fields fl (S (S k)) with
          | Some ir, Some (fs, k) =>
              Some (of_list
                ([ssym "begin";
                  of_list [ssym "defun"; constructor; inits;
                    of_list [ssym "let"; ret; of_list [ssym "vector"; size];
                      of_list ([ssym "begin"; of_list [ssym "vector-set!"; ret; SNum 0; of_list [ssym "quote"; typename]]] ++
                               ir ++ [ret])]];
                  if sexp_eqb predicate SFalse then SNil
                  else of_list [ssym "defun"; predicate; of_list [arg];
                         of_list [ssym "and"; of_list [ssym "vector?"; arg];
                           of_list [ssym "="; of_list [ssym "vector-length"; arg]; size];
                           of_list [ssym "="; of_list [ssym "vector-ref"; arg; SNum 0]; of_list [ssym "quote"; typename]]]]] ++ fs), k)
          | _, _ => None
          end
      | _, _ => None
      end
  | _ => None
  end.
