(** What the definitions that define-record generates mean, and what a record
    type promises.  The evaluator is written from the language: it knows the
    forms let, begin, and, quote, and the vector primitives, and it looks a
    name up among the local variables before it takes it for a primitive. *)
From Coq Require Import List ZArith Bool String Arith.
From Verif Require Import CoreSpec TocModel.
Import ListNotations.
Local Open Scope list_scope.
Local Open Scope nat_scope.

(** Values.  [RRef a] is the vector at address [a]; [RAny] is anything else
    (functions, native values).  [RUndef] is what a slot holds before it is
    stored into: vectors are not cleared (types.c:261-273). *)
Inductive rv :=
| RNum (z : Z) | RSym (x : name) | RStr (s : string) | RTrue | RFalse | RNil
| RCons (a d : rv) | RRef (a : nat) | RAny (k : nat) | RUndef.

(** The vectors made so far. *)
Definition vheap := list (list rv).

Fixpoint rquote (s : sexp) : rv :=
  match s with
  | SNum z => RNum z | SSym x => RSym x | SStr t => RStr t | STrue => RTrue | SFalse => RFalse
  | SNil => RNil | SCons a d => RCons (rquote a) (rquote d)
  end.

(** [=]; comparing a slot that was never stored into is undefined *)
Fixpoint req (a b : rv) : option bool :=
  match a, b with
  | RUndef, _ | _, RUndef => None
  | RNum x, RNum y => Some (Z.eqb x y)
  | RSym x, RSym y => Some (name_eqb x y)
  | RStr x, RStr y => Some (String.eqb x y)
  | RTrue, RTrue | RFalse, RFalse | RNil, RNil => Some true
  | RCons a1 d1, RCons a2 d2 => match req a1 a2 with Some true => req d1 d2 | r => r end
  | RRef x, RRef y => Some (x =? y)
  | RAny x, RAny y => Some (x =? y)
  | _, _ => Some false
  end.

Fixpoint replace {A} (l : list A) (i : nat) (v : A) : list A :=
  match l, i with
  | [], _ => []
  | _ :: r, O => v :: r
  | x :: r, S i => x :: replace r i v
  end.

Definition rbool (b : bool) : rv := if b then RTrue else RFalse.

(** The slot that an index names. *)
Definition slot (z : Z) (len : nat) : option nat :=
  if ((0 <=? z) && (z <? Z.of_nat len))%Z then Some (Z.to_nat z) else None.

Definition rprim (f : string) (args : list rv) (h : vheap) : option (rv * vheap) :=
  if String.eqb f "vector" then
    match args with
    | [RNum z] => if (0 <=? z)%Z then Some (RRef (List.length h), h ++ [repeat RUndef (Z.to_nat z)]) else None
    | _ => None
    end
  else if String.eqb f "vector-ref" then
    match args with
    | [RRef a; RNum z] =>
        match nth_error h a with
        | Some l => match slot z (List.length l) with
                    | Some i => match nth_error l i with Some v => Some (v, h) | None => None end
                    | None => None
                    end
        | None => None
        end
    | _ => None
    end
  else if String.eqb f "vector-set!" then
    match args with
    | [RRef a; RNum z; v] =>
        match nth_error h a with
        | Some l => match slot z (List.length l) with
                    | Some i => Some (v, replace h a (replace l i v))
                    | None => None
                    end
        | None => None
        end
    | _ => None
    end
  else if String.eqb f "vector-length" then
    match args with
    | [RRef a] => match nth_error h a with Some l => Some (RNum (Z.of_nat (List.length l)), h) | None => None end
    | _ => None
    end
  else if String.eqb f "vector?" then
    match args with
    | [RUndef] => None
    | [RRef a] => Some (RTrue, h)
    | [_] => Some (RFalse, h)
    | _ => None
    end
  else if String.eqb f "=" then
    match args with
    | [a; b] => match req a b with Some r => Some (rbool r, h) | None => None end
    | _ => None
    end
  else None.

Definition is_name (s : string) (x : name) : bool := name_eqb x (NS s).

(** [g] are the names that the program defines itself; a primitive whose name
    it redefines is not one any more. *)
Fixpoint reval (g : list name) (env : list (name * rv)) (e : sexp) (h : vheap) {struct e} : option (rv * vheap) :=
  match e with
  | SNum z => Some (RNum z, h)
  | SStr s => Some (RStr s, h)
  | STrue => Some (RTrue, h)
  | SFalse => Some (RFalse, h)
  | SNil => Some (RNil, h)
  | SSym x => match lookup x env with Some v => Some (v, h) | None => None end
  | SCons (SSym f) args =>
      if is_name "quote" f then
        match args with SCons s SNil => Some (rquote s, h) | _ => None end
      else if is_name "let" f then
        match args with
        | SCons (SSym x) (SCons a (SCons b SNil)) =>
            match reval g env a h with
            | Some (v, h) => reval g ((x, v) :: env) b h
            | None => None
            end
        | _ => None
        end
      else if is_name "begin" f then
        (fix seq (l : sexp) (h : vheap) {struct l} : option (rv * vheap) :=
           match l with
           | SCons a d =>
               match reval g env a h with
               | Some (v, h) => match d with SNil => Some (v, h) | _ => seq d h end
               | None => None
               end
           | _ => None
           end) args h
      else if is_name "and" f then
        (fix conj (l : sexp) (h : vheap) {struct l} : option (rv * vheap) :=
           match l with
           | SNil => Some (RTrue, h)
           | SCons a d =>
               match reval g env a h with
               | Some (RUndef, _) => None
               | Some (RTrue, h) => conj d h
               | Some (_, h) => Some (RFalse, h)
               | None => None
               end
           | _ => None
           end) args h
      else
        match lookup f env, f with
        | None, NS s =>
            match
              (fix all (l : sexp) (h : vheap) {struct l} : option (list rv * vheap) :=
                 match l with
                 | SNil => Some ([], h)
                 | SCons a d =>
                     match reval g env a h with
                     | Some (v, h) => match all d h with Some (vs, h) => Some (v :: vs, h) | None => None end
                     | None => None
                     end
                 | _ => None
                 end) args h
            with
            | Some (vs, h) => if mem f g then None else rprim s vs h
            | None => None
            end
        | _, _ => None
        end
  | SCons _ _ => None
  end.

(** The functions a generated program defines: their parameters and bodies.
    A later definition of a name replaces an earlier one. *)
Definition defs := list (name * (list name * sexp)).

Fixpoint names_of (e : sexp) : option (list name) :=
  match e with
  | SNil => Some []
  | SCons (SSym x) r => match names_of r with Some l => Some (x :: l) | None => None end
  | _ => None
  end.

(** (defun f params body), (begin definition ...) and (). *)
Fixpoint define (e : sexp) (d : defs) {struct e} : option defs :=
  match e with
  | SNil => Some d
  | SCons (SSym k) args =>
      if is_name "defun" k then
        match args with
        | SCons (SSym f) (SCons ps (SCons b SNil)) =>
            match names_of ps with Some ps => Some ((f, (ps, b)) :: d) | None => None end
        | _ => None
        end
      else if is_name "begin" k then
        (fix seq (l : sexp) (d : defs) {struct l} : option defs :=
           match l with
           | SCons a r => match define a d with Some d => seq r d | None => None end
           | SNil => Some d
           | _ => None
           end) args d
      else None
  | _ => None
  end.

Definition call (d : defs) (f : name) (args : list rv) (h : vheap) : option (rv * vheap) :=
  match lookup f d with
  | Some (ps, b) =>
      if List.length args =? List.length ps then reval (map fst d) (combine ps args) b h else None
  | None => None
  end.

(** * Record types *)

Record field := mkField { fname : name; getter : option name; setter : option name }.
Record rtype := mkRtype { tname : name; con : name; inits : list name; pred : option name; fields : list field }.

(** As written in a program. *)
Definition field_sexp (f : field) : sexp :=
  match getter f, setter f with
  | Some g, Some s => of_list [SSym (fname f); SSym g; SSym s]
  | Some g, None => of_list [SSym (fname f); SSym g]
  | None, _ => of_list [SSym (fname f)]
  end.
Definition record_sexp (t : rtype) : sexp :=
  SCons (SSym (tname t))
    (SCons (SCons (SSym (con t)) (of_list (map SSym (inits t))))
      (SCons (match pred t with Some p => SSym p | None => SFalse end) (of_list (map field_sexp (fields t))))).

(** The functions a record type defines. *)
Definition opt {A} (o : option A) : list A := match o with Some a => [a] | None => [] end.
Definition defined (t : rtype) : list name :=
  con t :: opt (pred t) ++ flat_map (fun f => opt (getter f) ++ opt (setter f)) (fields t).

(** The generated code calls primitives by name.  A parameter of the
    constructor, or a function of the record type, must not have such a name. *)
Definition con_uses : list string := ["vector"; "vector-set!"]%string.
Definition used : list string := ["vector"; "vector-set!"; "vector-ref"; "vector-length"; "vector?"; "="]%string.

(** A record type that makes sense: the fields have different names, so have
    the functions; the constructor's parameters are different fields; a field
    with a setter has a getter; nothing is a symbol gensym will make. *)
Definition older (n : nat) (x : name) : Prop := match x with NS _ => True | NG k => k < n end.
Record sensible (n : nat) (t : rtype) : Prop := mkSensible {
  s_fields : NoDup (map fname (fields t));
  s_funs : NoDup (defined t);
  s_inits : NoDup (inits t);
  s_incl : forall x, In x (inits t) -> In x (map fname (fields t));
  s_old : forall x, In x (inits t) -> older n x;
  s_used : forall x, In x (inits t) -> ~ In x (map NS con_uses);
  s_prims : forall x, In x (defined t) -> ~ In x (map NS used);
  s_setter : forall f, In f (fields t) -> setter f <> None -> getter f <> None }.

(** A value is a record of the type when it is a vector with a slot for the
    type and one for each field, the first of which holds the type's name. *)
Definition is_record (t : rtype) (v : rv) (h : vheap) : Prop :=
  exists a l, v = RRef a /\ nth_error h a = Some (RSym (tname t) :: l) /\ List.length l = List.length (fields t).
