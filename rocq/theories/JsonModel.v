(** Reading of JSON documents: lib/json.c, a wrapper over jansson.
    Values of the language are words as in NumModel; the nodes that jansson has built are a
    store from addresses to nodes.  Not modelled: jansson's parser and reference counts (the
    wrapper never releases a document, so nodes stay). *)
From Coq Require Import ZArith Bool List.
From Verif Require Import Base NumModel HeapModel.
Import ListNotations.
Open Scope Z_scope.

Definition bytes := list Z.

(** json_t: what json_typeof tells apart, with what the accessors read.  Reals are kept as
    the pattern of the double; the wrapper has no accessor for them. *)
Inductive node : Type :=
| NObject (members : list (bytes * Z))
| NArray (elements : list Z)
| NString (s : bytes)
| NInteger (z : Z)
| NReal (pattern : Z)
| NTrue
| NFalse
| NNull.

(** Address to node; [None]: not a node of jansson, reading it as one is undefined. *)
Definition store := Z -> option node.

Inductive kind := KObject | KArray | KString | KInteger | KReal | KTrue | KFalse | KNull.

(** json_typeof *)
Definition typeof (n : node) : kind :=
  match n with
  | NObject _ => KObject | NArray _ => KArray | NString _ => KString
  | NInteger _ => KInteger | NReal _ => KReal | NTrue => KTrue | NFalse => KFalse
  | NNull => KNull
  end.
Definition kind_eqb (a b : kind) : bool :=
  match a, b with
  | KObject, KObject | KArray, KArray | KString, KString | KInteger, KInteger
  | KReal, KReal | KTrue, KTrue | KFalse, KFalse | KNull, KNull => true
  | _, _ => false
  end.

Open Scope out_scope.

(** src/types.c:48-53; NULL passes the check of alignment but is never given *)
Definition makeCObj (p : Z) : outcome Z :=
  assertT (Z.land p 7 =? 0) (makeNaNPtr p TAG_COBJ).
(** src/types.c:55-59: looks at three bits only *)
Definition mustCObj (o : Z) : outcome Z := assertT (tag o =? TAG_COBJ) (Ok (ptr o)).

Definition load (h : store) (a : Z) : outcome node :=
  match h a with Some n => Ok n | None => UB end.

(** What json-typeof answers: a symbol or (). *)
Inductive answer := ASymbol (k : kind) | ANil.

(** lib/json.c:19-54 *)
Definition jsonTypeOf (h : store) (r1 : Z) : outcome answer :=
  if negb (iscobj r1) then Ok ANil else
  do! a <- mustCObj r1;
  do! n <- load h a;
  Ok (ASymbol (typeof n)).

(** lib/json.c:56-87, 112-165: eight functions that differ in the macro json_is_…, that is in
    the kind [k]. *)
Definition jsonIs (k : kind) (h : store) (r1 : Z) : outcome Z :=
  if negb (iscobj r1) then Ok False_ else
  do! a <- mustCObj r1;
  do! n <- load h a;
  Ok (if kind_eqb (typeof n) k then True_ else False_).

(** src/types.c:101-131 makeString: the length is an int and the object adds 33 bytes; copying
    from NULL is undefined even for no bytes. *)
Definition makeString (s : option bytes) (len : Z) : outcome bytes :=
  match s with
  | None => UB
  | Some b => if to_int len + 33 <? 2^31 then if 0 <=? to_int len then Ok (firstn (Z.to_nat (to_int len)) b) else UB else UB
  end.

(** jansson: json_string_value is NULL and json_string_length 0 for other kinds *)
Definition string_value (n : node) : option bytes :=
  match n with NString s => Some s | _ => None end.
Definition string_length (n : node) : Z :=
  match n with NString s => Z.of_nat (length s) | _ => 0 end.

(** lib/json.c:89-99 *)
Definition jsonStringValue (h : store) (r1 : Z) : outcome bytes :=
  if negb (iscobj r1) then Ok [] else
  do! a <- mustCObj r1;
  do! n <- load h a;
  makeString (string_value n) (string_length n).

(** json_integer_value is 0 for other kinds *)
Definition integer_value (n : node) : Z := match n with NInteger z => z | _ => 0 end.

(** lib/json.c:101-110 *)
Definition jsonIntegerValue (h : store) (r1 : Z) : outcome Z :=
  if negb (iscobj r1) then makeNumber 0 else
  do! a <- mustCObj r1;
  do! n <- load h a;
  makeNumber (integer_value n).

(** json_array_size and json_object_size are 0 for other kinds *)
Definition array_size (n : node) : Z :=
  match n with NArray l => Z.of_nat (length l) | _ => 0 end.
Definition object_size (n : node) : Z :=
  match n with NObject l => Z.of_nat (length l) | _ => 0 end.

(** lib/json.c:167-172 *)
Definition jsonArraySize (h : store) (r1 : Z) : outcome Z :=
  do! a <- mustCObj r1; do! n <- load h a; makeNumber (array_size n).
(** lib/json.c:186-191 *)
Definition jsonObjectSize (h : store) (r1 : Z) : outcome Z :=
  do! a <- mustCObj r1; do! n <- load h a; makeNumber (object_size n).

(** json_array_get takes a size_t: an int that is negative becomes huge. *)
Definition array_get (n : node) (idx : Z) : option Z :=
  let i := idx mod 2^64 in
  match n with
  | NArray l => if i <? Z.of_nat (length l) then nth_error l (Z.to_nat i) else None
  | _ => None
  end.

(** lib/json.c:174-184 *)
Definition jsonArrayGet (h : store) (r1 r2 : Z) : outcome Z :=
  do! a <- mustCObj r1;
  do! k <- fixnum r2;
  do! n <- load h a;
  match array_get n (to_int k) with
  | None => Ok Nil
  | Some v => makeCObj v
  end.

(** The text of a C string: up to the first NUL. *)
Fixpoint cstr (s : bytes) : bytes :=
  match s with
  | [] => []
  | c :: s' => if c =? 0 then [] else c :: cstr s'
  end.

Fixpoint bytes_eqb (s t : bytes) : bool :=
  match s, t with
  | [], [] => true
  | c :: s', d :: t' => (c =? d) && bytes_eqb s' t'
  | _, _ => false
  end.

(** json_object_get: looks up a C string; NULL for other kinds.  The hash table is a list of
    members. *)
Fixpoint member (l : list (bytes * Z)) (key : bytes) : option Z :=
  match l with
  | [] => None
  | (k, v) :: l' => if bytes_eqb k key then Some v else member l' key
  end.
Definition object_get (n : node) (key : bytes) : option Z :=
  match n with NObject l => member l (cstr key) | _ => None end.

(** lib/json.c:193-203; the second argument is given by its bytes *)
Definition jsonObjectGet (h : store) (r1 : Z) (key : bytes) : outcome Z :=
  do! a <- mustCObj r1;
  do! n <- load h a;
  match object_get n key with
  | None => Ok Nil
  | Some v => makeCObj v
  end.

(** lib/json.c:6-17; [files] is json_load_file: the root of the document, or an error. *)
Definition jsonLoadFile (files : bytes -> option Z) (path : bytes) : outcome Z :=
  match files (cstr path) with
  | None => Ok Nil
  | Some a => makeCObj a
  end.

(** How a program follows a path through a document. *)
Inductive step := Index (w : Z) | Key (s : bytes).
Definition follow1 (h : store) (w : Z) (s : step) : outcome Z :=
  match s with
  | Index i => jsonArrayGet h w i
  | Key k => jsonObjectGet h w k
  end.
Fixpoint follow (h : store) (w : Z) (p : list step) : outcome Z :=
  match p with
  | [] => Ok w
  | s :: p' => do! v <- follow1 h w s; follow h v p'
  end.

(** test/sxml-test.cora:22-31: the loop over the elements from 0 up to json-array-size. *)
Fixpoint elements_from (h : store) (w : Z) (i : Z) (n : nat) : outcome (list Z) :=
  match n with
  | O => Ok []
  | S n' =>
      do! k <- makeNumber i;
      do! v <- jsonArrayGet h w k;
      do! r <- elements_from h w (i + 1) n';
      Ok (v :: r)
  end.
Definition elements (h : store) (w : Z) : outcome (list Z) :=
  do! s <- jsonArraySize h w;
  do! n <- fixnum s;
  elements_from h w 0 (Z.to_nat n).
