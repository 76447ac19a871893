(** What a JSON document is, and what following a path in it means. *)
From Coq Require Import ZArith Bool List.
From Verif Require Import JsonModel.
Import ListNotations.
Open Scope Z_scope.

Inductive json : Type :=
| JObject (members : list (bytes * json))
| JArray (elements : list json)
| JString (s : bytes)
| JInteger (z : Z)
| JReal (pattern : Z)
| JTrue
| JFalse
| JNull.

Definition kind_of (j : json) : kind :=
  match j with
  | JObject _ => KObject | JArray _ => KArray | JString _ => KString
  | JInteger _ => KInteger | JReal _ => KReal | JTrue => KTrue | JFalse => KFalse
  | JNull => KNull
  end.

(** The node at an address stands for a document: nodes lie at addresses that malloc gives,
    below 2^48 and divisible by 8; an array of pointers fits the address space. *)
Definition address (a : Z) : Prop := 0 <= a < 2^48 /\ a mod 8 = 0.
Inductive denotes (h : store) : Z -> json -> Prop :=
| DObject : forall a l m, address a -> h a = Some (NObject l) ->
    Forall2 (fun x y => fst x = fst y /\ denotes h (snd x) (snd y)) l m ->
    denotes h a (JObject m)
| DArray : forall a l m, address a -> h a = Some (NArray l) ->
    8 * Z.of_nat (length l) < 2^64 -> Forall2 (denotes h) l m -> denotes h a (JArray m)
| DString : forall a s, address a -> h a = Some (NString s) -> denotes h a (JString s)
| DInteger : forall a z, address a -> h a = Some (NInteger z) -> denotes h a (JInteger z)
| DReal : forall a p, address a -> h a = Some (NReal p) -> denotes h a (JReal p)
| DTrue : forall a, address a -> h a = Some NTrue -> denotes h a JTrue
| DFalse : forall a, address a -> h a = Some NFalse -> denotes h a JFalse
| DNull : forall a, address a -> h a = Some NNull -> denotes h a JNull.

(** The word that stands for a document in the language: tag 2 over an address (the quiet NaN
    with tag bits, src/types.h:16-32). *)
Definition word (a : Z) : Z := 0x7FFA000000000000 + a.
Definition stands (h : store) (w : Z) (j : json) : Prop :=
  exists a, w = word a /\ denotes h a j.

(** Paths as a user thinks of them. *)
Inductive jstep := At (i : Z) | Named (s : bytes).
Fixpoint lookup (m : list (bytes * json)) (s : bytes) : option json :=
  match m with
  | [] => None
  | (k, v) :: m' => if list_eq_dec Z.eq_dec k s then Some v else lookup m' s
  end.
Definition child (j : json) (s : jstep) : option json :=
  match s, j with
  | At i, JArray l => if i <? 0 then None else nth_error l (Z.to_nat i)
  | Named k, JObject m => lookup m k
  | _, _ => None
  end.
Fixpoint find (j : json) (p : list jstep) : option json :=
  match p with
  | [] => Some j
  | s :: p' => match child j s with Some j' => find j' p' | None => None end
  end.
