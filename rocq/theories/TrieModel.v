(** src/map.h (hash trie), src/types.c intern/symbolStr, and the global variable
    table of src/runtime.c. *)
From Coq Require Import ZArith Bool List Ascii.
From Verif Require Import Base ListLib StrModel NumModel.
Import ListNotations.
Open Scope Z_scope.

(** src/map.h:12-16.  A null child pointer is [Leaf]. *)
Inductive trie (K V : Type) : Type :=
| Leaf
| Node (k : K) (v : V) (c0 c1 c2 c3 : trie K V).
Arguments Leaf {K V}.
Arguments Node {K V} k v c0 c1 c2 c3.

(** src/map.h:28-40, read-only use.  The hash is a uint64; each level consumes its
    two top bits ([h >> 62]) and shifts ([h <<= 2]). *)
Fixpoint lookup {K V} (eqb : K -> K -> bool) (t : trie K V) (h : Z) (key : K) : option V :=
  match t with
  | Leaf => None
  | Node k v c0 c1 c2 c3 =>
      if eqb key k then Some v
      else
        let h' := (h * 4) mod 2^64 in
        match h / 2^62 with
        | 0 => lookup eqb c0 h' key
        | 1 => lookup eqb c1 h' key
        | 2 => lookup eqb c2 h' key
        | _ => lookup eqb c3 h' key
        end
  end.

(** src/map.h:47-62: overwrite the value when found, otherwise hang a new node
    at the null pointer where the lookup ended ([forUpdate]). *)
Fixpoint insert {K V} (eqb : K -> K -> bool) (t : trie K V) (h : Z) (key : K) (val : V) : trie K V :=
  match t with
  | Leaf => Node key val Leaf Leaf Leaf Leaf
  | Node k v c0 c1 c2 c3 =>
      if eqb key k then Node k val c0 c1 c2 c3
      else
        let h' := (h * 4) mod 2^64 in
        match h / 2^62 with
        | 0 => Node k v (insert eqb c0 h' key val) c1 c2 c3
        | 1 => Node k v c0 (insert eqb c1 h' key val) c2 c3
        | 2 => Node k v c0 c1 (insert eqb c2 h' key val) c3
        | _ => Node k v c0 c1 c2 (insert eqb c3 h' key val)
        end
  end.

(** mapGet / mapSet *)
Definition map_get {K V} (eqb : K -> K -> bool) (hash : K -> Z) (t : trie K V) (key : K) : option V :=
  lookup eqb t (hash key) key.
Definition map_set {K V} (eqb : K -> K -> bool) (hash : K -> Z) (t : trie K V) (key : K) (val : V) : trie K V :=
  insert eqb t (hash key) key val.

(** src/map.h:104-113 *)
Definition byteval (c : ascii) : Z := Z.of_nat (nat_of_ascii c).
Definition fnv1a64 (s : bytes) : Z :=
  fold_left (fun h c => (Z.lxor h (byteval c) * 1099511628211) mod 2^64) s 1469598103934665603.

(** src/types.c strEQFunc *)
Definition strEQ (s t : bytes) : bool := strCmp s t =? 0.

(** [cstr]: the bytes before the first NUL (src/str.c:21-25) *)
Fixpoint cstr (s : bytes) : bytes :=
  match s with
  | [] => []
  | c :: s' => if Ascii.eqb c NUL then [] else c :: cstr s'
  end.

(** ** interning, src/types.c:147-164 *)
Record symtab := mkSym {
  st_map : trie bytes Z;        (** name -> address of the strBuf *)
  st_mem : list (Z * bytes)     (** allocated strBufs: address -> name *)
}.
Definition sym_empty := mkSym Leaf [].

(** [addr] is what malloc would return in this call. *)
Definition intern (st : symtab) (s : bytes) (addr : Z) : outcome (symtab * Z) :=
  let key := cstr s in
  match map_get strEQ fnv1a64 (st_map st) key with
  | None =>
      omap (fun o => (mkSym (map_set strEQ fnv1a64 (st_map st) key addr) ((addr, key) :: st_mem st), o))
           (makeNaNPtr addr TAG_SYMBOL)
  | Some p => omap (fun o => (st, o)) (makeNaNPtr p TAG_SYMBOL)
  end.

(** src/types.c symbolStr for interned symbols, into a buffer of [sz] bytes *)
Definition symbolStr (st : symtab) (o : Z) (sz : nat) : outcome bytes :=
  if isobj o && (tag o =? TAG_SYMBOL) then
    match find (fun e => fst e =? ptr o) (st_mem st) with
    | Some (_, name) => assertT (Nat.ltb (length name + 1) sz) (Ok name)
    | None => UB
    end
  else Trap.

(** ** global variables, src/runtime.c:173-220, 274-315, runtime.h:205-216.
    A symbol is given by its name (interned symbols with the same name are the same
    object, see intern_same_iff); a value is an [Obj]. *)
Record genv := mkGenv { g_env : trie bytes nat; g_vals : list Z }.
Definition genv_empty := mkGenv Leaf [].

(** src/runtime.c:173-187 *)
Definition bindSymbol (g : genv) (s : bytes) : genv * nat :=
  match map_get strEQ fnv1a64 (g_env g) s with
  | Some i => (g, i)
  | None =>
      let idx := length (g_vals g) in
      (mkGenv (map_set strEQ fnv1a64 (g_env g) s idx) (g_vals g ++ [Undef]), idx)
  end.

(** src/runtime.h:205-209 *)
Definition globalRef (g : genv) (i : nat) : outcome Z :=
  match nth_error (g_vals g) i with Some v => Ok v | None => UB end.
(** src/runtime.h:211-216 (the write barrier's effect on the slot is the store) *)
Definition globalSet (g : genv) (i : nat) (v : Z) : outcome genv :=
  if Nat.ltb i (length (g_vals g)) then Ok (mkGenv (g_env g) (list_set (g_vals g) i v)) else UB.

(** src/runtime.c:204-210 *)
Definition primSet (g : genv) (s : bytes) (v : Z) : outcome genv :=
  let (g', i) := bindSymbol g s in globalSet g' i v.
(** src/runtime.c:189-195 *)
Definition symbolGet (g : genv) (s : bytes) : outcome (genv * Z) :=
  let (g', i) := bindSymbol g s in omap (fun v => (g', v)) (globalRef g' i).
(** src/runtime.c:274-283: aborts on an undefined variable *)
Definition builtinValue (g : genv) (s : bytes) : outcome (genv * Z) :=
  obind (symbolGet g s) (fun gv => assertT (negb (snd gv =? Undef)) (Ok gv)).
(** src/runtime.c:296-315 *)
Definition builtinValueOr (g : genv) (s : bytes) (d : Z) : outcome (genv * Z) :=
  omap (fun gv => (fst gv, if snd gv =? Undef then d else snd gv)) (symbolGet g s).
