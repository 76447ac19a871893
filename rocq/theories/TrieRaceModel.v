(** src/types.c intern and src/map.h when several procs use the table.

    The table of symbols is shared by all procs (threads, lib/parallel) and no
    lock is taken (src/types.c:156: "TODO: lock!").  intern is cut into two steps
    between which another proc may run.  Simplification: the search of mapGet and
    that of mapSet are one step. *)
From Coq Require Import ZArith Bool List.
From Verif Require Import Base StrModel NumModel TrieModel.
Import ListNotations.
Open Scope Z_scope.

(** src/map.h:28-40 with forUpdate: where the search for an absent key ends, as
    the digits on the way to it; None = the key is there *)
Fixpoint place {K V} (eqb : K -> K -> bool) (t : trie K V) (h : Z) (key : K) : option (list Z) :=
  match t with
  | Leaf => Some []
  | Node k _ c0 c1 c2 c3 =>
      if eqb key k then None
      else
        let h' := (h * 4) mod 2^64 in
        option_map (cons (h / 2^62))
          match h / 2^62 with
          | 0 => place eqb c0 h' key
          | 1 => place eqb c1 h' key
          | 2 => place eqb c2 h' key
          | _ => place eqb c3 h' key
          end
  end.

(** src/map.h:60: [*forUpdate = node], whatever is there by now; for ways that
    are still in the tree *)
Fixpoint hang {K V} (t : trie K V) (path : list Z) (node : trie K V) : trie K V :=
  match path, t with
  | [], _ => node
  | _, Leaf => Leaf
  | d :: r, Node k v c0 c1 c2 c3 =>
      match d with
      | 0 => Node k v (hang c0 r node) c1 c2 c3
      | 1 => Node k v c0 (hang c1 r node) c2 c3
      | 2 => Node k v c0 c1 (hang c2 r node) c3
      | _ => Node k v c0 c1 c2 (hang c3 r node)
      end
  end.

(** src/types.c:158-163 up to the store, for a name that is not there *)
Definition intern_find (st : symtab) (s : bytes) : option (list Z) := place strEQ (st_map st) (fnv1a64 (cstr s)) (cstr s).
(** src/types.c:163-164: the store and the symbol *)
Definition intern_store (st : symtab) (s : bytes) (path : list Z) (addr : Z) : outcome (symtab * Z) :=
  omap (fun o => (mkSym (hang (st_map st) path (Node (cstr s) addr Leaf Leaf Leaf Leaf)) ((addr, cstr s) :: st_mem st), o))
       (makeNaNPtr addr TAG_SYMBOL).
