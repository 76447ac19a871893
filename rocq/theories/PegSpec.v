(** What a parsing expression grammar means: ordered choice over a list of
    tokens, after Ford.  Parsers of lib/peg.cora are written as syntax trees. *)
From Coq Require Import List ZArith String.
Import ListNotations.
Local Open Scope list_scope.

(** values of parsers; [VUndef] is no value *)
Inductive val := VTok (c : Z) | VStr (l : list Z) | VNil | VCons (x y : val) | VUndef.
Fixpoint vlist (l : list val) : val := match l with [] => VNil | x :: r => VCons x (vlist r) end.

(** [PRef i] is (lambda (toks) (p toks)) for the parser number [i]: the way to
    write recursive parsers. *)
Inductive peg :=
| PChar (c : Z) | PStr (l : list Z) | PSat (f : Z -> bool) | PRange (a b : Z) | PEof
| PSeq (p q : peg) | POr (p q : peg) | PNot (p : peg) | PPlus (p : peg) | PStar (p : peg) | PMaybe (p : peg)
| PMap (p : peg) (f : val -> val) | PBind (p : peg) (f : val -> peg) | PRef (i : nat).

(** [parses defs p toks o]: on [toks] the parser accepts with a value and leaves
    the rest ([Some (v, rest)]), or rejects ([None]).  A choice whose first
    alternative rejects tries the second on the same tokens; a repetition stops
    before the first thing that is rejected; a test consumes nothing. *)
Inductive parses (defs : nat -> option peg) : peg -> list Z -> option (val * list Z) -> Prop :=
| e_char c r : parses defs (PChar c) (c :: r) (Some (VTok c, r))
| e_char_no c t : (forall r, t <> c :: r) -> parses defs (PChar c) t None
| e_str l r : parses defs (PStr l) (l ++ r) (Some (VStr l, r))
| e_str_no l t : (forall r, t <> l ++ r) -> parses defs (PStr l) t None
| e_sat f c r : f c = true -> parses defs (PSat f) (c :: r) (Some (VTok c, r))
| e_sat_no f c r : f c = false -> parses defs (PSat f) (c :: r) None
| e_sat_end f : parses defs (PSat f) [] None
| e_range a b c r : (a <= c <= b)%Z -> parses defs (PRange a b) (c :: r) (Some (VTok c, r))
| e_range_no a b c r : ~ (a <= c <= b)%Z -> parses defs (PRange a b) (c :: r) None
| e_range_end a b : parses defs (PRange a b) [] None
| e_eof : parses defs PEof [] (Some (VNil, []))
| e_eof_no c r : parses defs PEof (c :: r) None
| e_seq p q t v1 t1 v2 t2 : parses defs p t (Some (v1, t1)) -> parses defs q t1 (Some (v2, t2)) ->
    parses defs (PSeq p q) t (Some (VCons v1 v2, t2))
| e_seq_no1 p q t : parses defs p t None -> parses defs (PSeq p q) t None
| e_seq_no2 p q t v1 t1 : parses defs p t (Some (v1, t1)) -> parses defs q t1 None -> parses defs (PSeq p q) t None
| e_or1 p q t x : parses defs p t (Some x) -> parses defs (POr p q) t (Some x)
| e_or2 p q t o : parses defs p t None -> parses defs q t o -> parses defs (POr p q) t o
| e_not p t x : parses defs p t (Some x) -> parses defs (PNot p) t None
| e_not_ok p t : parses defs p t None -> parses defs (PNot p) t (Some (VUndef, t))
| e_star p t l r : many defs p t l r -> parses defs (PStar p) t (Some (vlist l, r))
| e_plus p t v l r : many defs p t (v :: l) r -> parses defs (PPlus p) t (Some (vlist (v :: l), r))
| e_plus_no p t : parses defs p t None -> parses defs (PPlus p) t None
| e_maybe p t x : parses defs p t (Some x) -> parses defs (PMaybe p) t (Some x)
| e_maybe_no p t : parses defs p t None -> parses defs (PMaybe p) t (Some (VNil, t))
| e_map p f t v r : parses defs p t (Some (v, r)) -> parses defs (PMap p f) t (Some (f v, r))
| e_map_no p f t : parses defs p t None -> parses defs (PMap p f) t None
| e_bind p f t v t1 o : parses defs p t (Some (v, t1)) -> parses defs (f v) t1 o -> parses defs (PBind p f) t o
| e_bind_no p f t : parses defs p t None -> parses defs (PBind p f) t None
| e_ref i p t o : defs i = Some p -> parses defs p t o -> parses defs (PRef i) t o
with many (defs : nat -> option peg) : peg -> list Z -> list val -> list Z -> Prop :=
| many_stop p t : parses defs p t None -> many defs p t [] t
| many_more p t v t1 l r : parses defs p t (Some (v, t1)) -> many defs p t1 l r -> many defs p t (v :: l) r.

Scheme parses_mut := Minimality for parses Sort Prop
  with many_mut := Minimality for many Sort Prop.
Combined Scheme parses_many_ind from parses_mut, many_mut.
