(** lib/sxml.cora, with the primitives of lib/string.c and src/runtime.c it
    calls.

    Simplifications.
    - Values are trees ([sx]); [XOther] is a value of any other kind.
    - An error (no cond clause, no match, a failed assertion) is [Trap].
    - Allocation succeeds for every size that the C [int] arithmetic of
      makeBytes can express.
    - The contents of new bytes are uninitialised ([None]); reading such a
      byte into the result is [UB]. *)
From Coq Require Import List ZArith NArith Bool Ascii String.
From Verif Require Import Base StrModel ReaderModel.
Import ListNotations.
Local Open Scope list_scope.
Local Open Scope Z_scope.
Local Open Scope out_scope.

Inductive sx :=
| XSym (s : bytes) | XStr (s : bytes) | XNum (z : Z) | XNil | XCons (a d : sx) | XOther.

Definition lit (s : string) : bytes := list_ascii_of_string s.

(** src/types.c:100-108, src/runtime.c:241-246 *)
Definition makeBytes (n : Z) : outcome (list (option ascii)) :=
  let len := to_int32 n in
  if (0 <=? len) && (len + 64 <? 2^31) then Ok (repeat None (Z.to_nat len)) else UB.

(** lib/string.c:161-173 *)
Definition memcpy (dst : list (option ascii)) (off1 : Z) (src : list (option ascii)) (off2 n : Z)
  : outcome (list (option ascii)) :=
  if (0 <=? off1) && (0 <=? off2) && (0 <=? n) &&
     (off1 + n <=? Z.of_nat (List.length dst)) && (off2 + n <=? Z.of_nat (List.length src))
  then Ok (firstn (Z.to_nat off1) dst ++ firstn (Z.to_nat n) (skipn (Z.to_nat off2) src)
             ++ skipn (Z.to_nat (off1 + n)) dst)
  else UB.

(** The vector [bytes size], sxml.cora:7-22 *)
Record buffer := mkB { b_bytes : list (option ascii); b_size : Z }.
Definition buffer_cap (b : buffer) : Z := Z.of_nat (List.length (b_bytes b)).

(** sxml.cora:7-13 *)
Definition make_buffer : outcome buffer := do! d <- makeBytes 16; Ok (mkB d 0).

(** primDiv on positive numbers: it compares, NumProps.division_partial *)
Definition div_num (a b : Z) : Z := if b <=? a then 1 else 0.

(** sxml.cora:28-31 *)
Definition next_size (size : Z) : Z := if size <? 1024 then size * 2 else size + div_num size 2.

(** sxml.cora:33-44 *)
Definition buffer_append (buf : buffer) (str : bytes) : outcome buffer :=
  let new_size := b_size buf + Z.of_nat (List.length str) in
  do! buf <- (if buffer_cap buf <? new_size then
                do! new_data <- makeBytes (next_size new_size);
                do! new_data <- memcpy new_data 0 (b_bytes buf) 0 (b_size buf);
                Ok (mkB new_data (b_size buf))
              else Ok buf);
  do! d <- memcpy (b_bytes buf) (b_size buf) (List.map Some str) 0 (Z.of_nat (List.length str));
  Ok (mkB d new_size).

(** sxml.cora:24-26; string-slice on bytes of which a prefix is written *)
Definition buffer_to_string (buf : buffer) : outcome bytes :=
  let e := to_int32 (b_size buf) in
  if (e <? 0) || (buffer_cap buf <? e) then UB else take_init (b_bytes buf) (Z.to_nat e).

(** sxml.cora:46-49 *)
Definition output (buf : buffer) (data : sx) : outcome buffer :=
  match data with
  | XStr s => buffer_append buf s
  | XNum z => buffer_append buf (printNum z)
  | _ => Trap
  end.

(** sxml.cora:51-65; [k] iterations are left *)
Fixpoint escape_loop (str : bytes) (k : nat) (i : Z) (buf : buffer) : outcome buffer :=
  match k with
  | O => Ok buf
  | S k' =>
      do! c <- bytesRef str i;
      do! buf <- (if c =? 34 then buffer_append buf (lit "&quot;")
                  else if c =? 38 then buffer_append buf (lit "&amp;")
                  else if c =? 92 then buffer_append buf (lit "&apos;")
                  else if c =? 60 then buffer_append buf (lit "&lt;")
                  else if c =? 62 then buffer_append buf (lit "&gt;")
                  else do! s <- stringIndex str i; buffer_append buf s);
      escape_loop str k' (i + 1) buf
  end.
Definition string_to_escaped_xml (str : bytes) (buf : buffer) : outcome buffer :=
  escape_loop str (List.length str) 0 buf.

(** sxml.cora:67-70 *)
Definition attribute_value_to_xml (v : sx) (buf : buffer) : outcome buffer :=
  match v with
  | XStr s => string_to_escaped_xml s buf
  | XNum z => buffer_append buf (printNum z)
  | _ => Trap
  end.

(** src/runtime.c symbolToString, src/types.c:171-178 *)
Definition symbol_to_string (v : sx) : outcome sx :=
  match v with XSym s => assertT (Nat.ltb (List.length s + 1) 256) (Ok (XStr s)) | _ => Trap end.

Definition xcar (v : sx) : outcome sx := match v with XCons a _ => Ok a | _ => UB end.
Definition xcdr (v : sx) : outcome sx := match v with XCons _ d => Ok d | _ => UB end.

(** the function of sxml.cora:73-82 *)
Definition one_attribute (buf : buffer) (attr : sx) : outcome buffer :=
  match attr with
  | XSym _ =>
      do! buf <- output buf (XStr (lit " "));
      do! n <- symbol_to_string attr; output buf n
  | _ =>
      do! buf <- output buf (XStr (lit " "));
      do! k <- xcar attr;
      do! n <- symbol_to_string k;
      do! buf <- output buf n;
      do! buf <- output buf (XStr ["="%char; """"%char]);
      do! t <- xcdr attr;
      do! v <- xcar t;
      do! buf <- attribute_value_to_xml v buf;
      output buf (XStr [""""%char])
  end.

(** sxml.cora:72-82, for-each of lib/sys.cora:26-30 *)
Fixpoint attributes_to_xml (attrs : sx) (buf : buffer) : outcome buffer :=
  match attrs with
  | XNil => Ok buf
  | XCons a d => do! buf <- one_attribute buf a; attributes_to_xml d buf
  | _ => Trap
  end.

(** sxml.cora:84-96; [content] writes the body *)
Definition element_to_xml (tag : bytes) (attrs body : sx) (content : buffer -> outcome buffer) (buf : buffer) : outcome buffer :=
  do! buf <- output buf (XStr (lit "<"));
  do! n <- symbol_to_string (XSym tag);
  do! buf <- output buf n;
  do! buf <- attributes_to_xml attrs buf;
  match body with
  | XNil => output buf (XStr (lit " />"))
  | _ =>
      do! buf <- output buf (XStr (lit ">"));
      do! buf <- content buf;
      do! buf <- output buf (XStr (lit "</"));
      do! buf <- output buf n;
      output buf (XStr (lit ">"))
  end.

Definition at_sign (s : bytes) : bool := match s with [c] => Ascii.eqb c "@"%char | _ => false end.

(** sxml.cora:98-103 *)
Fixpoint sxml_h (v : sx) (buf : buffer) {struct v} : outcome buffer :=
  let each := fix each (l : sx) (buf : buffer) {struct l} : outcome buffer :=
    match l with
    | XNil => Ok buf
    | XCons a d => do! buf <- sxml_h a buf; each d buf
    | _ => Trap
    end in
  match v with
  | XCons (XSym s) rest =>
      match rest with
      | XCons (XCons (XSym a) attrs) body =>
          if at_sign a then element_to_xml s attrs body (each body) buf
          else element_to_xml s XNil rest (each rest) buf
      | _ => element_to_xml s XNil rest (each rest) buf
      end
  | XStr s => string_to_escaped_xml s buf
  | XNil => Ok buf
  | XCons c more => do! buf <- sxml_h c buf; sxml_h more buf
  | _ => Trap
  end.

(** sxml.cora:105-109 *)
Definition sxml_to_xml (v : sx) : outcome bytes :=
  do! buf <- make_buffer;
  do! buf <- sxml_h v buf;
  buffer_to_string buf.
