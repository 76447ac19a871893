(** lib/toc/internal.c: how names, numbers and strings are written into the
    generated C text, and the text around them in lib/toc.cora.

    Simplifications.
    - The output stream is the list of bytes written; a write never fails.
    - A symbol made by gensym is printed by src/types.c:185 as the letter x and
      the decimal value of its tagged pointer; its name is an argument here. *)
From Coq Require Import List ZArith Bool Ascii String Arith.
From Verif Require Import Base StrModel ReaderModel.
Import ListNotations.
Local Open Scope list_scope.
Local Open Scope nat_scope.
Local Open Scope out_scope.

(** fprintf("%s", p): bytes up to the first NUL *)
Fixpoint cstr (s : bytes) : bytes :=
  match s with [] => [] | c :: s' => if Ascii.eqb c NUL then [] else c :: cstr s' end.

(** lib/toc/internal.c:5-13 *)
Definition generate_str (s : bytes) : bytes := cstr s.

(** fprintf("%d", n) for an int in the range of a char *)
Definition show_char (z : Z) : bytes :=
  if (z <? 0)%Z then ch 45 :: dec_digits 4 (- z) else dec_digits 4 z.

Definition is_lower (c : ascii) := (97 <=? schar c)%Z && (schar c <=? 122)%Z.
Definition is_upper (c : ascii) := (65 <=? schar c)%Z && (schar c <=? 90)%Z.
Definition is_dig (c : ascii) := (48 <=? schar c)%Z && (schar c <=? 57)%Z.
Definition UND : ascii := ch 95.
Definition VEE : ascii := ch 118.

(** lib/toc/internal.c:26-33 *)
Definition emit_char (c : ascii) : bytes :=
  if is_lower c || is_upper c || is_dig c then [c]
  else if Ascii.eqb c UND then [UND; UND]
  else UND :: show_char (schar c).

(** lib/toc/internal.c:15-36; the assertion is src/types.c:176 *)
Definition generate_sym (s : bytes) : outcome bytes :=
  assertT (List.length s + 1 <? 256)
    (let p := cstr s in
     Ok ((match p with c :: _ => if is_dig c then [VEE] else [] | [] => [] end)
           ++ flat_map emit_char p)).

Definition QUO : ascii := ch 34.
Definition BSL : ascii := ch 92.
Definition LF : ascii := ch 10.
Definition TAB : ascii := ch 9.

(** lib/toc/internal.c:58-76 *)
Fixpoint escape_loop (s : bytes) (dst : strBuf) : outcome strBuf :=
  match s with
  | [] => Ok dst
  | c :: s' =>
      do! dst <- (if Ascii.eqb c QUO then do! d <- strAppend dst BSL; strAppend d QUO
                  else if Ascii.eqb c LF then do! d <- strAppend dst BSL; strAppend d (ch 110)
                  else if Ascii.eqb c TAB then do! d <- strAppend dst BSL; strAppend d (ch 116)
                  else strAppend dst c);
      escape_loop s' dst
  end.

(** lib/toc/internal.c:47-80 *)
Definition escape_str (s : bytes) : outcome bytes :=
  match s with
  | [] => Ok []
  | _ => do! dst <- strNew (List.length s); do! dst <- escape_loop s dst; toStr dst
  end.

(** lib/toc.cora:320-323: the constant, after the opening [makeCString(co->gc, ] *)
Definition generate_string_const (s : bytes) : outcome bytes :=
  do! e <- escape_str s;
  Ok (QUO :: generate_str e ++ [QUO; ch 41]).

(** lib/toc.cora:579-581: the name of a global, after [intern(] *)
Definition generate_symbol_name (s : bytes) : bytes := QUO :: generate_str s ++ [QUO; ch 41].
