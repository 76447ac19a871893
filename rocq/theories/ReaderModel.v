(** The reader and printer of src/reader.c.

    The input stream is the list of bytes not yet read; [getc] at the end of the list is
    EOF, [ungetc] of a byte puts it back and [ungetc] of EOF does nothing.  Character
    classes are those of the "C" locale.  Writing past the local buffers is [UB], exit(1)
    and failed assertions are [Trap].  The result is the datum itself: the heap cells
    that represent it are the subject of HeapModel. *)
From Coq Require Import ZArith Bool List Ascii Arith.
From Verif Require Import Base StrModel TrieModel.
Import ListNotations.
Open Scope Z_scope.

Inductive datum :=
| DNum (z : Z)
| DSym (name : bytes)
| DStr (s : bytes)
| DTrue | DFalse | DNil
| DCons (a d : datum).

(** bytes by code *)
Definition ch (n : nat) : ascii := ascii_of_nat n.
Definition cNL := ch 10.
Definition cSP := ch 32.
Definition cDQ := ch 34.       (** double quote *)
Definition cQT := ch 39.       (** ' *)
Definition cLP := ch 40.
Definition cRP := ch 41.
Definition cCM := ch 44.       (** , *)
Definition cMI := ch 45.       (** - *)
Definition cDOT := ch 46.
Definition cSC := ch 59.       (** ; *)
Definition cLB := ch 91.
Definition cBS := ch 92.       (** backslash *)
Definition cRB := ch 93.
Definition cBQ := ch 96.       (** ` *)
Definition cFF := ch 255.
Definition is (c d : ascii) : bool := Ascii.eqb c d.

(** isspace, isdigit *)
Definition isspace (c : ascii) : bool :=
  let n := nat_of_ascii c in (Nat.eqb n 32 || (Nat.leb 9 n && Nat.leb n 13))%bool.
Definition isdigit (c : ascii) : bool :=
  let n := nat_of_ascii c in (Nat.leb 48 n && Nat.leb n 57)%bool.

(** reader.c:12-31, for a byte (EOF is not an identifier character) *)
Definition isIdentifierChar (c : ascii) : bool :=
  negb (is c cLP || is c cRP || is c cDQ || is c cQT || is c cBQ || is c cCM || is c cSC || is c cLB || is c cRB)
  && negb (isspace c).

(** reader.c:33-49; [com] inside a comment *)
Fixpoint eatWs (com : bool) (s : bytes) : bytes :=
  match s with
  | [] => []
  | c :: s' =>
      if com then (if is c cNL then eatWs false s' else eatWs true s')
      else if isspace c then eatWs false s'
      else if is c cSC then eatWs true s'
      else s
  end.
Definition eatWhitespace (s : bytes) : bytes := eatWs false s.

(** [char c = getc(in)]: the byte 255 becomes -1, which compares equal to EOF *)
Definition getc_char (s : bytes) : option ascii * bytes :=
  match s with
  | [] => (None, [])
  | c :: s' => (if is c cFF then None else Some c, s')
  end.
Definition ungetc (c : option ascii) (s : bytes) : bytes :=
  match c with Some c => c :: s | None => s end.
(** reader.c:51-55 *)
Definition peekFirstChar (s : bytes) : option ascii * bytes := getc_char (eatWhitespace s).

(** the value of a digit string, as computed by atoi before any overflow *)
Definition digit (c : ascii) : Z := Z.of_nat (nat_of_ascii c) - 48.
Definition decval (t : bytes) : Z := fold_left (fun a c => 10 * a + digit c) t 0.
(** atoi is undefined when the value does not fit an int *)
Definition atoi_pos (t : bytes) : outcome Z := if decval t <? 2^31 then Ok (decval t) else UB.
Definition atoi_neg (t : bytes) : outcome Z := if decval t <=? 2^31 then Ok (- decval t) else UB.

Fixpoint span (p : ascii -> bool) (s : bytes) : bytes * bytes :=
  match s with
  | [] => ([], [])
  | c :: s' => if p c then let (a, b) := span p s' in (c :: a, b) else ([], s)
  end.

Open Scope out_scope.

(** reader.c:103-119.  [buf] has 30 bytes, one for the terminator.  The character after
    the digits is put back unless it is 255. *)
Definition readNumber (s : bytes) : outcome (datum * bytes) :=
  let (t, r) := span isdigit s in
  if Nat.leb (length t) 29 then
    do! z <- atoi_pos t;
    let (c, r') := getc_char r in
    Ok (DNum z, ungetc c r')
  else UB.

(** reader.c:159-185, after the opening quote.  [n] bytes are in the buffer, which holds 512. *)
Fixpoint readString (n : nat) (s : bytes) : outcome (bytes * bytes) :=
  match s with
  | [] => Trap
  | c :: s1 =>
      if is c cDQ then
        (if Nat.ltb n 512 then Ok ([], s1) else UB)
      else if is c cBS then
        match s1 with
        | [] => Trap
        | c2 :: s2 =>
            if Nat.ltb n 999 then
              (if Nat.ltb n 512 then
                 do! '(t, r) <- readString (S n) s2; Ok ((if is c2 (ch 110) then cNL else c2) :: t, r)
               else UB)
            else Trap
        end
      else
        if Nat.ltb n 999 then
          (if Nat.ltb n 512 then do! '(t, r) <- readString (S n) s1; Ok (c :: t, r) else UB)
        else Trap
  end.

Definition bytes_eqb (a b : bytes) : bool := if list_eq_dec ascii_dec a b then true else false.
Definition s_true : bytes := map ch [116; 114; 117; 101]%nat.
Definition s_false : bytes := map ch [102; 97; 108; 115; 101]%nat.
Definition s_list : bytes := map ch [108; 105; 115; 116]%nat.
Definition s_list_rest : bytes := map ch [108; 105; 115; 116; 45; 114; 101; 115; 116]%nat.
(** symQuote, symBackQuote, symUnQuote: src/runtime.c:1068-1070 *)
Definition s_quote : bytes := map ch [113; 117; 111; 116; 101]%nat.
Definition s_backquote : bytes := map ch [98; 97; 99; 107; 113; 117; 111; 116; 101]%nat.
Definition s_unquote : bytes := map ch [117; 110; 113; 117; 111; 116; 101]%nat.

(** reader.c:187-222: [t] is the identifier read into the 512-byte buffer.  strcmp and intern
    see the bytes before the first NUL. *)
Definition symbolOf (t : bytes) : outcome datum :=
  if Nat.ltb (length t) 512 then
    if bytes_eqb (cstr t) s_true then Ok DTrue
    else if bytes_eqb (cstr t) s_false then Ok DFalse
    else match t with
         | c :: (_ :: _) as t' =>
             if is c cMI && forallb isdigit (tl t) then omap DNum (atoi_neg (tl t))
             else Ok (DSym (cstr t))
         | _ => Ok (DSym (cstr t))
         end
  else UB.

Definition list2 (q : bytes) (d : datum) : datum := DCons (DSym q) (DCons d DNil).

(** reader.c:75-83 *)
Fixpoint reverse (l acc : list datum) : list datum :=
  match l with [] => acc | x :: r => reverse r (x :: acc) end.
Fixpoint dlist (l : list datum) : datum := match l with [] => DNil | x :: r => DCons x (dlist r) end.

(** The result of reading: datum, unread input, and whether *errCode was set.
    [None] is out of fuel. *)
Definition rres := option (outcome (datum * bytes * bool)).
Definition rbind (x : rres) (f : datum -> bytes -> bool -> rres) : rres :=
  match x with
  | Some (Ok (d, r, e)) => f d r e
  | Some Trap => Some Trap
  | Some UB => Some UB
  | None => None
  end.
Definition rret (d : datum) (r : bytes) (e : bool) : rres := Some (Ok (d, r, e)).

(** reader.c:122-230 *)
Fixpoint sexpRead (fuel : nat) (s : bytes) : rres :=
  match fuel with
  | O => None
  | S f =>
      match eatWhitespace s with
      | [] => rret DNil [] true                         (* EOF: errCode = 1 *)
      | c :: s1 =>
          if isdigit c then Some (omap (fun p => (fst p, snd p, false)) (readNumber (c :: s1)))
          else if is c cQT then rbind (sexpRead f s1) (fun d r e => rret (list2 s_quote d) r e)
          else if is c cLP then readCons f s1
          else if is c cLB then readListMacro f s_list [] false s1
          else if is c cBQ then rbind (sexpRead f s1) (fun d r e => rret (list2 s_backquote d) r e)
          else if is c cCM then rbind (sexpRead f s1) (fun d r e => rret (list2 s_unquote d) r e)
          else if is c cDQ then Some (omap (fun p => (DStr (fst p), snd p, false)) (readString 0 s1))
          else if isIdentifierChar c then
            let (t, r) := span isIdentifierChar (c :: s1) in
            Some (omap (fun d => (d, r, false)) (symbolOf t))
          else Some Trap                                (* read illegal state *)
      end
  end
(** reader.c:56-73 *)
with readCons (fuel : nat) (s : bytes) : rres :=
  match fuel with
  | O => None
  | S f =>
      match s with
      | c :: s1 =>
          if is c cRP then rret DNil s1 false
          else rbind (sexpRead f s) (fun hd r e1 =>
               let (c, r1) := peekFirstChar r in
               rbind (readCons f (ungetc c r1)) (fun tl r2 e2 => rret (DCons hd tl) r2 (e1 || e2)))
      | [] => rbind (sexpRead f s) (fun hd r e1 =>
               let (c, r1) := peekFirstChar r in
               rbind (readCons f (ungetc c r1)) (fun tl r2 e2 => rret (DCons hd tl) r2 (e1 || e2)))
      end
  end
(** reader.c:85-101: [hd] the head symbol so far, [ret] the items read so far (last first),
    [e] whether errCode has been set *)
with readListMacro (fuel : nat) (hd : bytes) (ret : list datum) (e : bool) (s : bytes) : rres :=
  match fuel with
  | O => None
  | S f =>
      match peekFirstChar s with
      | (None, r) => rret (DCons (DSym hd) (dlist (reverse ret []))) r e
      | (Some b, r) =>
          if is b cRB then rret (DCons (DSym hd) (dlist (reverse ret []))) r e
          else if is b cDOT then readListMacro f s_list_rest ret e r
          else rbind (sexpRead f (ungetc (Some b) r)) (fun o r2 e2 => readListMacro f hd (o :: ret) (e || e2) r2)
      end
  end.

(** ** printing, reader.c:232-299 *)

(** "%" PRId64 *)
Fixpoint dec_digits (fuel : nat) (n : Z) : bytes :=
  match fuel with
  | O => []
  | S f => if n <? 10 then [ch (Z.to_nat (n + 48))]
           else dec_digits f (n / 10) ++ [ch (Z.to_nat (n mod 10 + 48))]
  end.
Definition dec_nat (n : Z) : bytes := dec_digits (S (Z.to_nat (Z.log2 n))) n.
Definition printNum (z : Z) : bytes := if z <? 0 then cMI :: dec_nat (- z) else dec_nat z.

(** the cases of printObj (reader.c:254-299) other than pairs; symbolStr needs the name and
    two more bytes to fit 256, "%s" stops at the first NUL *)
Definition printAtom (d : datum) : outcome bytes :=
  match d with
  | DNum z => Ok (printNum z)
  | DSym n => assertT (Nat.ltb (length n + 1) 256) (Ok n)
  | DStr s => Ok (cDQ :: cstr s ++ [cDQ])
  | DTrue => Ok s_true
  | DFalse => Ok s_false
  | DNil => Ok [cLP; cRP]
  | DCons _ _ => Ok []
  end.
(** printObj and printCons *)
Fixpoint printObj (d : datum) : outcome bytes :=
  match d with
  | DCons a t => do! x <- printObj a; do! y <- printTail t; Ok (cLP :: x ++ y)
  | _ => printAtom d
  end
with printTail (d : datum) : outcome bytes :=
  match d with
  | DNil => Ok [cRP]
  | DCons a t => do! x <- printObj a; do! y <- printTail t; Ok (cSP :: x ++ y)
  | _ => do! x <- printAtom d; Ok ([cSP; cDOT; cSP] ++ x ++ [cRP])
  end.
