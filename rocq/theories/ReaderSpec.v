(** What texts stand for which data: the concrete syntax of cora's s-expressions, written
    as a grammar, without reference to how the reader works. *)
From Coq Require Import ZArith Bool List Ascii.
From Verif Require Import Base StrModel ReaderModel.
Import ListNotations.
Open Scope Z_scope.

(** character classes, by code *)
Definition blank (c : ascii) : Prop := In c (map ch [9; 10; 11; 12; 13; 32]%nat).
Definition punct (c : ascii) : Prop := In c [cLP; cRP; cDQ; cQT; cBQ; cCM; cSC; cLB; cRB].
Definition delim (c : ascii) : Prop := blank c \/ punct c.
Definition digit_char (c : ascii) : Prop := In c (map ch [48; 49; 50; 51; 52; 53; 54; 55; 56; 57]%nat).

(** layout: blanks and comments *)
Inductive layout : bytes -> Prop :=
| lay_nil : layout []
| lay_blank : forall c l, blank c -> layout l -> layout (c :: l)
| lay_comment : forall t l, ~ In cNL t -> layout l -> layout (cSC :: t ++ cNL :: l).

(** the number a string of decimal digits stands for *)
Inductive decimal : bytes -> Z -> Prop :=
| dec_one : forall c, digit_char c -> decimal [c] (digit c)
| dec_more : forall t c z, decimal t z -> digit_char c -> decimal (t ++ [c]) (10 * z + digit c).

(** the inside of a string literal and the string it stands for *)
Inductive literal : bytes -> bytes -> Prop :=
| lit_nil : literal [] []
| lit_char : forall c t s, c <> cDQ -> c <> cBS -> literal t s -> literal (c :: t) (c :: s)
| lit_newline : forall t s, literal t s -> literal (cBS :: ch 110 :: t) (cNL :: s)
| lit_escape : forall c t s, c <> ch 110 -> literal t s -> literal (cBS :: c :: t) (c :: s).

(** names of symbols as they can be written *)
Definition symbol_name (t : bytes) : Prop :=
  t <> [] /\ (forall c, In c t -> ~ delim c /\ c <> NUL) /\
  (forall c t', t = c :: t' -> ~ digit_char c) /\
  (forall t' z, t = cMI :: t' -> ~ decimal t' z) /\
  t <> s_true /\ t <> s_false.

(** a text that ends in an atom must be followed by a delimiter or the end *)
Definition delimited (rest : bytes) : Prop := match rest with [] => True | c :: _ => delim c end.
Definition starts_with (c : ascii) (t : bytes) : Prop := exists t', t = c :: t'.

(** [reads t d atom]: the text [t] (no layout around it) stands for [d]; [atom]: it ends in
    a number or symbol. The limits are those of the reader's buffers and of [int]. *)
Inductive reads : bytes -> datum -> bool -> Prop :=
| rd_num : forall t z, decimal t z -> (length t <= 29)%nat -> z < 2^31 -> reads t (DNum z) true
| rd_neg : forall t z, decimal t z -> (length t <= 510)%nat -> z <= 2^31 -> reads (cMI :: t) (DNum (- z)) true
| rd_sym : forall t, symbol_name t -> (length t <= 511)%nat -> reads t (DSym t) true
| rd_true : reads s_true DTrue true
| rd_false : reads s_false DFalse true
| rd_str : forall t s, literal t s -> (length s <= 511)%nat -> reads (cDQ :: t ++ [cDQ]) (DStr s) false
| rd_quote : forall c q w t d b, In (c, q) [(cQT, s_quote); (cBQ, s_backquote); (cCM, s_unquote)] ->
    layout w -> reads t d b -> reads (c :: w ++ t) (DCons (DSym q) (DCons d DNil)) b
| rd_nil : reads [cLP; cRP] DNil false
| rd_list : forall w t d, layout w -> reads_items t d -> reads (cLP :: w ++ t) d false
| rd_bracket : forall t l dot, reads_bracket t l dot ->
    reads (cLB :: t) (DCons (DSym (if dot : bool then s_list_rest else s_list)) (dlist l)) false
(** one item or more, and the closing parenthesis *)
with reads_items : bytes -> datum -> Prop :=
| ri_last : forall t d b w, reads t d b -> layout w -> reads_items (t ++ w ++ [cRP]) (DCons d DNil)
| ri_more : forall t d b w r l, reads t d b -> layout w -> reads_items r l ->
    (b = true -> delimited (w ++ r)) -> ~ starts_with cFF r ->
    reads_items (t ++ w ++ r) (DCons d l)
(** items of a bracketed list, possibly with dots between them, and the closing bracket *)
with reads_bracket : bytes -> list datum -> bool -> Prop :=
| rb_end : forall w, layout w -> reads_bracket (w ++ [cRB]) [] false
| rb_dot : forall w r l dot, layout w -> reads_bracket r l dot -> reads_bracket (w ++ cDOT :: r) l true
| rb_item : forall w t d b r l dot, layout w -> reads t d b -> reads_bracket r l dot ->
    (b = true -> delimited r) -> ~ starts_with cFF t -> ~ starts_with cDOT t ->
    reads_bracket (w ++ t ++ r) (d :: l) dot.

Scheme reads_mut := Minimality for reads Sort Prop
  with items_mut := Minimality for reads_items Sort Prop
  with bracket_mut := Minimality for reads_bracket Sort Prop.
Combined Scheme reads_all_ind from reads_mut, items_mut, bracket_mut.

(** ** lexical structure of arbitrary byte sequences *)
Inductive lexmode := LPlain | LStr | LEsc | LCom.
Definition lexnext (m : lexmode) (c : ascii) : lexmode :=
  match m with
  | LPlain => if is c cDQ then LStr else if is c cSC then LCom else LPlain
  | LStr => if is c cDQ then LPlain else if is c cBS then LEsc else LStr
  | LEsc => LStr
  | LCom => if is c cNL then LPlain else LCom
  end.
(** opening minus closing parentheses outside strings and comments *)
Fixpoint nesting (m : lexmode) (s : bytes) : Z :=
  match s with
  | [] => 0
  | c :: r =>
      match m with LPlain => if is c cLP then 1 else if is c cRP then -1 else 0 | _ => 0 end
      + nesting (lexnext m c) r
  end.
(** No token outgrows its limit: words of at most 511 bytes with at most 9 digits in a row,
    strings of at most 511 characters.  [n] and [k] count what has been seen of the current
    token and of the current run of digits. *)
Fixpoint tokens_fit (m : lexmode) (n k : nat) (s : bytes) : bool :=
  match s with
  | [] => true
  | c :: r =>
      match m, lexnext m c with
      | LPlain, LPlain =>
          if negb (isIdentifierChar c) then tokens_fit LPlain 0 0 r
          else if isdigit c then (n <? 511)%nat && (k <? 9)%nat && tokens_fit LPlain (S n) (S k) r
          else (n <? 511)%nat && tokens_fit LPlain (S n) 0 r
      | LStr, LStr => (n <? 511)%nat && tokens_fit LStr (S n) 0 r
      | LStr, LEsc => tokens_fit LEsc n 0 r
      | LEsc, _ => (n <? 511)%nat && tokens_fit LStr (S n) 0 r
      | _, m' => tokens_fit m' 0 0 r
      end
  end.

(** ** data that survive printing *)
Definition plain_string (s : bytes) : Prop :=
  (length s <= 511)%nat /\ forall c, In c s -> c <> NUL /\ c <> cDQ /\ c <> cBS.
Inductive printable : datum -> Prop :=
| pr_num : forall z, - 2^31 <= z < 2^31 -> printable (DNum z)
| pr_sym : forall n, symbol_name n -> (length n <= 254)%nat -> ~ starts_with cFF n -> printable (DSym n)
| pr_str : forall s, plain_string s -> printable (DStr s)
| pr_true : printable DTrue
| pr_false : printable DFalse
| pr_list : forall d, printable_list d -> printable d
with printable_list : datum -> Prop :=
| pl_nil : printable_list DNil
| pl_cons : forall a d, printable a -> printable_list d -> printable_list (DCons a d).
Scheme printable_mut := Minimality for printable Sort Prop
  with printable_list_mut := Minimality for printable_list Sort Prop.
Combined Scheme printable_all_ind from printable_mut, printable_list_mut.
