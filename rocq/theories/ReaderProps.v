(** C18, C19, C20: the reader and the printer. *)
From Coq Require Import ZArith Bool List Ascii Arith Lia String.
From Verif Require Import Base StrModel TrieModel ReaderModel ReaderSpec ReaderProofs ReaderTerm.
Import ListNotations.
Open Scope Z_scope.

Definition str (s : string) : bytes := list_ascii_of_string s.

(** ** C19 *)
(** Every text of the grammar, after any layout and in any context that ends its last atom,
    is read as the datum it stands for, and nothing more is consumed. *)
Theorem reader_follows_grammar : forall w t d b rest, layout w -> reads t d b -> (b = true -> delimited rest) ->
  exists F, forall f, (F <= f)%nat -> sexpRead f (w ++ t ++ rest) = Some (Ok (d, rest, false)).
Proof.
  intros w t d b rest W R H. destruct grammar_read as [G _]. destruct (G t d b R rest H) as [F E].
  exists F. intros f L. rewrite sexp_layout by auto. eapply sexp_le; eauto.
Qed.
Print Assumptions reader_follows_grammar.

(** The text of a non-empty list: items with the layout that follows each of them. *)
Fixpoint list_text (items : list (bytes * bytes)) : bytes :=
  match items with [] => [cRP] | (t, w) :: r => t ++ w ++ list_text r end.
Fixpoint items_ok (items : list (bytes * bytes)) (l : list datum) : Prop :=
  match items, l with
  | [], [] => True
  | (t, w) :: r, d :: l' => exists b, reads t d b /\ layout w /\ (r <> [] -> (b = true -> delimited (w ++ list_text r)) /\ ~ starts_with cFF (list_text r)) /\ items_ok r l'
  | _, _ => False
  end.
Lemma items_reads : forall items l, items <> [] -> items_ok items l -> reads_items (list_text items) (dlist l).
Proof.
  induction items as [|[t w] r IH]; intros l N H; [congruence|].
  destruct l as [|d l]; [contradiction|]. destruct H as (b & R & W & K & Ho). cbn [list_text dlist].
  destruct r as [|x r].
  - destruct l; [|contradiction]. cbn [list_text dlist]. now apply (ri_last t d b w).
  - destruct (K ltac:(discriminate)) as [K1 K2]. apply (ri_more t d b w); auto. apply IH; auto. discriminate.
Qed.

(** Layout before a datum never changes what is read, whatever the input; and layout before
    and after every item of a list does not change the list that is read. *)
Theorem layout_irrelevant :
  (forall f w s, layout w -> sexpRead f (w ++ s) = sexpRead f s) /\
  (forall w items items' w' l rest, layout w -> layout w' -> items <> [] -> items' <> [] ->
     items_ok items l -> items_ok items' l ->
     exists F, forall f, (F <= f)%nat ->
       sexpRead f (cLP :: w ++ list_text items ++ rest) = Some (Ok (dlist l, rest, false)) /\
       sexpRead f (cLP :: w' ++ list_text items' ++ rest) = Some (Ok (dlist l, rest, false))).
Proof.
  split; [intros; now apply sexp_layout|].
  intros w items items' w' l rest W W' N N' H H'.
  assert (A : forall w items, layout w -> items <> [] -> items_ok items l ->
    exists F, forall f, (F <= f)%nat -> sexpRead f (cLP :: w ++ list_text items ++ rest) = Some (Ok (dlist l, rest, false))).
  { intros v it V Ni Hi.
    destruct (reader_follows_grammar [] (cLP :: v ++ list_text it) (dlist l) false rest) as [F E];
      [constructor|apply rd_list; auto; now apply items_reads|discriminate|].
    exists F. intros f L. specialize (E f L). cbn [app] in E. rewrite <- app_assoc in E. exact E. }
  destruct (A w items) as [F1 E1]; auto. destruct (A w' items') as [F2 E2]; auto.
  exists (F1 + F2)%nat. intros f L. split; [apply E1|apply E2]; lia.
Qed.
Print Assumptions layout_irrelevant.

(** How the words and signs of the grammar are spelled. *)
Theorem reader_spelling :
  (forall w d rest, In (w, d) [("true"%string, DTrue); ("false"%string, DFalse)] -> delimited rest ->
     exists F, forall f, (F <= f)%nat -> sexpRead f (str w ++ rest) = Some (Ok (d, rest, false))) /\
  (forall c q t d b rest, In (c, q) [("'", "quote"); ("`", "backquote"); (",", "unquote")]%string ->
     reads t d b -> (b = true -> delimited rest) ->
     exists F, forall f, (F <= f)%nat -> sexpRead f (str c ++ t ++ rest) = Some (Ok (dlist [DSym (str q); d], rest, false))) /\
  (forall t l dot rest, reads_bracket t l dot ->
     exists F, forall f, (F <= f)%nat -> sexpRead f (str "[" ++ t ++ rest) =
       Some (Ok (DCons (DSym (str (if dot then "list-rest" else "list"))) (dlist l), rest, false))) /\
  (forall w t d rest, layout w -> reads_items t d ->
     exists F, forall f, (F <= f)%nat -> sexpRead f (str "(" ++ w ++ t ++ rest) = Some (Ok (d, rest, false))) /\
  (forall rest, exists F, forall f, (F <= f)%nat -> sexpRead f (str "()" ++ rest) = Some (Ok (DNil, rest, false))) /\
  (forall f t s, ~ In (ascii_of_nat 10) t -> sexpRead f (str ";" ++ t ++ [ascii_of_nat 10] ++ s) = sexpRead f s) /\
  (forall f c s, In c (map ascii_of_nat [9; 10; 11; 12; 13; 32]%nat) -> sexpRead f (c :: s) = sexpRead f s).
Proof.
  split; [|split; [|split; [|split; [|split; [|split]]]]].
  - intros w d rest [E|[E|[]]] D; injection E as <- <-.
    + exact (reader_follows_grammar [] (str "true") DTrue true rest lay_nil rd_true (fun _ => D)).
    + exact (reader_follows_grammar [] (str "false") DFalse true rest lay_nil rd_false (fun _ => D)).
  - intros c q t d b rest [E|[E|[E|[]]]] R D; injection E as <- <-.
    + refine (reader_follows_grammar [] (str "'" ++ t) _ b rest lay_nil (rd_quote cQT (str "quote") [] t d b _ lay_nil R) D). now left.
    + refine (reader_follows_grammar [] (str "`" ++ t) _ b rest lay_nil (rd_quote cBQ (str "backquote") [] t d b _ lay_nil R) D). right. now left.
    + refine (reader_follows_grammar [] (str "," ++ t) _ b rest lay_nil (rd_quote cCM (str "unquote") [] t d b _ lay_nil R) D). right. right. now left.
  - intros t l dot rest R. pose proof (rd_bracket t l dot R) as Q.
    destruct (reader_follows_grammar [] _ _ false rest lay_nil Q ltac:(discriminate)) as (F & H).
    exists F. intros f L. specialize (H f L). destruct dot; exact H.
  - intros w t d rest W R. pose proof (rd_list w t d W R) as Q.
    destruct (reader_follows_grammar [] _ _ false rest lay_nil Q ltac:(discriminate)) as (F & H).
    exists F. intros f L. specialize (H f L). cbn [app] in H. rewrite <- app_assoc in H. exact H.
  - intros rest. exact (reader_follows_grammar [] _ _ false rest lay_nil rd_nil ltac:(discriminate)).
  - intros f t s N. pose proof (proj1 layout_irrelevant f _ s (lay_comment t [] N lay_nil)) as H.
    rewrite <- H. f_equal. cbn [app str list_ascii_of_string]. f_equal. now rewrite <- app_assoc.
  - intros f c s N. exact (proj1 layout_irrelevant f [c] s (lay_blank c [] N lay_nil)).
Qed.
Print Assumptions reader_spelling.

(** ... except in the empty list: a blank between its parentheses stops the program. *)
Theorem layout_in_empty_list_refuted : exists w, layout w /\
  sexpRead 3 (cLP :: cRP :: []) = Some (Ok (DNil, [], false)) /\ sexpRead 3 (cLP :: w ++ [cRP]) = Some Trap.
Proof.
  exists [cSP]. split; [|vm_compute; auto]. apply lay_blank; [apply isspace_blank; reflexivity|constructor].
Qed.
Print Assumptions layout_in_empty_list_refuted.

Example grammar_example : exists t,
  sexpRead 40 (str "; hello
   ('a  (b -12)""x\""y"" [c . d] ,e)) rest") = Some (Ok (t, str ") rest", false)) /\
  t = dlist [dlist [DSym (str "quote"); DSym (str "a")]; dlist [DSym (str "b"); DNum (-12)]; DStr (str "x""y");
             dlist [DSym (str "list-rest"); DSym (str "c"); DSym (str "d")]; dlist [DSym (str "unquote"); DSym (str "e")]].
Proof. eexists. split; [vm_compute; reflexivity|reflexivity]. Qed.

Lemma sym_ok : forall t, t <> [] -> forallb (fun c => isIdentifierChar c && negb (Ascii.eqb c NUL)) t = true ->
  (forall c t', t = c :: t' -> isdigit c = false) -> (forall t', t = cMI :: t' -> forallb isdigit t' = false) ->
  bytes_eqb t s_true = false -> bytes_eqb t s_false = false -> symbol_name t.
Proof.
  intros t N F D M T1 T2. rewrite forallb_forall in F. repeat split; auto.
  - apply F in H. apply andb_true_iff in H as [H _]. now apply ident_delim.
  - intros ->. apply F in H. cbn in H. discriminate.
  - intros c t' E Dg. apply isdigit_char in Dg. erewrite D in Dg by eauto. discriminate.
  - intros t' z E Dc. apply decimal_spec in Dc as (_ & Dc & _). rewrite (M _ E) in Dc. discriminate.
  - intros ->. discriminate.
  - intros ->. discriminate.
Qed.
Ltac sym_tac := apply sym_ok; [discriminate|reflexivity|intros ? ? E; injection E as <- _; reflexivity|intros ? E; first [discriminate|injection E as <-; reflexivity]|reflexivity|reflexivity].

(** the hypotheses of [layout_irrelevant] are met by "(f x)" and "( f<newline>;c<newline>x )" *)
Example layout_example : items_ok [(str "f", str " "); (str "x", [])] [DSym (str "f"); DSym (str "x")] /\
  items_ok [(str "f", cNL :: str ";c" ++ [cNL]); (str "x", str " ")] [DSym (str "f"); DSym (str "x")].
Proof.
  assert (S1 : reads (str "f") (DSym (str "f")) true) by (apply rd_sym; [sym_tac|cbn; lia]).
  assert (S2 : reads (str "x") (DSym (str "x")) true) by (apply rd_sym; [sym_tac|cbn; lia]).
  assert (Sp : forall c, isspace c = true -> layout [c]) by (intros c H; apply lay_blank; [now apply isspace_blank|constructor]).
  split; cbn [items_ok].
  - exists true. split; auto. split; [apply Sp; reflexivity|]. split.
    + intros _. split; [intros _; left; apply isspace_blank; reflexivity|]. intros [t E]. discriminate.
    + exists true. split; auto. split; [constructor|]. split; [congruence|exact I].
  - exists true. split; auto. split.
    + apply lay_blank; [apply isspace_blank; reflexivity|]. apply (lay_comment (str "c") []); [|constructor].
      intros [E|[]]. discriminate.
    + split.
      * intros _. split; [intros _; left; apply isspace_blank; reflexivity|]. intros [t E]. discriminate.
      * exists true. split; auto. split; [apply Sp; reflexivity|]. split; [congruence|exact I].
Qed.

(** ** C18 *)
(** Full statement: for every datum built from numbers, symbols, strings, booleans and (),
    [printObj d = Ok t] and reading [t] gives [d] back.  Proved for [printable] data: numbers
    that fit an int, symbols that can be written, strings without quotes, backslashes and NUL
    of at most 511 bytes, proper lists.  The refutations below show what fails otherwise. *)
Theorem print_read_roundtrip_partial : forall d rest, printable d -> delimited rest ->
  exists t, printObj d = Ok t /\
    exists F, forall f, (F <= f)%nat -> sexpRead f (t ++ rest) = Some (Ok (d, rest, false)).
Proof.
  intros d rest P D. destruct print_reads as [H _]. destruct (H d P) as (t & b & E & R & _).
  exists t. split; auto. apply (reader_follows_grammar [] t d b rest); auto. constructor.
Qed.
Print Assumptions print_read_roundtrip_partial.

Example printable_example :
  printable (dlist [DSym (str "define"); DNil; DNum (-2147483648); DStr (str "a;b"); dlist [DTrue; DFalse]]).
Proof.
  apply pr_list. cbn [dlist].
  repeat first [apply pl_cons | apply pl_nil | apply pr_true | apply pr_false].
  - apply pr_sym; [sym_tac|cbn; lia|intros [t E]; discriminate].
  - apply pr_list, pl_nil.
  - apply pr_num; lia.
  - apply pr_str. split; [cbn; lia|]. intros c [<- | [<- | [<- | []]]]; repeat split; discriminate.
  - apply pr_list. repeat first [apply pl_cons | apply pl_nil | apply pr_true | apply pr_false].
Qed.

(** [prints_as d r]: [r] is what printing [d] and reading the text back leads to *)
Definition print_read (f : nat) (d : datum) : rres :=
  match printObj d with Ok t => sexpRead f t | Trap => Some Trap | UB => Some UB end.

(** pairs whose tail is not a list come back as a three-element list *)
Theorem dotted_pair_refuted : exists d d', d <> d' /\ forall f, (6 <= f)%nat -> print_read f d = Some (Ok (d', [], false)).
Proof.
  exists (DCons (DNum 1) (DNum 2)), (dlist [DNum 1; DSym [cDOT]; DNum 2]). split; [discriminate|].
  intros f L. unfold print_read. eapply (sexp_le 6); [exact L|]. vm_compute. reflexivity.
Qed.
Print Assumptions dotted_pair_refuted.

(** a string with a double quote in it *)
Theorem quoted_string_refuted : exists s d' r, DStr s <> d' /\ forall f, (1 <= f)%nat -> print_read f (DStr s) = Some (Ok (d', r, false)).
Proof.
  exists (str "a""b"), (DStr (str "a")), (str "b"""). split; [discriminate|].
  intros f L. unfold print_read. eapply (sexp_le 1); [exact L|]. vm_compute. reflexivity.
Qed.
Print Assumptions quoted_string_refuted.

(** a number one larger than the largest int: atoi is undefined on its text *)
Theorem large_number_refuted : exists z, - 2^53 <= z <= 2^53 /\ forall f, (1 <= f)%nat -> print_read f (DNum z) = Some UB.
Proof.
  exists (2^31). split; [lia|]. intros f L. unfold print_read. eapply (sexp_le 1); [exact L|]. vm_compute. reflexivity.
Qed.
Print Assumptions large_number_refuted.

(** a symbol whose name starts with byte 255 loses that byte when it is not the first item *)
Theorem byte_255_refuted : exists n n', symbol_name n /\ n <> n' /\
  forall f, (6 <= f)%nat -> print_read f (dlist [DNil; DSym n]) = Some (Ok (dlist [DNil; DSym n'], [], false)).
Proof.
  exists (cFF :: str "a"), (str "a"). split; [sym_tac|]. split; [discriminate|].
  intros f L. unfold print_read. eapply (sexp_le 6); [exact L|]. vm_compute. reflexivity.
Qed.
Print Assumptions byte_255_refuted.

(** a string of 512 bytes overflows the reader's buffer *)
Theorem long_string_refuted : exists s, Forall (fun c => c = ch 97) s /\ forall f, (1 <= f)%nat -> print_read f (DStr s) = Some UB.
Proof.
  exists (repeat (ch 97) 512). split; [apply Forall_forall; intros x Hx; now apply repeat_spec in Hx|].
  intros f L. unfold print_read. eapply (sexp_le 1); [exact L|]. vm_compute. reflexivity.
Qed.
Print Assumptions long_string_refuted.

(** A symbol whose name has 255 bytes or more cannot be printed: wherever it occurs in a
    value, printing the value aborts, and no shorter symbol makes it abort. *)
Fixpoint symbols (d : datum) : list bytes :=
  match d with DSym n => [n] | DCons a t => symbols a ++ symbols t | _ => [] end.
Theorem long_symbol_aborts : forall d,
  (exists n, In n (symbols d) /\ (255 <= List.length n)%nat) <-> printObj d = Trap.
Proof.
  assert (B : forall d,
    (((exists n, In n (symbols d) /\ (255 <= List.length n)%nat) /\ printObj d = Trap) \/
     ((forall n, In n (symbols d) -> (List.length n < 255)%nat) /\ exists x, printObj d = Ok x)) /\
    (((exists n, In n (symbols d) /\ (255 <= List.length n)%nat) /\ printTail d = Trap) \/
     ((forall n, In n (symbols d) -> (List.length n < 255)%nat) /\ exists x, printTail d = Ok x))).
  { induction d as [z|n|s| | | |d1 IH1 d2 IH2]; cbn [symbols printObj printTail printAtom obind];
      try (split; right; (split; [intros ? []|eexists; reflexivity])).
    - unfold assertT. destruct (Nat.ltb_spec (List.length n + 1) 256) as [H|H]; cbn [obind].
      + split; right; (split; [intros m [<-|[]]; lia|eexists; reflexivity]).
      + split; left; (split; [exists n; split; [now left|lia]|reflexivity]).
    - destruct IH1 as [A1 _]. destruct IH2 as [_ A2].
      destruct A1 as [[(n & I & L) E1]|[H1 [x E1]]]; rewrite E1; cbn [obind].
      + split; left; (split; [exists n; rewrite in_app_iff; auto|reflexivity]).
      + destruct A2 as [[(n & I & L) E2]|[H2 [y E2]]]; rewrite E2; cbn [obind].
        * split; left; (split; [exists n; rewrite in_app_iff; auto|reflexivity]).
        * split; right; (split; [intros n I; apply in_app_iff in I; destruct I; auto|eexists; reflexivity]). }
  intros d. destruct (B d) as [[[H E]|[H [x E]]] _].
  - tauto.
  - rewrite E. split; [|discriminate]. intros (n & I & L). specialize (H n I). lia.
Qed.
Print Assumptions long_symbol_aborts.
Example long_symbol_ex :
  printObj (DCons (DNum 1) (DCons (DSym (repeat (ch 97) 255)) DNil)) = Trap /\
  exists x, printObj (DSym (repeat (ch 97) 254)) = Ok x.
Proof. split; [vm_compute; reflexivity|]. exists (repeat (ch 97) 254). vm_compute. reflexivity. Qed.

(** ** C20 *)
(** Full statement: for every byte sequence the reader terminates, and without undefined
    behaviour.  Proved: no undefined behaviour on every byte sequence whose tokens fit their
    limits, and termination, within twice as many calls as there are bytes, on every byte
    sequence without unclosed parentheses.  The refutations show that both provisos are needed. *)
Theorem reader_memory_safe_partial : forall s f, tokens_fit LPlain 0 0 s = true -> sexpRead f s <> Some UB.
Proof.
  intros s f H. destruct (fit_good f) as [G _]. specialize (G s H). intros E. rewrite E in G. exact G.
Qed.
Print Assumptions reader_memory_safe_partial.

Theorem reader_terminates_partial : forall s, nesting LPlain s <= 0 ->
  exists r, forall f, (2 * List.length s + 1 <= f)%nat -> sexpRead f s = Some r.
Proof.
  intros s H. destruct (reader_term (2 * List.length s + 1)) as [T _]. specialize (T s ltac:(lia)).
  destruct (sexpRead (2 * List.length s + 1) s) as [r|] eqn:E.
  - exists r. intros f L. eapply sexp_le; eauto.
  - cbn [term] in T. unfold nest in T. lia.
Qed.
Print Assumptions reader_terminates_partial.

Example fits_example : tokens_fit LPlain 0 0 (str "(define x ""a long string"") ; 1234567890123
  (foo -123456789 ) )))") = true /\ nesting LPlain (str "(define x ""(("") ; ((
  (foo -123456789 ) )))") = -3.
Proof. vm_compute. auto. Qed.

(** an unclosed list is read forever (in C: until the stack is exhausted) *)
Theorem reader_terminates_refuted : exists s, forall f, sexpRead f s = None.
Proof.
  exists [cLP]. intros [|f]; [reflexivity|]. rewrite sexp_eq. cbn [eatWhitespace eatWs].
  change (isspace cLP) with false. change (is cLP cSC) with false. cbv iota.
  change (isdigit cLP) with false. change (is cLP cQT) with false. change (is cLP cLP) with true. cbv iota.
  apply cons_eof.
Qed.
Print Assumptions reader_terminates_refuted.

(** Each limit is needed: 30 digits overflow the 30-byte buffer of readNumber, 10 digits can
    overflow an int, a 512-byte word and a 512-byte string overflow the 512-byte buffer. *)
Theorem reader_memory_safe_refuted :
  (exists n, sexpRead 1 (repeat (ch 48) n) = Some UB) /\
  (exists s, (List.length s <= 10)%nat /\ sexpRead 1 s = Some UB) /\
  (exists n, sexpRead 1 (repeat (ch 97) n) = Some UB) /\
  (exists n, sexpRead 1 (cDQ :: repeat (ch 97) n ++ [cDQ]) = Some UB).
Proof.
  repeat split.
  - exists 30%nat. vm_compute. reflexivity.
  - exists (str "2147483648"). vm_compute. auto.
  - exists 512%nat. vm_compute. reflexivity.
  - exists 512%nat. vm_compute. reflexivity.
Qed.
Print Assumptions reader_memory_safe_refuted.
