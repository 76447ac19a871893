(** Lemmas about the reader and the printer. *)
From Coq Require Import ZArith Bool List Ascii Arith Lia.
From Verif Require Import Base StrModel TrieModel ReaderModel ReaderSpec.
Import ListNotations.
Open Scope Z_scope.

(** ** character classes *)
Lemma forall_ascii : forall P : ascii -> bool,
  forallb P (map ascii_of_nat (seq 0 256)) = true -> forall c, P c = true.
Proof.
  intros P H c. rewrite forallb_forall in H. apply H.
  rewrite <- (ascii_nat_embedding c). apply in_map. apply in_seq.
  pose proof (nat_ascii_bounded c). lia.
Qed.

Definition memb (c : ascii) (l : list ascii) : bool := existsb (Ascii.eqb c) l.
Lemma memb_In : forall c l, memb c l = true <-> In c l.
Proof.
  intros. unfold memb. rewrite existsb_exists. split.
  - intros (x & Hx & E). apply Ascii.eqb_eq in E. now subst.
  - intros H. exists c. split; auto. apply Ascii.eqb_refl.
Qed.

Lemma class_tac : forall (f : ascii -> bool) l,
  forallb (fun c => Bool.eqb (f c) (memb c l)) (map ascii_of_nat (seq 0 256)) = true ->
  forall c, f c = true <-> In c l.
Proof.
  intros f l H c. pose proof (forall_ascii _ H c) as E. cbn beta in E. apply Bool.eqb_prop in E.
  rewrite E. apply memb_In.
Qed.

Lemma isspace_blank : forall c, isspace c = true <-> blank c.
Proof. apply class_tac. vm_compute. reflexivity. Qed.
Lemma isdigit_char : forall c, isdigit c = true <-> digit_char c.
Proof. apply class_tac. vm_compute. reflexivity. Qed.
Lemma ident_delim : forall c, isIdentifierChar c = true <-> ~ delim c.
Proof.
  intros c. assert (negb (isIdentifierChar c) = true <-> In c (map ch [9; 10; 11; 12; 13; 32]%nat ++ [cLP; cRP; cDQ; cQT; cBQ; cCM; cSC; cLB; cRB])).
  { apply (class_tac (fun c => negb (isIdentifierChar c))). vm_compute. reflexivity. }
  rewrite in_app_iff in H. unfold delim, blank, punct.
  destruct (isIdentifierChar c); cbn in H; split; intros; try tauto; try discriminate.
  - intros K. apply H in K. discriminate.
  - exfalso. apply H0. now apply H.
Qed.
Lemma ident_false : forall c, isIdentifierChar c = false <-> delim c.
Proof.
  intros c. destruct (isIdentifierChar c) eqn:E.
  - apply ident_delim in E. split; intros; [discriminate | tauto].
  - split; auto. intros _.
    assert (H : negb (isIdentifierChar c) = true <-> In c (map ch [9; 10; 11; 12; 13; 32]%nat ++ [cLP; cRP; cDQ; cQT; cBQ; cCM; cSC; cLB; cRB])).
    { apply (class_tac (fun c => negb (isIdentifierChar c))). vm_compute. reflexivity. }
    rewrite E in H. cbn [negb] in H. rewrite in_app_iff in H. unfold delim, blank, punct. tauto.
Qed.

Lemma is_true : forall a b, is a b = true <-> a = b.
Proof. intros. unfold is. apply Ascii.eqb_eq. Qed.
Lemma is_refl : forall a, is a a = true.
Proof. intros. now apply is_true. Qed.
Lemma is_false : forall a b, is a b = false <-> a <> b.
Proof. intros. unfold is. apply Ascii.eqb_neq. Qed.

(** facts about one character, by exhaustion *)
Lemma digit_ident : forall c, isdigit c = true -> isIdentifierChar c = true.
Proof.
  intros c H. pose proof (forall_ascii (fun c => implb (isdigit c) (isIdentifierChar c))) as F.
  specialize (F eq_refl c). cbn beta in F. rewrite H in F. exact F.
Qed.
Lemma digit_range : forall c, isdigit c = true -> 0 <= digit c <= 9.
Proof.
  intros c H. pose proof (forall_ascii (fun c => implb (isdigit c) ((0 <=? digit c) && (digit c <=? 9)))) as F.
  specialize (F eq_refl c). cbn beta in F. rewrite H in F. cbn [implb] in F.
  apply andb_true_iff in F. rewrite !Z.leb_le in F. exact F.
Qed.
Lemma ident_nospace : forall c, isIdentifierChar c = true -> isspace c = false /\ c <> cSC.
Proof.
  intros c H. pose proof (forall_ascii (fun c => implb (isIdentifierChar c) (negb (isspace c) && negb (is c cSC)))) as F.
  specialize (F eq_refl c). cbn beta in F. rewrite H in F. cbn [implb] in F.
  apply andb_true_iff in F. rewrite !negb_true_iff in F. rewrite is_false in F. exact F.
Qed.

(** ** layout *)
Lemma eat_com : forall t s, ~ In cNL t -> eatWs true (t ++ cNL :: s) = eatWs false s.
Proof.
  induction t as [|c t IH]; intros s H; cbn [app eatWs].
  - now rewrite is_refl.
  - replace (is c cNL) with false. { apply IH. intros K. apply H. now right. }
    symmetry. apply is_false. intros E. apply H. now left.
Qed.
Lemma eat_layout : forall w s, layout w -> eatWhitespace (w ++ s) = eatWhitespace s.
Proof.
  unfold eatWhitespace. intros w s H. induction H; cbn [app]; auto.
  - cbn [eatWs]. apply isspace_blank in H. now rewrite H.
  - cbn [eatWs]. replace (isspace cSC) with false by reflexivity. rewrite is_refl.
    rewrite <- app_assoc. cbn [app]. now rewrite eat_com.
Qed.
(** a byte the layout skipper stops at *)
Definition solid (c : ascii) : Prop := isspace c = false /\ c <> cSC.
Lemma eat_solid : forall c s, solid c -> eatWhitespace (c :: s) = c :: s.
Proof.
  intros c s [H1 H2]. unfold eatWhitespace. cbn [eatWs]. rewrite H1. apply is_false in H2. now rewrite H2.
Qed.
Lemma eat_shape : forall com s c r, eatWs com s = c :: r -> solid c.
Proof.
  intros com s. revert com. induction s as [|x s IH]; intros com c r; cbn [eatWs]; [discriminate|].
  destruct com.
  - destruct (is x cNL); apply IH.
  - destruct (isspace x) eqn:E; [apply IH|]. destruct (is x cSC) eqn:E2; [apply IH|].
    intros H. injection H as -> ->. split; auto. now apply is_false.
Qed.
Lemma eat_len : forall com s, (length (eatWs com s) <= length s)%nat.
Proof.
  intros com s. revert com. induction s as [|x s IH]; intros com; cbn [eatWs]; auto.
  pose proof (IH true). pose proof (IH false). cbn [length].
  destruct com; [destruct (is x cNL)|destruct (isspace x); [|destruct (is x cSC)]]; cbn [length]; lia.
Qed.

(** ** span *)
Lemma span_app : forall p t s, forallb p t = true -> match s with [] => True | c :: _ => p c = false end ->
  span p (t ++ s) = (t, s).
Proof.
  induction t as [|c t IH]; intros s H Hs; cbn [app span].
  - destruct s as [|c s]; cbn [span]; auto. now rewrite Hs.
  - cbn [forallb] in H. apply andb_true_iff in H as [H1 H2]. rewrite H1, IH; auto.
Qed.
Lemma span_spec : forall p s t r, span p s = (t, r) ->
  s = t ++ r /\ forallb p t = true /\ match r with [] => True | c :: _ => p c = false end.
Proof.
  induction s as [|c s IH]; intros t r; cbn [span].
  - intros H. injection H as <- <-. auto.
  - destruct (p c) eqn:E.
    + destruct (span p s) as [a b]. intros H. injection H as <- <-.
      destruct (IH _ _ eq_refl) as (-> & H2 & H3). cbn [app forallb]. rewrite E. auto.
    + intros H. injection H as <- <-. cbn. auto.
Qed.

(** ** numbers *)
Lemma decval_app : forall t c, decval (t ++ [c]) = 10 * decval t + digit c.
Proof. intros. unfold decval. now rewrite fold_left_app. Qed.
Lemma decimal_spec : forall t z, decimal t z -> t <> [] /\ forallb isdigit t = true /\ decval t = z /\ 0 <= z.
Proof.
  intros t z H. induction H.
  - apply isdigit_char in H. pose proof (digit_range _ H). split; [discriminate|]. cbn [forallb]. rewrite H.
    split; [reflexivity|]. split; [|lia]. unfold decval. cbn [fold_left]. lia.
  - destruct IHdecimal as (N & F & V & P). apply isdigit_char in H0. pose proof (digit_range _ H0).
    split; [destruct t; discriminate|]. split; [|split].
    + rewrite forallb_app, F. cbn [forallb]. now rewrite H0.
    + now rewrite decval_app, V.
    + lia.
Qed.
Lemma digits_decimal : forall t, t <> [] -> forallb isdigit t = true -> decimal t (decval t).
Proof.
  induction t as [|c t IH] using rev_ind; intros N F; [congruence|].
  rewrite forallb_app in F. apply andb_true_iff in F as [F1 F2]. cbn [forallb] in F2.
  rewrite andb_true_r in F2. apply isdigit_char in F2. destruct t as [|x t].
  - cbn [app]. unfold decval. cbn [fold_left]. replace (10 * 0 + digit c) with (digit c) by lia. now constructor.
  - rewrite decval_app. constructor; auto. apply IH; auto. discriminate.
Qed.

(** ** strings *)
Lemma readString_literal : forall t s, literal t s -> forall n rest, (n + length s <= 511)%nat ->
  readString n (t ++ cDQ :: rest) = Ok (s, rest).
Proof.
  intros t s H. induction H; intros n rest L; cbn [app readString length] in *.
  - rewrite is_refl. replace (n <? 512)%nat with true by (symmetry; apply Nat.ltb_lt; lia). reflexivity.
  - apply is_false in H, H0. rewrite H, H0.
    replace (n <? 999)%nat with true by (symmetry; apply Nat.ltb_lt; lia).
    replace (n <? 512)%nat with true by (symmetry; apply Nat.ltb_lt; lia).
    rewrite IHliteral by lia. reflexivity.
  - replace (is cBS cDQ) with false by reflexivity. rewrite is_refl.
    replace (n <? 999)%nat with true by (symmetry; apply Nat.ltb_lt; lia).
    replace (n <? 512)%nat with true by (symmetry; apply Nat.ltb_lt; lia).
    rewrite IHliteral by lia. rewrite is_refl. reflexivity.
  - replace (is cBS cDQ) with false by reflexivity. rewrite is_refl.
    replace (n <? 999)%nat with true by (symmetry; apply Nat.ltb_lt; lia).
    replace (n <? 512)%nat with true by (symmetry; apply Nat.ltb_lt; lia).
    rewrite IHliteral by lia. apply is_false in H. rewrite H. reflexivity.
Qed.

(** ** symbols *)
Lemma cstr_id : forall t, (forall c, In c t -> c <> NUL) -> cstr t = t.
Proof.
  induction t as [|c t IH]; intros H; cbn [cstr]; auto.
  destruct (Ascii.eqb_spec c NUL) as [E|E].
  - exfalso. apply (H c); auto. now left.
  - f_equal. apply IH. intros x Hx. apply H. now right.
Qed.
Lemma bytes_eqb_true : forall a b, bytes_eqb a b = true <-> a = b.
Proof. intros. unfold bytes_eqb. destruct (list_eq_dec ascii_dec a b); split; auto; discriminate. Qed.
Lemma bytes_eqb_false : forall a b, a <> b -> bytes_eqb a b = false.
Proof. intros. unfold bytes_eqb. destruct (list_eq_dec ascii_dec a b); auto. congruence. Qed.
Lemma digits_noNUL : forall t, forallb isdigit t = true -> forall c, In c t -> c <> NUL.
Proof.
  intros t F c Hc E. rewrite forallb_forall in F. apply F in Hc. subst c. vm_compute in Hc. discriminate.
Qed.
Lemma symbolOf_neg : forall t z, decimal t z -> (length t <= 510)%nat -> z <= 2^31 ->
  symbolOf (cMI :: t) = Ok (DNum (- z)).
Proof.
  intros t z H L B. destruct (decimal_spec _ _ H) as (N & F & V & P). unfold symbolOf.
  replace (length (cMI :: t) <? 512)%nat with true by (symmetry; apply Nat.ltb_lt; cbn [length]; lia).
  assert (C : cstr (cMI :: t) = cMI :: t).
  { apply cstr_id. intros c [<- | Hc]; [discriminate | now apply (digits_noNUL t)]. }
  rewrite C. rewrite bytes_eqb_false by discriminate. rewrite bytes_eqb_false by discriminate.
  destruct t as [|x t]; [congruence|]. cbn [tl]. rewrite is_refl, F. cbn [andb].
  unfold atoi_neg. rewrite V. replace (z <=? 2 ^ 31) with true by (symmetry; now apply Z.leb_le). reflexivity.
Qed.
Lemma symbolOf_sym : forall t, symbol_name t -> (length t <= 511)%nat -> symbolOf t = Ok (DSym t).
Proof.
  intros t (N & C & D & M & T1 & T2) L. unfold symbolOf.
  replace (length t <? 512)%nat with true by (symmetry; apply Nat.ltb_lt; lia).
  rewrite cstr_id by (intros c Hc; now apply C).
  rewrite !bytes_eqb_false by auto.
  destruct t as [|c [|x t]]; auto.
  cbn [tl]. destruct (is c cMI) eqn:E; cbn [andb]; auto. apply is_true in E. subst c.
  destruct (forallb isdigit (x :: t)) eqn:F; auto.
  exfalso. apply (M (x :: t) (decval (x :: t))); auto. apply digits_decimal; auto. discriminate.
Qed.

(** ** one step of each function *)
Lemma sexp_eq : forall f s, sexpRead (S f) s =
  match eatWhitespace s with
  | [] => rret DNil [] true
  | c :: s1 =>
      if isdigit c then Some (omap (fun p => (fst p, snd p, false)) (readNumber (c :: s1)))
      else if is c cQT then rbind (sexpRead f s1) (fun d r e => rret (list2 s_quote d) r e)
      else if is c cLP then readCons f s1
      else if is c cLB then readListMacro f s_list [] false s1
      else if is c cBQ then rbind (sexpRead f s1) (fun d r e => rret (list2 s_backquote d) r e)
      else if is c cCM then rbind (sexpRead f s1) (fun d r e => rret (list2 s_unquote d) r e)
      else if is c cDQ then Some (omap (fun p => (DStr (fst p), snd p, false)) (readString 0 s1))
      else if isIdentifierChar c then
        let (t, r) := span isIdentifierChar (c :: s1) in
        Some (omap (fun d => (d, r, false)) (symbolOf t))
      else Some Trap
  end.
Proof. reflexivity. Qed.
Definition cons_body (f : nat) (s : bytes) : rres :=
  rbind (sexpRead f s) (fun hd r e1 =>
    let (c, r1) := peekFirstChar r in
    rbind (readCons f (ungetc c r1)) (fun tl r2 e2 => rret (DCons hd tl) r2 (e1 || e2))).
Lemma cons_eq : forall f s, readCons (S f) s =
  match s with
  | c :: s1 => if is c cRP then rret DNil s1 false else cons_body f s
  | [] => cons_body f s
  end.
Proof. reflexivity. Qed.
Lemma macro_eq : forall f hd ret e s, readListMacro (S f) hd ret e s =
  match peekFirstChar s with
  | (None, r) => rret (DCons (DSym hd) (dlist (reverse ret []))) r e
  | (Some b, r) =>
      if is b cRB then rret (DCons (DSym hd) (dlist (reverse ret []))) r e
      else if is b cDOT then readListMacro f s_list_rest ret e r
      else rbind (sexpRead f (ungetc (Some b) r)) (fun o r2 e2 => readListMacro f hd (o :: ret) (e || e2) r2)
  end.
Proof. reflexivity. Qed.

(** ** fuel *)
Lemma rbind_mono : forall x x' f f' r,
  (forall r, x = Some r -> x' = Some r) -> (forall d b e r, f d b e = Some r -> f' d b e = Some r) ->
  rbind x f = Some r -> rbind x' f' = Some r.
Proof.
  intros x x' f f' r H1 H2 H. unfold rbind in *.
  destruct x as [[[[d b] e]| |]|]; try discriminate;
    rewrite (H1 _ eq_refl); auto.
Qed.
Lemma fuel_mono : forall f,
  (forall s r, sexpRead f s = Some r -> sexpRead (S f) s = Some r) /\
  (forall s r, readCons f s = Some r -> readCons (S f) s = Some r) /\
  (forall hd ret e s r, readListMacro f hd ret e s = Some r -> readListMacro (S f) hd ret e s = Some r).
Proof.
  induction f as [|f (I1 & I2 & I3)]; [repeat split; intros; discriminate|].
  split; [|split].
  - intros s r. rewrite (sexp_eq (S f)), (sexp_eq f).
    destruct (eatWhitespace s) as [|c s1]; auto.
    destruct (isdigit c); auto. destruct (is c cQT); [apply rbind_mono; auto|].
    destruct (is c cLP); [apply I2|]. destruct (is c cLB); [apply I3|].
    destruct (is c cBQ); [apply rbind_mono; auto|]. destruct (is c cCM); [apply rbind_mono; auto|]. auto.
  - intros s r. rewrite (cons_eq (S f)), (cons_eq f). unfold cons_body.
    assert (H : rbind (sexpRead f s) (fun hd r e1 => let (c, r1) := peekFirstChar r in
        rbind (readCons f (ungetc c r1)) (fun tl r2 e2 => rret (DCons hd tl) r2 (e1 || e2))) = Some r ->
      rbind (sexpRead (S f) s) (fun hd r e1 => let (c, r1) := peekFirstChar r in
        rbind (readCons (S f) (ungetc c r1)) (fun tl r2 e2 => rret (DCons hd tl) r2 (e1 || e2))) = Some r).
    { apply rbind_mono; auto. intros d b e r'. destruct (peekFirstChar b) as [c' r1]. apply rbind_mono; auto. }
    destruct s as [|c s1]; auto. destruct (is c cRP); auto.
  - intros hd ret e s r. rewrite (macro_eq (S f)), (macro_eq f).
    destruct (peekFirstChar s) as [[b|] r0]; auto. destruct (is b cRB); auto. destruct (is b cDOT); auto.
    apply rbind_mono; auto.
Qed.
Lemma sexp_le : forall f f' s r, (f <= f')%nat -> sexpRead f s = Some r -> sexpRead f' s = Some r.
Proof. intros f f' s r H E. induction H; auto. now apply fuel_mono. Qed.
Lemma cons_le : forall f f' s r, (f <= f')%nat -> readCons f s = Some r -> readCons f' s = Some r.
Proof. intros f f' s r H E. induction H; auto. now apply fuel_mono. Qed.
Lemma macro_le : forall f f' hd ret e s r, (f <= f')%nat -> readListMacro f hd ret e s = Some r ->
  readListMacro f' hd ret e s = Some r.
Proof. intros f f' hd ret e s r H E. induction H; auto. now apply fuel_mono. Qed.

(** ** the grammar is what the reader accepts *)
Lemma ident_misc : forall c, isIdentifierChar c = true ->
  is c cQT = false /\ is c cLP = false /\ is c cLB = false /\ is c cBQ = false /\ is c cCM = false /\ is c cDQ = false /\ solid c.
Proof.
  intros c H. pose proof (forall_ascii (fun c => implb (isIdentifierChar c)
    (negb (is c cQT) && negb (is c cLP) && negb (is c cLB) && negb (is c cBQ) && negb (is c cCM) && negb (is c cDQ)))) as F.
  specialize (F eq_refl c). cbn beta in F. rewrite H in F. cbn [implb] in F.
  rewrite !andb_true_iff, !negb_true_iff in F. pose proof (ident_nospace c H). unfold solid. tauto.
Qed.

(** every text of the grammar starts with a byte that is not layout *)
Lemma reads_start : forall t d b, reads t d b -> exists c t', t = c :: t' /\ solid c /\ c <> cRP /\ c <> cRB.
Proof.
  intros t d b H.
  assert (Hi : forall c t' , isIdentifierChar c = true -> exists c0 t0, c :: t' = c0 :: t0 /\ solid c0 /\ c0 <> cRP /\ c0 <> cRB).
  { intros c t' E. exists c, t'. repeat split; try (now apply ident_nospace); intros ->; vm_compute in E; discriminate. }
  assert (Hn : forall c t', solid c -> c <> cRP -> c <> cRB -> exists c0 t0, c :: t' = c0 :: t0 /\ solid c0 /\ c0 <> cRP /\ c0 <> cRB).
  { intros c t' E. exists c, t'. auto. }
  destruct H.
  - destruct (decimal_spec _ _ H) as (N & F & _ & _). destruct t as [|c t]; [congruence|].
    apply Hi. cbn [forallb] in F. apply andb_true_iff in F as [F _]. now apply digit_ident.
  - apply Hi. reflexivity.
  - destruct H as (N & C & _). destruct t as [|c t]; [congruence|]. apply Hi.
    apply ident_delim. apply (C c). now left.
  - apply Hi. reflexivity.
  - apply Hi. reflexivity.
  - apply Hn; try discriminate. split; [reflexivity|discriminate].
  - cbn [In] in H. destruct H as [E|[E|[E|[]]]]; injection E as <- <-; apply Hn; try discriminate; split; try reflexivity; discriminate.
  - apply Hn; try discriminate. split; [reflexivity|discriminate].
  - apply Hn; try discriminate. split; [reflexivity|discriminate].
  - apply Hn; try discriminate. split; [reflexivity|discriminate].
Qed.
Lemma items_start : forall t d, reads_items t d -> exists c t', t = c :: t' /\ solid c /\ c <> cRP.
Proof.
  intros t d H. destruct H; destruct (reads_start _ _ _ H) as (c & t' & -> & S & R & _); exists c; eexists; cbn [app]; eauto.
Qed.

Lemma bracket_nonempty : forall t l dot, reads_bracket t l dot -> t <> [].
Proof.
  intros t l dot H E. destruct H.
  - destruct w; discriminate.
  - destruct w; discriminate.
  - destruct (reads_start _ _ _ H0) as (c & t' & -> & _). destruct w; discriminate.
Qed.

Lemma reverse_rev : forall l acc, reverse l acc = rev l ++ acc.
Proof. induction l as [|x l IH]; intros acc; cbn [reverse rev]; auto. rewrite IH, <- app_assoc. reflexivity. Qed.

Lemma delimited_ident : forall s, delimited s -> match s with [] => True | c :: _ => isIdentifierChar c = false end.
Proof. intros [|c s]; cbn; auto. apply ident_false. Qed.

Definition fin (r : bytes) (b : bool) : Prop := b = true -> delimited r.

Lemma sexp_layout : forall f w s, layout w -> sexpRead f (w ++ s) = sexpRead f s.
Proof. intros [|f] w s H; [reflexivity|]. rewrite !sexp_eq. now rewrite eat_layout. Qed.

Lemma peek_layout : forall w s, layout w -> peekFirstChar (w ++ s) = peekFirstChar s.
Proof. intros. unfold peekFirstChar. now rewrite eat_layout. Qed.

Lemma peek_solid : forall c s, solid c -> c <> cFF -> peekFirstChar (c :: s) = (Some c, s).
Proof.
  intros c s H N. unfold peekFirstChar. rewrite eat_solid by auto. cbn [getc_char]. apply is_false in N. now rewrite N.
Qed.

Theorem grammar_read :
  (forall t d b, reads t d b -> forall rest, fin rest b -> exists F, sexpRead F (t ++ rest) = rret d rest false) /\
  (forall t d, reads_items t d -> forall rest, exists F, readCons F (t ++ rest) = rret d rest false) /\
  (forall t l dot, reads_bracket t l dot -> forall rest hd ret, exists F,
     readListMacro F hd ret false (t ++ rest) =
     rret (DCons (DSym (if dot then s_list_rest else hd)) (dlist (rev ret ++ l))) rest false).
Proof.
  apply reads_all_ind.
  - (* number *)
    intros t z D L B rest Fin. destruct (decimal_spec _ _ D) as (N & Dg & V & P).
    exists 1%nat. rewrite sexp_eq. destruct t as [|c t]; [congruence|].
    assert (Hc : isdigit c = true) by (cbn [forallb] in Dg; now apply andb_true_iff in Dg).
    cbn [app]. rewrite eat_solid by (apply ident_nospace; now apply digit_ident). rewrite Hc.
    unfold readNumber. change (c :: t ++ rest) with ((c :: t) ++ rest).
    specialize (Fin eq_refl).
    rewrite span_app; auto.
    + replace (length (c :: t) <=? 29)%nat with true by (symmetry; now apply Nat.leb_le).
      unfold atoi_pos. rewrite V. replace (z <? 2 ^ 31) with true by (symmetry; now apply Z.ltb_lt).
      cbn [obind]. destruct rest as [|x rest]; [reflexivity|]. cbn [getc_char].
      replace (is x cFF) with false; [reflexivity|]. symmetry. apply is_false. intros ->.
      apply delimited_ident in Fin. vm_compute in Fin. discriminate.
    + apply delimited_ident in Fin. destruct rest as [|x rest]; auto.
      destruct (isdigit x) eqn:E; auto. apply digit_ident in E. congruence.
  - (* negative number *)
    intros t z D L B rest Fin. destruct (decimal_spec _ _ D) as (N & Dg & V & P).
    exists 1%nat. rewrite sexp_eq. cbn [app]. rewrite eat_solid by (apply ident_nospace; reflexivity).
    change (isdigit cMI) with false. change (is cMI cQT) with false. change (is cMI cLP) with false.
    change (is cMI cLB) with false. change (is cMI cBQ) with false. change (is cMI cCM) with false.
    change (is cMI cDQ) with false. change (isIdentifierChar cMI) with true. cbv iota.
    change (cMI :: t ++ rest) with ((cMI :: t) ++ rest). rewrite span_app.
    + rewrite (symbolOf_neg _ z); auto.
    + apply forallb_forall. rewrite forallb_forall in Dg. intros x [<- | Hx]; [reflexivity|]. apply digit_ident. now apply Dg.
    + apply delimited_ident. now apply Fin.
  - (* symbol *)
    intros t Sy L rest Fin. exists 1%nat. rewrite sexp_eq.
    assert (I : forallb isIdentifierChar t = true).
    { apply forallb_forall. intros x Hx. apply ident_delim. apply Sy. exact Hx. }
    destruct t as [|c t]; [destruct Sy; congruence|].
    assert (Hc : isIdentifierChar c = true) by (cbn [forallb] in I; now apply andb_true_iff in I).
    destruct (ident_misc _ Hc) as (M1 & M2 & M3 & M4 & M5 & M6 & So).
    cbn [app]. rewrite eat_solid by auto.
    replace (isdigit c) with false.
    2:{ symmetry. destruct (isdigit c) eqn:E; auto. apply isdigit_char in E. exfalso.
        destruct Sy as (_ & _ & D & _). eapply D; eauto. }
    rewrite M1, M2, M3, M4, M5, M6, Hc. change (c :: t ++ rest) with ((c :: t) ++ rest).
    rewrite span_app; auto; [|apply delimited_ident; now apply Fin].
    rewrite symbolOf_sym; auto.
  - intros rest Fin. exists 1%nat. rewrite sexp_eq. change s_true with (ch 116 :: tl s_true) at 1. cbn [app].
    rewrite eat_solid by (apply ident_nospace; reflexivity).
    change (isdigit (ch 116)) with false. change (is (ch 116) cQT) with false. change (is (ch 116) cLP) with false.
    change (is (ch 116) cLB) with false. change (is (ch 116) cBQ) with false. change (is (ch 116) cCM) with false.
    change (is (ch 116) cDQ) with false. change (isIdentifierChar (ch 116)) with true. cbv iota.
    change (ch 116 :: tl s_true ++ rest) with (s_true ++ rest).
    rewrite span_app; [reflexivity|reflexivity|apply delimited_ident; now apply Fin].
  - intros rest Fin. exists 1%nat. rewrite sexp_eq. change s_false with (ch 102 :: tl s_false) at 1. cbn [app].
    rewrite eat_solid by (apply ident_nospace; reflexivity).
    change (isdigit (ch 102)) with false. change (is (ch 102) cQT) with false. change (is (ch 102) cLP) with false.
    change (is (ch 102) cLB) with false. change (is (ch 102) cBQ) with false. change (is (ch 102) cCM) with false.
    change (is (ch 102) cDQ) with false. change (isIdentifierChar (ch 102)) with true. cbv iota.
    change (ch 102 :: tl s_false ++ rest) with (s_false ++ rest).
    rewrite span_app; [reflexivity|reflexivity|apply delimited_ident; now apply Fin].
  - (* string *)
    intros t s H L rest _. exists 1%nat. rewrite sexp_eq. cbn [app].
    rewrite eat_solid by (split; [reflexivity|discriminate]).
    change (isdigit cDQ) with false. change (is cDQ cQT) with false. change (is cDQ cLP) with false.
    change (is cDQ cLB) with false. change (is cDQ cBQ) with false. change (is cDQ cCM) with false.
    change (is cDQ cDQ) with true. cbv iota.
    rewrite <- app_assoc. cbn [app]. rewrite (readString_literal _ _ H) by lia. reflexivity.
  - (* quote and friends *)
    intros c q w t d b Hq W R IH rest Fin. destruct (IH rest Fin) as [F E]. exists (S F). rewrite sexp_eq.
    assert (So : solid c).
    { cbn [In] in Hq. destruct Hq as [X|[X|[X|[]]]]; injection X as <- <-; split; try reflexivity; discriminate. }
    cbn [app]. rewrite eat_solid by auto. rewrite <- app_assoc.
    cbn [In] in Hq. destruct Hq as [X|[X|[X|[]]]]; injection X as <- <-.
    + change (isdigit cQT) with false. change (is cQT cQT) with true. cbv iota. rewrite sexp_layout, E; auto.
    + change (isdigit cBQ) with false. change (is cBQ cQT) with false. change (is cBQ cLP) with false.
      change (is cBQ cLB) with false. change (is cBQ cBQ) with true. cbv iota. rewrite sexp_layout, E; auto.
    + change (isdigit cCM) with false. change (is cCM cQT) with false. change (is cCM cLP) with false.
      change (is cCM cLB) with false. change (is cCM cBQ) with false. change (is cCM cCM) with true. cbv iota.
      rewrite sexp_layout, E; auto.
  - (* () *)
    intros rest _. exists 2%nat. rewrite sexp_eq. cbn [app]. rewrite eat_solid by (split; [reflexivity|discriminate]).
    change (isdigit cLP) with false. change (is cLP cQT) with false. change (is cLP cLP) with true. cbv iota.
    rewrite cons_eq. change (is cRP cRP) with true. reflexivity.
  - (* list *)
    intros w t d W R IH rest _. destruct (IH rest) as [F E]. exists (S F). rewrite sexp_eq. cbn [app].
    rewrite eat_solid by (split; [reflexivity|discriminate]).
    change (isdigit cLP) with false. change (is cLP cQT) with false. change (is cLP cLP) with true. cbv iota.
    rewrite <- app_assoc. destruct F as [|F]; [discriminate|].
    rewrite cons_eq in *. destruct (items_start _ _ R) as (c & t' & -> & So & Nc). cbn [app] in *.
    replace (is c cRP) with false in E by (symmetry; now apply is_false).
    assert (E2 : cons_body F (w ++ c :: t' ++ rest) = cons_body F (c :: t' ++ rest)).
    { unfold cons_body. now rewrite sexp_layout. }
    destruct w as [|x w]; cbn [app] in *.
    + replace (is c cRP) with false by (symmetry; now apply is_false). exact E.
    + replace (is x cRP) with false; [now rewrite E2|]. symmetry. apply is_false. intros ->.
      inversion W. apply isspace_blank in H1. discriminate.
  - (* bracket *)
    intros t l dot R IH rest _. destruct (IH rest s_list []) as [F E]. exists (S F). rewrite sexp_eq. cbn [app].
    rewrite eat_solid by (split; [reflexivity|discriminate]).
    change (isdigit cLB) with false. change (is cLB cQT) with false. change (is cLB cLP) with false.
    change (is cLB cLB) with true. cbv iota. exact E.
  - (* last item *)
    intros t d b w R IH W rest.
    assert (Fin : fin (w ++ [cRP] ++ rest) b).
    { intros _. destruct W; cbn [app delimited]; [right; apply memb_In; reflexivity|now left|right; apply memb_In; reflexivity]. }
    destruct (IH _ Fin) as [F E]. exists (S (S F)). rewrite cons_eq.
    destruct (reads_start _ _ _ R) as (c & t' & -> & So & N1 & N2). cbn [app].
    replace (is c cRP) with false by (symmetry; now apply is_false). unfold cons_body.
    apply (sexp_le _ (S F)) in E; [|lia]. rewrite <- !app_assoc. cbn [app] in *. rewrite E.
    cbn [rbind rret]. rewrite peek_layout, peek_solid by (auto; try (split; [reflexivity|discriminate]); discriminate).
    cbn [ungetc]. rewrite cons_eq. change (is cRP cRP) with true. reflexivity.
  - (* more items *)
    intros t d b w r l R IH W Ri IHi Dl Nf rest.
    destruct (items_start _ _ Ri) as (c & r' & -> & So & N1).
    assert (Nc : c <> cFF) by (intros ->; apply Nf; now exists r').
    assert (Fin : fin (w ++ (c :: r') ++ rest) b).
    { intros Hb. apply Dl in Hb. destruct w; cbn [app delimited] in *; exact Hb. }
    destruct (IH _ Fin) as [F1 E1]. destruct (IHi rest) as [F2 E2].
    exists (S (F1 + F2)). rewrite cons_eq.
    destruct (reads_start _ _ _ R) as (c0 & t' & -> & So0 & N10 & N20). cbn [app].
    replace (is c0 cRP) with false by (symmetry; now apply is_false). unfold cons_body.
    apply (sexp_le _ (F1 + F2)) in E1; [|lia]. apply (cons_le _ (F1 + F2)) in E2; [|lia].
    rewrite <- !app_assoc. cbn [app] in *. rewrite E1.
    cbn [rbind rret]. rewrite peek_layout, peek_solid by auto. cbn [ungetc]. rewrite E2. reflexivity.
  - (* ] *)
    intros w W rest hd ret. exists 1%nat. rewrite macro_eq. rewrite <- app_assoc. cbn [app].
    rewrite peek_layout, peek_solid by (auto; try (split; [reflexivity|discriminate]); discriminate).
    change (is cRB cRB) with true. cbv iota. rewrite reverse_rev. reflexivity.
  - (* . *)
    intros w r l dot W R IH rest hd ret. destruct (IH rest s_list_rest ret) as [F E]. exists (S F).
    rewrite macro_eq. rewrite <- app_assoc. cbn [app].
    rewrite peek_layout, peek_solid by (auto; try (split; [reflexivity|discriminate]); discriminate).
    change (is cDOT cRB) with false. change (is cDOT cDOT) with true. cbv iota. rewrite E.
    destruct dot; reflexivity.
  - (* item *)
    intros w t d b r l dot W R IH Rb IHb Dl Nf Nd rest hd ret.
    assert (Fin : fin (r ++ rest) b).
    { intros Hb. apply Dl in Hb. destruct r as [|x r]; [now apply bracket_nonempty in Rb|exact Hb]. }
    destruct (IH _ Fin) as [F1 E1]. destruct (IHb rest hd (d :: ret)) as [F2 E2].
    exists (S (F1 + F2)). rewrite macro_eq.
    destruct (reads_start _ _ _ R) as (c & t' & -> & So & N1 & N2).
    assert (Nc : c <> cFF) by (intros ->; apply Nf; now exists t').
    assert (Nc2 : c <> cDOT) by (intros ->; apply Nd; now exists t').
    rewrite <- !app_assoc. cbn [app]. rewrite peek_layout, peek_solid by auto.
    replace (is c cRB) with false by (symmetry; now apply is_false).
    replace (is c cDOT) with false by (symmetry; now apply is_false).
    apply (sexp_le _ (F1 + F2)) in E1; [|lia]. apply (macro_le _ (F1 + F2)) in E2; [|lia].
    cbn [ungetc app] in *. rewrite E1. cbn [rbind rret orb]. rewrite E2. cbn [rev]. rewrite <- app_assoc. reflexivity.
Qed.

(** ** printing *)
Lemma isdigit_of : forall n, 0 <= n <= 9 -> digit_char (ch (Z.to_nat (n + 48))) /\ digit (ch (Z.to_nat (n + 48))) = n.
Proof.
  intros n H. assert (E : n = 0 \/ n = 1 \/ n = 2 \/ n = 3 \/ n = 4 \/ n = 5 \/ n = 6 \/ n = 7 \/ n = 8 \/ n = 9) by lia.
  repeat (destruct E as [-> | E]); [..|subst n];
  (split; [apply isdigit_char; reflexivity | reflexivity]).
Qed.

Lemma dec_digits_spec : forall f n, 0 <= n -> (Z.to_nat (Z.log2 n) < f)%nat -> decimal (dec_digits f n) n.
Proof.
  induction f as [|f IH]; intros n P L; [lia|]. cbn [dec_digits].
  destruct (Z.ltb_spec n 10) as [H|H].
  - destruct (isdigit_of n) as [D V]; [lia|]. rewrite <- V at 2. now constructor.
  - pose proof (Z.div_mod n 10 ltac:(lia)) as DM. pose proof (Z.mod_pos_bound n 10 ltac:(lia)) as MB.
    destruct (isdigit_of (n mod 10)) as [D V]; [lia|].
    replace n with (10 * (n / 10) + digit (ch (Z.to_nat (n mod 10 + 48)))) at 3 by (rewrite V; lia).
    constructor; auto. apply IH; [apply Z.div_pos; lia|].
    assert (Z.log2 (n / 10) <= Z.log2 (n / 2)).
    { apply Z.log2_le_mono. apply Z.div_le_compat_l; lia. }
    assert (Z.log2 (n / 2) = Z.log2 n - 1).
    { change 2 with (2 ^ 1). rewrite <- Z.shiftr_div_pow2 by lia. rewrite Z.log2_shiftr by lia.
      assert (1 <= Z.log2 n) by (change 1 with (Z.log2 2); apply Z.log2_le_mono; lia). lia. }
    pose proof (Z.log2_nonneg (n / 10)). lia.
Qed.
Lemma dec_digits_len : forall f n k, 0 <= n < 10 ^ Z.of_nat k -> (1 <= k)%nat -> (length (dec_digits f n) <= k)%nat.
Proof.
  induction f as [|f IH]; intros n k P L; cbn [dec_digits length]; [lia|].
  destruct (Z.ltb_spec n 10) as [H|H]; cbn [length]; [lia|].
  rewrite app_length. cbn [length]. destruct k as [|[|k]]; [lia|change (10 ^ Z.of_nat 1) with 10 in P; lia|].
  assert (length (dec_digits f (n / 10)) <= S k)%nat; [|lia].
  apply IH; [|lia]. split; [apply Z.div_pos; lia|]. apply Z.div_lt_upper_bound; [lia|].
  replace (Z.of_nat (S (S k))) with (1 + Z.of_nat (S k)) in P by lia. rewrite Z.pow_add_r in P by lia. lia.
Qed.

Lemma plain_literal : forall s, (forall c, In c s -> c <> NUL /\ c <> cDQ /\ c <> cBS) -> literal s s.
Proof.
  induction s as [|c s IH]; intros H; constructor; try (apply (H c); now left).
  apply IH. intros x Hx. apply H. now right.
Qed.

Lemma print_reads :
  (forall d, printable d -> exists t b, printObj d = Ok t /\ reads t d b /\ ~ starts_with cFF t) /\
  (forall d, printable_list d -> (d = DNil \/ exists a r, d = DCons a r) /\
     (exists t b, printObj d = Ok t /\ reads t d b /\ ~ starts_with cFF t) /\
     exists y, printTail d = Ok y /\ ((d = DNil /\ y = [cRP]) \/
       exists y', y = cSP :: y' /\ reads_items y' d /\ ~ starts_with cFF y')).
Proof.
  apply printable_all_ind.
  - intros z Hz. cbn [printObj printAtom]. unfold printNum, dec_nat. destruct (Z.ltb_spec z 0).
    + exists (cMI :: dec_digits (S (Z.to_nat (Z.log2 (- z)))) (- z)), true. split; auto. split.
      * replace z with (- - z) at 3 by lia. apply rd_neg.
        -- apply dec_digits_spec; lia.
        -- pose proof (dec_digits_len (S (Z.to_nat (Z.log2 (- z)))) (- z) 10) as L.
           change (10 ^ Z.of_nat 10) with 10000000000 in L. lia.
        -- lia.
      * intros [t' E]. discriminate.
    + exists (dec_digits (S (Z.to_nat (Z.log2 z))) z), true. split; auto.
      assert (D : decimal (dec_digits (S (Z.to_nat (Z.log2 z))) z) z) by (apply dec_digits_spec; lia).
      split.
      * apply rd_num; auto; [|lia].
        pose proof (dec_digits_len (S (Z.to_nat (Z.log2 z))) z 10) as L.
        change (10 ^ Z.of_nat 10) with 10000000000 in L. lia.
      * intros [t' E]. rewrite E in D. apply decimal_spec in D as (_ & F & _). cbn [forallb] in F. discriminate.
  - intros n Sy L Nf. exists n, true. cbn [printObj printAtom].
    unfold assertT. replace (length n + 1 <? 256)%nat with true by (symmetry; apply Nat.ltb_lt; lia).
    split; auto. split; auto. apply rd_sym; auto. lia.
  - intros s [L P]. exists (cDQ :: s ++ [cDQ]), false. cbn [printObj printAtom].
    rewrite cstr_id by (intros c Hc; now apply P). split; auto. split.
    + apply rd_str; auto. now apply plain_literal.
    + intros [t' E]. discriminate.
  - exists s_true, true. repeat split; try constructor. intros [t' E]. discriminate.
  - exists s_false, true. repeat split; try constructor. intros [t' E]. discriminate.
  - intros d _ (_ & H & _). exact H.
  - split; auto. split.
    + exists [cLP; cRP], false. repeat split; try constructor. intros [t' E]. discriminate.
    + exists [cRP]. split; auto.
  - intros a d _ (x & b & E1 & R & N) _ (Sh & _ & y & E2 & Hy).
    split; [right; eauto|].
    assert (It : exists i, x ++ y = i /\ reads_items i (DCons a d)).
    { exists (x ++ y). split; auto. destruct Hy as [[-> ->] | (y' & -> & Ri & Nf)].
      - apply (ri_last x a b []); auto. constructor.
      - apply (ri_more x a b [cSP]); auto.
        + apply lay_blank; [apply isspace_blank; reflexivity|constructor].
        + intros _. cbn [app delimited]. left. apply isspace_blank. reflexivity. }
    destruct It as (i & Ei & Ri).
    cbn [printObj printTail]. rewrite E1, E2. cbn [obind]. rewrite Ei. split.
    + exists (cLP :: i), false. split; auto. split.
      * apply (rd_list [] i); auto. constructor.
      * intros [t' E]. discriminate.
    + exists (cSP :: i). split; auto. right. exists i. split; auto. split; auto.
      subst i. destruct (reads_start _ _ _ R) as (c & t' & -> & _). cbn [app].
      intros [z E]. apply N. exists t'. congruence.
Qed.

(** ** tokens that fit never overflow the buffers *)
Definition fit (s : bytes) : Prop := tokens_fit LPlain 0 0 s = true.

Lemma fit_less : forall s m n k n' k', (n' <= n)%nat -> (k' <= k)%nat -> tokens_fit m n k s = true -> tokens_fit m n' k' s = true.
Proof.
  induction s as [|c s IH]; intros m n k n' k' Hn Hk; cbn [tokens_fit]; auto.
  assert (B : forall a b c, (a <= b)%nat -> (b <? c)%nat = true -> (a <? c)%nat = true).
  { intros a b c0 H1 H2. apply Nat.ltb_lt in H2. apply Nat.ltb_lt. lia. }
  destruct m; cbn [lexnext].
  - destruct (is c cDQ); auto. destruct (is c cSC); auto. destruct (negb (isIdentifierChar c)); auto.
    destruct (isdigit c); rewrite !andb_true_iff; intros H; repeat split; try (eapply B; [|apply H]; lia);
    (eapply IH; [| |apply H]; lia).
  - destruct (is c cDQ); auto. destruct (is c cBS); [apply IH; lia|].
    rewrite !andb_true_iff. intros [H1 H2]. split; [eapply B; eauto|]. eapply IH; [| |apply H2]; lia.
  - rewrite !andb_true_iff. intros [H1 H2]. split; [eapply B; eauto|]. eapply IH; [| |apply H2]; lia.
  - destruct (is c cNL); auto.
Qed.
Lemma fit_any : forall s n k, tokens_fit LPlain n k s = true -> fit s.
Proof. intros. eapply fit_less; [| |eassumption]; lia. Qed.
Lemma fit_ident : forall c s n k, tokens_fit LPlain n k (c :: s) = true -> isIdentifierChar c = true ->
  (n < 511)%nat /\ (isdigit c = true -> (k < 9)%nat) /\ tokens_fit LPlain (S n) (if isdigit c then S k else 0) s = true.
Proof.
  intros c s n k H I. cbn [tokens_fit lexnext] in H. destruct (ident_misc _ I) as (_ & _ & _ & _ & _ & M & _ & Sc).
  rewrite M in H. apply is_false in Sc. rewrite Sc in H. rewrite I in H. cbn [negb] in H.
  destruct (isdigit c); rewrite !andb_true_iff in H; rewrite ?Nat.ltb_lt in H; intuition discriminate.
Qed.
(** dropping any byte outside strings and comments *)
Lemma fit_tail : forall c s, fit (c :: s) -> c <> cDQ -> c <> cSC -> fit s.
Proof.
  intros c s H N1 N2. destruct (isIdentifierChar c) eqn:E.
  - destruct (fit_ident _ _ _ _ H E) as (_ & _ & F). now apply fit_any in F.
  - unfold fit in *. cbn [tokens_fit lexnext] in H. apply is_false in N1, N2. rewrite N1, N2, E in H. exact H.
Qed.
Lemma fit_eat : forall s com n k, tokens_fit (if com : bool then LCom else LPlain) n k s = true -> fit (eatWs com s).
Proof.
  induction s as [|c s IH]; intros com n k H; cbn [eatWs]; [reflexivity|].
  destruct com.
  - cbn [tokens_fit lexnext] in H. destruct (is c cNL); [apply (IH false _ _ H)|apply (IH true _ _ H)].
  - destruct (isspace c) eqn:E.
    + apply (IH false 0%nat 0%nat). apply fit_any in H. apply (fit_tail c); auto; intros ->; discriminate.
    + destruct (is c cSC) eqn:E2; [|now apply fit_any in H].
      apply is_true in E2. subst c. apply (IH true _ _ H).
Qed.
Lemma fit_peek : forall s c r, fit s -> peekFirstChar s = (c, r) ->
  match c with Some c => fit (c :: r) | None => fit r end.
Proof.
  intros s c r H. unfold peekFirstChar. pose proof (fit_eat s false _ _ H) as F. unfold eatWhitespace.
  destruct (eatWs false s) as [|x y] eqn:E; cbn [getc_char].
  - intros X. injection X as <- <-. exact F.
  - destruct (is x cFF) eqn:E2; intros X; injection X as <- <-; auto.
    apply is_true in E2. subst x. apply (fit_tail cFF); auto; discriminate.
Qed.
Lemma fit_span : forall t r n k, tokens_fit LPlain n k (t ++ r) = true -> forallb isIdentifierChar t = true ->
  (t = [] \/ n + length t <= 511)%nat /\ fit r.
Proof.
  induction t as [|c t IH]; intros r n k H F; cbn [app] in H.
  - split; auto. now apply fit_any in H.
  - cbn [forallb] in F. apply andb_true_iff in F as [F1 F2]. destruct (fit_ident _ _ _ _ H F1) as (L & _ & H').
    destruct (IH _ _ _ H' F2) as [[-> | L2] Fr]; split; auto; right; cbn [length]; lia.
Qed.
Lemma fit_digits : forall t r n k, tokens_fit LPlain n k (t ++ r) = true -> forallb isdigit t = true ->
  (t = [] \/ k + length t <= 9)%nat.
Proof.
  induction t as [|c t IH]; intros r n k H F; cbn [app] in H; auto.
  cbn [forallb] in F. apply andb_true_iff in F as [F1 F2].
  destruct (fit_ident _ _ _ _ H (digit_ident _ F1)) as (_ & L & H'). rewrite F1 in H'. specialize (L F1).
  destruct (IH _ _ _ H' F2) as [-> | L2]; right; cbn [length]; lia.
Qed.
Lemma decval_bound : forall t, forallb isdigit t = true -> 0 <= decval t < 10 ^ Z.of_nat (length t).
Proof.
  induction t as [|c t IH] using rev_ind; intros F.
  - cbn. lia.
  - rewrite forallb_app in F. apply andb_true_iff in F as [F1 F2]. cbn [forallb] in F2. rewrite andb_true_r in F2.
    rewrite decval_app, app_length. cbn [length]. pose proof (digit_range _ F2). specialize (IH F1).
    replace (Z.of_nat (length t + 1)) with (1 + Z.of_nat (length t)) by lia. rewrite Z.pow_add_r by lia. lia.
Qed.
Lemma decval_9 : forall t, forallb isdigit t = true -> (length t <= 9)%nat -> decval t < 2^31.
Proof.
  intros t F L. pose proof (decval_bound t F). assert (10 ^ Z.of_nat (length t) <= 10 ^ 9) by (apply Z.pow_le_mono_r; lia).
  change (10 ^ 9) with 1000000000 in *. change (2 ^ 31) with 2147483648. lia.
Qed.

Lemma fit_number : forall s, fit s -> match readNumber s with Ok (_, r) => fit r | Trap => True | UB => False end.
Proof.
  intros s H. unfold readNumber. destruct (span isdigit s) as [t r] eqn:E. apply span_spec in E as (-> & F & _).
  pose proof (fit_digits _ _ _ _ H F) as L.
  assert (Lt : (length t <= 9)%nat) by (destruct L as [-> | L]; cbn [length]; lia).
  replace (length t <=? 29)%nat with true by (symmetry; apply Nat.leb_le; lia).
  unfold atoi_pos. pose proof (decval_9 t F Lt) as V. replace (decval t <? 2 ^ 31) with true by (symmetry; now apply Z.ltb_lt).
  cbn [obind].
  assert (Fr : fit r).
  { eapply fit_span; [exact H|]. rewrite forallb_forall in *. intros x Hx. apply digit_ident; auto. }
  destruct r as [|x r]; [exact Fr|]. cbn [getc_char]. destruct (is x cFF) eqn:E; cbn [ungetc]; auto.
  apply is_true in E. subst x. apply (fit_tail cFF); auto; discriminate.
Qed.
Lemma fit_string : forall s,
  (forall n k, (n <= 511)%nat -> tokens_fit LStr n k s = true -> match readString n s with Ok (_, r) => fit r | Trap => True | UB => False end) /\
  (forall c n k, (n <= 511)%nat -> tokens_fit LStr n k (c :: s) = true -> match readString n (c :: s) with Ok (_, r) => fit r | Trap => True | UB => False end).
Proof.
  assert (G : forall b, (b <= 511)%nat -> (b <? 512)%nat = true) by (intros b Hb; apply Nat.ltb_lt; lia).
  assert (G9 : forall b, (b <= 511)%nat -> (b <? 999)%nat = true) by (intros b Hb; apply Nat.ltb_lt; lia).
  induction s as [|x s IH].
  - split; [intros; exact I|]. intros c n k L H. cbn [readString]. cbn [tokens_fit lexnext] in H.
    destruct (is c cDQ); [now rewrite G|]. destruct (is c cBS); auto. now rewrite G9, G.
  - destruct IH as [I1 I2]. split; [intros n k; apply I2|]. intros c n k L H.
    assert (R : forall n s, readString n s = match s with [] => Trap | c :: s1 =>
      if is c cDQ then (if Nat.ltb n 512 then Ok ([], s1) else UB)
      else if is c cBS then
        match s1 with
        | [] => Trap
        | c2 :: s2 => if Nat.ltb n 999 then
              (if Nat.ltb n 512 then obind (readString (S n) s2) (fun '(t, r) => Ok ((if is c2 (ch 110) then cNL else c2) :: t, r))
               else UB) else Trap
        end
      else if Nat.ltb n 999 then
          (if Nat.ltb n 512 then obind (readString (S n) s1) (fun '(t, r) => Ok (c :: t, r)) else UB)
        else Trap end) by (intros ? [|? ?]; reflexivity).
    rewrite R. rewrite G, G9 by auto.
    cbn [tokens_fit] in H. fold tokens_fit in H. unfold lexnext at 1 in H.
    destruct (is c cDQ) eqn:E1.
    + exact H.
    + destruct (is c cBS) eqn:E2.
      * cbn [lexnext] in H. apply andb_true_iff in H as [L2 H]. apply Nat.ltb_lt in L2.
        specialize (I1 (S n) 0%nat ltac:(lia) H). destruct (readString (S n) s) as [[t r]| |]; cbn [obind]; auto.
      * apply andb_true_iff in H as [L2 H]. apply Nat.ltb_lt in L2.
        specialize (I2 x (S n) 0%nat ltac:(lia) H). destruct (readString (S n) (x :: s)) as [[t r]| |]; cbn [obind]; auto.
Qed.
Lemma symbolOf_safe : forall t, (length t <= 511)%nat -> (forall c t', t = c :: t' -> forallb isdigit t' = true -> (length t' <= 9)%nat) ->
  symbolOf t <> UB.
Proof.
  intros t L D. unfold symbolOf. replace (length t <? 512)%nat with true by (symmetry; apply Nat.ltb_lt; lia).
  destruct (bytes_eqb (cstr t) s_true); [discriminate|]. destruct (bytes_eqb (cstr t) s_false); [discriminate|].
  destruct t as [|c [|x t]]; try discriminate. cbn [tl].
  destruct (is c cMI); cbn [andb]; [|discriminate]. destruct (forallb isdigit (x :: t)) eqn:F; [|discriminate].
  specialize (D c (x :: t) eq_refl F). pose proof (decval_9 _ F D). unfold atoi_neg.
  replace (decval (x :: t) <=? 2 ^ 31) with true by (symmetry; apply Z.leb_le; lia). discriminate.
Qed.

Definition good (x : rres) : Prop := match x with Some (Ok (_, r, _)) => fit r | Some UB => False | _ => True end.
Lemma good_bind : forall x f, good x -> (forall d r e, fit r -> good (f d r e)) -> good (rbind x f).
Proof. intros [[[[d r] e]| |]|] f H1 H2; cbn in *; auto. Qed.
Lemma good_ret : forall d r e, fit r -> good (rret d r e).
Proof. intros. exact H. Qed.

Lemma fit_unget : forall s c r, fit s -> peekFirstChar s = (c, r) -> fit (ungetc c r).
Proof. intros s c r H E. apply fit_peek in E; auto. destruct c; exact E. Qed.

Lemma fit_good : forall f,
  (forall s, fit s -> good (sexpRead f s)) /\
  (forall s, fit s -> good (readCons f s)) /\
  (forall hd ret e s, fit s -> good (readListMacro f hd ret e s)).
Proof.
  induction f as [|f (I1 & I2 & I3)]; [repeat split; intros; exact I|]. split; [|split].
  - intros s H. rewrite sexp_eq. pose proof (fit_eat s false _ _ H) as Fe. unfold eatWhitespace.
    destruct (eatWs false s) as [|c s1] eqn:E; [exact Fe|]. apply eat_shape in E as So.
    assert (Ft : c <> cDQ -> fit s1) by (intros Nq; apply (fit_tail c); auto; apply So).
    destruct (isdigit c) eqn:Dg.
    { pose proof (fit_number _ Fe) as N. destruct (readNumber (c :: s1)) as [[d r]| |]; cbn; auto. }
    assert (Q : forall q, is c q = true -> q <> cDQ -> fit s1) by (intros q Hq Nq; apply is_true in Hq; subst c; auto).
    destruct (is c cQT) eqn:E1; [apply good_bind; [apply I1; eapply Q; eauto; discriminate|intros; now apply good_ret]|].
    destruct (is c cLP) eqn:E2; [apply I2; eapply Q; eauto; discriminate|].
    destruct (is c cLB) eqn:E3; [apply I3; eapply Q; eauto; discriminate|].
    destruct (is c cBQ) eqn:E4; [apply good_bind; [apply I1; eapply Q; eauto; discriminate|intros; now apply good_ret]|].
    destruct (is c cCM) eqn:E5; [apply good_bind; [apply I1; eapply Q; eauto; discriminate|intros; now apply good_ret]|].
    destruct (is c cDQ) eqn:E6.
    { apply is_true in E6. subst c. destruct (fit_string s1) as [Fs _].
      specialize (Fs 0%nat 0%nat ltac:(lia) Fe). destruct (readString 0 s1) as [[d r]| |]; cbn; auto. }
    destruct (isIdentifierChar c) eqn:E7; [|exact I].
    destruct (span isIdentifierChar (c :: s1)) as [t r] eqn:Sp. apply span_spec in Sp as (Et & Ft' & _).
    unfold fit in Fe. rewrite Et in Fe. pose proof (fit_span _ _ _ _ Fe Ft') as [Lt Fr].
    assert (Nb : symbolOf t <> UB).
    { apply symbolOf_safe; [destruct Lt as [-> | Lt]; cbn [length]; lia|].
      intros c0 t' -> Fd. cbn [app forallb] in *. apply andb_true_iff in Ft' as [F1 F2].
      destruct (fit_ident _ _ _ _ Fe F1) as (_ & _ & H'). apply fit_any in H'.
      pose proof (fit_digits _ _ _ _ H' Fd) as [-> | X]; cbn [length]; lia. }
    destruct (symbolOf t); cbn; auto.
  - intros s H. rewrite cons_eq.
    assert (B : good (cons_body f s)).
    { unfold cons_body. apply good_bind; [now apply I1|]. intros d r e Fr.
      destruct (peekFirstChar r) as [c r1] eqn:E. apply good_bind; [apply I2; eapply fit_unget; eauto|].
      intros; now apply good_ret. }
    destruct s as [|c s1]; auto. destruct (is c cRP) eqn:E; auto.
    apply good_ret. apply is_true in E. subst c. apply (fit_tail cRP); auto; discriminate.
  - intros hd ret e s H. rewrite macro_eq. destruct (peekFirstChar s) as [[b|] r] eqn:E.
    + pose proof (fit_peek _ _ _ H E) as Fb. cbn beta iota in Fb.
      destruct (is b cRB) eqn:E1.
      { apply good_ret. apply is_true in E1. subst b. apply (fit_tail cRB); auto; discriminate. }
      destruct (is b cDOT) eqn:E2.
      { apply I3. apply is_true in E2. subst b. apply (fit_tail cDOT); auto; discriminate. }
      cbn [ungetc]. apply good_bind; [now apply I1|]. intros; now apply I3.
    + apply good_ret. exact (fit_peek _ _ _ H E).
Qed.
