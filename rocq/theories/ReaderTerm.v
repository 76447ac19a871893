(** When the reader terminates: only running out of text inside an open list keeps it going. *)
From Coq Require Import ZArith Bool List Ascii Arith Lia.
From Verif Require Import Base StrModel TrieModel ReaderModel ReaderSpec ReaderProofs.
Import ListNotations.
Open Scope Z_scope.

Definition nest (s : bytes) : Z := nesting LPlain s.

Lemma nest_eat : forall s com, nesting (if com : bool then LCom else LPlain) s = nest (eatWs com s).
Proof.
  unfold nest. induction s as [|c s IH]; intros com; cbn [eatWs]; [destruct com; reflexivity|].
  destruct com.
  - cbn [nesting lexnext]. destruct (is c cNL); [rewrite <- (IH false)|rewrite <- (IH true)]; reflexivity.
  - destruct (isspace c) eqn:E.
    + rewrite <- (IH false). cbn [nesting lexnext].
      assert (X : is c cDQ = false /\ is c cSC = false /\ is c cLP = false /\ is c cRP = false).
      { repeat split; apply is_false; intros ->; discriminate. }
      destruct X as (-> & -> & -> & ->). reflexivity.
    + destruct (is c cSC) eqn:E2; [|reflexivity]. apply is_true in E2. subst c. rewrite <- (IH true).
      cbn [nesting]. change (lexnext LPlain cSC) with LCom. reflexivity.
Qed.
Lemma nest_plain : forall c s, c <> cDQ -> c <> cSC -> c <> cLP -> c <> cRP -> nest (c :: s) = nest s.
Proof.
  intros c s H1 H2 H3 H4. unfold nest. cbn [nesting lexnext]. apply is_false in H1, H2, H3, H4.
  now rewrite H1, H2, H3, H4.
Qed.
Lemma nest_peek : forall s c r, peekFirstChar s = (c, r) -> nest (ungetc c r) = nest s.
Proof.
  intros s c r. unfold peekFirstChar, eatWhitespace. pose proof (nest_eat s false) as N. cbv iota in N.
  fold (nest s) in N. destruct (eatWs false s) as [|x y]; cbn [getc_char].
  - intros E. injection E as <- <-. cbn [ungetc]. congruence.
  - destruct (is x cFF) eqn:E2; intros E; injection E as <- <-; cbn [ungetc]; [|congruence].
    apply is_true in E2. subst x. rewrite nest_plain in N by discriminate. congruence.
Qed.
Lemma ident_not : forall c, isIdentifierChar c = true -> c <> cDQ /\ c <> cSC /\ c <> cLP /\ c <> cRP.
Proof. intros c H. repeat split; intros ->; discriminate. Qed.
Lemma nest_span : forall t r, forallb isIdentifierChar t = true -> nest (t ++ r) = nest r.
Proof.
  induction t as [|c t IH]; intros r F; cbn [app]; auto. cbn [forallb] in F. apply andb_true_iff in F as [F1 F2].
  destruct (ident_not _ F1) as (N1 & N2 & N3 & N4). rewrite nest_plain; auto.
Qed.
Lemma nest_number : forall s d r, readNumber s = Ok (d, r) -> nest r = nest s /\ (length r <= length s)%nat /\
  (match s with c :: _ => isdigit c = true | [] => False end -> (length r < length s)%nat).
Proof.
  intros s d r. unfold readNumber. destruct (span isdigit s) as [t q] eqn:E. apply span_spec in E as (-> & F & Hq).
  destruct (length t <=? 29)%nat; [|discriminate]. destruct (atoi_pos t); [|discriminate..]. cbn [obind].
  assert (F' : forallb isIdentifierChar t = true).
  { rewrite forallb_forall in *. intros x Hx. apply digit_ident; auto. }
  destruct q as [|x q]; cbn [getc_char].
  - intros X. apply Ok_inj in X. injection X as _ <-. cbn [ungetc]. rewrite nest_span, app_length by auto. cbn [length].
    split; auto. split; [lia|]. destruct t; cbn [app length] in *; intros; [tauto|lia].
  - rewrite nest_span, app_length by auto. destruct (is x cFF) eqn:E; intros X; apply Ok_inj in X; injection X as _ <-; cbn [ungetc length].
    + apply is_true in E. subst x. rewrite nest_plain by discriminate. split; auto. split; [lia|]. lia.
    + split; auto. split; [lia|]. destruct t as [|c t]; cbn [app length] in *; intros; [congruence|lia].
Qed.
Lemma nest_string : forall s,
  (forall n t r, readString n s = Ok (t, r) -> nesting LStr s = nest r /\ (length r <= length s)%nat) /\
  (forall c n t r, readString n (c :: s) = Ok (t, r) -> nesting LStr (c :: s) = nest r /\ (length r <= S (length s))%nat).
Proof.
  assert (R : forall n s, readString n s = match s with [] => Trap | c :: s1 =>
      if is c cDQ then (if Nat.ltb n 512 then Ok ([], s1) else UB)
      else if is c cBS then
        match s1 with
        | [] => Trap
        | c2 :: s2 => if Nat.ltb n 999 then
              (if Nat.ltb n 512 then obind (readString (S n) s2) (fun '(t, r) => Ok ((if is c2 (ch 110) then cNL else c2) :: t, r))
               else UB) else Trap
        end
      else if Nat.ltb n 999 then
          (if Nat.ltb n 512 then obind (readString (S n) s1) (fun '(t, r) => Ok (c :: t, r)) else UB)
        else Trap end) by (intros ? [|? ?]; reflexivity).
  assert (A : forall c s n t r, is c cDQ = true -> readString n (c :: s) = Ok (t, r) -> nesting LStr (c :: s) = nest r /\ (length r <= S (length s))%nat).
  { intros c s n t r E. rewrite R, E. cbn [nesting lexnext]. rewrite E. destruct (n <? 512)%nat; [|discriminate].
    intros X. apply Ok_inj in X. injection X as _ <-. split; [reflexivity|lia]. }
  induction s as [|x s IH].
  - split; [intros; discriminate|]. intros c n t r. destruct (is c cDQ) eqn:E; [now apply A|].
    rewrite R, E. destruct (is c cBS); [discriminate|]. destruct (n <? 999)%nat; [|discriminate].
    destruct (n <? 512)%nat; discriminate.
  - destruct IH as [I1 I2]. split; [intros n t r H; apply I2 in H; cbn [length]; split; [tauto|lia]|].
    intros c n t r. destruct (is c cDQ) eqn:E; [now apply A|].
    rewrite R, E. destruct (is c cBS) eqn:E2; (destruct (n <? 999)%nat; [|discriminate]; destruct (n <? 512)%nat; [|discriminate]).
    + destruct (readString (S n) s) as [[t' r']| |] eqn:E3; cbn [obind]; [|discriminate..].
      intros X. apply Ok_inj in X. injection X as _ <-. apply I1 in E3. cbn [length].
      change (nesting LStr (c :: x :: s)) with (0 + nesting (lexnext LStr c) (x :: s)).
      unfold lexnext at 1. rewrite E, E2. change (nesting LEsc (x :: s)) with (0 + nesting LStr s). split; [lia|lia].
    + destruct (readString (S n) (x :: s)) as [[t' r']| |] eqn:E3; cbn [obind]; [|discriminate..].
      intros X. apply Ok_inj in X. injection X as _ <-. apply I2 in E3. cbn [length].
      change (nesting LStr (c :: x :: s)) with (0 + nesting (lexnext LStr c) (x :: s)).
      unfold lexnext at 1. rewrite E, E2. split; [lia|lia].
Qed.

(** reading a list from empty input never ends *)
Lemma cons_eof : forall f, readCons f [] = None.
Proof.
  induction f as [|f IH]; auto. rewrite cons_eq. unfold cons_body.
  destruct f as [|f]; [reflexivity|]. rewrite sexp_eq. cbn [eatWhitespace eatWs rbind rret peekFirstChar getc_char ungetc].
  now rewrite IH.
Qed.

Definition term (x : rres) (s : bytes) (k : Z) (strict : Prop) : Prop :=
  match x with
  | None => 0 < nest s + k
  | Some (Ok (_, r, _)) => nest r = nest s + k /\ (length r <= length s)%nat /\ (strict -> (length r < length s)%nat)
  | Some _ => True
  end.

Lemma bind_term : forall x f s k st s' k' st',
  term x s k st -> (nest s' + k' = nest s + k) -> (length s <= length s')%nat ->
  (forall d r e, x = rret d r e -> term (f d r e) s' k' st') ->
  (x = None -> 0 < nest s' + k') ->
  term (rbind x f) s' k' st'.
Proof.
  intros [[[[d r] e]| |]|] f s k st s' k' st' H E L K N; cbn [rbind]; [now apply K|exact I..|]. now apply N.
Qed.

Lemma reader_term : forall f,
  (forall s, (2 * length s + 1 <= f)%nat -> term (sexpRead f s) s 0 (s <> [])) /\
  (forall s, (2 * length s + 2 <= f)%nat -> term (readCons f s) s 1 (s <> [])) /\
  (forall hd ret e s, (2 * length s + 2 <= f)%nat -> term (readListMacro f hd ret e s) s 0 False).
Proof.
  induction f as [|f (I1 & I2 & I3)]; [repeat split; intros; lia|]. split; [|split].
  - intros s L. rewrite sexp_eq. pose proof (nest_eat s false) as Ne. cbv iota in Ne. fold (nest s) in Ne.
    pose proof (eat_len false s) as Le. unfold eatWhitespace.
    destruct (eatWs false s) as [|c s1] eqn:E.
    { cbn [rret term]. change (nest []) with 0 in *. cbn [length]. split; [lia|]. split; [lia|].
      intros N. destruct s; [congruence|cbn [length]; lia]. }
    apply eat_shape in E as So. cbn [length] in Le.
    (* the three prefix forms *)
    assert (Pq : forall q, c <> cDQ -> c <> cLP -> c <> cRP ->
      term (rbind (sexpRead f s1) (fun d r e => rret (list2 q d) r e)) s 0 (s <> [])).
    { intros q N1 N2 N3. assert (En : nest s = nest s1) by (rewrite Ne; apply nest_plain; auto; apply So).
      specialize (I1 s1 ltac:(lia)). destruct (sexpRead f s1) as [[[[d r] e]| |]|]; cbn [rbind rret term] in *; try tauto; [|lia].
      destruct I1 as (A & B & _). split; [lia|]. split; [lia|]. lia. }
    destruct (isdigit c) eqn:Dg.
    { destruct (readNumber (c :: s1)) as [[d r]| |] eqn:En; cbn [omap term]; auto. apply nest_number in En as (A & B & C).
      specialize (C Dg). cbn [fst snd length] in *. split; [lia|]. split; [lia|]. lia. }
    destruct (is c cQT) eqn:E1; [apply is_true in E1; subst c; apply Pq; discriminate|].
    destruct (is c cLP) eqn:E2.
    { apply is_true in E2. subst c. change (nest (cLP :: s1)) with (1 + nest s1) in Ne.
      specialize (I2 s1 ltac:(lia)). destruct (readCons f s1) as [[[[d r] e]| |]|]; cbn [term] in *; auto; [|lia].
      destruct I2 as (A & B & _). split; [lia|]. split; [lia|]. lia. }
    destruct (is c cLB) eqn:E3.
    { apply is_true in E3. subst c. rewrite nest_plain in Ne by discriminate.
      specialize (I3 s_list [] false s1 ltac:(lia)). destruct (readListMacro f s_list [] false s1) as [[[[d r] e]| |]|]; cbn [term] in *; auto; [|lia].
      destruct I3 as (A & B & _). split; [lia|]. split; [lia|]. lia. }
    destruct (is c cBQ) eqn:E4; [apply is_true in E4; subst c; apply Pq; discriminate|].
    destruct (is c cCM) eqn:E5; [apply is_true in E5; subst c; apply Pq; discriminate|].
    destruct (is c cDQ) eqn:E6.
    { apply is_true in E6. subst c. change (nest (cDQ :: s1)) with (nesting LStr s1) in Ne.
      destruct (readString 0 s1) as [[d r]| |] eqn:Es; cbn [omap term]; auto. apply (proj1 (nest_string s1)) in Es as (A & B).
      cbn [fst snd]. split; [lia|]. split; [lia|]. lia. }
    destruct (isIdentifierChar c) eqn:E7; [|exact I].
    destruct (span isIdentifierChar (c :: s1)) as [t r] eqn:Sp. apply span_spec in Sp as (Et & Ft' & Hr).
    destruct (symbolOf t); cbn [omap term]; auto.
    assert (Lr : (length r <= length s1)%nat).
    { destruct t as [|x t]; cbn [app] in Et; [subst r; congruence|]. injection Et as _ ->. rewrite app_length. lia. }
    rewrite Et, nest_span in Ne by auto. split; [lia|]. split; [lia|]. lia.
  - intros s L. rewrite cons_eq.
    assert (B : s <> [] -> term (cons_body f s) s 1 (s <> [])).
    { intros Ns. unfold cons_body. specialize (I1 s ltac:(lia)).
      destruct (sexpRead f s) as [[[[d r] e]| |]|]; cbn [rbind term] in *; auto; [|lia].
      destruct I1 as (A & B & C). specialize (C Ns). destruct (peekFirstChar r) as [c r1] eqn:Ep.
      pose proof (nest_peek _ _ _ Ep) as Np.
      assert (Lp : (length (ungetc c r1) <= length r)%nat).
      { unfold peekFirstChar in Ep. pose proof (eat_len false r) as Le. unfold eatWhitespace in Ep.
        destruct (eatWs false r) as [|x y]; cbn [getc_char length] in *; injection Ep as <- <-; cbn [ungetc length]; [lia|].
        destruct (is x cFF); cbn [ungetc length]; lia. }
      specialize (I2 (ungetc c r1) ltac:(lia)). destruct (readCons f (ungetc c r1)) as [[[[d2 r2] e2]| |]|]; cbn [rbind rret term] in *; auto; [|lia].
      split; [lia|]. split; [lia|]. lia. }
    destruct s as [|c s1].
    + destruct f as [|f]; [cbn; lia|]. assert (X : cons_body (S f) [] = None).
      { unfold cons_body. rewrite sexp_eq. cbn [eatWhitespace eatWs rbind rret peekFirstChar getc_char ungetc]. now rewrite cons_eof. }
      rewrite X. cbn. lia.
    + destruct (is c cRP) eqn:E; [|apply B; discriminate]. apply is_true in E. subst c.
      cbn [rret term length]. change (nest (cRP :: s1)) with (-1 + nest s1). split; [lia|]. split; [lia|]. lia.
  - intros hd ret e s L. rewrite macro_eq. destruct (peekFirstChar s) as [c r] eqn:Ep.
    pose proof (nest_peek _ _ _ Ep) as Np.
    assert (Lp : (length (ungetc c r) <= length s)%nat).
    { unfold peekFirstChar in Ep. pose proof (eat_len false s) as Le. unfold eatWhitespace in Ep.
      destruct (eatWs false s) as [|x y]; cbn [getc_char length] in *; injection Ep as <- <-; cbn [ungetc length]; [lia|].
      destruct (is x cFF); cbn [ungetc length]; lia. }
    destruct c as [b|]; cbn [ungetc length] in *.
    + destruct (is b cRB) eqn:E1.
      { apply is_true in E1. subst b. rewrite nest_plain in Np by discriminate. cbn [rret term]. split; [lia|]. split; [lia|tauto]. }
      destruct (is b cDOT) eqn:E2.
      { apply is_true in E2. subst b. rewrite nest_plain in Np by discriminate.
        specialize (I3 s_list_rest ret e r ltac:(lia)). destruct (readListMacro f s_list_rest ret e r) as [[[[d2 r2] e2]| |]|]; cbn [term] in *; auto; [|lia].
        split; [lia|]. split; [lia|tauto]. }
      specialize (I1 (b :: r) ltac:(cbn [length]; lia)). destruct (sexpRead f (b :: r)) as [[[[d r2] e2]| |]|]; cbn [rbind term] in *; auto; [|lia].
      destruct I1 as (A & B & C). specialize (C ltac:(discriminate)). cbn [length] in *.
      specialize (I3 hd (d :: ret) (e || e2)%bool r2 ltac:(lia)). destruct (readListMacro f hd (d :: ret) (e || e2) r2) as [[[[d3 r3] e3]| |]|]; cbn [term] in *; auto; [|lia].
      split; [lia|]. split; [lia|tauto].
    + cbn [rret term]. split; [lia|]. split; [lia|tauto].
Qed.
