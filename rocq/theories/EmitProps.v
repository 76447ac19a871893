(** C40 and C41: what the C compiler reads back from the emitted text. *)
From Coq Require Import List ZArith Bool Ascii String Arith Lia.
From Verif Require Import Base StrModel StrProofs ReaderModel EmitModel.
Import ListNotations.
Local Open Scope list_scope.
Local Open Scope nat_scope.

(** * Specification: reading a C string literal (C11 6.4.5, 6.4.4.4)

    The input starts after the opening quote.  The result is the bytes of the
    array (without the final NUL) and the text after the closing quote; [None]
    means the text is not a valid literal.  Universal character names and
    escapes the standard does not define are [None].  Trigraphs are off, as by
    default in gcc and clang. *)
Definition nat_of (c : ascii) : nat := nat_of_ascii c.
Definition octal (c : ascii) : option nat :=
  if (48 <=? nat_of c) && (nat_of c <=? 55) then Some (nat_of c - 48) else None.
Definition hexd (c : ascii) : option nat :=
  if (48 <=? nat_of c) && (nat_of c <=? 57) then Some (nat_of c - 48)
  else if (97 <=? nat_of c) && (nat_of c <=? 102) then Some (nat_of c - 87)
  else if (65 <=? nat_of c) && (nat_of c <=? 70) then Some (nat_of c - 55) else None.

Inductive rmode := RText | RBack | ROct (n k : nat) | RHex (n : nat) (seen : bool).

Definition byte (n : nat) : option ascii := if n <? 256 then Some (ascii_of_nat n) else None.
Definition simple_escape (c : ascii) : option ascii :=
  match nat_of c with
  | 34 => Some (ascii_of_nat 34) | 39 => Some (ascii_of_nat 39) | 63 => Some (ascii_of_nat 63)
  | 92 => Some (ascii_of_nat 92) | 97 => Some (ascii_of_nat 7) | 98 => Some (ascii_of_nat 8)
  | 102 => Some (ascii_of_nat 12) | 110 => Some (ascii_of_nat 10) | 114 => Some (ascii_of_nat 13)
  | 116 => Some (ascii_of_nat 9) | 118 => Some (ascii_of_nat 11) | _ => None
  end.

Definition ocons (c : option ascii) (r : option (bytes * bytes)) : option (bytes * bytes) :=
  match c, r with Some c, Some (t, w) => Some (c :: t, w) | _, _ => None end.

Fixpoint read_lit (m : rmode) (s : bytes) {struct s} : option (bytes * bytes) :=
  match s with
  | [] => None
  | c :: s' =>
      let text (tt : unit) :=
        if nat_of c =? 34 then Some ([], s')
        else if nat_of c =? 92 then read_lit RBack s'
        else if nat_of c =? 10 then None
        else ocons (Some c) (read_lit RText s') in
      match m with
      | RText => text tt
      | RBack =>
          match octal c with
          | Some d => read_lit (ROct d 1) s'
          | None =>
              if nat_of c =? 120 then read_lit (RHex 0 false) s'
              else if nat_of c =? 10 then read_lit RText s'
              else match simple_escape c with
                   | Some e => ocons (Some e) (read_lit RText s')
                   | None => None
                   end
          end
      | ROct n k =>
          match octal c with
          | Some d => if k <? 3 then read_lit (ROct (8 * n + d) (S k)) s' else ocons (byte n) (text tt)
          | None => ocons (byte n) (text tt)
          end
      | RHex n seen =>
          match hexd c with
          | Some d => read_lit (RHex (16 * n + d) true) s'
          | None => if seen then ocons (byte n) (text tt) else None
          end
      end
  end.

(** * C40 *)

(** the effect of the escape loop *)
Definition esc1 (c : ascii) : bytes :=
  if Ascii.eqb c QUO then [BSL; QUO]
  else if Ascii.eqb c LF then [BSL; ch 110]
  else if Ascii.eqb c TAB then [BSL; ch 116] else [c].

Lemma escape_loop_ok : forall s b c, buf_repr b c ->
  exists b', escape_loop s b = Ok b' /\ buf_repr b' (c ++ flat_map esc1 s).
Proof.
  induction s as [|x s IH]; intros b c H; cbn [escape_loop flat_map].
  - exists b. rewrite app_nil_r. auto.
  - assert (E : exists b1, (if Ascii.eqb x QUO then (do! d <- strAppend b BSL; strAppend d QUO)%out
                  else if Ascii.eqb x LF then (do! d <- strAppend b BSL; strAppend d (ch 110))%out
                  else if Ascii.eqb x TAB then (do! d <- strAppend b BSL; strAppend d (ch 116))%out
                  else strAppend b x) = Ok b1 /\ buf_repr b1 (c ++ esc1 x)).
    { unfold esc1.
      assert (T : forall u v, exists b1, (do! d <- strAppend b u; strAppend d v)%out = Ok b1
                /\ buf_repr b1 (c ++ [u; v])).
      { intros u v. destruct (strAppend_repr b c u H) as (b1 & -> & H1). cbn [obind].
        destruct (strAppend_repr b1 _ v H1) as (b2 & -> & H2).
        exists b2. rewrite <- app_assoc in H2. auto. }
      destruct (Ascii.eqb x QUO); [apply T|]. destruct (Ascii.eqb x LF); [apply T|].
      destruct (Ascii.eqb x TAB); [apply T|]. now apply strAppend_repr. }
    destruct E as (b1 & -> & H1). cbn [obind].
    destruct (IH b1 _ H1) as (b2 & -> & H2). exists b2. rewrite app_assoc. auto.
Qed.

Lemma escape_str_ok : forall s, escape_str s = Ok (flat_map esc1 s).
Proof.
  intros [|c s]; [reflexivity|]. unfold escape_str.
  destruct (strNew_repr (List.length (c :: s)) ltac:(cbn; lia)) as (b & -> & H & _). cbn [obind].
  destruct (escape_loop_ok (c :: s) b [] H) as (b' & -> & H'). cbn [obind].
  now apply toStr_repr.
Qed.

Definition no_char (c : ascii) (s : bytes) : Prop := ~ In c s.

Lemma cstr_id : forall s, no_char NUL s -> cstr s = s.
Proof.
  induction s as [|c s IH]; intros H; [reflexivity|]. cbn [cstr].
  destruct (Ascii.eqb_spec c NUL) as [->|N]; [exfalso; apply H; now left|].
  f_equal. apply IH. intro X. apply H. now right.
Qed.

Lemma esc_no_nul : forall s, no_char NUL s -> no_char NUL (flat_map esc1 s).
Proof.
  intros s H X. apply in_flat_map in X. destruct X as (c & Hc & Hi). unfold esc1 in Hi.
  destruct (Ascii.eqb c QUO); [|destruct (Ascii.eqb c LF); [|destruct (Ascii.eqb c TAB)]];
    cbn in Hi; repeat destruct Hi as [Hi|Hi]; try discriminate; try contradiction.
  subst. contradiction.
Qed.

Lemma nat_of_eqb : forall c n, n < 256 -> (nat_of c =? n) = Ascii.eqb c (ascii_of_nat n).
Proof.
  intros c n L. unfold nat_of. destruct (Ascii.eqb_spec c (ascii_of_nat n)) as [->|N].
  - rewrite nat_ascii_embedding by lia. apply Nat.eqb_refl.
  - apply Nat.eqb_neq. intro E. apply N. rewrite <- E. now rewrite ascii_nat_embedding.
Qed.

Lemma read_text : forall c u, read_lit RText (c :: u) =
  if nat_of c =? 34 then Some ([], u) else if nat_of c =? 92 then read_lit RBack u
  else if nat_of c =? 10 then None else ocons (Some c) (read_lit RText u).
Proof. reflexivity. Qed.
Lemma read_back : forall c u, read_lit RBack (c :: u) =
  match octal c with
  | Some d => read_lit (ROct d 1) u
  | None => if nat_of c =? 120 then read_lit (RHex 0 false) u
            else if nat_of c =? 10 then read_lit RText u
            else match simple_escape c with
                 | Some e => ocons (Some e) (read_lit RText u) | None => None end
  end.
Proof. reflexivity. Qed.
Lemma read_oct : forall n k c u, read_lit (ROct n k) (c :: u) =
  match octal c with
  | Some d => if k <? 3 then read_lit (ROct (8 * n + d) (S k)) u
              else ocons (byte n) (read_lit RText (c :: u))
  | None => ocons (byte n) (read_lit RText (c :: u))
  end.
Proof. reflexivity. Qed.
Lemma read_hex : forall n b c u, read_lit (RHex n b) (c :: u) =
  match hexd c with
  | Some d => read_lit (RHex (16 * n + d) true) u
  | None => if b then ocons (byte n) (read_lit RText (c :: u)) else None
  end.
Proof. reflexivity. Qed.

Lemma read_esc : forall s w, no_char BSL s ->
  read_lit RText (flat_map esc1 s ++ QUO :: w) = Some (s, w).
Proof.
  induction s as [|c s IH]; intros w H.
  - reflexivity.
  - assert (HB : c <> BSL) by (intro; subst; apply H; now left).
    assert (Hs : no_char BSL s) by (intro; apply H; now right).
    cbn [flat_map]. unfold esc1.
    destruct (Ascii.eqb_spec c QUO) as [->|N1].
    { change (ocons (Some QUO) (read_lit RText (flat_map esc1 s ++ QUO :: w)) = Some (QUO :: s, w)). now rewrite (IH w Hs). }
    destruct (Ascii.eqb_spec c LF) as [->|N2].
    { change (ocons (Some LF) (read_lit RText (flat_map esc1 s ++ QUO :: w)) = Some (LF :: s, w)). now rewrite (IH w Hs). }
    destruct (Ascii.eqb_spec c TAB) as [->|N3].
    { change (ocons (Some TAB) (read_lit RText (flat_map esc1 s ++ QUO :: w)) = Some (TAB :: s, w)). now rewrite (IH w Hs). }
    cbn [app]. rewrite read_text, !nat_of_eqb by lia.
    change (ascii_of_nat 34) with QUO. change (ascii_of_nat 92) with BSL. change (ascii_of_nat 10) with LF.
    destruct (Ascii.eqb_spec c QUO); [contradiction|].
    destruct (Ascii.eqb_spec c BSL); [contradiction|].
    destruct (Ascii.eqb_spec c LF); [contradiction|].
    fold esc1. now rewrite (IH w Hs).
Qed.

(** C40, without the strings that contain a backslash or a NUL: the literal
    denotes the string, whatever text follows. *)
Theorem string_constant_partial : forall s w, no_char BSL s -> no_char NUL s ->
  exists t, generate_string_const s = Ok (QUO :: t) /\
            read_lit RText (t ++ w) = Some (s, ch 41 :: w).
Proof.
  intros s w HB HN. unfold generate_string_const. rewrite escape_str_ok. cbn [obind].
  eexists. split; [reflexivity|].
  unfold generate_str. rewrite cstr_id by now apply esc_no_nul.
  rewrite <- app_assoc. now apply read_esc.
Qed.
Print Assumptions string_constant_partial.

Definition b_of (s : string) : bytes := list_ascii_of_string s.
Example string_constant_example :
  let s := b_of "say ""hi""" ++ [LF; TAB] ++ b_of "100% ?" in
  no_char BSL s /\ no_char NUL s /\
  generate_string_const s = Ok (QUO :: b_of "say \""hi\""\n\t100% ?" ++ [QUO; ch 41]).
Proof.
  split; [|split; [|reflexivity]]; intro H; cbn in H;
  repeat match type of H with _ \/ _ => destruct H as [H|H]; [discriminate|] end; exact H.
Qed.

(** A string with a backslash comes back as another string, or not at all. *)
Theorem string_constant_refuted : exists s t,
  generate_string_const s = Ok (QUO :: t) /\
  read_lit RText t = Some ([LF], [ch 41]) /\ s <> [LF].
Proof. exists [BSL; ch 110], [BSL; ch 110; QUO; ch 41]. repeat split; discriminate. Qed.
Print Assumptions string_constant_refuted.

(** A string that ends in a backslash swallows the closing quote. *)
Theorem string_constant_unterminated_refuted : exists s t,
  generate_string_const s = Ok (QUO :: t) /\ read_lit RText t = None.
Proof. exists [ch 97; BSL], [ch 97; BSL; QUO; ch 41]. repeat split. Qed.
Print Assumptions string_constant_unterminated_refuted.

Theorem string_constant_nul_refuted : exists s t,
  generate_string_const s = Ok (QUO :: t) /\ read_lit RText t = Some ([ch 97], [ch 41]) /\ s <> [ch 97].
Proof. exists [ch 97; NUL; ch 98], [ch 97; QUO; ch 41]. repeat split; discriminate. Qed.
Print Assumptions string_constant_nul_refuted.

Lemma ocons_inv : forall c r t w, ocons c r = Some (t, w) ->
  exists x t', c = Some x /\ r = Some (t', w) /\ t = x :: t'.
Proof.
  intros [c|] [[t' w']|] t w H; cbn in H; try discriminate.
  injection H as <- <-. eauto.
Qed.

Lemma read_rest : forall u m r w', read_lit m u = Some (r, w') ->
  exists v, u = v ++ QUO :: w'.
Proof.
  induction u as [|c u IH]; intros m r w' H; [discriminate|].
  assert (TX : forall r, (if nat_of c =? 34 then Some ([], u) else if nat_of c =? 92 then read_lit RBack u
            else if nat_of c =? 10 then None else ocons (Some c) (read_lit RText u)) = Some (r, w') ->
            exists v, c :: u = v ++ QUO :: w').
  { intros r0. rewrite !nat_of_eqb by lia. change (ascii_of_nat 34) with QUO.
    destruct (Ascii.eqb_spec c QUO) as [->|]; [intro E; injection E as <- <-; now exists []|].
    destruct (Ascii.eqb c (ascii_of_nat 92)); [intro E; apply IH in E; destruct E as (v & ->); now exists (c :: v)|].
    destruct (Ascii.eqb c (ascii_of_nat 10)); [discriminate|].
    intro E. apply ocons_inv in E. destruct E as (x & t' & _ & E & _). apply IH in E. destruct E as (v & ->). now exists (c :: v). }
  cbn [read_lit] in H. cbv zeta in H.
  assert (RE : forall m r, read_lit m u = Some (r, w') -> exists v, c :: u = v ++ QUO :: w').
  { intros m0 r0 E. apply IH in E. destruct E as (v & ->). now exists (c :: v). }
  assert (RO : forall x m r, ocons x (read_lit m u) = Some (r, w') -> exists v, c :: u = v ++ QUO :: w').
  { intros x m0 r0 E. apply ocons_inv in E. destruct E as (? & t' & _ & E & _). eapply RE; eauto. }
  destruct m.
  - eapply TX; eauto.
  - destruct (octal c); [eapply RE; eauto|]. destruct (nat_of c =? 120); [eapply RE; eauto|].
    destruct (nat_of c =? 10); [eapply RE; eauto|]. destruct (simple_escape c); [eapply RO; eauto|discriminate].
  - destruct (octal c); [destruct (k <? 3); [eapply RE; eauto|]|];
      apply ocons_inv in H; destruct H as (? & t' & _ & E & _); eapply TX; eauto.
  - destruct (hexd c); [eapply RE; eauto|]. destruct seen; [|discriminate].
    apply ocons_inv in H; destruct H as (? & t' & _ & E & _); eapply TX; eauto.
Qed.

(** A weight that the compiler's reading never increases, and decreases at
    every backslash of the string, which the emitter passes through. *)
Definition wt (c : ascii) : nat :=
  if Ascii.eqb c BSL || Ascii.eqb c LF || Ascii.eqb c TAB then 2 else 1.
Definition weight (s : bytes) : nat := list_sum (List.map wt s).
Definition budget (m : rmode) : nat :=
  match m with RText => 0 | RBack => 1 | ROct _ _ => 2 | RHex _ _ => 2 end.

Lemma wt_le : forall c, wt c <= 2.
Proof. intro c. unfold wt. destruct (_ || _); lia. Qed.
Lemma wt_pos : forall c, 1 <= wt c.
Proof. intro c. unfold wt. destruct (_ || _); lia. Qed.

Lemma no_rest : forall m u r w, List.length u <= List.length w -> read_lit m u = Some (r, w) -> False.
Proof.
  intros m u r w L H. apply read_rest in H. destruct H as (v & ->).
  rewrite app_length in L. cbn in L. lia.
Qed.

Lemma weight_cons : forall c s, weight (c :: s) = wt c + weight s.
Proof. reflexivity. Qed.

Lemma read_weight : forall s m r w,
  read_lit m (flat_map esc1 s ++ QUO :: w) = Some (r, w) ->
  weight r <= weight s + budget m /\ (m = RText -> In BSL s -> weight r < weight s).
Proof.
  induction s as [|c s IH]; intros m r w H.
  - cbn [flat_map app] in H. destruct m;
      [rewrite read_text in H|rewrite read_back in H|rewrite read_oct, read_text in H|rewrite read_hex, read_text in H].
    + injection H as <-. cbn. split; [lia|contradiction].
    + change (ocons (Some QUO) (read_lit RText w) = Some (r, w)) in H. apply ocons_inv in H. destruct H as (x & t & _ & E & ->).
      exfalso. eapply (no_rest RText w t w); eauto.
    + change (ocons (byte n) (Some ([], w)) = Some (r, w)) in H.
      apply ocons_inv in H. destruct H as (x & t & _ & E & ->). injection E as <-.
      cbn. pose proof (wt_le x). split; [lia|discriminate].
    + change ((if seen then ocons (byte n) (Some ([], w)) else None) = Some (r, w)) in H.
      destruct seen; [|discriminate]. apply ocons_inv in H. destruct H as (x & t & _ & E & ->). injection E as <-.
      cbn. pose proof (wt_le x). split; [lia|discriminate].
  - cbn [flat_map] in H. rewrite <- app_assoc in H.
    set (u := flat_map esc1 s ++ QUO :: w) in *.
    (* a special character of the string, read as text *)
    assert (SP : forall x e, (x = QUO /\ e = QUO) \/ (x = LF /\ e = ch 110) \/ (x = TAB /\ e = ch 116) ->
      forall r, read_lit RText (BSL :: e :: u) = Some (r, w) -> weight r <= weight (x :: s) /\ (In BSL s -> weight r < weight (x :: s))).
    { intros x e D r0 E.
      assert (F : ocons (Some x) (read_lit RText u) = Some (r0, w))
        by (destruct D as [[-> ->]|[[-> ->]|[-> ->]]]; exact E).
      apply ocons_inv in F. destruct F as (y & t & Ey & E1 & ->). injection Ey as <-.
      apply IH in E1. destruct E1 as (A & B). rewrite !weight_cons. cbn [budget] in A. split; [lia|].
      intro I. specialize (B eq_refl I). lia. }
    (* any character of the string, read as text *)
    assert (TX : forall r, read_lit RText (esc1 c ++ u) = Some (r, w) ->
       weight r <= weight (c :: s) /\ (In BSL (c :: s) -> weight r < weight (c :: s))).
    { intros r0 E. unfold esc1 in E.
      destruct (Ascii.eqb_spec c QUO) as [->|N1].
      { destruct (SP QUO QUO (or_introl (conj eq_refl eq_refl)) r0 E) as (A & B). split; [exact A|].
        intros [X|X]; [discriminate|auto]. }
      destruct (Ascii.eqb_spec c LF) as [->|N2].
      { destruct (SP LF (ch 110) (or_intror (or_introl (conj eq_refl eq_refl))) r0 E) as (A & B). split; [exact A|].
        intros [X|X]; [discriminate|auto]. }
      destruct (Ascii.eqb_spec c TAB) as [->|N3].
      { destruct (SP TAB (ch 116) (or_intror (or_intror (conj eq_refl eq_refl))) r0 E) as (A & B). split; [exact A|].
        intros [X|X]; [discriminate|auto]. }
      cbn [app] in E. rewrite read_text, !nat_of_eqb in E by lia.
      change (ascii_of_nat 34) with QUO in E. change (ascii_of_nat 92) with BSL in E. change (ascii_of_nat 10) with LF in E.
      destruct (Ascii.eqb_spec c QUO); [contradiction|].
      destruct (Ascii.eqb_spec c BSL) as [->|NB].
      { apply IH in E. destruct E as (A & _). cbn [budget] in A. rewrite weight_cons. change (wt BSL) with 2. split; intros; lia. }
      destruct (Ascii.eqb_spec c LF); [contradiction|].
      apply ocons_inv in E. destruct E as (y & t & Ey & E1 & ->). injection Ey as <-.
      apply IH in E1. destruct E1 as (A & B). rewrite !weight_cons. cbn [budget] in A. split; [lia|].
      intros [X|X]; [congruence|]. specialize (B eq_refl X). lia. }
    (* ... and after a complete octal or hexadecimal escape *)
    assert (OT : forall n r, ocons (byte n) (read_lit RText (esc1 c ++ u)) = Some (r, w) ->
       weight r <= weight (c :: s) + 2).
    { intros n r0 E. apply ocons_inv in E. destruct E as (x & t & _ & E & ->).
      destruct (TX t E) as (A & _). pose proof (wt_le x). rewrite weight_cons. lia. }
    destruct m as [| |n k|n seen].
    + destruct (TX r H) as (A & B). split; [cbn [budget]; lia|auto].
    + (* after a backslash *)
      split; [|discriminate]. cbn [budget].
      assert (SPB : forall x e, (x = QUO /\ e = QUO) \/ (x = LF /\ e = ch 110) \/ (x = TAB /\ e = ch 116) ->
          read_lit RBack (BSL :: e :: u) = Some (r, w) -> weight r <= weight (x :: s) + 1).
      { intros x e D E.
        destruct D as [[-> ->]|D].
        - cbn in E. unfold ocons in E. injection E as _ E.
          exfalso. apply (f_equal (@List.length ascii)) in E. unfold u in E. rewrite app_length in E. cbn in E. lia.
        - assert (F : ocons (Some BSL) (ocons (Some e) (read_lit RText u)) = Some (r, w))
            by (destruct D as [[-> ->]|[-> ->]]; exact E).
          apply ocons_inv in F. destruct F as (y & t & Ey & F & ->). injection Ey as <-.
          apply ocons_inv in F. destruct F as (z & t' & Ez & F & ->). injection Ez as <-.
          apply IH in F. destruct F as (A & _). rewrite !weight_cons. cbn [budget] in A.
          change (wt BSL) with 2.
          destruct D as [[-> ->]|[-> ->]]; [change (wt (ch 110)) with 1; change (wt LF) with 2|change (wt (ch 116)) with 1; change (wt TAB) with 2]; lia. }
      unfold esc1 in H.
      destruct (Ascii.eqb_spec c QUO) as [->|N1]; [apply (SPB QUO QUO); auto|].
      destruct (Ascii.eqb_spec c LF) as [->|N2]; [apply (SPB LF (ch 110)); auto|].
      destruct (Ascii.eqb_spec c TAB) as [->|N3]; [apply (SPB TAB (ch 116)); auto|].
      cbn [app] in H. rewrite read_back in H. pose proof (wt_pos c) as WP. rewrite weight_cons.
      destruct (octal c); [apply IH in H; cbn [budget] in H; lia|].
      destruct (nat_of c =? 120); [apply IH in H; cbn [budget] in H; lia|].
      rewrite (nat_of_eqb c 10) in H by lia. change (ascii_of_nat 10) with LF in H.
      destruct (Ascii.eqb_spec c LF); [contradiction|].
      destruct (simple_escape c) as [e|]; [|discriminate].
      apply ocons_inv in H. destruct H as (y & t & Ey & H & ->). injection Ey as <-.
      apply IH in H. cbn [budget] in H. pose proof (wt_le e). rewrite weight_cons. lia.
    + split; [|discriminate]. cbn [budget].
      destruct (esc1 c) as [|c0 l] eqn:Ec; [unfold esc1 in Ec; repeat destruct (Ascii.eqb _ _) in Ec; discriminate|].
      cbn [app] in H. rewrite read_oct in H.
      destruct (octal c0) as [d|] eqn:Eo.
      * destruct (k <? 3).
        -- assert (X : c0 = c /\ l = []).
           { unfold esc1 in Ec. destruct (Ascii.eqb c QUO); [injection Ec as <- <-; discriminate|].
             destruct (Ascii.eqb c LF); [injection Ec as <- <-; discriminate|].
             destruct (Ascii.eqb c TAB); [injection Ec as <- <-; discriminate|]. now injection Ec as <- <-. }
           destruct X as [-> ->]. cbn [app] in H. apply IH in H. cbn [budget] in H. rewrite weight_cons. lia.
        -- apply (OT n). exact H.
      * apply (OT n). exact H.
    + split; [|discriminate]. cbn [budget].
      destruct (esc1 c) as [|c0 l] eqn:Ec; [unfold esc1 in Ec; repeat destruct (Ascii.eqb _ _) in Ec; discriminate|].
      cbn [app] in H. rewrite read_hex in H.
      destruct (hexd c0) as [d|] eqn:Eo.
      * assert (X : c0 = c /\ l = []).
        { unfold esc1 in Ec. destruct (Ascii.eqb c QUO); [injection Ec as <- <-; discriminate|].
          destruct (Ascii.eqb c LF); [injection Ec as <- <-; discriminate|].
          destruct (Ascii.eqb c TAB); [injection Ec as <- <-; discriminate|]. now injection Ec as <- <-. }
        destruct X as [-> ->]. cbn [app] in H. apply IH in H. cbn [budget] in H. rewrite weight_cons. lia.
      * destruct seen; [|discriminate]. apply (OT n). exact H.
Qed.

Lemma cstr_split : forall s, exists p, cstr (flat_map esc1 s) = flat_map esc1 p /\
  (s = p \/ exists q, s = p ++ NUL :: q).
Proof.
  induction s as [|c s IH]; [exists []; auto|].
  destruct (Ascii.eqb_spec c NUL) as [->|N].
  - exists []. split; [reflexivity|right; now exists s].
  - destruct IH as (p & E & D). exists (c :: p). split.
    + cbn [flat_map]. rewrite <- E. unfold esc1.
      destruct (Ascii.eqb_spec c QUO); [reflexivity|]. destruct (Ascii.eqb_spec c LF); [reflexivity|].
      destruct (Ascii.eqb_spec c TAB); [reflexivity|]. cbn [app cstr].
      destruct (Ascii.eqb_spec c NUL); [contradiction|reflexivity].
    + destruct D as [->|(q & ->)]; [now left|right; now exists q].
Qed.

Lemma weight_app : forall a b, weight (a ++ b) = weight a + weight b.
Proof. intros. unfold weight. now rewrite map_app, list_sum_app. Qed.

(** C40, exactly: the literal denotes the string if and only if the string has
    no backslash and no NUL. *)
Theorem string_constant_exact : forall s w,
  (exists t, generate_string_const s = Ok (QUO :: t) /\
             read_lit RText (t ++ w) = Some (s, ch 41 :: w))
  <-> no_char BSL s /\ no_char NUL s.
Proof.
  intros s w. split.
  - intros (t & E & R). unfold generate_string_const in E. rewrite escape_str_ok in E. cbn [obind] in E.
    apply Ok_inj in E. injection E as <-. unfold generate_str in R.
    destruct (cstr_split s) as (p & E & D). rewrite E, <- app_assoc in R. cbn [app] in R.
    apply read_weight in R. destruct R as (A & B). cbn [budget] in A.
    destruct D as [->|(q & ->)].
    + split; [intro I; specialize (B eq_refl I); lia|].
      intro I. apply in_split in I. destruct I as (p1 & p2 & ->).
      (* a NUL would have cut the text *)
      assert (X : ~ In NUL (cstr (flat_map esc1 (p1 ++ NUL :: p2)))).
      { generalize (flat_map esc1 (p1 ++ NUL :: p2)). intro b0; induction b0 as [|x b1 IHb]; [auto|]. cbn [cstr].
        destruct (Ascii.eqb_spec x NUL); [auto|]. intros [Y|Y]; [congruence|auto]. }
      rewrite E in X. apply X. apply in_flat_map. exists NUL. split; [apply in_or_app; right; now left|now left].
    + exfalso. rewrite weight_app, weight_cons in A. change (wt NUL) with 1 in A. lia.
  - intros (HB & HN). now apply string_constant_partial.
Qed.
Print Assumptions string_constant_exact.

(** The name of a global is written without any escape. *)
Theorem symbol_name_partial : forall s w,
  no_char BSL s -> no_char NUL s -> no_char QUO s -> no_char LF s ->
  exists t, generate_symbol_name s = QUO :: t /\ read_lit RText (t ++ w) = Some (s, ch 41 :: w).
Proof.
  intros s w HB HN HQ HL. unfold generate_symbol_name, generate_str. rewrite cstr_id by auto.
  eexists. split; [reflexivity|]. rewrite <- app_assoc. cbn [app]. clear HN.
  induction s as [|c s IH]; [reflexivity|].
  cbn [app]. rewrite read_text, !nat_of_eqb by lia.
  change (ascii_of_nat 34) with QUO. change (ascii_of_nat 92) with BSL. change (ascii_of_nat 10) with LF.
  destruct (Ascii.eqb_spec c QUO); [exfalso; apply HQ; now left|].
  destruct (Ascii.eqb_spec c BSL); [exfalso; apply HB; now left|].
  destruct (Ascii.eqb_spec c LF); [exfalso; apply HL; now left|].
  rewrite IH; [reflexivity| | |]; intro I; [apply HB|apply HQ|apply HL]; now right.
Qed.
Print Assumptions symbol_name_partial.

Theorem symbol_name_refuted : exists s t, generate_symbol_name s = QUO :: t /\
  read_lit RText t = Some ([ch 97], [ch 98; QUO; ch 41]).
Proof. exists [ch 97; QUO; ch 98]. eexists. split; reflexivity. Qed.
Print Assumptions symbol_name_refuted.

(** * C41 *)

(** graphic ASCII characters and the space *)
Definition printable (c : ascii) : Prop := 32 <= nat_of c < 127.
Definition starts_digit (s : bytes) : Prop :=
  match s with c :: _ => 48 <= nat_of c <= 57 | [] => False end.

(** what may appear in a C identifier (C11 6.4.2.1) *)
Definition ident_char (c : ascii) : Prop :=
  97 <= nat_of c <= 122 \/ 65 <= nat_of c <= 90 \/ 48 <= nat_of c <= 57 \/ nat_of c = 95.
Definition c_identifier (s : bytes) : Prop := s <> [] /\ Forall ident_char s /\ ~ starts_digit s.

(** Decidable checks over all 256 characters. *)
Definition all_chars : list ascii := List.map ascii_of_nat (seq 0 256).
Lemma in_all_chars : forall c, In c all_chars.
Proof.
  intro c. unfold all_chars. apply in_map_iff. exists (nat_of_ascii c). split; [apply ascii_nat_embedding|].
  apply in_seq. pose proof (nat_ascii_bounded c). lia.
Qed.
Lemma for_all_chars : forall P : ascii -> bool, forallb P all_chars = true -> forall c, P c = true.
Proof. intros P H c. rewrite forallb_forall in H. apply H, in_all_chars. Qed.

Definition printableb (c : ascii) : bool := (32 <=? nat_of c) && (nat_of c <? 127).
Lemma printableb_spec : forall c, printableb c = true <-> printable c.
Proof. intro c. unfold printableb, printable. rewrite andb_true_iff, Nat.leb_le, Nat.ltb_lt. lia. Qed.

(** Reading an emitted name back. *)
Definition dval (c : ascii) : nat := nat_of c - 48.
Definition unemit (s : bytes) : option (ascii * bytes) :=
  match s with
  | c :: r =>
      if Ascii.eqb c UND then
        match r with
        | d :: r2 =>
            if Ascii.eqb d UND then Some (UND, r2)
            else if Ascii.eqb d (ch 49) then
              match r2 with
              | e :: f :: r4 => Some (ascii_of_nat (100 + 10 * dval e + dval f), r4)
              | _ => None
              end
            else match r2 with e :: r3 => Some (ascii_of_nat (10 * dval d + dval e), r3) | _ => None end
        | [] => None
        end
      else Some (c, r)
  | [] => None
  end.

Lemma emit_shape : forall c, printable c ->
  (emit_char c = [c] /\ c <> UND) \/ (exists d, emit_char c = [UND; d] /\ c = UND /\ d = UND)
  \/ (exists d e, emit_char c = [UND; d; e] /\ d <> UND /\ d <> ch 49 /\ c = ascii_of_nat (10 * dval d + dval e))
  \/ (exists e f, emit_char c = [UND; ch 49; e; f] /\ c = ascii_of_nat (100 + 10 * dval e + dval f)).
Proof.
  intros c H. apply printableb_spec in H.
  assert (X : (negb (printableb c) ||
    match emit_char c with
    | [x] => Ascii.eqb x c && negb (Ascii.eqb c UND)
    | [x; d] => Ascii.eqb x UND && Ascii.eqb c UND && Ascii.eqb d UND
    | [x; d; e] => Ascii.eqb x UND && negb (Ascii.eqb d UND) && negb (Ascii.eqb d (ch 49)) && Ascii.eqb c (ascii_of_nat (10 * dval d + dval e))
    | [x; d; e; f] => Ascii.eqb x UND && Ascii.eqb d (ch 49) && Ascii.eqb c (ascii_of_nat (100 + 10 * dval e + dval f))
    | _ => false
    end) = true).
  { revert c H. intros c _. revert c. apply for_all_chars. vm_compute. reflexivity. }
  rewrite H in X. cbn [negb orb] in X.
  destruct (emit_char c) as [|x [|d [|e [|f [|]]]]]; try discriminate;
    repeat (apply andb_true_iff in X; let Y := fresh in destruct X as [X Y]);
    repeat match goal with
           | H : Ascii.eqb _ _ = true |- _ => apply Ascii.eqb_eq in H
           | H : negb (Ascii.eqb _ _) = true |- _ => apply negb_true_iff in H; apply Ascii.eqb_neq in H
           end; subst x.
  - left. auto.
  - right; left. exists d. subst; auto.
  - right; right; left. exists d, e. auto.
  - subst d. right; right; right. exists e, f. auto.
Qed.

Lemma unemit_emit : forall c r, printable c -> unemit (emit_char c ++ r) = Some (c, r).
Proof.
  intros c r H.
  destruct (emit_shape c H) as [(E & N)|[(d & E & -> & ->)|[(d & e & E & N1 & N2 & Ec)|(e & f & E & Ec)]]];
    rewrite E; cbn [app unemit].
  - destruct (Ascii.eqb_spec c UND); [contradiction|reflexivity].
  - reflexivity.
  - change (Ascii.eqb UND UND) with true. cbn iota.
    destruct (Ascii.eqb_spec d UND); [contradiction|]. destruct (Ascii.eqb_spec d (ch 49)); [contradiction|].
    now rewrite <- Ec.
  - change (Ascii.eqb UND UND) with true. cbn iota.
    change (Ascii.eqb (ch 49) UND) with false. change (Ascii.eqb (ch 49) (ch 49)) with true. cbn iota.
    now rewrite <- Ec.
Qed.

Lemma emit_inj : forall s1 s2, Forall printable s1 -> Forall printable s2 ->
  flat_map emit_char s1 = flat_map emit_char s2 -> s1 = s2.
Proof.
  induction s1 as [|c1 s1 IH]; intros [|c2 s2] H1 H2 E; [reflexivity| | |].
  - exfalso. inversion H2; subst. apply (f_equal unemit) in E. cbn [flat_map] in E.
    rewrite unemit_emit in E by auto. discriminate.
  - exfalso. inversion H1; subst. apply (f_equal unemit) in E. cbn [flat_map] in E.
    rewrite unemit_emit in E by auto. discriminate.
  - inversion H1; subst. inversion H2; subst. apply (f_equal unemit) in E. cbn [flat_map] in E.
    rewrite !unemit_emit in E by auto. injection E as <- E. f_equal. auto.
Qed.

Lemma printable_no_nul : forall s, Forall printable s -> no_char NUL s.
Proof. intros s H I. rewrite Forall_forall in H. apply H in I. unfold printable, nat_of in I. cbn in I. lia. Qed.

Lemma is_dig_spec : forall c, is_dig c = true <-> 48 <= nat_of c <= 57.
Proof.
  intro c. assert (X : Bool.eqb (is_dig c) ((48 <=? nat_of c) && (nat_of c <=? 57)) = true)
    by (revert c; apply for_all_chars; vm_compute; reflexivity).
  apply eqb_prop in X. rewrite X, andb_true_iff, !Nat.leb_le. lia.
Qed.

Lemma generate_sym_ok : forall s, Forall printable s -> List.length s < 255 ->
  (starts_digit s /\ generate_sym s = Ok (VEE :: flat_map emit_char s))
  \/ (~ starts_digit s /\ generate_sym s = Ok (flat_map emit_char s)).
Proof.
  intros s HP HL. unfold generate_sym. rewrite cstr_id by now apply printable_no_nul.
  unfold assertT. destruct (Nat.ltb_spec (List.length s + 1) 256); [|lia].
  destruct s as [|c s]; [right; split; [intros []|reflexivity]|]. cbn [starts_digit].
  destruct (is_dig c) eqn:E; [left|right]; (split; [|reflexivity]); rewrite <- is_dig_spec; congruence.
Qed.

(** C41 for names of printable ASCII characters.  The one collision is between
    a name that starts with a digit and the same name after the letter v. *)
Theorem distinct_names_partial : forall s1 s2 t,
  Forall printable s1 -> Forall printable s2 ->
  generate_sym s1 = Ok t -> generate_sym s2 = Ok t ->
  s1 = s2 \/ (starts_digit s1 /\ s2 = VEE :: s1) \/ (starts_digit s2 /\ s1 = VEE :: s2).
Proof.
  intros s1 s2 t P1 P2 E1 E2.
  assert (L1 : List.length s1 < 255).
  { unfold generate_sym, assertT in E1. destruct (Nat.ltb_spec (List.length s1 + 1) 256); [lia|discriminate]. }
  assert (L2 : List.length s2 < 255).
  { unfold generate_sym, assertT in E2. destruct (Nat.ltb_spec (List.length s2 + 1) 256); [lia|discriminate]. }
  assert (EV : forall s, VEE :: flat_map emit_char s = flat_map emit_char (VEE :: s)) by reflexivity.
  assert (PV : printable VEE) by (unfold printable, nat_of; cbn; lia).
  destruct (generate_sym_ok s1 P1 L1) as [(D1 & F1)|(D1 & F1)];
  destruct (generate_sym_ok s2 P2 L2) as [(D2 & F2)|(D2 & F2)];
    rewrite F1 in E1; rewrite F2 in E2; apply Ok_inj in E1; apply Ok_inj in E2; subst t.
  - injection E2 as E2. left. symmetry. now apply emit_inj.
  - rewrite EV in E2. apply emit_inj in E2; auto.
  - rewrite EV in E2. symmetry in E2. apply emit_inj in E2; auto.
  - left. symmetry. now apply emit_inj.
Qed.
Print Assumptions distinct_names_partial.

(** Such a name is emitted as a C identifier. *)
Theorem emits_identifier : forall s, Forall printable s -> s <> [] -> List.length s < 255 ->
  exists t, generate_sym s = Ok t /\ c_identifier t.
Proof.
  intros s P N L.
  assert (F : Forall ident_char (flat_map emit_char s)).
  { apply Forall_forall. intros x I. apply in_flat_map in I. destruct I as (c & Hc & I).
    rewrite Forall_forall in P. apply P in Hc. apply printableb_spec in Hc.
    assert (X : negb (printableb c) || forallb (fun x =>
       ((97 <=? nat_of x) && (nat_of x <=? 122)) || ((65 <=? nat_of x) && (nat_of x <=? 90)) ||
       ((48 <=? nat_of x) && (nat_of x <=? 57)) || (nat_of x =? 95)) (emit_char c) = true)
      by (revert c Hc I; intros c _ _; revert c; apply for_all_chars; vm_compute; reflexivity).
    rewrite Hc in X. cbn [negb orb] in X. rewrite forallb_forall in X. specialize (X x I).
    rewrite !orb_true_iff, !andb_true_iff, !Nat.leb_le, Nat.eqb_eq in X. unfold ident_char. lia. }
  destruct (generate_sym_ok s P L) as [(D & E)|(D & E)]; rewrite E; eexists; (split; [reflexivity|]).
  - repeat split; [discriminate| |].
    + constructor; [unfold ident_char, nat_of; cbn; lia|exact F].
    + cbn. unfold nat_of. cbn. lia.
  - destruct s as [|c s]; [congruence|]. inversion P; subst.
    destruct (emit_shape c H1) as [(E1 & _)|[(d & E1 & _)|[(d & e & E1 & _)|(d & e & E1 & _)]]];
      cbn [flat_map] in *; rewrite E1 in *; cbn [app] in *;
      (repeat split; [discriminate|exact F|]); [exact D| | |]; cbn; unfold nat_of; cbn; lia.
Qed.
Print Assumptions emits_identifier.

Example names_example :
  Forall printable (b_of "hash-set!") /\
  generate_sym (b_of "hash-set!") = Ok (b_of "hash_45set_33") /\
  generate_sym (b_of "x1_y") = Ok (b_of "x1__y") /\ generate_sym (b_of "2nd") = Ok (b_of "v2nd").
Proof.
  split; [|repeat split]. apply Forall_forall. intros c I. apply printableb_spec. revert c I.
  apply Forall_forall. repeat constructor.
Qed.

(** The full property fails: a name and the same name after v, ... *)
Theorem distinct_names_refuted : exists s1 s2 t, s1 <> s2 /\
  Forall printable s1 /\ Forall printable s2 /\ generate_sym s1 = Ok t /\ generate_sym s2 = Ok t.
Proof.
  exists (b_of "1st"), (b_of "v1st"), (b_of "v1st").
  assert (P : forall s, forallb printableb s = true -> Forall printable s).
  { intros s H. apply Forall_forall. rewrite forallb_forall in H. intros c I. now apply printableb_spec, H. }
  repeat split; try discriminate; apply P; reflexivity.
Qed.
Print Assumptions distinct_names_refuted.

(** ... names with bytes outside ASCII, which also are no identifiers, ... *)
Theorem distinct_names_bytes_refuted : exists s1 s2 t, s1 <> s2 /\
  generate_sym s1 = Ok t /\ generate_sym s2 = Ok t /\ ~ c_identifier t.
Proof.
  exists [ascii_of_nat 195], [ascii_of_nat 250; ch 49], (b_of "_-61").
  repeat split; try discriminate. intros (_ & F & _).
  inversion F as [|? ? _ F1]; subst. inversion F1 as [|? ? A _]; subst. revert A. unfold ident_char, nat_of. cbn. lia.
Qed.
Print Assumptions distinct_names_bytes_refuted.

(** ... and the identifiers the generated function already uses: its parameters
    (lib/toc.cora:453), a local array, a keyword; a long name aborts. *)
Theorem reserved_names_refuted :
  generate_sym (b_of "co") = Ok (b_of "co") /\ generate_sym (b_of "R") = Ok (b_of "R") /\
  generate_sym (b_of "label") = Ok (b_of "label") /\ generate_sym (b_of "_args") = Ok (b_of "__args") /\
  generate_sym (b_of "int") = Ok (b_of "int") /\
  (forall s, 255 <= List.length s -> generate_sym s = Trap).
Proof.
  repeat split. intros s L. unfold generate_sym, assertT.
  destruct (Nat.ltb_spec (List.length s + 1) 256); [lia|reflexivity].
Qed.
Print Assumptions reserved_names_refuted.
