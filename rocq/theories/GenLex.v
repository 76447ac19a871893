(** The text that the generator writes is made of the tokens of a syntax tree. *)
From Coq Require Import List ZArith Bool String Ascii Arith Lia.
From Verif Require Import Base StrModel ReaderModel ReaderSpec ReaderProofs EmitModel EmitProps CoreSpec TocModel CSpec CParse GenModel GenCond.
Import ListNotations.
Local Open Scope string_scope.
Local Open Scope list_scope.
Local Open Scope nat_scope.

(** * Pieces of text *)
Definition softb (m : mode) : bool := match m with Idle | InId _ | InNum _ => true | _ => false end.
Definition idleb (m : mode) : bool := match m with Idle => true | _ => false end.
Definition sepc (c : ascii) : bool := negb (idchar c) && negb (is_ch c 46).
Definition sepb (b : bytes) : bool := match b with c :: _ => sepc c | [] => false end.

(** [a] writes text that is the tokens [ts]; [s]: it starts with a character
    that ends a name or a number; [h]: it does not end within one *)
Definition L (s h : bool) (a : outcome bytes) (ts : list tok) : Prop :=
  exists b t m, a = Ok b /\ lex_run Idle b = (t, m) /\ t ++ flush m = ts /\ softb m = true /\
    (h = true -> m = Idle) /\ (s = true -> sepb b = true).

Lemma run_app : forall a m b, lex_run m (a ++ b) =
  (fst (lex_run m a) ++ fst (lex_run (snd (lex_run m a)) b), snd (lex_run (snd (lex_run m a)) b)).
Proof.
  induction a as [|c a IH]; intros m b; cbn [app lex_run].
  - cbn. now destruct (lex_run m b).
  - destruct (lex_step m c) as (t, m1). rewrite (IH m1 b). destruct (lex_run m1 a) as (u, m2). cbn [fst snd].
    destruct (lex_run m2 b) as (v, m3). cbn [fst snd]. now rewrite app_assoc.
Qed.

Lemma idstart_not_blank : forall c, idstart c = true -> blank c = false.
Proof.
  intros c H.
  pose proof (for_all_chars (fun c => negb (idstart c) || negb (blank c)) ltac:(vm_compute; reflexivity) c) as X.
  cbn beta in X. rewrite H in X. now destruct (blank c).
Qed.
Lemma digit_start : forall c, digitb c = true -> start c = ([], InNum [c]).
Proof.
  intros c H. unfold start.
  pose proof (for_all_chars (fun c => negb (digitb c) || (negb (blank c) && negb (idstart c))) ltac:(vm_compute; reflexivity) c) as X.
  cbn beta in X. rewrite H in X. cbn in X. apply andb_true_iff in X as [X1 X2].
  destruct (blank c); [discriminate|]. destruct (idstart c); [discriminate|]. now rewrite H.
Qed.

(** a separator ends what was being read *)
Lemma soft_sep : forall m c, softb m = true -> sepc c = true -> lex_step m c = again m c.
Proof.
  intros m c S P. unfold sepc in P. apply andb_true_iff in P as [P1 P2].
  destruct (idchar c) eqn:I; [discriminate|]. unfold idchar in I. apply orb_false_iff in I as [I1 I2].
  destruct (is_ch c 46) eqn:D; [discriminate|].
  destruct m; try discriminate; cbn [lex_step].
  - unfold again. cbn [flush app]. now destruct (start c).
  - unfold idchar. now rewrite I1, I2.
  - now rewrite I1, I2, D.
Qed.

Lemma L_cat : forall s1 h1 s2 h2 a b ta tb, L s1 h1 a ta -> L s2 h2 b tb -> h1 || s2 = true -> L s1 h2 (a;; b) (ta ++ tb).
Proof.
  intros s1 h1 s2 h2 a b ta tb (x & t & m & -> & Rx & <- & Sm & Hh & Hs) (y & u & n & -> & Ry & <- & Sn & Hh2 & Hs2) E.
  assert (Z : exists w, lex_run Idle (x ++ y) = (w, n) /\ w ++ flush n = (t ++ flush m) ++ u ++ flush n).
  { rewrite run_app, Rx. cbn [fst snd].
    destruct h1.
    - assert (m = Idle) by auto. subst m. rewrite Ry. cbn [fst snd flush]. eexists; split; [reflexivity|].
      now rewrite app_nil_r, <- app_assoc.
    - cbn in E. subst s2. specialize (Hs2 eq_refl). destruct y as [|c y]; [discriminate|]. cbn [sepb] in Hs2.
      cbn [lex_run] in *. rewrite (soft_sep m c Sm Hs2). cbn [lex_step] in Ry. unfold again.
      destruct (start c) as (t1, m1). cbn [fst snd]. destruct (lex_run m1 y) as (u1, m2). injection Ry as <- <-. cbn [fst snd].
      eexists; split; [reflexivity|]. now rewrite <- !app_assoc. }
  destruct Z as (w & Rw & Ew). exists (x ++ y), w, n. split; [reflexivity|]. split; [exact Rw|]. split; [exact Ew|].
  split; [exact Sn|]. split; [exact Hh2|].
  intro Es. specialize (Hs Es). destruct x; [discriminate|exact Hs].
Qed.

Lemma L_lit : forall b s h ts, sepb b = s -> idleb (snd (lex_run Idle b)) = h -> softb (snd (lex_run Idle b)) = true ->
  fst (lex_run Idle b) ++ flush (snd (lex_run Idle b)) = ts -> L s h (Ok b) ts.
Proof.
  intros b s h ts E1 E2 E3 E4. destruct (lex_run Idle b) as (t, m) eqn:R. cbn [fst snd] in *.
  exists b, t, m. split; [reflexivity|]. split; [exact R|]. split; [exact E4|]. split; [exact E3|].
  split; [intros ->; destruct m; [reflexivity|discriminate..]|intros ->; exact E1].
Qed.
Lemma L_eq : forall s h a t t', L s h a t -> t = t' -> L s h a t'.
Proof. now intros; subst. Qed.
Lemma L_use : forall s h s' h' a t t', L s h a t -> implb s' s = true -> implb h' h = true -> t = t' -> L s' h' a t'.
Proof.
  intros s h s' h' a t t' (b & u & m & A & B & C & D & E & F) I J <-. exists b, u, m. repeat (split; [assumption|]).
  split; intros ->; cbn in *; auto.
Qed.

Lemma cat_nil_l : forall a, (Ok [] ;; a) = a.
Proof. now intros [a| |]. Qed.
Lemma cat_assoc : forall a b c, ((a;; b);; c) = (a;; b;; c).
Proof. intros [a| |] [b| |] [c| |]; cbn; try reflexivity. now rewrite app_assoc. Qed.

Ltac leaf :=
  match goal with
  | |- L _ _ ?a _ =>
      let b := eval vm_compute in (match a with Ok b => b | _ => [] end) in
      let s := eval vm_compute in (sepb b) in
      let r := eval vm_compute in (lex_run Idle b) in
      let h := eval vm_compute in (idleb (snd r)) in
      let ts := eval vm_compute in (fst r ++ flush (snd r)) in
      exact (L_lit b s h ts eq_refl eq_refl eq_refl eq_refl)
  end.

(** * Names and numbers *)

Lemma run_id : forall w acc, forallb idchar w = true -> lex_run (InId acc) w = ([], InId (rev w ++ acc)).
Proof.
  induction w as [|c w IH]; intros acc H; [reflexivity|]. cbn [forallb] in H. apply andb_true_iff in H as [H1 H2].
  cbn [lex_run lex_step]. rewrite H1, IH by assumption. cbn [rev]. now rewrite <- app_assoc.
Qed.
Lemma L_ident : forall b, ident b = true -> L false false (Ok b) [KId (string_of_list_ascii b)].
Proof.
  intros [|c r] H; [discriminate|]. cbn [ident] in H. apply andb_true_iff in H as [H1 H2].
  exists (c :: r), [], (InId (rev r ++ [c])). split; [reflexivity|].
  assert (S : start c = ([], InId [c])) by (unfold start; now rewrite (idstart_not_blank c H1), H1).
  split; [cbn [lex_run lex_step]; rewrite S, run_id by assumption; reflexivity|].
  split; [cbn [flush app]; now rewrite rev_app_distr, rev_involutive|]. (split; [reflexivity|split; intro; discriminate]).
Qed.

Lemma isdigit_digitb : forall c, isdigit c = digitb c.
Proof.
  intro c. pose proof (for_all_chars (fun c => Bool.eqb (isdigit c) (digitb c)) ltac:(vm_compute; reflexivity) c) as X.
  now apply Bool.eqb_prop.
Qed.
Lemma digit_value : forall c, digitb c = true -> digit c = (Z.of_nat (nat_of c) - 48)%Z.
Proof.
  intros c H. pose proof (for_all_chars (fun c => negb (digitb c) || (digit c =? Z.of_nat (nat_of c) - 48)%Z) ltac:(vm_compute; reflexivity) c) as X.
  cbn beta in X. rewrite H in X. now apply Z.eqb_eq.
Qed.
Lemma decval_value : forall t, forallb digitb t = true -> decval t = value_of t.
Proof.
  induction t as [|c t IH] using rev_ind; intro H; [reflexivity|].
  rewrite forallb_app in H. apply andb_true_iff in H as [H1 H2]. cbn [forallb] in H2. rewrite andb_true_r in H2.
  rewrite decval_app. unfold value_of. rewrite fold_left_app. cbn [fold_left]. fold (value_of t).
  now rewrite IH, digit_value.
Qed.
Lemma run_num : forall w acc, forallb digitb w = true -> lex_run (InNum acc) w = ([], InNum (rev w ++ acc)).
Proof.
  induction w as [|c w IH]; intros acc H; [reflexivity|]. cbn [forallb] in H. apply andb_true_iff in H as [H1 H2].
  cbn [lex_run lex_step]. rewrite H1, IH by assumption. cbn [rev]. now rewrite <- app_assoc.
Qed.
Lemma dec_digits_head : forall f n, (0 < n)%Z -> Z.to_nat (Z.log2 n) < f ->
  exists c r, dec_digits f n = c :: r /\ is_ch c 48 = false.
Proof.
  induction f as [|f IH]; intros n P F; [lia|]. cbn [dec_digits]. destruct (Z.ltb_spec n 10).
  - assert (E : (n = 1 \/ n = 2 \/ n = 3 \/ n = 4 \/ n = 5 \/ n = 6 \/ n = 7 \/ n = 8 \/ n = 9)%Z) by lia.
    repeat (destruct E as [->|E]; [eexists; eexists; split; reflexivity|]). subst. eexists; eexists; split; reflexivity.
  - assert (Q : (0 < n / 10)%Z) by (apply Z.div_str_pos; lia).
    assert (LL : (Z.log2 (n / 10) <= Z.log2 (n / 2))%Z) by (apply Z.log2_le_mono, Z.div_le_compat_l; lia).
    assert (LH : (Z.log2 (n / 2) = Z.log2 n - 1)%Z).
    { change 2%Z with (2 ^ 1)%Z at 1. rewrite <- Z.shiftr_div_pow2 by lia. rewrite Z.log2_shiftr by lia.
      assert (1 <= Z.log2 n)%Z by (change 1%Z with (Z.log2 2); apply Z.log2_le_mono; lia). lia. }
    pose proof (Z.log2_nonneg (n / 10)).
    destruct (IH (n / 10)%Z Q ltac:(lia)) as (c & r & E & N). rewrite E. cbn [app]. eauto.
Qed.

Lemma dec_nat_tok : forall n, (0 <= n)%Z -> exists c r, dec_nat n = c :: r /\ forallb digitb (c :: r) = true /\ num_tok (c :: r) = KNum n.
Proof.
  intros n P. unfold dec_nat.
  pose proof (dec_digits_spec (S (Z.to_nat (Z.log2 n))) n P (le_n _)) as D.
  destruct (decimal_spec _ _ D) as (NE & FD & V & _).
  assert (FD' : forallb digitb (dec_digits (S (Z.to_nat (Z.log2 n))) n) = true).
  { rewrite forallb_forall in *. intros c I. rewrite <- isdigit_digitb. auto. }
  rewrite decval_value in V by assumption.
  destruct (Z.eq_dec n 0) as [->|N].
  - exists (ch 48), []. repeat split.
  - destruct (dec_digits_head (S (Z.to_nat (Z.log2 n))) n ltac:(lia) (le_n _)) as (c & r & E & Z0). rewrite E in *.
    exists c, r. repeat split; [assumption|]. unfold num_tok. rewrite Z0. destruct r; now rewrite V.
Qed.

Lemma L_printNum : forall z, L false false (Ok (printNum z)) (ux (XNum z)).
Proof.
  intro z. unfold printNum. cbn [ux]. destruct (Z.ltb_spec z 0).
  - destruct (dec_nat_tok (- z) ltac:(lia)) as (c & r & E & FD & T). rewrite E.
    exists (cMI :: c :: r), [MINUS], (InNum (rev r ++ [c])). split; [reflexivity|].
    cbn [forallb] in FD. apply andb_true_iff in FD as [F1 F2].
    split; [|split; [cbn [flush app]; rewrite rev_app_distr, rev_involutive; cbn [rev app]; now rewrite T|(split; [reflexivity|split; intro; discriminate])]].
    cbn [lex_run]. change (lex_step Idle cMI) with (@nil tok, AtMinus). cbn [lex_step].
    assert (G : is_ch c 62 = false).
    { pose proof (for_all_chars (fun c => negb (digitb c) || negb (is_ch c 62)) ltac:(vm_compute; reflexivity) c) as X.
      cbn beta in X. rewrite F1 in X. now destruct (is_ch c 62). }
    rewrite G. unfold again. rewrite (digit_start c F1). cbn [fst snd flush app]. now rewrite run_num.
  - destruct (dec_nat_tok z ltac:(lia)) as (c & r & E & FD & T). rewrite E.
    exists (c :: r), [], (InNum (rev r ++ [c])). split; [reflexivity|].
    cbn [forallb] in FD. apply andb_true_iff in FD as [F1 F2].
    split; [|split; [cbn [flush app]; rewrite rev_app_distr, rev_involutive; cbn [rev app]; now rewrite T|(split; [reflexivity|split; intro; discriminate])]].
    cbn [lex_run lex_step]. rewrite (digit_start c F1), run_num by assumption. reflexivity.
Qed.
Lemma L_num : forall n, L false false (num n) [KNum (Z.of_nat n)].
Proof.
  intro n. eapply L_eq; [apply L_printNum|]. cbn [ux]. destruct (Z.ltb_spec (Z.of_nat n) 0); [lia|reflexivity].
Qed.

(** the decimal digits of a number, as characters that may continue a name *)
Definition decs (n : nat) : bytes := printNum (Z.of_nat n).
Lemma decs_digits : forall n, exists c r, decs n = c :: r /\ forallb digitb (c :: r) = true /\ value_of (c :: r) = Z.of_nat n.
Proof.
  intro n. unfold decs, printNum. destruct (Z.ltb_spec (Z.of_nat n) 0); [lia|].
  destruct (dec_nat_tok (Z.of_nat n) ltac:(lia)) as (c & r & E & F & T). exists c, r. repeat split; auto.
  unfold num_tok in T. destruct r; [|destruct (is_ch c 48)]; congruence.
Qed.
Lemma decs_inj : forall m n, decs m = decs n -> m = n.
Proof.
  intros m n E. destruct (decs_digits m) as (c & r & E1 & _ & V1). destruct (decs_digits n) as (c' & r' & E2 & _ & V2).
  rewrite E1, E2 in E. rewrite E in V1. lia.
Qed.
Lemma digits_idchar : forall l, forallb digitb l = true -> forallb idchar l = true.
Proof. intros l H. rewrite forallb_forall in *. intros c I. unfold idchar. rewrite (H c I). apply orb_true_r. Qed.

(** * Strings *)
Lemma run_str : forall s acc, no_char BSL s ->
  lex_run (InStr acc) (flat_map esc1 s ++ [QUO]) = ([str_tok (rev acc ++ flat_map esc1 s)], Idle).
Proof.
  induction s as [|c s IH]; intros acc H.
  - cbn [flat_map app]. rewrite app_nil_r. reflexivity.
  - assert (HB : c <> BSL) by (intro; subst; apply H; now left).
    assert (Hs : no_char BSL s) by (intro; apply H; now right).
    cbn [flat_map]. rewrite <- app_assoc.
    assert (C : (exists d, esc1 c = [BSL; d]) \/ (esc1 c = [c] /\ c <> QUO /\ c <> LF)).
    { unfold esc1. destruct (Ascii.eqb_spec c QUO); [eauto|]. destruct (Ascii.eqb_spec c LF); [eauto|].
      destruct (Ascii.eqb_spec c TAB); eauto. }
    destruct C as [(d & ->)|(-> & N1 & N2)]; cbn [app lex_run lex_step].
    + change (is_ch BSL 34) with false. change (is_ch BSL 92) with true. cbn [lex_step].
      rewrite (IH (d :: BSL :: acc) Hs). cbn [rev app]. now rewrite <- !app_assoc.
    + unfold is_ch. rewrite !nat_of_eqb by lia.
      change (ascii_of_nat 34) with QUO. change (ascii_of_nat 92) with BSL. change (ascii_of_nat 10) with LF.
      destruct (Ascii.eqb_spec c QUO); [contradiction|]. destruct (Ascii.eqb_spec c BSL); [contradiction|].
      destruct (Ascii.eqb_spec c LF); [contradiction|]. rewrite (IH (c :: acc) Hs). cbn [rev app]. now rewrite <- app_assoc.
Qed.

Lemma stringb_spec : forall s, stringb s = true -> no_char BSL s /\ no_char NUL s.
Proof.
  intros s H. unfold stringb in H. rewrite forallb_forall in H.
  split; intro I; apply H in I; apply andb_true_iff in I as [A B]; [now rewrite Ascii.eqb_refl in A|now rewrite Ascii.eqb_refl in B].
Qed.
Lemma str_tok_esc : forall s, no_char BSL s -> str_tok (flat_map esc1 s) = KStr (string_of_list_ascii s).
Proof. intros s H. unfold str_tok. change (ascii_of_nat 34) with QUO. now rewrite (read_esc s [] H). Qed.

Lemma L_string : forall s, stringb s = true -> L true true (generate_string_const s) [KStr (string_of_list_ascii s); RP].
Proof.
  intros s H. destruct (stringb_spec s H) as (HB & HN). unfold generate_string_const. rewrite escape_str_ok. cbn [obind].
  unfold generate_str. rewrite cstr_id by now apply esc_no_nul.
  eexists _, _, Idle. split; [reflexivity|]. split.
  - cbn [lex_run]. change (lex_step Idle QUO) with (@nil tok, InStr []). cbn iota.
    change [QUO; ch 41] with ([QUO] ++ [ch 41]). rewrite app_assoc, run_app, run_str by assumption. cbn [fst snd rev app].
    rewrite str_tok_esc by assumption. reflexivity.
  - cbn [flush app]. auto.
Qed.

Lemma namechars : forall s, forallb namecharb s = true -> no_char BSL s /\ no_char NUL s /\ flat_map esc1 s = s.
Proof.
  induction s as [|c s IH]; intro H; [repeat split; intros []|].
  cbn [forallb] in H. apply andb_true_iff in H as [H1 H2]. destruct (IH H2) as (A & B & C).
  unfold namecharb in H1. apply andb_true_iff in H1 as [H1 H4]. apply andb_true_iff in H1 as [H1 H3].
  assert (N : forall d, printableb d = false -> c <> d) by (intros d E ->; congruence).
  split; [intros [->|I]; [now rewrite Ascii.eqb_refl in H3|now apply A]|].
  split; [intros [E|I]; [revert E; apply N; reflexivity|now apply B]|].
  cbn [flat_map]. rewrite C. unfold esc1. destruct (Ascii.eqb c QUO); [discriminate|].
  destruct (Ascii.eqb_spec c LF) as [E|_]; [exfalso; revert E; apply N; reflexivity|].
  destruct (Ascii.eqb_spec c TAB) as [E|_]; [exfalso; revert E; apply N; reflexivity|]. reflexivity.
Qed.
Lemma L_quoted : forall s, forallb namecharb s = true -> L true true (quo;; Ok (cstr s);; quo) [KStr (string_of_list_ascii s)].
Proof.
  intros s H. destruct (namechars s H) as (HB & HN & HE). rewrite cstr_id by assumption.
  unfold quo. cbn [cat]. exists (QUO :: s ++ [QUO]), [str_tok s], Idle. split; [reflexivity|]. split.
  - cbn [lex_run]. change (lex_step Idle QUO) with (@nil tok, InStr []). cbn iota.
    pose proof (run_str s [] HB) as R. rewrite HE in R. rewrite R. reflexivity.
  - split; [|auto]. pose proof (str_tok_esc s HB) as R. rewrite HE in R. cbn [flush]. now rewrite R.
Qed.
