(** From conditions on the source program to the condition [writable] on the
    compiled functions: the parser, the names, and the whole. *)
From Coq Require Import List ZArith Bool String Ascii Arith Lia.
From Verif Require Import Base StrModel ReaderModel CoreSpec CoreProofs TocModel TocSem TocMach TocClosure TocTail TocLive TocParse TocCollect TocScope TocFrames TocGood TocWhole
  EmitModel EmitProps CSpec GenModel GenCond GenLex GenGood GenSrc.
Import ListNotations.
Local Open Scope list_scope.
Local Open Scope nat_scope.

(** * What a source program may contain *)

(** numbers up to 2^53, strings without backslash and NUL *)
Fixpoint literals (s : sexp) : bool :=
  match s with
  | SNum z => (Z.abs z <=? 2 ^ 53)%Z
  | SStr t => stringb (list_ascii_of_string t)
  | SCons a b => literals a && literals b
  | _ => true
  end.

(** a name made of x and at least 19 digits, like the text of a gensym *)
Definition gensym_like (b : bytes) : bool :=
  match b with c :: r => Ascii.eqb c (ch 120) && forallb digitb r && (18 <? List.length r) | _ => false end.

(** a local name: printable, at most 254 characters, not beginning with a
    digit, not like a gensym, and its C spelling is not a word of C or of the
    generated code *)
Definition local_ok (x : name) : bool :=
  match x with
  | NG _ => true
  | NS s =>
      let b := list_ascii_of_string s in
      let c := string_of_list_ascii (flat_map emit_char b) in
      forallb printableb b && match b with c :: _ => negb (digitb c) | [] => false end && (List.length b <? 255) && negb (gensym_like b) &&
      usable c && negb (in_names c taken) && negb (starts_with "clofun" c)
  end.

(** The text of a gensym is "x%ld" of its word, src/types.c:184; the word is a
    pointer with 0x7FF8 and a tag above it (src/types.h:28-32), so it is
    at least 2^62, and different objects have different words.  [L]: the names in
    use. *)
Definition gensym_texts (gs : nat -> bytes) (L : list name) : Prop :=
  exists w : nat -> Z, (forall k, In (NG k) L -> (2 ^ 62 <= w k < 2 ^ 63)%Z /\ gs k = ch 120 :: dec_nat (w k)) /\
    forall i j, In (NG i) L -> In (NG j) L -> w i = w j -> i = j.

(** * Parsing *)
Definition clit (gl : list sexp) (c : sexp) : bool :=
  match c with SSym x => global_ok gl x | SCons _ _ => true | _ => const_ok gl c end.
Fixpoint pe0 (gl : list sexp) (e : exp) : bool :=
  match e with
  | EConst c => clit gl c
  | EGlob x => global_ok gl x
  | EVar _ | ERef _ => true
  | ELam _ b => pe0 gl b
  | EClo _ _ _ => false
  | EIf a b c => pe0 gl a && pe0 gl b && pe0 gl c
  | EDo a b | ELet _ a b => pe0 gl a && pe0 gl b
  | EPrim p args => forallb (pe0 gl) args && (List.length args =? prim_arity p)
  | EApp f args => pe0 gl f && forallb (pe0 gl) args
  end.

Lemma global_mono : forall gl gl' x, incl gl gl' -> global_ok gl x = true -> global_ok gl' x = true.
Proof. intros gl gl' x HI H. unfold global_ok in *. apply existsb_exists in H as (y & Hy & H). apply existsb_exists. eauto. Qed.
Lemma pe0_mono : forall gl gl' e, incl gl gl' -> pe0 gl e = true -> pe0 gl' e = true.
Proof.
  intros gl gl' e HI. induction e using exp_ind'; cbn; intro HP; auto; rewrite ?andb_true_iff in *.
  - destruct s; cbn in *; auto. eapply global_mono; eauto.
  - eapply global_mono; eauto.
  - destruct HP as ((A & B) & C). auto.
  - destruct HP as (A & B). auto.
  - destruct HP as (A & B). auto.
  - destruct HP as (A & B). split; [|exact B]. rewrite forallb_forall in *. rewrite Forall_forall in H. auto.
  - destruct HP as (A & B). split; [auto|]. rewrite forallb_forall in *. rewrite Forall_forall in H. auto.
Qed.
Lemma pe0_pe : forall gl e, pe0 gl e = true -> etexts e = true -> pe gl e = true.
Proof.
  intros gl e. induction e using exp_ind'; cbn; intros HP HT; auto; try discriminate; rewrite ?andb_true_iff in *.
  - destruct s; cbn in *; auto; discriminate.
  - destruct HP as ((A & B) & C), HT as ((T1 & T2) & T3). auto.
  - destruct HP, HT. auto.
  - destruct HP, HT. auto.
  - destruct HP as (A & B). split; [|exact B]. rewrite forallb_forall in *. rewrite Forall_forall in H. auto.
  - destruct HP as (A & B), HT as (T1 & T2). split; [auto|]. rewrite forallb_forall in *. rewrite Forall_forall in H. auto.
Qed.

Lemma add_symbol_incl : forall x st, incl (p_globals st) (p_globals (add_symbol x st)).
Proof. intros x st. unfold add_symbol. destruct (existsb (sexp_eqb x) (p_globals st)); [apply incl_refl|]. cbn. apply incl_tl, incl_refl. Qed.
Lemma add_symbol_has : forall x st, global_ok (p_globals (add_symbol (SSym x) st)) x = true.
Proof.
  intros x st. unfold add_symbol, global_ok. destruct (existsb (sexp_eqb (SSym x)) (p_globals st)) eqn:E; [exact E|]. cbn.
  destruct (name_eqb_spec x x); [reflexivity|contradiction].
Qed.
Lemma literals_slist : forall x l, slist x = Some l -> literals x = true -> forallb literals l = true.
Proof.
  induction x; intros l E H; cbn in E; try discriminate; try (injection E as <-; reflexivity).
  destruct (slist x2) as [r|] eqn:E2; [|discriminate]. injection E as <-. cbn in H |- *. apply andb_true_iff in H as (H1 & H2). rewrite H1. now apply IHx2.
Qed.
Lemma literals_of_list : forall l, literals (of_list l) = forallb literals l.
Proof. induction l as [|a l IH]; cbn; [reflexivity|]. now rewrite IH. Qed.
Lemma literals_syms : forall l, forallb literals (map SSym l) = true.
Proof. induction l; auto. Qed.

Definition parsed (st : pst) (e : exp) (st' : pst) : Prop := incl (p_globals st) (p_globals st') /\ pe0 (p_globals st') e = true.
Lemma parse_list_lits : forall (ps : pst -> sexp -> option (exp * pst)),
  (forall st x e st', ps st x = Some (e, st') -> literals x = true -> parsed st e st') ->
  forall l st es st', parse_list ps st l = Some (es, st') -> forallb literals l = true ->
  incl (p_globals st) (p_globals st') /\ forallb (pe0 (p_globals st')) es = true /\ List.length es = List.length l.
Proof.
  intros ps H. induction l as [|x l IH]; intros st es st' E HL.
  - apply parse_list_nil in E as (-> & ->). repeat split; auto. apply incl_refl.
  - apply parse_list_app in E as (e & st1 & es1 & E1 & E2 & ->). cbn in HL. apply andb_true_iff in HL as (L1 & L2).
    destruct (H _ _ _ _ E1 L1) as (A1 & A2). destruct (IH _ _ _ E2 L2) as (B1 & B2 & B3). split; [eapply incl_tran; eauto|]. split; [|cbn; congruence].
    cbn. rewrite B2, andb_true_r. eapply pe0_mono; eauto.
Qed.

Theorem parse_lits : forall k env st x e st', parse k env st x = Some (e, st') -> literals x = true -> parsed st e st'.
Proof.
  induction k as [|k IH]; intros env st x e st' E HL; [discriminate|].
  assert (PL := fun env => parse_list_lits (parse k env) (IH env)).
  cbn [parse] in E. destruct x; try (injection E as <- <-; split; [apply incl_refl|exact HL]).
  - destruct (TocModel.mem x env); injection E as <- <-; split; try apply incl_refl; [reflexivity|apply add_symbol_incl|apply add_symbol_has].
  - destruct (slist (SCons x1 x2)) as [[|h r]|] eqn:ES; try discriminate. pose proof (literals_slist _ _ ES HL) as LL. clear ES HL.
    cbn [forallb] in LL. apply andb_true_iff in LL as (LH & LR).
    destruct (is_sym "quote" h).
    { destruct r as [|c [|? ?]]; try discriminate. injection E as <- <-. split; [apply add_symbol_incl|].
      cbn in LR. rewrite andb_true_r in LR. cbn. destruct c; auto. apply add_symbol_has. }
    destruct (is_sym "lambda" h).
    { destruct r as [|ps [|b [|? ?]]]; try discriminate. destruct (names_of ps) as [xs|]; [|discriminate].
      destruct (existsb reserved xs); [discriminate|]. destruct (parse k (xs ++ env) st b) as [(e1, st1)|] eqn:E1; [|discriminate]. injection E as <- <-.
      cbn in LR. rewrite !andb_true_iff in LR. exact (IH _ _ _ _ _ E1 (proj1 (proj2 LR))). }
    destruct (is_sym "if" h).
    { destruct r as [|c [|a [|b [|? ?]]]]; try discriminate. cbn [forallb] in LR. rewrite !andb_true_iff in LR. destruct LR as (L1 & L2 & L3 & _).
      destruct (headed "if" c).
      - apply IH in E; [exact E|]. cbn. now rewrite L1, L2, L3.
      - destruct (parse_list (parse k env) st [c; a; b]) as [([|ec [|ea [|eb [|? ?]]]], st1)|] eqn:E1; try discriminate. injection E as <- <-.
        destruct (PL _ _ _ _ _ E1) as (A & B & _); [cbn; now rewrite L1, L2, L3|]. split; [exact A|]. cbn in B |- *. rewrite !andb_true_iff in *. tauto. }
    destruct (is_sym "do" h).
    { destruct r as [|a [|b [|? ?]]]; try discriminate.
      destruct (parse_list (parse k env) st [a; b]) as [([|ea [|eb [|? ?]]], st1)|] eqn:E1; try discriminate. injection E as <- <-.
      destruct (PL _ _ _ _ _ E1 LR) as (A & B & _). split; [exact A|]. cbn in B |- *. rewrite !andb_true_iff in *. tauto. }
    destruct (is_sym "let" h).
    { destruct r as [|y r]; [discriminate|]. destruct y; try discriminate. destruct r as [|b [|c [|? ?]]]; try discriminate.
      destruct (reserved x); [discriminate|]. cbn [forallb] in LR. rewrite !andb_true_iff in LR. destruct LR as (_ & L2 & L3 & _).
      destruct (parse k env st b) as [(eb, st1)|] eqn:E1; [|discriminate]. destruct (parse k (x :: env) st1 c) as [(ec, st2)|] eqn:E2; [|discriminate].
      injection E as <- <-. destruct (IH _ _ _ _ _ E1 L2) as (A1 & A2). destruct (IH _ _ _ _ _ E2 L3) as (B1 & B2).
      split; [eapply incl_tran; eauto|]. cbn. rewrite B2, andb_true_r. eapply pe0_mono; eauto. }
    destruct (headed "lambda" h && match r with [a] => headed "if" a | _ => false end).
    { apply IH in E; [exact E|]. cbn. rewrite LH. cbn. rewrite andb_true_r, literals_of_list. exact LR. }
    destruct (match h with SSym s => prim_of s | _ => None end) as [p|].
    { destruct (Nat.eqb_spec (prim_arity p) (List.length r)) as [EA|].
      - destruct (parse_list (parse k env) st r) as [(es, st1)|] eqn:E1; [|discriminate]. injection E as <- <-.
        destruct (PL _ _ _ _ _ E1 LR) as (A & B & C). split; [exact A|]. cbn. rewrite B, C, EA. apply Nat.eqb_refl.
      - destruct (List.length r <? prim_arity p); [|discriminate]. unfold temp_list in E. cbv zeta beta iota in E. apply IH in E; [exact E|].
        cbn [of_list literals ssym]. rewrite !literals_of_list, literals_syms. cbn [app forallb]. now rewrite forallb_app', LH, LR, literals_syms. }
    destruct (parse_list (parse k env) st (h :: r)) as [([|ef es], st1)|] eqn:E1; try discriminate. injection E as <- <-.
    destruct (PL _ _ _ _ _ E1) as (A & B & _); [cbn; now rewrite LH|]. split; [exact A|exact B].
Qed.

(** * Only the names of the functions count *)
Lemma capture_sub : forall U V l, forallb (capture_ok U) l = true -> incl (flat_map (fun s => match s with SmVar x => [x] | _ => [] end) l) V ->
  forallb (capture_ok V) l = true.
Proof.
  intros U V l H HI. rewrite forallb_forall in *. intros s Hs. specialize (H s Hs). destruct s; cbn in *; auto.
  apply memP, HI. apply in_flat_map. exists (SmVar x). split; [exact Hs|now left].
Qed.
Lemma simple_sub : forall g n U V s, simple_ok g n U s = true -> incl (simple_names s) V -> simple_ok g n V s = true.
Proof.
  intros g n U V s H HI. destruct s; cbn in *; auto.
  - apply memP, HI. now left.
  - apply andb_true_iff in H as (A & B). rewrite A. cbn. eapply capture_sub; eauto.
Qed.
Lemma simples_sub : forall g n U V l, forallb (simple_ok g n U) l = true -> incl (flat_map simple_names l) V -> forallb (simple_ok g n V) l = true.
Proof.
  intros g n U V l H HI. rewrite forallb_forall in *. intros s Hs. eapply simple_sub; eauto. intros x Hx. apply HI. apply in_flat_map. eauto.
Qed.
Lemma stm_sub : forall g n U V t sn, stm_ok g n U sn t = true -> incl (stm_names t) V -> stm_ok g n V sn t = true.
Proof.
  intros g n U V. induction t; intros sn H HI; cbn in H, HI |- *; try discriminate; rewrite ?andb_true_iff in *.
  - eapply simple_sub; eauto.
  - destruct H as (A & B). split; [eapply simple_sub|eapply simples_sub]; eauto; intros x Hx; apply HI, in_or_app; auto.
  - destruct H as ((A & B) & C). repeat split; [eapply simple_sub|eapply simples_sub|]; eauto; try (intros x Hx; apply HI; rewrite !in_app_iff; auto).
    apply all_in. intros x Hx. apply HI. rewrite !in_app_iff. auto.
  - destruct H as ((((A & B) & C) & D) & E). repeat split; auto.
    + apply memP, HI. now left.
    + eapply simple_sub; eauto. intros y Hy. apply HI. right. rewrite in_app_iff. auto.
    + apply IHt; auto. intros y Hy. apply HI. right. rewrite in_app_iff. auto.
  - destruct H as (((((A & B) & C) & D) & E) & F). repeat split; auto.
    + apply memP, HI. now left.
    + eapply simples_sub; eauto. intros y Hy. apply HI. right. rewrite in_app_iff. auto.
    + apply IHt; auto. intros y Hy. apply HI. right. rewrite in_app_iff. auto.
  - destruct H as ((A & B) & C). repeat split; [eapply simple_sub; eauto|apply IHt1|apply IHt2]; auto; intros y Hy; apply HI; rewrite !in_app_iff; auto.
  - destruct H as (A & B). repeat split; [eapply simple_sub; eauto|apply IHt]; auto; intros y Hy; apply HI; rewrite !in_app_iff; auto.
Qed.
Lemma func_sub : forall g n U V F, func_ok g n U F = true -> incl (func_names F) V -> func_ok g n V F = true.
Proof.
  intros g n U V F H HI. unfold func_ok, func_names in *. rewrite !andb_true_iff in *. destruct H as (((A & B) & C) & D). repeat split; auto.
  - apply all_in. intros x Hx. apply HI, in_or_app. auto.
  - eapply stm_sub; eauto. intros x Hx. apply HI. rewrite !in_app_iff. auto.
  - rewrite forallb_forall in *. intros k Hk. specialize (D k Hk). rewrite !andb_true_iff in *. destruct D as ((D1 & D2) & D3).
    assert (HK : incl (k_var k :: k_live k ++ stm_names (k_body k)) V).
    { intros x Hx. apply HI. rewrite !in_app_iff. right. right. apply in_flat_map. eauto. }
    repeat split; auto.
    + apply (proj2 (all_in (k_var k :: k_live k) V)). intros x [<-|Hx]; apply HK; [now left|right; apply in_or_app; auto].
    + eapply stm_sub; eauto. intros x Hx. apply HK. right. apply in_or_app. auto.
Qed.

Lemma simple_names_in : forall g n U s, simple_ok g n U s = true -> incl (simple_names s) U.
Proof.
  intros g n U s H x Hx. destruct s; cbn in *; try contradiction.
  - destruct Hx as [<-|[]]. now apply memP.
  - apply andb_true_iff in H as (_ & H). apply in_flat_map in Hx as (s & Hs & Hx). rewrite forallb_forall in H. specialize (H s Hs).
    destruct s; cbn in *; try contradiction. destruct Hx as [<-|[]]. now apply memP.
Qed.
Lemma simples_names_in : forall g n U l, forallb (simple_ok g n U) l = true -> incl (flat_map simple_names l) U.
Proof.
  intros g n U l H x Hx. apply in_flat_map in Hx as (s & Hs & Hx). rewrite forallb_forall in H. eapply simple_names_in; eauto.
Qed.
Lemma stm_names_in : forall g n U t sn, stm_ok g n U sn t = true -> incl (stm_names t) U.
Proof.
  intros g n U. induction t; intros sn H y Hy; cbn in H, Hy; try discriminate; rewrite ?andb_true_iff in H; rewrite ?in_app_iff in Hy.
  - eapply simple_names_in; eauto.
  - destruct H as (A & B). destruct Hy; [eapply simple_names_in|eapply simples_names_in]; eauto.
  - destruct H as ((A & B) & C). destruct Hy as [|[|]]; [eapply all_in|eapply simple_names_in|eapply simples_names_in]; eauto.
  - destruct H as ((((A & B) & C) & D) & E). destruct Hy as [<-|[|]]; [now apply memP|eapply simple_names_in|eapply IHt]; eauto.
  - destruct H as (((((A & B) & C) & D) & E) & F). destruct Hy as [<-|[|]]; [now apply memP|eapply simples_names_in|eapply IHt]; eauto.
  - destruct H as ((A & B) & C). destruct Hy as [|[|]]; [eapply simple_names_in|eapply IHt1|eapply IHt2]; eauto.
  - destruct H as (A & B). destruct Hy; [eapply simple_names_in|eapply IHt]; eauto.
Qed.
Lemma local_names_in : forall g n U fs, forallb (func_ok g n U) fs = true -> incl (local_names fs) U.
Proof.
  intros g n U fs H x Hx. unfold local_names in Hx. apply in_flat_map in Hx as (F & HF & Hx). rewrite forallb_forall in H. specialize (H F HF).
  unfold func_ok, func_names in *. rewrite !andb_true_iff in H. destruct H as (((A & B) & C) & D). rewrite !in_app_iff in Hx.
  destruct Hx as [Hx|[Hx|Hx]]; [eapply all_in; eauto|eapply stm_names_in; eauto|].
  apply in_flat_map in Hx as (k & Hk & Hx). rewrite forallb_forall in D. specialize (D k Hk). rewrite !andb_true_iff in D. destruct D as ((D1 & D2) & D3).
  pose proof (proj1 (all_in (k_var k :: k_live k) U) D1) as D4.
  destruct Hx as [<-|Hx]; [apply D4; now left|]. apply in_app_or in Hx as [Hx|Hx]; [apply D4; now right|eapply stm_names_in; eauto].
Qed.

Lemma narrow : forall gs g fs U, fs <> [] -> names_ok gs (local_names fs) = true -> forallb (func_ok g (List.length fs) U) fs = true -> forallb symbol_ok g = true ->
  writable gs fs g = true.
Proof.
  intros gs g fs U NE HN HF HS. unfold writable. rewrite HS, HN, !andb_true_r. destruct fs as [|F fs]; [congruence|]. cbn [andb].
  apply forallb_forall. intros F' HF'. rewrite forallb_forall in HF. eapply func_sub; [apply HF; exact HF'|]. intros x Hx. unfold local_names. apply in_flat_map. eauto.
Qed.

(** * Names *)
Lemma dec_digits_len : forall f n, List.length (dec_digits f n) <= f.
Proof. induction f as [|f IH]; intro n; cbn; [lia|]. destruct (n <? 10)%Z; [cbn; lia|]. rewrite app_length. cbn. specialize (IH (n / 10)%Z). lia. Qed.
Lemma dec_nat_len : forall n, (0 <= n < 2 ^ 63)%Z -> List.length (dec_nat n) <= 64.
Proof.
  intros n H. unfold dec_nat. eapply Nat.le_trans; [apply dec_digits_len|].
  assert (Z.log2 n <= 63)%Z. { destruct (Z.eq_dec n 0) as [->|]; [cbn; lia|]. apply Z.lt_le_incl, Z.log2_lt_pow2; lia. }
  lia.
Qed.
Lemma digit_facts : forall c, digitb c = true -> printableb c = true /\ emit_char c = [c] /\ idchar c = true.
Proof.
  intros c H. pose proof (for_all_chars (fun c => negb (digitb c) || (printableb c && idchar c && match emit_char c with [d] => Ascii.eqb d c | _ => false end)) ltac:(vm_compute; reflexivity) c) as X.
  cbn beta in X. rewrite H in X. cbn [negb orb] in X. rewrite !andb_true_iff in X. destruct X as ((A & B) & C). repeat split; auto.
  destruct (emit_char c) as [|d [|? ?]]; try discriminate. now apply Ascii.eqb_eq in C as ->.
Qed.
Lemma digits_emit : forall l, forallb digitb l = true -> flat_map emit_char l = l.
Proof. induction l as [|c l IH]; cbn; intro H; [reflexivity|]. apply andb_true_iff in H as (H1 & H2). destruct (digit_facts c H1) as (_ & -> & _). cbn. now rewrite IH. Qed.
Lemma printables : forall l, forallb printableb l = true <-> Forall printable l.
Proof. intro l. rewrite forallb_forall, Forall_forall. split; intros H x Hx; apply printableb_spec; auto. Qed.
Lemma starts_digitb : forall c r, digitb c = false <-> ~ starts_digit (c :: r).
Proof.
  intros c r. cbn [starts_digit]. rewrite <- is_dig_spec.
  pose proof (for_all_chars (fun c => Bool.eqb (digitb c) (is_dig c)) ltac:(vm_compute; reflexivity) c) as X. cbn beta in X. apply eqb_prop in X. rewrite X.
  destruct (is_dig c); split; congruence || (intro H; now elim H) || auto.
Qed.

Section Names.
  Variable gs : nat -> bytes.
  Variable U : list name.
  Hypothesis GS : gensym_texts gs U.

  (** printable, not beginning with a digit, short *)
  Definition tame (b : bytes) : Prop := Forall printable b /\ b <> [] /\ ~ starts_digit b /\ List.length b < 255.
  Lemma tame_sym : forall b, tame b -> generate_sym b = Ok (flat_map emit_char b).
  Proof. intros b (P & N & D & L). destruct (generate_sym_ok b P L) as [(D' & _)|(_ & E)]; [contradiction|exact E]. Qed.
  Lemma tame_gs : forall k, In (NG k) U -> tame (gs k).
  Proof.
    intros k HK. destruct GS as (w & W & W2). destruct (W k HK) as (W1 & ->). destruct (dec_nat_tok (w k) ltac:(lia)) as (c & r & E & FD & _).
    pose proof (dec_nat_len (w k) (conj (ltac:(lia) : (0 <= w k)%Z) (proj2 W1))) as L. rewrite E in *. split; [|split; [discriminate|split]].
    - apply printables. apply (proj2 (forallb_forall printableb (ch 120 :: c :: r))). intros x [<-|Hx]; [reflexivity|]. rewrite forallb_forall in FD. now apply digit_facts, FD.
    - apply starts_digitb. reflexivity.
    - cbn in *. lia.
  Qed.
  Lemma tame_ns : forall s, local_ok (NS s) = true -> tame (list_ascii_of_string s).
  Proof.
    intros s H. unfold local_ok in H. cbv zeta in H. rewrite !andb_true_iff in H. destruct H as ((((((H1 & H2) & H3) & H4) & H5) & H6) & H7).
    split; [now apply printables|]. apply Nat.ltb_lt in H3. destruct (list_ascii_of_string s) as [|c r]; [discriminate|]. split; [discriminate|].
    split; [|exact H3]. apply starts_digitb. now destruct (digitb c).
  Qed.
  Lemma tame_name : forall x, In x U -> local_ok x = true -> tame (name_text gs x).
  Proof. intros [s|k] HU H; [now apply tame_ns|now apply tame_gs]. Qed.
  Lemma tame_inj : forall b1 b2, tame b1 -> tame b2 -> flat_map emit_char b1 = flat_map emit_char b2 -> b1 = b2.
  Proof.
    intros b1 b2 T1 T2 E. destruct (distinct_names_partial b1 b2 (flat_map emit_char b1)) as [|[(D & _)|(D & _)]]; auto.
    - apply T1.
    - apply T2.
    - now apply tame_sym.
    - rewrite E. now apply tame_sym.
    - now destruct T1 as (_ & _ & N & _).
    - now destruct T2 as (_ & _ & N & _).
  Qed.
  Lemma long_digits : forall n, (2 ^ 62 <= n)%Z -> (18 <? List.length (dec_nat n)) = true.
  Proof.
    intros n H. assert (P : (0 <= n)%Z) by lia. apply Nat.ltb_lt. unfold dec_nat.
    pose proof (ReaderProofs.dec_digits_spec (S (Z.to_nat (Z.log2 n))) n P (le_n _)) as D. destruct (ReaderProofs.decimal_spec _ _ D) as (_ & FD & V & _).
    pose proof (ReaderProofs.decval_bound _ FD) as B. rewrite V in B. revert B. generalize (List.length (dec_digits (S (Z.to_nat (Z.log2 n))) n)). intros m B.
    destruct (Nat.lt_ge_cases 18 m) as [L|G]; [exact L|]. exfalso.
    assert (10 ^ Z.of_nat m <= 10 ^ 18)%Z by (apply Z.pow_le_mono_r; lia). change (10 ^ 18)%Z with 1000000000000000000%Z in *. change (2 ^ 62)%Z with 4611686018427387904%Z in *. lia.
  Qed.
  Lemma text_inj : forall x y, In x U -> In y U -> local_ok x = true -> local_ok y = true -> name_text gs x = name_text gs y -> x = y.
  Proof.
    destruct GS as (w & W & W2).
    assert (GL : forall k, In (NG k) U -> gensym_like (gs k) = true).
    { intros k HK. destruct (W k HK) as (W1 & ->). assert (P : (0 <= w k)%Z) by lia.
      destruct (dec_nat_tok (w k) P) as (c & r & E & FD & _). cbn [gensym_like]. rewrite (long_digits (w k) (proj1 W1)). rewrite E, FD. reflexivity. }
    assert (NL : forall s, local_ok (NS s) = true -> gensym_like (list_ascii_of_string s) = false).
    { intros s H. unfold local_ok in H. cbv zeta in H. rewrite !andb_true_iff in H. destruct H as ((((((H1 & H2) & H3) & H4) & H5) & H6) & H7). now destruct (gensym_like _). }
    intros [s|i] [t|j] UX UY HX HY E; cbn [name_text] in E.
    - f_equal. rewrite <- (string_of_list_ascii_of_string s), <- (string_of_list_ascii_of_string t). now rewrite E.
    - pose proof (NL s HX) as Q. rewrite E, (GL _ UY) in Q. discriminate.
    - pose proof (NL t HY) as Q. rewrite <- E, (GL _ UX) in Q. discriminate.
    - destruct (W i UX) as (WI & EI). destruct (W j UY) as (WJ & EJ). assert (PI : (0 <= w i)%Z) by lia. assert (PJ : (0 <= w j)%Z) by lia. rewrite EI, EJ in E. injection E as E. f_equal. apply W2; auto.
      destruct (dec_nat_tok (w i) PI) as (c & r & E1 & _ & T1). destruct (dec_nat_tok (w j) PJ) as (c' & r' & E2 & _ & T2).
      rewrite E1, E2 in E. rewrite E in T1. congruence.
  Qed.

  Lemma ident_tame : forall b, tame b -> ident (flat_map emit_char b) = true.
  Proof.
    intros b T. destruct (emits_identifier b) as (t & E & C); try apply T. rewrite (tame_sym b T) in E. injection E as <-.
    destruct C as (C1 & C2 & C3). unfold ident. destruct (flat_map emit_char b) as [|c r]; [congruence|].
    assert (ID : forall c, ident_char c -> idchar c = true).
    { intros d Hd. unfold ident_char in Hd. unfold idchar, idstart, digitb. rewrite !orb_true_iff, !andb_true_iff, !Nat.leb_le, Nat.eqb_eq. lia. }
    inversion C2; subst. apply andb_true_iff. split.
    - pose proof (ID c H1) as Q. unfold idchar in Q. apply orb_true_iff in Q as [Q|Q]; [exact Q|]. apply (starts_digitb c r) in C3. congruence.
    - apply forallb_forall. intros d Hd. apply ID. rewrite Forall_forall in H2. auto.
  Qed.

  Lemma name_fine : forall x, In x U -> local_ok x = true -> name_ok gs x = true.
  Proof.
    intros x HU H. pose proof (tame_name x HU H) as T. unfold name_ok, cid, gsym. rewrite (tame_sym _ T), (ident_tame _ T). cbn [andb].
    destruct x as [s|k].
    - unfold local_ok in H. cbv zeta in H. rewrite !andb_true_iff in H. destruct H as ((((((H1 & H2) & H3) & H4) & H5) & H6) & H7). cbn [name_text]. now rewrite H5, H6, H7.
    - cbn [name_text]. destruct GS as (w & W & W2). destruct (W k HU) as (W1 & ->).
      destruct (dec_nat_tok (w k) ltac:(lia)) as (c & r & E & FD & _). rewrite E.
      change (flat_map emit_char (ch 120 :: c :: r)) with (ch 120 :: flat_map emit_char (c :: r)). rewrite digits_emit by exact FD. reflexivity.
  Qed.
  Lemma names_fine : forallb local_ok U = true -> names_ok gs U = true.
  Proof.
    intros H. unfold names_ok. rewrite forallb_forall in H. apply andb_true_iff. split.
    - apply forallb_forall. intros x Hx. apply name_fine; auto.
    - apply forallb_forall. intros x Hx. apply forallb_forall. intros y Hy. destruct (name_eqb_spec x y) as [|N]; [reflexivity|]. cbn [orb].
      apply negb_true_iff. apply String.eqb_neq. intro E. apply N.
      pose proof (tame_name x Hx (H x Hx)) as TX. pose proof (tame_name y Hy (H y Hy)) as TY.
      apply text_inj; auto. apply tame_inj; auto. unfold cid, gsym in E. rewrite (tame_sym _ TX), (tame_sym _ TY) in E.
      rewrite <- (list_ascii_of_string_of_list_ascii (flat_map emit_char (name_text gs x))), E. apply list_ascii_of_string_of_list_ascii.
  Qed.
End Names.

(** * The whole *)
Theorem source_writable : forall gs n0 ks fuel e fs gl, legal n0 ks e = true -> compile fuel n0 e = Some (fs, gl) ->
  literals e = true -> forallb local_ok (locals ks e) = true -> forallb symbol_ok gl = true -> gensym_texts gs (local_names fs) -> writable gs fs gl = true.
Proof.
  intros gs n0 ks fuel e fs gl HL HC LI LO HS GS.
  destruct (whole n0 ks fuel e fs gl HL HC) as (e1 & st & t & m' & EP & PP & FV & CC & ET & TL & OL & SO & FT & FN & EF).
  unfold legal in HL. rewrite !andb_true_iff in HL. destruct HL as ((H1 & H2) & H3).
  assert (EG : gl = p_globals st).
  { unfold compile in HC. rewrite EP, ET in HC. now injection HC as _ <-. }
  destruct (parse_scope n0 ks fuel [] (mkP n0 []) e e1 st EP H1 (le_n _)) as (_ & (S2 & _) & S4).
  destruct (parse_esc n0 ks fuel [] [] (mkP n0 []) e e1 st EP H1 (le_n _) ltac:(intros y []) H2) as (E1 & _).
  pose proof (parse_mono _ _ _ _ _ _ EP) as L. cbn in L, S2.
  pose proof (tailify_mono _ _ _ _ _ kmono_id ET) as L2.
  destruct (parse_lits _ _ _ _ _ _ EP LI) as (_ & P0). rewrite <- EG in P0. pose proof (pe0_pe _ _ P0 (S4 H3)) as P1.
  set (U := locals ks e ++ map NG (seq n0 (m' - n0))).
  assert (GU : forall i, n0 <= i < m' -> In (NG i) U).
  { intros i Hi. apply in_or_app. right. apply in_map, in_seq. lia. }
  assert (AU : incl (allb e1) U).
  { intros x Hx. destruct (S2 x Hx) as [I|(i & -> & Hi)]; [apply in_or_app; now left|]. apply GU. lia. }
  assert (OE : oe gl U [] (closure_convert [] e1) = true).
  { apply (convert_oe gl U e1 [] []); auto; [intros y []|]. rewrite FV. intros x []. }
  assert (WT : wt gl (List.length fs) U true [] t = true).
  { apply (tail_ok gl (List.length fs) U n0 m' GU (closure_convert [] e1) [] TocModel.KId (p_gen st) t m'); auto.
    - exact kmono_id.
    - intros x [].
    - rewrite allb_convert. intros x Hx. destruct (S2 x Hx) as [I|(i & -> & Hi)]; [|cbn; apply Nat.ltb_lt; lia].
      apply (older_mono n0); [exact L|]. exact (locals_old n0 ks e H1 x I).
    - intros env' s k t' k' N HK HW E' _. cbn in E'. injection E' as <- <-. exact HW. }
  pose proof (pass_ok gl (List.length fs) U fs eq_refl t EF SO WT) as FO.
  apply (narrow gs gl fs U).
  - rewrite EF. unfold collect_lambda_pass. destruct (cl_stm [] (live_stm t)) as (a, b). unfold append_result. destruct b; discriminate.
  - apply names_fine; [exact GS|]. apply forallb_forall. intros x Hx. apply (local_names_in _ _ _ _ FO) in Hx. apply in_app_or in Hx as [Hx|Hx].
    + rewrite forallb_forall in LO. auto.
    + apply in_map_iff in Hx as (i & <- & _). reflexivity.
  - exact FO.
  - exact HS.
Qed.
