(** The expansion of a tidy program is one whose names the packages handle. *)
From Coq Require Import List ZArith Bool String Arith Lia.
From Verif Require Import CoreSpec TocModel TocSem CoreProofs TocParse NsSpec NsModel NsProofs MacroModel SurfSpec MacroExp MacroProofs.
Import ListNotations.
Local Open Scope list_scope.
Local Open Scope nat_scope.

Local Notation Y s := (SSym (NS s)).
Local Notation "'L' l" := (of_list l) (at level 9, l at level 0).

Definition SC (e : sexp) : Prop := exists k, forall k', k <= k' -> scoped k' e = true.

Lemma sc_step : forall e k0, (forall k, k0 <= k -> scoped (S k) e = true) -> SC e.
Proof. intros e k0 H. exists (S k0). intros [|k] Hk; [lia|]. apply H. lia. Qed.
Ltac scs := repeat match goal with H : SC _ |- _ => let k := fresh "k" in let E := fresh "E" in destruct H as (k & E) end.

Lemma sc_atom : forall s, is_atom s = true -> SC s.
Proof. intros s H. apply (sc_step _ 0). intros k _. destruct s; try discriminate; reflexivity. Qed.
Lemma sc_sym : forall x, SC (SSym x).
Proof. intro x. apply (sc_step _ 0). reflexivity. Qed.
Lemma sc_quote : forall s, SC (L [Y "quote"; s]).
Proof. intro s. apply (sc_step _ 0). reflexivity. Qed.
Lemma sc_lam : forall ps b, forallb local_ok ps = true -> SC b -> SC (lam ps b).
Proof.
  intros ps b HP (k & E). apply (sc_step _ k). intros k' Hk. cbn [scoped]. rewrite nview_lam, HP. cbn. apply E. exact Hk.
Qed.
Lemma sc_if : forall a b c, SC a -> SC b -> SC c -> SC (L [Y "if"; a; b; c]).
Proof.
  intros a b c (ka & Ea) (kb & Eb) (kc & Ec). apply (sc_step _ (max ka (max kb kc))). intros k' Hk.
  cbn [scoped nview slist view of_list]. cbn. now rewrite Ea, Eb, Ec by lia.
Qed.
Lemma sc_let : forall x a b, local_ok x = true -> SC a -> SC b -> SC (L [Y "let"; SSym x; a; b]).
Proof.
  intros x a b HX (ka & Ea) (kb & Eb). apply (sc_step _ (max ka kb)). intros k' Hk. cbn. now rewrite HX, Ea, Eb by lia.
Qed.
Lemma sc_do : forall a b, SC a -> SC b -> SC (L [Y "do"; a; b]).
Proof.
  intros a b (ka & Ea) (kb & Eb). apply (sc_step _ (max ka kb)). intros k' Hk. cbn [scoped].
  assert (V : nview (L [Y "do"; a; b]) = match import_of a with Some p => NImport p b | None => NCore (FDo a b) end) by reflexivity.
  rewrite V. destruct (import_of a); cbn; now rewrite ?Ea, ?Eb by lia.
Qed.
Lemma sc_def : forall x a, SC a -> SC (L [Y "def"; SSym x; a]).
Proof. intros x a (k & E). apply (sc_step _ k). intros k' Hk. cbn. apply E. exact Hk. Qed.
Lemma sc_ns : forall p imports b, SC b -> SC (L [Y "ns"; SStr p; L (map SStr imports); b]).
Proof.
  intros p imports b (k & E). apply (sc_step _ k). intros k' Hk. cbn [scoped].
  assert (V : nview (L [Y "ns"; SStr p; L (map SStr imports); b]) = NNs p imports b).
  { unfold nview. cbn. now rewrite slist_of_list, strings_map. }
  rewrite V. apply E. exact Hk.
Qed.
Lemma sc_all : forall l, Forall SC l -> exists k, forall k', k <= k' -> forallb (scoped k') l = true.
Proof.
  induction 1 as [|e l (k & E) _ (k1 & E1)]; [exists 0; reflexivity|]. exists (max k k1). intros k' Hk. cbn. now rewrite E, E1 by lia.
Qed.
Lemma sc_app : forall f args, nhead f -> is_ns f = false -> SC f -> Forall SC args -> SC (L (f :: args)).
Proof.
  intros f args HH HN (k & E) F. destruct (sc_all _ F) as (k1 & E1). apply (sc_step _ (max k k1)). intros k' Hk.
  cbn [scoped]. rewrite nview_app, HN, E, E1 by (exact HH || lia). reflexivity.
Qed.
Lemma sc_sym_app : forall s args, operator s = true -> Forall SC args -> SC (L (Y s :: args)).
Proof. intros. apply sc_app; auto. apply sc_sym. Qed.
Lemma sc_thunk : forall k, SC (L [SSym (NG k)]).
Proof. intro k. apply sc_app; [exact I|reflexivity|apply sc_sym|constructor]. Qed.

Fixpoint lo (p : cpat) : bool := match p with CVar x => plain_local x | CCons p q => lo p && lo q | _ => true end.
Lemma sc_m1 : forall p e body cc, ok_cpat p = true -> sx e -> SC e -> SC body -> SC (L [SSym cc]) -> lo p = true -> SC (m1 p e body cc).
Proof.
  induction p as [x|s|s|p IHp q IHq]; intros e body cc HO HX HE HB HC HL.
  - cbn [m1]. apply sc_let; auto.
  - cbn [m1]. destruct (sexp_eqb s e); [exact HB|]. apply sc_if; auto. apply sc_sym_app; [reflexivity|]. constructor; [now apply sc_atom|]. constructor; auto.
  - cbn [m1]. apply sc_if; auto. apply sc_sym_app; [reflexivity|]. constructor; [apply sc_quote|]. constructor; auto.
  - cbn in HO. apply andb_prop in HO as (O1 & O2). cbn in HL. apply andb_prop in HL as (L1 & L2). destruct (headed "cons" e) eqn:EH.
    + destruct (sx_headed e HX EH) as (a & b & -> & Ha & Hb). rewrite m1_cons.
      assert (SC a /\ SC b) as (Sa & Sb).
      { destruct HE as (k & E). split; exists k; intros k' Hk; specialize (E (S k') ltac:(lia)); cbn in E;
          apply andb_prop in E as (_ & E); apply andb_prop in E as (E1 & E2); apply andb_prop in E2 as (E2 & _); assumption. }
      auto.
    + rewrite m1_other by exact EH. apply sc_if; auto.
      * apply sc_sym_app; [reflexivity|]. constructor; auto.
      * assert (forall s, operator s = true -> SC (L [Y s; e])) as X by (intros; apply sc_sym_app; auto).
        apply IHp; auto; [now constructor|]. apply IHq; auto. now constructor.
Qed.

(** * Every program *)
Lemma local_ok_map : forall ps, forallb plain_local ps = true -> forallb local_ok (map NS ps) = true.
Proof. induction ps as [|p ps IH]; [reflexivity|]. cbn [map forallb]. intro H. apply andb_prop in H as (H1 & H). rewrite IH by exact H. now rewrite andb_true_r. Qed.
Lemma desugar_lo : forall p, forallb plain_local (pvars p) = true -> lo (desugar p) = true.
Proof.
  fix IH 1. intros [x|s|s|p q|l|l q] H; cbn [pvars desugar lo forallb] in *.
  - now rewrite andb_true_r in H.
  - reflexivity.
  - reflexivity.
  - rewrite forallb_app in H. apply andb_prop in H as (H1 & H2). now rewrite (IH p), (IH q).
  - revert H. induction l as [|p l IL]; [reflexivity|]. cbn [flat_map fold_right lo]. rewrite forallb_app. intro H. apply andb_prop in H as (H1 & H2).
    now rewrite (IH p), IL.
  - revert H. induction l as [|p l IL]; cbn [flat_map fold_right lo app]; [apply IH|]. rewrite <- app_assoc, forallb_app. intro H. apply andb_prop in H as (H1 & H2).
    now rewrite (IH p), IL.
Qed.

Definition no_ns (e : sexp) : Prop := is_ns e = false.
Definition SX (x : src) : Prop := forall env n, ok env x = true -> tidy x = true ->
  SC (fst (ex x n)) /\ (is_xns x = false -> is_ns (fst (ex x n)) = false).
Definition ST (t : tmpl) : Prop := forall env n, ok_tmpl env t = true -> tidy_tmpl t = true -> SC (fst (ext t n)).

Lemma sc_gens : forall l, Forall SX l -> forall env n, forallb (ok env) l = true -> forallb tidy l = true -> Forall SC (fst (gens ex l n)).
Proof.
  induction 1 as [|x l HX F IH]; intros env n O T; cbn [gens]; [constructor|]. cbn in O, T.
  apply andb_prop in O as (O1 & O2). apply andb_prop in T as (T1 & T2).
  destruct (HX env n O1 T1) as (A & _). destruct (ex x n) as (y, n1). cbn [fst snd] in *.
  specialize (IH env n1 O2 T2). destruct (gens ex l n1) as (ys, n2). cbn in *. auto.
Qed.
Lemma sc_gent : forall l, Forall ST l -> forall env n, forallb (ok_tmpl env) l = true -> forallb tidy_tmpl l = true -> Forall SC (fst (gens ext l n)).
Proof.
  induction 1 as [|x l HX F IH]; intros env n O T; cbn [gens]; [constructor|]. cbn in O, T.
  apply andb_prop in O as (O1 & O2). apply andb_prop in T as (T1 & T2).
  pose proof (HX env n O1 T1) as A. destruct (ext x n) as (y, n1). cbn [fst snd] in *.
  specialize (IH env n1 O2 T2). destruct (gens ext l n1) as (ys, n2). cbn in *. auto.
Qed.
Lemma sc_conses : forall l t, Forall SC l -> SC t -> SC (conses l t).
Proof. intros l t F HT. unfold conses. induction F; cbn [fold_right]; [exact HT|]. apply sc_sym_app; [reflexivity|]. constructor; auto. Qed.
Lemma sc_ands : forall l, Forall SC l -> SC (ands l).
Proof. intros l F. unfold ands. induction F; cbn [fold_right]; [now apply sc_atom|]. apply sc_if; auto. now apply sc_atom. Qed.
Lemma sc_ors : forall l, Forall SC l -> SC (ors l).
Proof. intros l F. unfold ors. induction F; cbn [fold_right]; [now apply sc_atom|]. apply sc_if; auto. now apply sc_atom. Qed.
Lemma sc_dos : forall l, Forall SC l -> SC (dos l).
Proof.
  induction 1 as [|x l HX F IH]; [now apply sc_atom|]. destruct l; [exact HX|]. change (dos (x :: s :: l)) with (L [Y "do"; x; dos (s :: l)]).
  now apply sc_do.
Qed.
Lemma sc_error : forall s, SC (L [Y "error"; SStr s]).
Proof. intro s. apply sc_sym_app; [reflexivity|]. constructor; [now apply sc_atom|constructor]. Qed.

Section Rules.
  Context {P : Type} (ds : P -> cpat) (okP : P -> bool) (vars : P -> list string).
  Hypothesis ds_ok : forall p, okP p = true -> ok_cpat (ds p) = true.
  Hypothesis ds_lo : forall p, forallb plain_local (vars p) = true -> lo (ds p) = true.
  Lemma sc_rules : forall val (cs : list (P * option src * src)) env, sx val -> SC val ->
    Forall (fun q => on_guard SX (snd (fst q)) /\ SX (snd q)) cs ->
    forallb (fun q => okP (fst (fst q)) && match snd (fst q) with Some g => ok (vars (fst (fst q)) ++ env) g | None => true end &&
                      ok (vars (fst (fst q)) ++ env) (snd q)) cs = true ->
    forallb (fun q => forallb plain_local (vars (fst (fst q))) && match snd (fst q) with Some g => tidy g | None => true end && tidy (snd q)) cs = true ->
    forall i n, SC (fst (gen_rules ds ex val cs i n)).
  Proof.
    intros val cs env HX HV F. induction F as [|q cs (HG & HB) F IH]; intros HO HT i n; cbn [gen_rules]; [apply sc_error|].
    cbn [forallb] in HO, HT. apply andb_prop in HO as (HO & HO'). apply andb_prop in HO as (HO & O3). apply andb_prop in HO as (O1 & O2).
    apply andb_prop in HT as (HT & HT'). apply andb_prop in HT as (HT & T3). apply andb_prop in HT as (T1 & T2).
    specialize (IH HO' HT' (S i) n). destruct (gen_rules ds ex val cs (S i) n) as (rest, n1). cbn [fst] in IH.
    assert (A : SC (fst (gen_action ex (snd (fst q)) (snd q) (NG i) n1))).
    { unfold gen_action. destruct (snd (fst q)) as [g|].
      - destruct (HG _ n1 O2 T2) as (A1 & _). destruct (ex g n1) as (g1, n2). destruct (HB _ n2 O3 T3) as (B1 & _).
        destruct (ex (snd q) n2) as (b1, n3). cbn [fst] in *. apply sc_if; auto. apply sc_thunk.
      - apply (HB _ n1 O3 T3). }
    destruct (gen_action ex (snd (fst q)) (snd q) (NG i) n1) as (act, n2). cbn [fst] in *.
    apply sc_let; [reflexivity|apply (sc_lam []); auto|]. apply sc_m1; auto. apply sc_thunk.
  Qed.
End Rules.

Lemma is_ns_short : forall h a b, is_ns (L [h; a; b]) = false.
Proof.
  intros h a b. unfold is_ns, nview. cbn [slist of_list]. destruct (is_sym "def" h); [destruct a; reflexivity|].
  destruct (is_sym "do" h); [destruct (import_of a); reflexivity|reflexivity].
Qed.
Lemma is_ns_app : forall f args, nhead f -> is_ns (L (f :: args)) = false.
Proof. intros. unfold is_ns. now rewrite nview_app. Qed.

Theorem SX_all : forall x, SX x.
Proof.
  apply (src_ind' SX ST).
  - intros s env n HO _. cbn in *. split; [now apply sc_atom|]. intros _. destruct s; try discriminate; reflexivity.
  - intros s env n _ _. split; [apply sc_quote|]. intros _. reflexivity.
  - intros x env n _ _. split; [apply sc_sym|]. reflexivity.
  - (* lambda *) intros ps b HB env n HO HT. cbn [ok tidy] in *. apply andb_prop in HO as (_ & HO). apply andb_prop in HT as (T1 & T2).
    destruct (HB _ n HO T2) as (A & _). cbn [ex]. destruct (ex b n). cbn [fst] in *. split; [apply sc_lam; auto; now apply local_ok_map|].
    intros _. apply is_ns_short.
  - (* if *) intros a b c HA HB HC env n HO HT. cbn [ok tidy] in *. apply andb_prop in HO as (HO & O3). apply andb_prop in HO as (O1 & O2).
    apply andb_prop in HT as (HT & T3). apply andb_prop in HT as (T1 & T2).
    destruct (HA env n O1 T1) as (A & _). cbn [ex]. destruct (ex a n) as (a1, n1). destruct (HB env n1 O2 T2) as (B & _). destruct (ex b n1) as (b1, n2).
    destruct (HC env n2 O3 T3) as (C & _). destruct (ex c n2). cbn [fst] in *. split; [now apply sc_if|reflexivity].
  - (* do *) intros a b HA HB env n HO HT. cbn [ok tidy] in *. apply andb_prop in HO as (O1 & O2). apply andb_prop in HT as (T1 & T2).
    destruct (HA env n O1 T1) as (A & _). cbn [ex]. destruct (ex a n) as (a1, n1). destruct (HB env n1 O2 T2) as (B & _). destruct (ex b n1) as (b1, n2).
    cbn [fst] in *. split; [now apply sc_do|]. intros _. apply is_ns_short.
  - (* app *) intros f args HF F env n HO HT. cbn [ok tidy] in *. apply andb_prop in HO as (HO & O3). apply andb_prop in HO as (O1 & O2).
    apply andb_prop in HT as (HT & T3). apply andb_prop in HT as (T1 & T2). apply negb_true_iff in T1.
    assert (NH : nhead (fst (ex f n))).
    { clear -O1 O2. pose proof (ex_shp env f n O2) as SF. destruct (fst (ex f n)) as [z|[s|j]|s| | | |a d] eqn:EF; try exact I.
      destruct f; cbn in SF, O2; try contradiction; try discriminate; [subst; discriminate|]. injection SF as ->. exact O1. }
    destruct (HF env n O2 T2) as (A & B). specialize (B T1). cbn [ex]. destruct (ex f n) as (f1, n1). cbn [fst] in *.
    pose proof (sc_gens args F env n1 O3 T3) as C. destruct (gens ex args n1). cbn [fst] in *.
    split; [now apply sc_app|]. intros _. now apply is_ns_app.
  - (* let *) intros bs b F HB env n HO HT. rewrite ok_let_eq in HO. apply andb_prop in HO as (O1 & O2). cbn [tidy] in HT. apply andb_prop in HT as (T1 & T2).
    assert (X : SC (fst (ex (XLet bs b) n))).
    { clear O1. cbn [ex]. revert env n O2. induction F as [|(x, e) bs HE _ IH]; intros env n HO; cbn [gens ok_let forallb fst snd] in *.
      - destruct (HB env n HO T2) as (A & _). destruct (ex b n). exact A.
      - apply andb_prop in HO as (HO & O2). apply andb_prop in HO as (_ & O1). apply andb_prop in T1 as (T1 & T3). apply andb_prop in T1 as (T0 & T1).
        destruct (HE env n O1 T1) as (A & _). destruct (ex e n) as (e1, n1). specialize (IH T3 (x :: env) n1 O2).
        destruct (gens _ bs n1) as (l, n2). destruct (ex b n2). cbn [fst] in *. unfold lets in *. cbn [fold_right fst snd]. apply sc_let; auto. }
    split; [exact X|]. intros _. clear X. cbn [ex]. destruct bs as [|(x, e) bs]; [discriminate|]. cbn [gens]. destruct (ex (snd (x, e)) n) as (e1, n1).
    destruct (gens _ bs n1) as (l, n2). destruct (ex b n2). reflexivity.
  - (* cond *) intros cs F env n HO HT. cbn [ok tidy] in *.
    assert (X : SC (fst (ex (XCond cs) n))).
    { cbn [ex]. revert n. induction F as [|(a, b) cs (HA & HB) _ IH]; intro n; cbn [gens forallb fst snd] in *; [apply sc_error|].
      apply andb_prop in HO as (HO & HO'). apply andb_prop in HO as (O1 & O2). apply andb_prop in HT as (HT & HT'). apply andb_prop in HT as (T1 & T2).
      destruct (HA env n O1 T1) as (A & _). destruct (ex a n) as (a1, n1). destruct (HB env n1 O2 T2) as (B & _). destruct (ex b n1) as (b1, n2).
      specialize (IH HO' HT' n2). destruct (gens _ cs n2). unfold ifs in *. cbn [fold_right fst snd] in *. now apply sc_if. }
    split; [exact X|]. intros _. clear X. cbn [ex]. destruct (gens _ cs n) as ([|q l], n1); reflexivity.
  - (* and *) intros l F env n HO HT. cbn [ok tidy] in *. apply forallb_and2 in HO. pose proof (sc_gens l F env n HO HT) as A. cbn [ex].
    destruct (gens ex l n) as (l1, n1). cbn [fst] in *. split; [now apply sc_ands|]. intros _. destruct l1; reflexivity.
  - (* or *) intros l F env n HO HT. cbn [ok tidy] in *. apply forallb_and2 in HO. pose proof (sc_gens l F env n HO HT) as A. cbn [ex].
    destruct (gens ex l n) as (l1, n1). cbn [fst] in *. split; [now apply sc_ors|]. intros _. destruct l1; reflexivity.
  - (* begin *) intros l F env n HO HT. cbn [ok tidy] in *. apply andb_prop in HO as (HN & HO). pose proof (sc_gens l F env n HO HT) as A. cbn [ex].
    pose proof (gens_length ex l n) as LL. destruct (gens ex l n) as (l1, n1). cbn [fst] in *. split; [now apply sc_dos|]. intros _.
    destruct l as [|? [|? l]]; try discriminate. destruct l1 as [|? [|? l1]]; try discriminate. apply is_ns_short.
  - (* list *) intros l F env n HO HT. cbn [ok tidy] in *. pose proof (sc_gens l F env n HO HT) as A. cbn [ex].
    destruct (gens ex l n) as (l1, n1). cbn [fst] in *. split; [apply sc_conses; auto; now apply sc_atom|]. intros _. destruct l1; [reflexivity|apply is_ns_short].
  - (* list-rest *) intros l t F HT' env n HO HT. cbn [ok tidy] in *. apply andb_prop in HO as (HO & O3). apply andb_prop in HO as (O1 & O2).
    apply andb_prop in HT as (T1 & T2). pose proof (sc_gens l F env n O2 T1) as A. cbn [ex]. pose proof (gens_length ex l n) as LL.
    destruct (gens ex l n) as (l1, n1). destruct (HT' env n1 O3 T2) as (B & _). destruct (ex t n1). cbn [fst] in *.
    split; [now apply sc_conses|]. intros _. destruct l; [discriminate|]. destruct l1; [discriminate|]. apply is_ns_short.
  - (* backquote *) intros t HT' env n HO HT. cbn [ok tidy ex] in *. apply andb_prop in HO as (O1 & O2). split; [now apply (HT' env)|].
    intros _. destruct t as [s|x| |l]; try discriminate; [destruct s; try discriminate; reflexivity|reflexivity|]. cbn [ext]. destruct (gens ext l n) as ([|e l1], n1); [reflexivity|apply is_ns_short].
  - (* match *) intros v cs HV F env n HO HT. cbn [ok tidy ex] in *. apply andb_prop in HO as (HO & O3). apply andb_prop in HO as (HO & O2). apply andb_prop in HO as (O1 & _).
    apply andb_prop in HT as (T1 & T2). destruct (HV env n O1 T1) as (A & _). 
    assert (SX' : computed v = false -> sx (fst (ex v n))).
    { intro E. rewrite E in O2. cbn in O2. eapply simple_sx; eassumption. }
    destruct (ex v n) as (v1, n1). cbn [fst] in *.
    assert (RS : forall val i m, sx val -> SC val -> SC (fst (gen_rules desugar ex val cs i m))).
    { intros val i m H1 H2. eapply (sc_rules desugar ok_pat pvars); eauto; [apply desugar_ok|apply desugar_lo]. }
    destruct (computed v).
    + pose proof (RS (SSym (NG n1)) (S n1) (S n1 + List.length cs) (sx_sym _) (sc_sym _)) as B. destruct (gen_rules _ _ _ _ _ _) as (c, n2).
      cbn [fst] in *. split; [now apply sc_let|reflexivity].
    + pose proof (RS v1 n1 (n1 + List.length cs) (SX' eq_refl) A) as B. split; [exact B|]. intros _.
      clear. destruct cs as [|q cs]; [reflexivity|]. cbn [gen_rules].
      destruct (gen_rules desugar ex v1 cs (S n1) (n1 + List.length (q :: cs))) as (c, n2). destruct (gen_action ex _ _ _ n2). reflexivity.
  - (* def *) intros x e HE env n HO HT. cbn [ok tidy ex] in *. destruct (HE env n HO HT) as (A & _). destruct (ex e n). cbn [fst] in *.
    split; [now apply sc_def|reflexivity].
  - (* defun *) intros f ps b HB env n HO HT. cbn [ok tidy ex] in *. apply andb_prop in HO as (_ & HO). apply andb_prop in HT as (T1 & T2).
    destruct (HB _ n HO T2) as (A & _). destruct (ex b n). cbn [fst] in *. split; [|reflexivity]. apply sc_def, sc_lam; auto. now apply local_ok_map.
  - (* func *) intros f cs F env n HO HT. cbn [ok tidy ex] in *.
    set (k := rules_arity cs). set (args := map NG (seq n k)).
    assert (O : forallb (fun q => forallb ok_pat (fst (fst q)) && match snd (fst q) with Some g => ok (flat_map pvars (fst (fst q)) ++ env) g | None => true end &&
                      ok (flat_map pvars (fst (fst q)) ++ env) (snd q)) cs = true).
    { destruct cs as [|((ps, g), b) cs]; [discriminate|]. clear -HO. rewrite forallb_forall in *. intros q Hq. specialize (HO q Hq). cbn beta in *.
      rewrite <- !andb_assoc in *. apply andb_prop in HO. apply HO. }
    assert (SA : sx (conses (map SSym args) SNil)).
    { clear. clearbody args. unfold conses. induction args; cbn [map fold_right]; [now constructor|]. apply sx_cons; [apply sx_sym|exact IHargs]. }
    assert (CA : SC (conses (map SSym args) SNil)).
    { apply sc_conses; [|now apply sc_atom]. clear. induction args; constructor; auto. apply sc_sym. }
    assert (B : SC (fst (gen_rules (fun ps => desugar (QList ps)) ex (conses (map SSym args) SNil) cs (n + k) (n + k + List.length cs)))).
    { eapply (sc_rules (fun ps => desugar (QList ps)) (forallb ok_pat) (flat_map pvars)); eauto.
      - intros p H. apply desugar_ok. exact H.
      - intros p H. apply desugar_lo. exact H. }
    destruct (gen_rules _ _ _ _ _ _) as (c, n2). cbn [fst] in *. split; [|reflexivity]. apply sc_def, sc_lam; auto.
    clear. unfold args. induction (seq n k); [reflexivity|assumption].
  - (* ns *) intros p imports b HB env n HO HT. cbn [ok tidy ex] in *. destruct (HB env n HO HT) as (A & _). destruct (ex b n). cbn [fst] in *.
    split; [now apply sc_ns|discriminate].
  - intros s env n HO _. now apply sc_atom.
  - intros x env n _ _. apply sc_quote.
  - intros e HE env n HO HT. cbn in *. apply (HE env n HO HT).
  - intros l F env n HO HT. cbn [ok_tmpl tidy_tmpl ext] in *. apply andb_prop in HO as (_ & HO). pose proof (sc_gent l F env n HO HT) as A.
    destruct (gens ext l n). cbn [fst] in *. apply sc_conses; auto. now apply sc_atom.
Qed.
