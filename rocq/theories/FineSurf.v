(** The expansion of a neat program has all the properties that the compiler
    and the C generator ask for. *)
From Coq Require Import List ZArith Bool String Ascii Arith Lia.
From Verif Require Import Base GenCond GenSource SurfSpec CoreSpec CoreProofs TocModel TocSem TocMach TocTail TocParse TocScope TocWhole TocTotal TocTable
  NsSpec NsModel NsProofs MacroModel MacroExp MacroProofs MacroScope FineCore FineNs FineSpec.
Import ListNotations.
Local Open Scope list_scope.
Local Open Scope nat_scope.

Local Notation Y s := (SSym (NS s)).
Local Notation "'L' l" := (of_list l) (at level 9, l at level 0).

(** * Names *)
Lemma among_spec : forall s l, among s l = true <-> In s l.
Proof.
  intros s l. unfold among. rewrite existsb_exists. split.
  - intros (x & Hx & E). apply String.eqb_eq in E. now subst.
  - intro H. exists s. split; [exact H|apply String.eqb_refl].
Qed.
Lemma among_not : forall s l, negb (among s l) = true <-> ~ In s l.
Proof. intros s l. rewrite negb_true_iff, <- not_true_iff_false, among_spec. reflexivity. Qed.
Lemma disjoint_spec : forall l l', disjoint l l' = true <-> forall s, In s l -> ~ In s l'.
Proof.
  intros l l'. unfold disjoint. rewrite forallb_forall. split; intros H s Hs; specialize (H s Hs); now apply among_not.
Qed.
Lemma unique_spec : forall l, unique l = true -> NoDup l.
Proof.
  induction l as [|s l IH]; intro H; [constructor|]. cbn [unique] in H. apply andb_true_iff in H as [H1 H2]. constructor; [now apply among_not|auto].
Qed.
Lemma nodup_ns : forall l, NoDup l -> NoDup (map NS l).
Proof.
  induction 1 as [|s l N _ IH]; cbn; constructor; [|exact IH]. intro H. apply in_map_iff in H as (t & E & Ht). injection E as ->. contradiction.
Qed.
Lemma in_ns : forall s l, In (NS s) (map NS l) <-> In s l.
Proof.
  intros s l. rewrite in_map_iff. split; [intros (t & E & H); now injection E as <-|]. intro H. now exists s.
Qed.
Lemma ng_not_ns : forall i l, ~ In (NG i) (map NS l).
Proof. intros i l H. apply in_map_iff in H as (t & E & _). discriminate. Qed.
Lemma in_ng : forall i n k, In (NG i) (map NG (seq n k)) <-> n <= i < n + k.
Proof.
  intros i n k. rewrite in_map_iff. split; [intros (t & E & H); injection E as <-; now apply in_seq in H|]. intro H. exists i. split; [reflexivity|now apply in_seq].
Qed.
Lemma ns_not_ng : forall s l, ~ In (NS s) (map NG l).
Proof. intros s l H. apply in_map_iff in H as (t & E & _). discriminate. Qed.

Lemma nodup_split : forall l l' : list string, NoDup (l ++ l') -> NoDup l /\ NoDup l' /\ forall s, In s l -> ~ In s l'.
Proof.
  induction l as [|a l IH]; cbn; intros l' H; [repeat split; auto; constructor|]. inversion H as [|? ? N H']; subst.
  destruct (IH l' H') as (A & B & C). repeat split; auto.
  - constructor; [|exact A]. intro I. apply N, in_app_iff. now left.
  - intros s [->|I]; [|auto]. intro I'. apply N, in_app_iff. now right.
Qed.

(** the names [l] and the gensyms from [n] to [m] *)
Definition NL (l : list string) (n m : nat) : list name := map NS l ++ map NG (seq n (m - n)).
Lemma in_nl : forall x l n m, In x (NL l n m) <-> match x with NS s => In s l | NG i => n <= i < m end.
Proof.
  intros x l n m. unfold NL. rewrite in_app_iff. destruct x as [s|i].
  - rewrite in_ns. split; [intros [H|H]; [exact H|now apply ns_not_ng in H]|auto].
  - rewrite in_ng. split; [intros [H|H]; [now apply ng_not_ns in H|lia]|intro H; right; lia].
Qed.
Lemma nl_dj : forall l l' n m n' m', (forall s, In s l -> ~ In s l') -> m <= n' -> dj (NL l n m) (NL l' n' m').
Proof. intros l l' n m n' m' H Hn x Hx Hx'. apply in_nl in Hx. apply in_nl in Hx'. destruct x as [s|i]; [now apply (H s)|lia]. Qed.
Lemma nl_incl : forall l l' n m n' m', incl l l' -> n' <= n -> m <= m' -> incl (NL l n m) (NL l' n' m').
Proof. intros l l' n m n' m' H H1 H2 x Hx. apply in_nl in Hx. apply in_nl. destruct x as [s|i]; [now apply H|lia]. Qed.
Lemma nl_none : forall l n m, incl ([] : list name) (NL l n m).
Proof. intros l n m x []. Qed.

(** [E] has the names [env] and gensyms below [n] *)
Definition cov (env : list string) (E : list name) (n : nat) : Prop := (forall s, In s env <-> In (NS s) E) /\ forall i, In (NG i) E -> i < n.
Lemma cov_more : forall env E n m, cov env E n -> n <= m -> cov env E m.
Proof. intros env E n m (A & B) H. split; [exact A|]. intros i Hi. specialize (B i Hi). lia. Qed.
Lemma cov_app : forall ps env E n, cov env E n -> cov (ps ++ env) (map NS ps ++ E) n.
Proof.
  intros ps env E n (A & B). split.
  - intro s. rewrite !in_app_iff, in_ns, A. reflexivity.
  - intros i Hi. apply in_app_iff in Hi as [Hi|Hi]; [now apply ng_not_ns in Hi|auto].
Qed.
Lemma cov_rev : forall ps env E n, cov env E n -> cov (ps ++ env) (rev (map NS ps) ++ E) n.
Proof.
  intros ps env E n (A & B). split.
  - intro s. rewrite !in_app_iff, <- in_rev, in_ns, A. reflexivity.
  - intros i Hi. apply in_app_iff in Hi as [Hi|Hi]; [|auto]. apply in_rev in Hi. now apply ng_not_ns in Hi.
Qed.
Lemma cov_cons : forall x env E n, cov env E n -> cov (x :: env) (NS x :: E) n.
Proof. intros x env E n H. exact (cov_app [x] env E n H). Qed.
Lemma cov_gen : forall i env E n, cov env E n -> i < n -> cov env (NG i :: E) n.
Proof.
  intros i env E n (A & B) H. split; [|intros j [Hj|Hj]; [injection Hj as <-; exact H|auto]].
  intro s. cbn. rewrite A. split; [auto|]. intros [D|]; [discriminate|assumption].
Qed.
Lemma cov_gens : forall k i env E n, cov env E i -> i + k <= n -> cov env (map NG (seq i k) ++ E) n.
Proof.
  intros k i env E n (A & B) H. split.
  - intro s. rewrite in_app_iff, A. split; [auto|]. intros [D|]; [now apply ns_not_ng in D|assumption].
  - intros j Hj. apply in_app_iff in Hj as [Hj|Hj]; [apply in_ng in Hj; lia|specialize (B j Hj); lia].
Qed.

Section Surf.
  Variable n0 : nat.
  Notation nf := (nf n0).
  Notation good := (FineCore.good n0).

  Lemma sgood_good : forall s, sgood s = true -> good (NS s) = true.
  Proof. intros s H. exact H. Qed.
  Lemma sgoods : forall l, forallb sgood l = true -> forallb good (map NS l) = true.
  Proof. intros l H. rewrite forallb_forall in *. intros x Hx. apply in_map_iff in Hx as (s & <- & Hs). exact (H s Hs). Qed.
  Lemma gen_good : forall i, i < n0 -> good (NG i) = true.
  Proof.
    intros i H. unfold FineCore.good, binder_ok, older. cbn [prim_of]. apply Nat.ltb_lt in H. rewrite H. reflexivity.
  Qed.
  Lemma gens_good : forall k i, i + k <= n0 -> forallb good (map NG (seq i k)) = true.
  Proof.
    intros k i H. apply forallb_forall. intros x Hx. apply in_map_iff in Hx as (j & <- & Hj). apply in_seq in Hj. apply gen_good. lia.
  Qed.
  Lemma gens_nodup : forall k i, NoDup (map NG (seq i k)).
  Proof.
    induction k as [|k IH]; intro i; cbn; constructor; [|apply IH]. intro H. apply in_ng in H. lia.
  Qed.
  Lemma older_ns : forall s, older n0 (NS s) = true.
  Proof. reflexivity. Qed.

  (** ** Calls that the expansion makes *)
  Definition prim2 (s : string) : Prop := exists p, prim_of (NS s) = Some p /\ prim_arity p = 2.
  Lemma nf_two : forall s E ls a b la lb, prim2 s -> nf E la a -> nf E lb b -> dj la lb -> incl (la ++ lb) ls -> nf E ls (L [Y s; a; b]).
  Proof.
    intros s E ls a b la lb (p & P1 & P2) HA HB HD HI. apply (nf_prim n0 E ls (NS s) p [a; b] [la; lb]); auto.
    - apply nfs_cons; [exact HA|]. apply nfs_cons; [exact HB|apply nfs_nil].
    - repeat constructor. exact HD.
    - cbn. now rewrite app_nil_r.
  Qed.
  Definition prim1 (s : string) : Prop := exists p, prim_of (NS s) = Some p /\ prim_arity p = 1.
  Lemma nf_one : forall s E ls a la, prim1 s -> nf E la a -> incl la ls -> nf E ls (L [Y s; a]).
  Proof.
    intros s E ls a la (p & P1 & P2) HA HI. apply (nf_prim n0 E ls (NS s) p [a] [la]); auto.
    - apply nfs_cons; [exact HA|apply nfs_nil].
    - repeat constructor.
    - cbn. now rewrite app_nil_r.
  Qed.
  Lemma p_cons : prim2 "cons". Proof. now exists PCons. Qed.
  Lemma p_eq : prim2 "=". Proof. now exists PEq. Qed.
  Lemma p_car : prim1 "car". Proof. now exists PCar. Qed.
  Lemma p_cdr : prim1 "cdr". Proof. now exists PCdr. Qed.
  Lemma p_iscons : prim1 "cons?". Proof. now exists PIsCons. Qed.

  Lemma call_of_nhead : forall f n, nhead f -> call_head f n.
  Proof.
    intros [z|[s|k]|s| | | |a d] n H; try (repeat split; (reflexivity || discriminate)).
    cbn in H. unfold operator in H. apply negb_true_iff in H. unfold among in H. cbn [existsb] in H.
    repeat match type of H with _ || _ = false => apply orb_false_iff in H; let X := fresh in destruct H as (X & H) end.
    unfold call_head. cbn [is_sym name_eqb]. repeat split; auto; congruence.
  Qed.
  Lemma nf_error : forall E ls s, literals (SStr s) = true -> nf E ls (L [Y "error"; SStr s]).
  Proof.
    intros E ls s H. apply (nf_app n0 E ls (Y "error") [SStr s] [] [[]]); try reflexivity.
    - now apply call_of_nhead.
    - now exists 1.
    - apply nf_sym; [reflexivity|now right].
    - apply nfs_cons; [apply nf_atom; [reflexivity|exact H]|apply nfs_nil].
    - repeat constructor. intros x [].
    - intros x [].
  Qed.
  Lemma nf_thunk : forall E ls i, In (NG i) E -> i < n0 -> nf E ls (L [SSym (NG i)]).
  Proof.
    intros E ls i HI HN. apply (nf_app n0 E ls (SSym (NG i)) [] [] []); try reflexivity.
    - now apply call_of_nhead.
    - now exists 1.
    - apply nf_sym; [now apply Nat.ltb_lt|now left].
    - constructor.
    - repeat constructor.
    - intros x [].
  Qed.

  (** ** What match takes apart *)
  Inductive sv (E : list name) : sexp -> Prop :=
  | sv_atom s : is_atom s = true -> literals s = true -> sv E s
  | sv_sym x : older n0 x = true -> In x E -> sv E (SSym x)
  | sv_quote s : symbol_ok (SSym s) = true -> sv E (L [Y "quote"; SSym s])
  | sv_cons a b : sv E a -> sv E b -> sv E (L [Y "cons"; a; b])
  | sv_car a : sv E a -> sv E (L [Y "car"; a])
  | sv_cdr a : sv E a -> sv E (L [Y "cdr"; a]).
  Lemma sv_more : forall E E' e, sv E e -> incl E E' -> sv E' e.
  Proof. intros E E' e H HI. induction H; [now apply sv_atom|apply sv_sym; auto|now apply sv_quote|now apply sv_cons|now apply sv_car|now apply sv_cdr]. Qed.
  Lemma sv_nf : forall E e, sv E e -> forall ls, nf E ls e.
  Proof.
    intros E e H. induction H; intro ls.
    - now apply nf_atom.
    - apply nf_sym; auto.
    - now apply nf_quote.
    - apply (nf_two "cons" E ls a b [] []); auto using p_cons; intros x [].
    - apply (nf_one "car" E ls a []); auto using p_car; intros x [].
    - apply (nf_one "cdr" E ls a []); auto using p_cdr; intros x [].
  Qed.
  Lemma sv_headed : forall E e, sv E e -> headed "cons" e = true -> exists a b, e = L [Y "cons"; a; b] /\ sv E a /\ sv E b.
  Proof. intros E e H EH. inversion H; subst; try discriminate; [destruct e; discriminate|]. eauto. Qed.

  Fixpoint cvars (p : cpat) : list string := match p with CVar x => [x] | CCons p q => cvars p ++ cvars q | _ => [] end.
  Fixpoint neat_cpat (p : cpat) : bool :=
    match p with CVar x => sgood x | CLit s => is_atom s && literals s | CQuote s => a_symbol s | CCons p q => neat_cpat p && neat_cpat q end.

  Lemma m1_nf : forall p E e body i lb, neat_cpat p = true -> NoDup (cvars p) -> (forall s, In s (cvars p) -> ~ In (NS s) E) ->
    sv E e -> In (NG i) E -> i < n0 -> nf (rev (map NS (cvars p)) ++ E) lb body -> nf E (map NS (cvars p) ++ lb) (m1 p e body (NG i)).
  Proof.
    assert (DJ : forall l : list name, dj [] l) by (intros l x []).
    assert (NI : forall l : list name, incl [] l) by (intros l x []).
    induction p as [x|s|s|p IHp q IHq]; intros E e body i lb HN ND HF HV HI Hi HB; cbn [m1 cvars neat_cpat map rev app] in *.
    - apply (nf_let n0 E _ (NS x) e body [] lb); [exact HN|exact (HF x (or_introl eq_refl))|now apply sv_nf|exact HB|intros []|apply DJ|apply incl_refl].
    - apply andb_true_iff in HN as [H1 H2]. destruct (sexp_eqb s e); [exact HB|].
      apply (nf_if n0 E lb _ _ _ [] lb []); [|exact HB|now apply nf_thunk|apply DJ|cbn; rewrite app_nil_r; apply incl_refl].
      apply (nf_two "=" E [] s e [] []); auto using p_eq; [now apply nf_atom|now apply sv_nf].
    - destruct s as [|x| | | | |]; try discriminate. apply (nf_if n0 E lb _ _ _ [] lb []); [|exact HB|now apply nf_thunk|apply DJ|cbn; rewrite app_nil_r; apply incl_refl].
      apply (nf_two "=" E [] (L [Y "quote"; SSym x]) e [] []); auto using p_eq; [now apply nf_quote|now apply sv_nf].
    - apply andb_true_iff in HN as [H1 H2]. rewrite map_app, rev_app_distr, <- app_assoc in HB.
      assert (N1 : NoDup (cvars p)) by (destruct (nodup_split _ _ ND) as (A & _ & _); exact A).
      assert (N2 : NoDup (cvars q)) by (destruct (nodup_split _ _ ND) as (_ & A & _); exact A).
      assert (N3 : forall s, In s (cvars q) -> ~ In (NS s) (rev (map NS (cvars p)) ++ E)).
      { intros s Hs H. apply in_app_iff in H as [H|H]; [|apply (HF s); auto; apply in_app_iff; auto].
        apply in_rev in H. apply in_ns in H. destruct (nodup_split _ _ ND) as (_ & _ & A). now apply (A s). }
      assert (N4 : forall s, In s (cvars p) -> ~ In (NS s) E) by (intros s Hs; apply HF, in_app_iff; auto).
      assert (IE : incl E (rev (map NS (cvars p)) ++ E)) by apply incl_appr, incl_refl.
      assert (K : forall a b, sv E a -> sv E b -> nf E (map NS (cvars p ++ cvars q) ++ lb) (m1 p a (m1 q b body (NG i)) (NG i))).
      { intros a b Ha Hb. rewrite map_app, <- app_assoc. apply IHp; auto. apply IHq; auto. now apply (sv_more E). }
      destruct (headed "cons" e) eqn:EH.
      + destruct (sv_headed E e HV EH) as (a & b & -> & Ha & Hb). cbn. now apply K.
      + apply (nf_if n0 E _ _ _ _ [] (map NS (cvars p ++ cvars q) ++ lb) []); [| | |apply DJ|].
        * apply (nf_one "cons?" E [] e []); auto using p_iscons. now apply sv_nf.
        * apply K; [now apply sv_car|now apply sv_cdr].
        * now apply nf_thunk.
        * cbn. rewrite app_nil_r. apply incl_refl.
  Qed.
  Lemma desugar_vars : forall p, cvars (desugar p) = pvars p.
  Proof.
    intro p. pattern p. apply pat_ind'; clear p; cbn [pvars desugar cvars]; auto.
    - intros p q HP HQ. now rewrite HP, HQ.
    - intros l F. induction F as [|p l HP _ IH]; cbn; [reflexivity|]. now rewrite HP, IH.
    - intros l q F HQ. induction F as [|p l HP _ IH]; cbn; [exact HQ|]. now rewrite HP, IH, app_assoc.
  Qed.
  Lemma desugar_neat : forall p, ok_pat p = true -> neat_pat p = true -> neat_cpat (desugar p) = true.
  Proof.
    intro p. pattern p. apply pat_ind'; clear p; cbn [ok_pat neat_pat desugar neat_cpat]; auto.
    - intros s H1 H2. now rewrite H1, H2.
    - intros p q HP HQ H1 H2. apply andb_true_iff in H1 as [A B]. apply andb_true_iff in H2 as [C D]. now rewrite HP, HQ.
    - intros l F. induction F as [|p l HP _ IH]; cbn [fold_right neat_cpat forallb]; [reflexivity|]. intros H1 H2.
      apply andb_true_iff in H1 as [A B]. apply andb_true_iff in H2 as [C D]. now rewrite HP, IH.
    - intros l q F HQ H1 H2. apply andb_true_iff in H1 as [H1 Oq]. apply andb_true_iff in H1 as [_ H1]. apply andb_true_iff in H2 as [H2 Nq].
      revert H1 H2. induction F as [|p l HP _ IH]; cbn [fold_right neat_cpat forallb]; [intros _ _; now apply HQ|]. intros H1 H2.
      apply andb_true_iff in H1 as [A B]. apply andb_true_iff in H2 as [C D]. now rewrite HP, IH.
  Qed.

  (** ** Lists of expressions *)
  Inductive chain (E : list name) : list (list string) -> nat -> list sexp -> nat -> Prop :=
  | ch_nil n : chain E [] n [] n
  | ch_cons sl n e n1 sls es n2 : n <= n1 -> nf E (NL sl n n1) e -> chain E sls n1 es n2 -> chain E (sl :: sls) n (e :: es) n2.
  Lemma chain_le : forall E sls n es n', chain E sls n es n' -> n <= n'.
  Proof. intros E sls n es n' H. induction H; lia. Qed.
  Lemma pairwise_cons : forall l r, pairwise (l :: r) = true -> (forall s, In s l -> ~ In s (List.concat r)) /\ pairwise r = true.
  Proof. intros l r H. cbn [pairwise] in H. apply andb_true_iff in H as [H1 H2]. split; [now apply disjoint_spec|exact H2]. Qed.
  Lemma pairwise_end : forall l, pairwise l = true -> pairwise (l ++ [[]]) = true.
  Proof.
    induction l as [|a l IH]; intro H; [reflexivity|]. cbn [app pairwise] in *. apply andb_true_iff in H as [H1 H2]. rewrite IH by exact H2.
    rewrite concat_app. cbn. now rewrite !app_nil_r, H1.
  Qed.
  Lemma chain_nfs : forall E sls n es n', chain E sls n es n' -> pairwise sls = true ->
    exists lss, nfs n0 E lss es /\ ForallOrdPairs dj lss /\ Forall2 (fun sl l => incl l (NL sl n n')) sls lss.
  Proof.
    intros E sls n es n' H. induction H as [n|sl n e n1 sls es n2 HL HE HC IH]; intro HP.
    - exists []. split; [apply nfs_nil|]. split; constructor.
    - destruct (pairwise_cons _ _ HP) as (H1 & H2). destruct (IH H2) as (lss & A & B & C). exists (NL sl n n1 :: lss).
      pose proof (chain_le _ _ _ _ _ HC) as HL2. split; [now apply nfs_cons|]. split.
      + constructor; [|exact B]. clear -C H1. induction C as [|sl' l sls lss HI C IH]; [constructor|]. constructor.
        * intros x Hx Hx'. apply HI in Hx'. revert x Hx Hx'. apply nl_dj; [|apply le_n].
          intros s Hs Hs'. apply (H1 s Hs). cbn. apply in_app_iff. now left.
        * apply IH. intros s Hs Hs'. apply (H1 s Hs). cbn. apply in_app_iff. now right.
      + constructor; [apply nl_incl; [apply incl_refl|lia|exact HL2]|]. clear -C HL. induction C as [|a b ? ? HI _ IH]; constructor; [|exact IH].
        eapply incl_tran; [exact HI|]. apply nl_incl; [apply incl_refl|exact HL|lia].
  Qed.
  Lemma chain_concat : forall sls lss n n', Forall2 (fun sl l => incl l (NL sl n n')) sls lss -> incl (List.concat lss) (NL (List.concat sls) n n').
  Proof.
    intros sls lss n n' H. induction H as [|sl l sls lss HI _ IH]; [intros x []|]. cbn. apply incl_app.
    - eapply incl_tran; [exact HI|]. apply nl_incl; [apply incl_appl, incl_refl|lia|lia].
    - eapply incl_tran; [exact IH|]. apply nl_incl; [apply incl_appr, incl_refl|lia|lia].
  Qed.
  (** two parts, one after the other *)
  Lemma nl_two : forall l l' n m k ls, n <= m -> m <= k -> incl (l ++ l') ls -> incl (NL l n m ++ NL l' m k) (NL ls n k).
  Proof.
    intros l l' n m k ls H1 H2 HI. apply incl_app; apply nl_incl; try lia; intros x Hx; apply HI, in_app_iff; auto.
  Qed.
  Lemma dj_nil : forall l, dj l []. Proof. intros l x _ []. Qed.
  Lemma nil_dj : forall l, dj [] l. Proof. intros l x []. Qed.

  Lemma chain_conses : forall E sls n es n1, chain E sls n es n1 -> forall st t n2, nf E (NL st n1 n2) t -> n1 <= n2 -> pairwise (sls ++ [st]) = true ->
    nf E (NL (List.concat sls ++ st) n n2) (conses es t).
  Proof.
    intros E sls n es n1 H. induction H as [n|sl n e n1 sls es n2 HL HE HC IH]; intros st t n3 HT Hn HP; [exact HT|].
    cbn [app] in HP. destruct (pairwise_cons _ _ HP) as (H1 & H2). pose proof (chain_le _ _ _ _ _ HC) as HL2.
    assert (EC : List.concat (sls ++ [st]) = List.concat sls ++ st) by (rewrite concat_app; cbn; now rewrite app_nil_r). rewrite EC in H1.
    cbn [conses fold_right]. fold (conses es t).
    apply (nf_two "cons" _ _ _ _ (NL sl n n1) (NL (List.concat sls ++ st) n1 n3)); [exact p_cons|exact HE|now apply IH|now apply nl_dj|].
    apply nl_two; try lia. cbn. rewrite <- app_assoc. apply incl_refl.
  Qed.
  Lemma chain_list : forall E sls n es n1, chain E sls n es n1 -> pairwise sls = true -> nf E (NL (List.concat sls) n n1) (conses es SNil).
  Proof.
    intros E sls n es n1 H HP. pose proof (chain_conses _ _ _ _ _ H [] SNil n1) as X. rewrite app_nil_r in X. apply X; [now apply nf_atom|lia|now apply pairwise_end].
  Qed.
  Lemma chain_ands : forall E sls n es n1, chain E sls n es n1 -> pairwise sls = true -> nf E (NL (List.concat sls) n n1) (ands es).
  Proof.
    intros E sls n es n1 H. induction H as [n|sl n e n1 sls es n2 HL HE HC IH]; intro HP; [now apply nf_atom|].
    destruct (pairwise_cons _ _ HP) as (H1 & H2). pose proof (chain_le _ _ _ _ _ HC) as HL2. cbn [ands fold_right]. fold (ands es).
    apply (nf_if n0 _ _ _ _ _ (NL sl n n1) (NL (List.concat sls) n1 n2) []); [exact HE|now apply IH|now apply nf_atom|rewrite app_nil_r; now apply nl_dj|].
    rewrite app_nil_r. apply nl_two; try lia. apply incl_refl.
  Qed.
  Lemma chain_ors : forall E sls n es n1, chain E sls n es n1 -> pairwise sls = true -> nf E (NL (List.concat sls) n n1) (ors es).
  Proof.
    intros E sls n es n1 H. induction H as [n|sl n e n1 sls es n2 HL HE HC IH]; intro HP; [now apply nf_atom|].
    destruct (pairwise_cons _ _ HP) as (H1 & H2). pose proof (chain_le _ _ _ _ _ HC) as HL2. cbn [ors fold_right]. fold (ors es).
    apply (nf_if n0 _ _ _ _ _ (NL sl n n1) [] (NL (List.concat sls) n1 n2)); [exact HE|now apply nf_atom|now apply IH|now apply nl_dj|].
    apply nl_two; try lia. apply incl_refl.
  Qed.
  Definition imports_short (e : sexp) : Prop := forall p, import_of e = Some p -> short p = true.
  Lemma chain_dos : forall E sls n es n1, chain E sls n es n1 -> Forall imports_short es -> pairwise sls = true -> nf E (NL (List.concat sls) n n1) (dos es).
  Proof.
    intros E sls n es n1 H. induction H as [n|sl n e n1 sls es n2 HL HE HC IH]; intros HI HP; [now apply nf_atom|].
    inversion HI as [|? ? I1 I2]; subst. destruct (pairwise_cons _ _ HP) as (H1 & H2). pose proof (chain_le _ _ _ _ _ HC) as HL2. destruct es as [|e' es].
    - inversion HC; subst. cbn. rewrite app_nil_r. exact HE.
    - change (dos (e :: e' :: es)) with (L [Y "do"; e; dos (e' :: es)]).
      apply (nf_do n0 _ _ _ _ (NL sl n n1) (NL (List.concat sls) n1 n2)); [exact I1|exact HE|now apply IH|now apply nl_dj|].
      apply nl_two; try lia. apply incl_refl.
  Qed.

  (** * Every program *)
  Definition PX (x : src) : Prop := forall env E n, ok env x = true -> tidy x = true -> neat env x = true -> cov env E n ->
    n <= snd (ex x n) /\ (snd (ex x n) <= n0 -> nf E (NL (slets x) n (snd (ex x n))) (fst (ex x n))).
  Definition PT (t : tmpl) : Prop := forall env E n, ok_tmpl env t = true -> tidy_tmpl t = true -> neat_tmpl env t = true -> cov env E n ->
    n <= snd (ext t n) /\ (snd (ext t n) <= n0 -> nf E (NL (slets_tmpl t) n (snd (ext t n))) (fst (ext t n))).

  Lemma gens_chain : forall l, Forall PX l -> forall env E n, forallb (ok env) l = true -> forallb tidy l = true -> forallb (neat env) l = true -> cov env E n ->
    n <= snd (gens ex l n) /\ (snd (gens ex l n) <= n0 -> chain E (map slets l) n (fst (gens ex l n)) (snd (gens ex l n))).
  Proof.
    induction 1 as [|x l HX _ IH]; intros env E n HO HT HN HC; cbn [gens map]; [split; [apply le_n|constructor]|].
    cbn [forallb] in *. apply andb_true_iff in HO as [O1 O2]. apply andb_true_iff in HT as [T1 T2]. apply andb_true_iff in HN as [N1 N2].
    destruct (HX env E n O1 T1 N1 HC) as (A & B). destruct (ex x n) as (y, n1). cbn [fst snd] in *.
    destruct (IH env E n1 O2 T2 N2 (cov_more _ _ _ _ HC A)) as (C & D). destruct (gens ex l n1) as (ys, n2). cbn [fst snd] in *.
    split; [lia|]. intro H. apply (ch_cons E _ n y n1); [exact A|apply B; lia|now apply D].
  Qed.
  Lemma gent_chain : forall l, Forall PT l -> forall env E n, forallb (ok_tmpl env) l = true -> forallb tidy_tmpl l = true -> forallb (neat_tmpl env) l = true -> cov env E n ->
    n <= snd (gens ext l n) /\ (snd (gens ext l n) <= n0 -> chain E (map slets_tmpl l) n (fst (gens ext l n)) (snd (gens ext l n))).
  Proof.
    induction 1 as [|x l HX _ IH]; intros env E n HO HT HN HC; cbn [gens map]; [split; [apply le_n|constructor]|].
    cbn [forallb] in *. apply andb_true_iff in HO as [O1 O2]. apply andb_true_iff in HT as [T1 T2]. apply andb_true_iff in HN as [N1 N2].
    destruct (HX env E n O1 T1 N1 HC) as (A & B). destruct (ext x n) as (y, n1). cbn [fst snd] in *.
    destruct (IH env E n1 O2 T2 N2 (cov_more _ _ _ _ HC A)) as (C & D). destruct (gens ext l n1) as (ys, n2). cbn [fst snd] in *.
    split; [lia|]. intro H. apply (ch_cons E _ n y n1); [exact A|apply B; lia|now apply D].
  Qed.
  Lemma concat_map : forall {A} (f : A -> list string) l, List.concat (map f l) = flat_map f l.
  Proof. intros. symmetry. apply flat_map_concat_map. Qed.

  (** ** Clauses *)
  Lemma action_nf : forall g b, on_guard PX g -> PX b -> forall env E i n,
    match g with Some g => ok env g | None => true end = true -> ok env b = true ->
    match g with Some g => tidy g | None => true end = true -> tidy b = true ->
    match g with Some g => neat env g && disjoint (slets g) (slets b) | None => true end = true -> neat env b = true -> cov env E n -> In (NG i) E -> i < n ->
    n <= snd (gen_action ex g b (NG i) n) /\ (snd (gen_action ex g b (NG i) n) <= n0 ->
      nf E (NL (match g with Some g => slets g | None => [] end ++ slets b) n (snd (gen_action ex g b (NG i) n))) (fst (gen_action ex g b (NG i) n))).
  Proof.
    intros [g|] b HG HB env E i n O1 O2 T1 T2 N1 N2 HC HI Hi; cbn [gen_action]; [|exact (HB env E n O2 T2 N2 HC)].
    apply andb_true_iff in N1 as [N1 DD]. rewrite disjoint_spec in DD.
    destruct (HG env E n O1 T1 N1 HC) as (A & B). destruct (ex g n) as (g1, n1). cbn [fst snd] in *.
    destruct (HB env E n1 O2 T2 N2 (cov_more _ _ _ _ HC A)) as (C & D). destruct (ex b n1) as (b1, n2). cbn [fst snd] in *.
    split; [lia|]. intro H.
    apply (nf_if n0 _ _ _ _ _ (NL (slets g) n n1) (NL (slets b) n1 n2) []); [apply B; lia|now apply D|apply nf_thunk; [exact HI|lia]|rewrite app_nil_r; now apply nl_dj|].
    rewrite app_nil_r. apply nl_two; try lia. apply incl_refl.
  Qed.

  Section Rules.
    Context {P : Type} (ds : P -> cpat) (okP neatP : P -> bool) (vars : P -> list string).
    Hypothesis ds_neat : forall p, okP p = true -> neatP p = true -> neat_cpat (ds p) = true.
    Hypothesis ds_vars : forall p, cvars (ds p) = vars p.
    Lemma rules_nf : forall (cs : list (P * option src * src)) env E val,
      Forall (fun q => on_guard PX (snd (fst q)) /\ PX (snd q)) cs ->
      forallb (fun q => okP (fst (fst q)) && match snd (fst q) with Some g => ok (vars (fst (fst q)) ++ env) g | None => true end &&
                        ok (vars (fst (fst q)) ++ env) (snd q)) cs = true ->
      forallb (fun q => forallb plain_local (vars (fst (fst q))) && match snd (fst q) with Some g => tidy g | None => true end && tidy (snd q)) cs = true ->
      forallb (fun q => neatP (fst (fst q)) && fresh env (vars (fst (fst q))) &&
                 match snd (fst q) with
                 | Some g => neat (vars (fst (fst q)) ++ env) g && disjoint (slets g) (slets (snd q))
                 | None => true
                 end && neat (vars (fst (fst q)) ++ env) (snd q)) cs = true ->
      forall i n, cov env E i -> i + List.length cs <= n ->
      n <= snd (gen_rules ds ex val cs i n) /\ (snd (gen_rules ds ex val cs i n) <= n0 -> sv E val ->
        nf E (NL (clause_lets vars slets cs) i (snd (gen_rules ds ex val cs i n))) (fst (gen_rules ds ex val cs i n))).
    Proof.
      intros cs env E val F. induction F as [|q cs (HG & HB) F IH]; intros HO HT HN i n HC Hn; cbn [gen_rules].
      - cbn [fst snd]. split; [apply le_n|]. intros _ _. now apply nf_error.
      - cbn [forallb List.length] in *. apply andb_prop in HO as (HO & HO'). apply andb_prop in HO as (HO & O3). apply andb_prop in HO as (O1 & O2).
        apply andb_prop in HT as (HT & HT'). apply andb_prop in HT as (HT & T3). apply andb_prop in HT as (T1 & T2).
        apply andb_prop in HN as (HN & HN'). apply andb_prop in HN as (HN & N4). apply andb_prop in HN as (HN & N3). apply andb_prop in HN as (N1 & N2).
        destruct (IH HO' HT' HN' (S i) n (cov_more _ _ _ _ HC (le_S _ _ (le_n i))) ltac:(lia)) as (A & B). clear IH.
        destruct (gen_rules ds ex val cs (S i) n) as (rest, n1). cbn [fst snd] in *.
        set (vs := vars (fst (fst q))) in *. unfold fresh in N2. apply andb_true_iff in N2 as [U1 U2]. apply unique_spec in U1. rewrite disjoint_spec in U2.
        assert (HC1 : cov (vs ++ env) (rev (map NS vs) ++ NG i :: E) n1).
        { apply cov_rev. apply cov_gen; [apply (cov_more _ _ _ _ HC); lia|lia]. }
        destruct (action_nf (snd (fst q)) (snd q) HG HB (vs ++ env) _ i n1 O2 O3 T2 T3 N3 N4 HC1) as (C & D);
          [apply in_app_iff; right; now left|lia|].
        destruct (gen_action ex (snd (fst q)) (snd q) (NG i) n1) as (act, n2). cbn [fst snd] in *. split; [lia|]. intros Hn0 HV.
        assert (NI : ~ In (NG i) E) by (intro H; apply (proj2 HC) in H; lia).
        set (la := NL (match snd (fst q) with Some g => slets g | None => [] end ++ slets (snd q)) n1 n2) in *.
        apply (nf_let n0 E _ (NG i) (L [Y "lambda"; SNil; rest]) _ [] (map NS vs ++ la)).
        + apply gen_good. lia.
        + exact NI.
        + apply (nf_lam n0 E [] [] rest (NL (clause_lets vars slets cs) (S i) n1)); [constructor|reflexivity|]. apply B; [lia|exact HV].
        + assert (EV : cvars (ds (fst (fst q))) = vs) by apply ds_vars. rewrite <- EV. apply m1_nf.
          * now apply ds_neat.
          * now rewrite EV.
          * rewrite EV. intros s Hs [H|H]; [discriminate|]. apply (U2 s Hs). now apply (proj1 HC).
          * apply (sv_more E); [exact HV|apply incl_tl, incl_refl].
          * now left.
          * lia.
          * rewrite EV. apply D. lia.
        + intros [].
        + apply nil_dj.
        + cbn [app]. intros x [<-|Hx]; [apply in_nl; lia|]. apply in_nl. unfold clause_lets. fold vs. apply in_app_iff in Hx as [Hx|Hx].
          * apply in_map_iff in Hx as (s & <- & Hs). apply in_app_iff. now left.
          * subst la. apply in_nl in Hx. destruct x as [s|j]; [apply in_app_iff; now right|lia].
    Qed.
  End Rules.

  Lemma simple_sv : forall locals env E, (forall s, locals s = true -> In s env) -> forall x n m, cov env E m -> SurfSpec.simple locals x = true -> neat env x = true ->
    sv E (fst (ex x n)).
  Proof.
    intros locals env E HL.
    assert (CL : forall l t, Forall (sv E) l -> sv E t -> sv E (conses l t)).
    { intros l t F HT. unfold conses. induction F; cbn [fold_right]; [exact HT|]. now apply sv_cons. }
    assert (GL : forall l, Forall (fun x => forall n m, cov env E m -> SurfSpec.simple locals x = true -> neat env x = true -> sv E (fst (ex x n))) l ->
      forall n m, cov env E m -> forallb (SurfSpec.simple locals) l = true -> forallb (neat env) l = true -> Forall (sv E) (fst (gens ex l n))).
    { intros l F. induction F as [|x l HX _ IH]; intros n m HC H HN; cbn; [constructor|]. cbn in H, HN. apply andb_prop in H as (H1 & H2). apply andb_prop in HN as (N1 & N2).
      specialize (HX n m HC H1 N1). destruct (ex x n) as (y, n1). specialize (IH n1 m HC H2 N2). destruct (gens ex l n1). constructor; assumption. }
    apply (src_ind' (fun x => forall n m, cov env E m -> SurfSpec.simple locals x = true -> neat env x = true -> sv E (fst (ex x n))) (fun _ => True)); auto; cbn [SurfSpec.simple]; try discriminate.
    - intros s n m HC H HN. now apply sv_atom.
    - intros s n m HC _ HN. cbn [neat] in HN. destruct s; try discriminate. now apply sv_quote.
    - intros x n m HC H _. apply sv_sym; [reflexivity|]. now apply (proj1 HC), HL.
    - intros f args HF FA n m HC H HN. destruct f; try discriminate. destruct args as [|a [|b [|? ?]]]; try discriminate.
      apply andb_prop in H as (H & H2). apply andb_prop in H as (H0 & H1). apply String.eqb_eq in H0. subst x.
      inversion FA as [|? ? Ha FA']; subst. inversion FA' as [|? ? Hb _]; subst. cbn [ex gens].
      cbn [neat] in HN. apply andb_prop in HN as (HN & _). apply andb_prop in HN as (HN & _). apply andb_prop in HN as (HN & _). apply andb_prop in HN as (_ & HN).
      cbn [forallb] in HN. apply andb_prop in HN as (Na & HN). apply andb_prop in HN as (Nb & _).
      specialize (Ha n m HC H1 Na). destruct (ex a n) as (a1, n1). specialize (Hb n1 m HC H2 Nb). destruct (ex b n1) as (b1, n2).
      apply sv_cons; assumption.
    - intros l F n m HC H HN. cbn [neat] in HN. apply andb_prop in HN as (HN & _). specialize (GL l F n m HC H HN). cbn [ex]. destruct (gens ex l n) as (l1, n1).
      apply CL; [exact GL|now apply sv_atom].
    - intros l t F HT n m HC H HN. apply andb_prop in H as (H & H2). apply andb_prop in H as (_ & H).
      cbn [neat] in HN. apply andb_prop in HN as (HN & _). apply andb_prop in HN as (HN & N2). specialize (GL l F n m HC H HN). cbn [ex].
      destruct (gens ex l n) as (l1, n1). specialize (HT n1 m HC H2 N2). destruct (ex t n1) as (t1, n2). apply CL; assumption.
  Qed.

  Lemma import_short : forall env x n, ok env x = true -> neat env x = true -> imports_short (fst (ex x n)).
  Proof.
    intros env x n HO HN p HI. rewrite (import_ex env x n HO) in HI. destruct x; try discriminate. cbn [neat] in HN. apply andb_prop in HN as (_ & HN).
    rewrite HI in HN. exact HN.
  Qed.
  Lemma imports_all : forall l env n, forallb (ok env) l = true -> forallb (neat env) l = true -> Forall imports_short (fst (gens ex l n)).
  Proof.
    induction l as [|x l IH]; intros env n HO HN; cbn [gens]; [constructor|]. cbn [forallb] in *.
    apply andb_true_iff in HO as [O1 O2]. apply andb_true_iff in HN as [N1 N2]. pose proof (import_short env x n O1 N1) as A.
    destruct (ex x n) as (y, n1). specialize (IH env n1 O2 N2). destruct (gens ex l n1). constructor; assumption.
  Qed.

  Theorem neat_nf : forall x, PX x.
  Proof.
    apply (src_ind' PX PT).
    - intros s env E n HO _ HN _. cbn in *. split; [apply le_n|]. intros _. now apply nf_atom.
    - intros s env E n _ _ HN _. cbn [ex fst snd neat] in *. split; [apply le_n|]. intros _. destruct s; try discriminate. now apply nf_quote.
    - intros x env E n _ _ HN HC. cbn [ex fst snd neat] in *. split; [apply le_n|]. intros _. apply nf_sym; [reflexivity|].
      apply orb_true_iff in HN as [HN|HN]; [left; apply among_spec in HN; now apply (proj1 HC)|now right].
    - (* lambda *) intros ps b HB env E n HO HT HN HC. cbn [ok tidy neat] in *. apply andb_prop in HO as (_ & HO). apply andb_prop in HT as (_ & T2).
      apply andb_prop in HN as (HN & N3). apply andb_prop in HN as (N1 & N2).
      destruct (HB _ _ n HO T2 N3 (cov_app ps _ _ _ HC)) as (A & B). cbn [ex]. destruct (ex b n) as (b1, n1). cbn [fst snd] in *. split; [exact A|]. intro H.
      apply (nf_lam n0 E _ (map NS ps) b1 (NL (slets b) n n1)); [apply nodup_ns, unique_spec, N1|now apply sgoods|now apply B].
    - (* if *) intros a b c HA HB HC' env E n HO HT HN HC. cbn [ok tidy neat] in *. apply andb_prop in HO as (HO & O3). apply andb_prop in HO as (O1 & O2).
      apply andb_prop in HT as (HT & T3). apply andb_prop in HT as (T1 & T2). apply andb_prop in HN as (HN & DD). apply andb_prop in HN as (HN & N3). apply andb_prop in HN as (N1 & N2).
      rewrite disjoint_spec in DD.
      destruct (HA env E n O1 T1 N1 HC) as (A1 & A2). cbn [ex]. destruct (ex a n) as (a1, n1). cbn [fst snd] in *.
      destruct (HB env E n1 O2 T2 N2 (cov_more _ _ _ _ HC A1)) as (B1 & B2). destruct (ex b n1) as (b1, n2). cbn [fst snd] in *.
      destruct (HC' env E n2 O3 T3 N3 (cov_more _ _ _ _ HC (Nat.le_trans _ _ _ A1 B1))) as (C1 & C2). destruct (ex c n2) as (c1, n3). cbn [fst snd] in *.
      split; [lia|]. intro H.
      apply (nf_if n0 E _ _ _ _ (NL (slets a) n n1) (NL (slets b) n1 n2) (NL (slets c) n2 n3)); [apply A2; lia|apply B2; lia|apply C2; lia| |].
      + intros x Hx Hx'. apply in_app_iff in Hx' as [Hx'|Hx']; revert x Hx Hx'; apply nl_dj; try lia; intros s Hs Hs'; apply (DD s Hs), in_app_iff; auto.
      + cbn [slets]. apply incl_app; [|apply incl_app]; apply nl_incl; try lia; intros x Hx; rewrite !in_app_iff; auto.
    - (* do *) intros a b HA HB env E n HO HT HN HC. cbn [ok tidy neat] in *. apply andb_prop in HO as (O1 & O2). apply andb_prop in HT as (T1 & T2).
      apply andb_prop in HN as (HN & DD). apply andb_prop in HN as (N1 & N2). rewrite disjoint_spec in DD. pose proof (import_short env a n O1 N1) as IS.
      destruct (HA env E n O1 T1 N1 HC) as (A1 & A2). cbn [ex]. destruct (ex a n) as (a1, n1). cbn [fst snd] in *.
      destruct (HB env E n1 O2 T2 N2 (cov_more _ _ _ _ HC A1)) as (B1 & B2). destruct (ex b n1) as (b1, n2). cbn [fst snd] in *.
      split; [lia|]. intro H.
      apply (nf_do n0 E _ _ _ (NL (slets a) n n1) (NL (slets b) n1 n2)); [exact IS|apply A2; lia|apply B2; lia|now apply nl_dj|].
      apply nl_two; try lia. apply incl_refl.
    - (* app *) intros f args HF F env E n HO HT HN HC. pose proof (import_short env (XApp f args) n HO HN) as IS.
      cbn [ok tidy neat] in *. apply andb_prop in HO as (HO & O3). apply andb_prop in HO as (O1 & O2).
      apply andb_prop in HT as (HT & T3). apply andb_prop in HT as (T1 & T2). apply negb_true_iff in T1.
      apply andb_prop in HN as (HN & _). apply andb_prop in HN as (HN & N4). apply andb_prop in HN as (HN & DD). apply andb_prop in HN as (N1 & N2).
      assert (NH : nhead (fst (ex f n))).
      { clear -O1 O2. pose proof (ex_shp env f n O2) as SF. destruct (fst (ex f n)) as [z|[s|j]|s| | | |a d] eqn:EF; try exact I.
        destruct f; cbn in SF, O2; try contradiction; try discriminate; [subst; discriminate|]. injection SF as ->. exact O1. }
      assert (HP : forall x, fst (ex f n) = SSym x -> exists s, f = XVar s /\ x = NS s).
      { clear -O2. intros x EF. pose proof (ex_shp env f n O2) as SF. rewrite EF in SF. destruct f; cbn in SF; try contradiction.
        - subst. discriminate.
        - injection SF as ->. eauto. }
      destruct (SX_all f env n O2 T2) as ((ks & SK) & NS'). specialize (NS' T1). specialize (SK ks (le_n ks)).
      destruct (HF env E n O2 T2 N1 HC) as (A1 & A2). cbn [ex]. destruct (ex f n) as (f1, n1) eqn:EF. cbn [fst snd] in *.
      destruct (gens_chain args F env E n1 O3 T3 N2 (cov_more _ _ _ _ HC A1)) as (B1 & B2).
      pose proof (gens_length ex args n1) as LL. destruct (gens ex args n1) as (l, n2). cbn [fst snd] in *. split; [lia|]. intro H. cbn [slets].
      specialize (B2 H). specialize (A2 ltac:(lia)). rewrite <- concat_map. destruct (pairwise_cons _ _ DD) as (D1 & D2).
      destruct (chain_nfs _ _ _ _ _ B2 D2) as (lss & C1 & C2 & C3).
      assert (IC : incl (List.concat lss) (NL (slets f ++ List.concat (map slets args)) n n2)).
      { eapply incl_tran; [apply chain_concat, C3|]. apply nl_incl; [apply incl_appr, incl_refl|lia|lia]. }
      destruct (match f1 with SSym x => prim_of x | _ => None end) as [p|] eqn:EP.
      + destruct f1 as [|x| | | | |]; try discriminate. destruct (HP x eq_refl) as (s & -> & ->). rewrite EP in N4. apply Nat.eqb_eq in N4.
        apply (nf_prim n0 E _ (NS s) p l lss); auto. now rewrite LL.
      + apply (nf_app n0 E _ f1 l (NL (slets f) n n1) lss); auto; [now apply call_of_nhead|now exists ks| |].
        * constructor; [|exact C2]. clear -C3 D1. induction C3 as [|sl' l' sls lss HI C IH]; [constructor|]. constructor.
          -- intros x Hx Hx'. apply HI in Hx'. revert x Hx Hx'. apply nl_dj; [|apply le_n].
             intros s Hs Hs'. apply (D1 s Hs). cbn. apply in_app_iff. now left.
          -- apply IH. intros s Hs Hs'. apply (D1 s Hs). cbn. apply in_app_iff. now right.
        * apply incl_app; [|exact IC]. apply nl_incl; [apply incl_appl, incl_refl|lia|lia].
    - (* let *) intros bs b F HB env E n HO HT HN HC. rewrite ok_let_eq in HO. apply andb_prop in HO as (_ & HO). cbn [tidy] in HT. apply andb_prop in HT as (T1 & T2).
      cbn [neat] in HN. cbn [ex slets]. revert env E n HO HN HC. induction F as [|(x, e) bs HE _ IH]; intros env E n HO HN HC; cbn [gens ok_let forallb flat_map app] in *.
      + destruct (HB env E n HO T2 HN HC) as (A & B). destruct (ex b n) as (b1, n1). cbn [fst snd lets fold_right] in *. auto.
      + cbn [fst snd] in *. apply andb_prop in HO as (HO & O2). apply andb_prop in HO as (_ & O1). apply andb_prop in T1 as (T1 & T3). apply andb_prop in T1 as (T0 & T1).
        apply andb_prop in HN as (HN & N6). apply andb_prop in HN as (HN & N5). apply andb_prop in HN as (HN & N4). apply andb_prop in HN as (HN & N3). apply andb_prop in HN as (N1 & N2).
        apply among_not in N2. apply among_not in N4. rewrite disjoint_spec in N5.
        destruct (HE env E n O1 T1 N3 HC) as (A1 & A2). destruct (ex e n) as (e1, n1). cbn [fst snd] in *.
        specialize (IH T3 (x :: env) (NS x :: E) n1 O2 N6 (cov_cons x _ _ _ (cov_more _ _ _ _ HC A1))).
        destruct (gens _ bs n1) as (l, n2). destruct (ex b n2) as (b1, n3). cbn [fst snd] in *. destruct IH as (B1 & B2). split; [lia|]. intro H.
        unfold MacroExp.lets. cbn [fold_right fst snd].
        apply (nf_let n0 E _ (NS x) e1 _ (NL (slets e) n n1) (NL (flat_map (fun q => fst q :: slets (snd q)) bs ++ slets b) n1 n3)).
        * exact N1.
        * intro I. apply N2. now apply (proj1 HC).
        * apply A2. lia.
        * now apply B2.
        * intro I. apply in_nl in I. contradiction.
        * now apply nl_dj.
        * intros y [<-|Hy]; [apply in_nl; now left|]. apply in_app_iff in Hy as [Hy|Hy]; apply in_nl in Hy; apply in_nl; (destruct y as [s|i]; [|lia]).
          -- right. rewrite !in_app_iff. auto.
          -- right. rewrite <- app_assoc, in_app_iff. auto.
    - (* cond *) intros cs F env E n HO HT HN HC. cbn [ok tidy neat ex slets] in *. revert n HN HC.
      induction F as [|(a, b) cs (HA & HB) _ IH]; intros n HN HC; cbn [gens forallb flat_map fst snd] in *.
      + split; [apply le_n|]. intros _. now apply nf_error.
      + apply andb_prop in HO as (HO & HO'). apply andb_prop in HO as (O1 & O2). apply andb_prop in HT as (HT & HT'). apply andb_prop in HT as (T1 & T2).
        apply andb_prop in HN as (HN & HN'). apply andb_prop in HN as (HN & DD). apply andb_prop in HN as (N1 & N2). rewrite disjoint_spec in DD.
        destruct (HA env E n O1 T1 N1 HC) as (A1 & A2). destruct (ex a n) as (a1, n1). cbn [fst snd] in *.
        destruct (HB env E n1 O2 T2 N2 (cov_more _ _ _ _ HC A1)) as (B1 & B2). destruct (ex b n1) as (b1, n2). cbn [fst snd] in *.
        destruct (IH HO' HT' n2 HN' (cov_more _ _ _ _ HC (Nat.le_trans _ _ _ A1 B1))) as (C1 & C2). destruct (gens _ cs n2) as (l, n3). cbn [fst snd] in *.
        split; [lia|]. intro H. unfold ifs. cbn [fold_right fst snd].
        apply (nf_if n0 E _ _ _ _ (NL (slets a) n n1) (NL (slets b) n1 n2) (NL (flat_map (fun q => slets (fst q) ++ slets (snd q)) cs) n2 n3)); [apply A2; lia|apply B2; lia|apply C2; lia| |].
        * intros x Hx Hx'. apply in_app_iff in Hx' as [Hx'|Hx']; revert x Hx Hx'; apply nl_dj; try lia; intros s Hs Hs'; apply (DD s Hs), in_app_iff; auto.
        * rewrite <- app_assoc. apply incl_app; [|apply incl_app]; apply nl_incl; try lia; intros x Hx; rewrite !in_app_iff; auto.
    - (* and *) intros l F env E n HO HT HN HC. cbn [ok tidy neat ex slets] in *. apply forallb_and2 in HO. apply andb_prop in HN as (N1 & N2).
      destruct (gens_chain l F env E n HO HT N1 HC) as (A & B). destruct (gens ex l n) as (l1, n1). cbn [fst snd] in *. split; [exact A|]. intro H.
      rewrite <- concat_map. apply chain_ands; auto.
    - (* or *) intros l F env E n HO HT HN HC. cbn [ok tidy neat ex slets] in *. apply forallb_and2 in HO. apply andb_prop in HN as (N1 & N2).
      destruct (gens_chain l F env E n HO HT N1 HC) as (A & B). destruct (gens ex l n) as (l1, n1). cbn [fst snd] in *. split; [exact A|]. intro H.
      rewrite <- concat_map. apply chain_ors; auto.
    - (* begin *) intros l F env E n HO HT HN HC. cbn [ok tidy neat ex slets] in *. apply andb_prop in HO as (_ & HO). apply andb_prop in HN as (N1 & N2).
      pose proof (imports_all l env n HO N1) as IS.
      destruct (gens_chain l F env E n HO HT N1 HC) as (A & B). destruct (gens ex l n) as (l1, n1). cbn [fst snd] in *. split; [exact A|]. intro H.
      rewrite <- concat_map. apply chain_dos; auto.
    - (* list *) intros l F env E n HO HT HN HC. cbn [ok tidy neat ex slets] in *. apply andb_prop in HN as (N1 & N2).
      destruct (gens_chain l F env E n HO HT N1 HC) as (A & B). destruct (gens ex l n) as (l1, n1). cbn [fst snd] in *. split; [exact A|]. intro H.
      rewrite <- concat_map. apply chain_list; auto.
    - (* list-rest *) intros l t F HT' env E n HO HT HN HC. cbn [ok tidy neat ex slets] in *. apply andb_prop in HO as (HO & O3). apply andb_prop in HO as (_ & O2).
      apply andb_prop in HT as (T1 & T2). apply andb_prop in HN as (HN & DD). apply andb_prop in HN as (N1 & N2).
      destruct (gens_chain l F env E n O2 T1 N1 HC) as (A & B). destruct (gens ex l n) as (l1, n1). cbn [fst snd] in *.
      destruct (HT' env E n1 O3 T2 N2 (cov_more _ _ _ _ HC A)) as (C & D). destruct (ex t n1) as (t1, n2). cbn [fst snd] in *. split; [lia|]. intro H.
      rewrite <- concat_map. eapply chain_conses; eauto. apply B. lia.
    - (* backquote *) intros t HT' env E n HO HT HN HC. cbn [ok tidy neat ex slets] in *. apply andb_prop in HO as (_ & O2). now apply (HT' env).
    - (* match *) intros v cs HV F env E n HO HT HN HC. cbn [ok tidy neat ex slets] in *. apply andb_prop in HO as (HO & O3). apply andb_prop in HO as (HO & O2). apply andb_prop in HO as (O1 & _).
      apply andb_prop in HT as (T1 & T2). apply andb_prop in HN as (HN & N3). apply andb_prop in HN as (N1 & DD). rewrite disjoint_spec in DD.
      destruct (HV env E n O1 T1 N1 HC) as (A1 & A2).
      assert (SV : computed v = false -> sv E (fst (ex v n))).
      { intro Ec. rewrite Ec in O2. cbn [orb] in O2. eapply simple_sv; eauto. cbn beta. intros s Hs. apply andb_prop in Hs as (Hs & _). now apply among_spec. }
      destruct (ex v n) as (v1, n1). cbn [fst snd] in *.
      pose proof (fun E' val H1 => rules_nf desugar ok_pat neat_pat pvars desugar_neat desugar_vars cs env E' val F O3 T2 N3 H1) as RS.
      destruct (computed v) eqn:EC.
      + destruct (RS (NG n1 :: E) (SSym (NG n1)) (S n1) (S n1 + List.length cs)) as (B1 & B2); [|lia|].
        { apply cov_gen; [apply (cov_more _ _ _ _ HC); lia|lia]. }
        destruct (gen_rules _ _ _ _ _ _) as (c, n2). cbn [fst snd] in *. split; [lia|]. intro H.
        apply (nf_let n0 E _ (NG n1) v1 c (NL (slets v) n n1) (NL (clause_lets pvars slets cs) (S n1) n2)).
        * apply gen_good. lia.
        * intro I. apply (proj2 HC) in I. lia.
        * apply A2. lia.
        * apply B2; [exact H|]. apply sv_sym; [apply Nat.ltb_lt; lia|now left].
        * intro I. apply in_nl in I. lia.
        * apply nl_dj; [exact DD|lia].
        * intros y [<-|Hy]; [apply in_nl; lia|]. apply in_app_iff in Hy as [Hy|Hy]; apply in_nl in Hy; apply in_nl; (destruct y as [s|i]; [apply in_app_iff; auto|lia]).
      + destruct (RS E v1 n1 (n1 + List.length cs)) as (B1 & B2); [apply (cov_more _ _ _ _ HC); lia|lia|].
        destruct (gen_rules _ _ _ _ _ _) as (c, n2). cbn [fst snd] in *. split; [lia|]. intro H.
        eapply nf_weak; [apply B2; [exact H|now apply SV]|]. apply nl_incl; [apply incl_appr, incl_refl|lia|lia].
    - (* def *) intros x e HE env E n HO HT HN HC. cbn [ok tidy neat ex slets] in *. apply andb_prop in HN as (N1 & N2).
      destruct (HE env E n HO HT N2 HC) as (A & B). destruct (ex e n) as (e1, n1). cbn [fst snd] in *. split; [exact A|]. intro H.
      apply (nf_def n0 E _ x e1 (NL (slets e) n n1)); [exact N1|now apply B|apply incl_refl].
    - (* defun *) intros f ps b HB env E n HO HT HN HC. cbn [ok tidy neat ex slets] in *. apply andb_prop in HO as (_ & HO). apply andb_prop in HT as (_ & T2).
      apply andb_prop in HN as (HN & N4). apply andb_prop in HN as (HN & N3). apply andb_prop in HN as (N1 & N2).
      destruct (HB _ _ n HO T2 N4 (cov_app ps _ _ _ HC)) as (A & B). destruct (ex b n) as (b1, n1). cbn [fst snd] in *. split; [exact A|]. intro H.
      apply (nf_def n0 E _ f _ []); [exact N1| |intros x []].
      apply (nf_lam n0 E _ (map NS ps) b1 (NL (slets b) n n1)); [apply nodup_ns, unique_spec, N2|now apply sgoods|now apply B].
    - (* func *) intros f cs F env E n HO HT HN HC. cbn [ok tidy neat ex slets] in *. apply andb_prop in HN as (N1 & N2).
      set (k := rules_arity cs). set (args := map NG (seq n k)).
      assert (O : forallb (fun q => forallb ok_pat (fst (fst q)) && match snd (fst q) with Some g => ok (flat_map pvars (fst (fst q)) ++ env) g | None => true end &&
                        ok (flat_map pvars (fst (fst q)) ++ env) (snd q)) cs = true).
      { destruct cs as [|((ps, g), b) cs]; [discriminate|]. clear -HO. rewrite forallb_forall in *. intros q Hq. specialize (HO q Hq). cbn beta in *.
        rewrite <- !andb_assoc in *. apply andb_prop in HO. apply HO. }
      assert (D1 : forall ps, forallb ok_pat ps = true -> forallb neat_pat ps = true -> neat_cpat (desugar (QList ps)) = true).
      { intros ps H1 H2. now apply desugar_neat. }
      assert (D2 : forall ps, cvars (desugar (QList ps)) = flat_map pvars ps) by (intro ps; apply (desugar_vars (QList ps))).
      destruct (rules_nf (fun ps => desugar (QList ps)) (forallb ok_pat) (forallb neat_pat) (flat_map pvars) D1 D2 cs env (args ++ E) (conses (map SSym args) SNil) F O HT N2
                  (n + k) (n + k + List.length cs)) as (A & B); [apply cov_gens; [exact HC|lia]|lia|].
      destruct (gen_rules _ _ _ _ _ _) as (c, n1). cbn [fst snd] in *. split; [lia|]. intro H.
      apply (nf_def n0 E _ f _ []); [exact N1| |intros x []].
      apply (nf_lam n0 E _ args c (NL (clause_lets (flat_map pvars) slets cs) (n + k) n1)); [apply gens_nodup|apply gens_good; lia|]. apply B; [exact H|].
      assert (IA : forall l, incl l args -> sv (args ++ E) (conses (map SSym l) SNil)).
      { induction l as [|a l IH]; intro HI; [now apply sv_atom|]. cbn [map conses fold_right]. apply sv_cons; [|apply IH; intros x Hx; apply HI; now right].
        assert (IN : In a args) by (apply HI; now left). apply sv_sym; [|apply in_app_iff; now left].
        unfold args in IN. apply in_map_iff in IN as (j & <- & Hj). apply in_seq in Hj. apply Nat.ltb_lt. lia. }
      apply IA, incl_refl.
    - (* ns *) intros p imports b HB env E n HO HT HN HC. cbn [ok tidy neat ex slets] in *. apply andb_prop in HN as (HN & N3). apply andb_prop in HN as (N1 & N2).
      destruct (HB env E n HO HT N3 HC) as (A & B). destruct (ex b n) as (b1, n1). cbn [fst snd] in *. split; [exact A|]. intro H.
      apply (nf_ns n0 E _ p imports b1 (NL (slets b) n n1)); [exact N1|exact N2|now apply B|apply incl_refl].
    - intros s env E n HO _ HN _. cbn in *. split; [apply le_n|]. intros _. now apply nf_atom.
    - intros x env E n _ _ HN _. cbn [ext fst snd neat_tmpl] in *. split; [apply le_n|]. intros _. now apply nf_quote.
    - intros e HE env E n HO HT HN HC. cbn [ok_tmpl tidy_tmpl neat_tmpl ext slets_tmpl] in *. now apply (HE env).
    - intros l F env E n HO HT HN HC. cbn [ok_tmpl tidy_tmpl neat_tmpl ext slets_tmpl] in *. apply andb_prop in HO as (_ & HO). apply andb_prop in HN as (N1 & N2).
      destruct (gent_chain l F env E n HO HT N1 HC) as (A & B). destruct (gens ext l n) as (l1, n1). cbn [fst snd] in *. split; [exact A|]. intro H.
      rewrite <- concat_map. apply chain_list; auto.
  Qed.
End Surf.
