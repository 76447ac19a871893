(** The same before the names inside packages are renamed: the renaming keeps
    these properties. *)
From Coq Require Import List ZArith Bool String Ascii Arith Lia.
From Verif Require Import Base GenCond GenSource SurfSpec CoreSpec CoreProofs TocModel TocSem TocMach TocTail TocParse TocScope TocWhole TocTotal TocTable
  NsSpec NsModel NsProofs FineCore.
Import ListNotations.
Local Open Scope list_scope.
Local Open Scope nat_scope.

Local Notation Y s := (SSym (NS s)).
Local Notation "'L' l" := (of_list l) (at level 9, l at level 0).

(** a name of at most 126 characters that can stand in a C string; a package
    name before it, and a # between them, leave it a name that symbols can have *)
Definition short (s : string) : bool := forallb namecharb (list_ascii_of_string s) && (String.length s <? 127).
Definition short_name (x : name) : bool := match x with NS s => short s | NG _ => false end.
Definition short_ctx (c : ctx) : Prop := short (x_ns c) = true /\ forallb short (x_imports c) = true.

Lemma chars_app : forall a b, list_ascii_of_string (a ++ b) = list_ascii_of_string a ++ list_ascii_of_string b.
Proof. induction a as [|c a IH]; intro b; cbn; [reflexivity|]. now rewrite IH. Qed.
Lemma length_app : forall a b, String.length (a ++ b)%string = String.length a + String.length b.
Proof. induction a as [|c a IH]; intro b; cbn; [reflexivity|]. now rewrite IH. Qed.
Lemma short_ok : forall s, short s = true -> symbol_ok (Y s) = true.
Proof.
  intros s H. unfold short in H. apply andb_true_iff in H as [H1 H2]. cbn [symbol_ok]. rewrite H1. cbn [andb].
  apply Nat.ltb_lt in H2. apply Nat.ltb_lt. lia.
Qed.
Lemma short_qualified : forall p s, short p = true -> short s = true -> symbol_ok (Y (p ++ ("#" ++ s))) = true.
Proof.
  intros p s HP HS. unfold short in *. apply andb_true_iff in HP as [P1 P2]. apply andb_true_iff in HS as [S1 S2].
  cbn [symbol_ok]. rewrite chars_app, forallb_app, P1. cbn [append list_ascii_of_string forallb]. rewrite S1.
  apply Nat.ltb_lt in P2. apply Nat.ltb_lt in S2. rewrite length_app. cbn [String.length]. cbn [andb].
  change (namecharb "#"%char) with true. cbn [andb]. apply Nat.ltb_lt. lia.
Qed.

Section FineNs.
  Context (gt : nat -> string) (exports : string -> list name) (n0 : nat).
  Notation np := (nsparse gt exports).

  Lemma short_global : forall c s, short_ctx c -> short s = true -> symbol_ok (SSym (global_of gt exports c (NS s))) = true.
  Proof.
    intros c s (C1 & C2) HS. unfold global_of. destruct (prim_of (NS s)); [now apply short_ok|].
    destruct (List.find _ _) as [p|] eqn:EF.
    - apply find_some in EF as (HI & _). rewrite forallb_forall in C2. apply short_qualified; auto.
    - destruct (_ || _); [now apply short_ok|]. now apply short_qualified.
  Qed.
  Lemma short_defined : forall c s, short_ctx c -> short s = true -> symbol_ok (SSym (defined_as gt c (NS s))) = true.
  Proof.
    intros c s (C1 & C2) HS. unfold defined_as. destruct (_ || _); [now apply short_ok|]. now apply short_qualified.
  Qed.

  Inductive nf : list name -> list name -> sexp -> Prop :=
  | nf_atom env ls s : is_atom s = true -> literals s = true -> nf env ls s
  | nf_sym env ls x : older n0 x = true -> In x env \/ short_name x = true -> nf env ls (SSym x)
  | nf_quote env ls x : symbol_ok (SSym x) = true -> nf env ls (L [Y "quote"; SSym x])
  | nf_lam env ls ps b lb : NoDup ps -> forallb (good n0) ps = true -> nf (ps ++ env) lb b ->
      nf env ls (L [Y "lambda"; L (map SSym ps); b])
  | nf_if env ls a b c la lb lc : nf env la a -> nf env lb b -> nf env lc c -> dj la (lb ++ lc) ->
      incl (la ++ lb ++ lc) ls -> nf env ls (L [Y "if"; a; b; c])
  | nf_do env ls a b la lb : (forall p, import_of a = Some p -> short p = true) -> nf env la a -> nf env lb b -> dj la lb -> incl (la ++ lb) ls -> nf env ls (L [Y "do"; a; b])
  | nf_let env ls x b c lb lc : good n0 x = true -> ~ In x env -> nf env lb b -> nf (x :: env) lc c -> ~ In x lb -> dj lb lc ->
      incl (x :: lb ++ lc) ls -> nf env ls (L [Y "let"; SSym x; b; c])
  | nf_prim env ls x p args lss : prim_of x = Some p -> prim_arity p = List.length args -> nfs env lss args -> ForallOrdPairs dj lss ->
      incl (List.concat lss) ls -> nf env ls (L (SSym x :: args))
  | nf_app env ls f args lf lss : call_head f (List.length args) -> is_ns f = false -> (exists ks, scoped ks f = true) ->
      (match f with SSym x => prim_of x | _ => None end = None) ->
      nf env lf f -> nfs env lss args -> ForallOrdPairs dj (lf :: lss) -> incl (lf ++ List.concat lss) ls -> nf env ls (L (f :: args))
  | nf_def env ls s b lb : short s = true -> nf env lb b -> incl lb ls -> nf env ls (L [Y "def"; Y s; b])
  | nf_ns env ls p imports b lb : short p = true -> forallb short imports = true -> nf env lb b -> incl lb ls ->
      nf env ls (L [Y "ns"; SStr p; L (map SStr imports); b])
  with nfs : list name -> list (list name) -> list sexp -> Prop :=
  | nfs_nil env : nfs env [] []
  | nfs_cons env l lss e es : nf env l e -> nfs env lss es -> nfs env (l :: lss) (e :: es).
  Scheme nf_i := Minimality for nf Sort Prop with nfs_i := Minimality for nfs Sort Prop.
  Combined Scheme nf_nfs from nf_i, nfs_i.

  Lemma map_opt_length : forall f l r, map_opt f l = Some r -> List.length r = List.length l.
  Proof.
    intros f l. induction l as [|x l IH]; intros r E; cbn in E; [now injection E as <-|].
    destruct (f x); [|discriminate]. destruct (map_opt f l) eqn:EM; [|discriminate]. injection E as <-. cbn. now rewrite (IH _ eq_refl).
  Qed.
  Lemma the_strings_map : forall l, the_strings (map SStr l) = Some l.
  Proof. induction l as [|s l IH]; cbn; [reflexivity|]. now rewrite IH. Qed.
  Lemma short_import_ctx : forall c p, short_ctx c -> short p = true -> short_ctx (mkX (x_ns c) (p :: x_imports c)).
  Proof. intros c p (A & B) HP. split; [exact A|]. cbn. now rewrite HP. Qed.

  Lemma nf_renamed :
    (forall env ls e, nf env ls e -> forall k c e2, short_ctx c -> np k env (x_ns c) (x_imports c) e = Some e2 -> fine n0 env ls e2) /\
    (forall env lss es, nfs env lss es -> forall k c es2, short_ctx c -> map_opt (np k env (x_ns c) (x_imports c)) es = Some es2 -> fines n0 env lss es2).
  Proof.
    apply nf_nfs.
    - intros env ls s HA HL k c e2 HC E. destruct k as [|k]; [discriminate|]. destruct s; try discriminate; cbn in E; injection E as <-; now constructor.
    - intros env ls x HO HI k c e2 HC E. apply np_var in E. subst e2. destruct (CoreProofs.mem_spec x env) as [I|N]; [apply fi_sym; auto|].
      destruct HI as [|HS]; [contradiction|]. destruct x as [s|]; [|discriminate]. pose proof (short_global c s HC HS) as SO.
      apply fi_sym; [|now right]. destruct (global_of gt exports c (NS s)); [reflexivity|discriminate].
    - intros env ls x HS k c e2 HC E. destruct k as [|k]; [discriminate|]. change (L [Y "quote"; SSym x]) with (of_list [ssym "quote"; SSym x]) in E.
      rewrite np_quote in E. injection E as <-. now apply fi_quote.
    - intros env ls ps b lb ND HG _ IH k c e2 HC E. destruct k as [|k]; [discriminate|]. change (Y "lambda") with (ssym "lambda") in E. rewrite np_lam in E.
      destruct (np k (ps ++ env) _ _ b) as [b1|] eqn:EB; [|discriminate]. injection E as <-. eapply fi_lam; eauto.
    - intros env ls a b c' la lb lc _ IA _ IB _ IC HD HI k c e2 HC E. destruct k as [|k]; [discriminate|]. change (Y "if") with (ssym "if") in E. rewrite np_if in E.
      destruct (np k env _ _ a) as [a1|] eqn:EA; [|discriminate]. destruct (np k env _ _ b) as [b1|] eqn:EB; [|discriminate].
      destruct (np k env _ _ c') as [c1|] eqn:EC; [|discriminate]. injection E as <-. eapply fi_if; eauto.
    - intros env ls a b la lb HP _ IA _ IB HD HI k c e2 HC E. destruct k as [|k]; [discriminate|]. change (Y "do") with (ssym "do") in E.
      destruct (import_of a) as [p|] eqn:EI.
      + pose proof (import_of_some _ _ EI) as ->. rewrite np_import in E.
        destruct (np k env (x_ns c) (x_imports c) (of_list [ssym "import"; SStr p])) as [a1|] eqn:EA; [|discriminate].
        destruct (np k env (x_ns c) (p :: x_imports c) b) as [b1|] eqn:EB; [|discriminate]. injection E as <-.
        eapply fi_do; eauto. eapply (IB k (mkX (x_ns c) (p :: x_imports c))); [apply short_import_ctx; auto|exact EB].
      + rewrite np_do in E by exact EI. destruct (np k env _ _ a) as [a1|] eqn:EA; [|discriminate]. destruct (np k env _ _ b) as [b1|] eqn:EB; [|discriminate].
        injection E as <-. eapply fi_do; eauto.
    - intros env ls x b c' lb lc HG HN _ IB _ IC HX HD HI k c e2 HC E. destruct k as [|k]; [discriminate|]. change (Y "let") with (ssym "let") in E. rewrite np_let in E.
      destruct (np k env _ _ b) as [b1|] eqn:EB; [|discriminate]. destruct (np k (x :: env) _ _ c') as [c1|] eqn:EC; [|discriminate].
      injection E as <-. eapply fi_let; eauto.
    - intros env ls x p args lss HP HL _ IA HD HI k c e2 HC E. destruct k as [|k]; [discriminate|].
      assert (CH : call_head (SSym x) (List.length args)).
      { destruct x as [s|]; [|discriminate].
        assert (K : forall f, prim_of (NS f) = None -> is_sym f (Y s) = false).
        { intros f E'. cbn. destruct (String.eqb_spec s f) as [->|]; [congruence|reflexivity]. }
        unfold call_head. rewrite !K by reflexivity. repeat split; discriminate. }
      rewrite np_app in E by exact CH. cbn [map_opt] in E.
      destruct (np k env (x_ns c) (x_imports c) (SSym x)) as [f1|] eqn:EF; [|discriminate].
      destruct (map_opt _ args) as [l|] eqn:EM; [|discriminate]. injection E as <-.
      apply np_var in EF. assert (f1 = SSym x) as ->.
      { subst f1. destruct (mem x env); [reflexivity|]. unfold global_of. now rewrite HP. }
      eapply fi_prim; eauto. rewrite (map_opt_length _ _ _ EM). exact HL.
    - intros env ls f args lf lss CH HN (ks & HS) HP _ IF _ IA HD HI k c e2 HC E. destruct k as [|k]; [discriminate|].
      rewrite np_app in E by exact CH. cbn [map_opt] in E.
      destruct (np k env (x_ns c) (x_imports c) f) as [f1|] eqn:EF; [|discriminate].
      destruct (map_opt _ args) as [l|] eqn:EM; [|discriminate]. injection E as <-.
      destruct (np_head _ _ _ _ _ _ _ _ _ CH HS HN EF) as ((Q & Q1 & Q2 & Q3 & Q4) & HH).
      eapply fi_app; eauto.
      + apply view_call; assumption.
      + destruct f1 as [|y| | | | |]; try reflexivity. destruct HH as [(x & ->)|(HH & _)]; [|exfalso; now apply (HH y)].
        apply np_var in EF. destruct (mem x env); [injection EF as ->; exact HP|]. injection EF as ->.
        destruct (global_cases gt exports c x) as [->|(H & _)]; [exact HP|now apply hashed_not_prim].
    - intros env ls s b lb HS _ IB HI k c e2 HC E. destruct k as [|k]; [discriminate|]. change (Y "def") with (ssym "def") in E. rewrite np_def in E.
      destruct (np k env _ _ b) as [b1|] eqn:EB; [|discriminate]. injection E as <-. rewrite var_with_ns_ok.
      apply (fi_prim n0 env ls (NS "set") PSet [L [Y "quote"; SSym (defined_as gt c (NS s))]; b1] [[]; lb]); try reflexivity.
      + constructor; [|constructor; [eauto|constructor]]. apply fi_quote. now apply short_defined.
      + constructor; [constructor; [intros x []|constructor]|]. constructor; [constructor|constructor].
      + cbn. now rewrite app_nil_r.
    - intros env ls p imports b lb HP HS _ IB HI k c e2 HC E. destruct k as [|k]; [discriminate|]. change (Y "ns") with (ssym "ns") in E.
      rewrite (np_ns gt exports k env _ _ p (map SStr imports) imports b (the_strings_map imports)) in E.
      eapply fine_weak; [|exact HI]. eapply (IB k (mkX p imports)); [|exact E]. split; assumption.
    - intros env k c es2 HC E. injection E as <-. constructor.
    - intros env l lss e es _ IE _ IES k c es2 HC E. cbn in E. destruct (np k env _ _ e) as [e1|] eqn:E1; [|discriminate].
      destruct (map_opt _ es) as [r|] eqn:E2; [|discriminate]. injection E as <-. constructor; eauto.
  Qed.

  Lemma nf_weak : forall env ls e, nf env ls e -> forall ls', incl ls ls' -> nf env ls' e.
  Proof. intros env ls e H ls' HI. inversion H; subst; try (econstructor; eauto using incl_tran; fail). Qed.
End FineNs.
