(** The interpreter computes what the program means. *)
From Coq Require Import List ZArith Bool String Arith Lia.
From Verif Require Import CoreSpec TocModel TocSem CoreProofs TocParse TocParseSim EvalRel NsSpec NsModel NsProofs ReplSpec ReplModel.
Import ListNotations.
Local Open Scope list_scope.
Local Open Scope nat_scope.

Lemma distinct_nodup : forall l, distinct l = true -> NoDup l.
Proof.
  induction l as [|x l IH]; cbn; intro H; constructor; apply andb_prop in H; destruct H as (H1 & H2); [|auto].
  fold (mem x l) in H1. destruct (mem_spec x l); [discriminate|assumption].
Qed.

Lemma lookup_env_eq : forall x env, lookup_env x env = lookup x env.
Proof. induction env as [|(a, b) env IH]; cbn; [reflexivity|]. now rewrite IH. Qed.

Lemma push_args_lookup : forall x ps args env, NoDup ps -> List.length args = List.length ps ->
  lookup x (push_args ps args env) = match lookup x (combine ps args) with Some v => Some v | None => lookup x env end.
Proof.
  induction ps as [|p ps IH]; intros [|v args] env HN HL; cbn in *; try discriminate; [reflexivity|].
  inversion HN; subst. rewrite IH by (auto; lia). cbn.
  destruct (name_eqb_spec x p) as [->|N]; [|reflexivity].
  rewrite lookup_combine. destruct (index p ps) as [i|] eqn:E; [|reflexivity].
  exfalso. apply H1. apply index_in. eauto.
Qed.

Section Repl.
  Context (gt : nat -> string) (exports : string -> list name) (imported : list string) (ar : arith).
  Notation X := (mkX "" imported).
  Notation interp := (interp gt exports imported ar).
  Notation ieval n env := (fun x => interp n x env).
  Notation irun n := (fun c vs args => interp n (ic_body c) (push_args (ic_ps c) args (combine (ic_env c) vs))).

  (** * One step *)
  Definition icall (n : nat) (env : ienv) (h t : sexp) (G : store icode) : option (ival * store icode) :=
    match interp n h env G, slist t with
    | Some (f, G1), Some l =>
        match map_eval (ieval n env) l G1 with
        | Some (args, G2) => native_apply ar (irun n) f args G2
        | None => None
        end
    | _, _ => None
    end.
  Ltac i_eq := intros; cbn [of_list ReplModel.interp one two three ssym is_sym name_eqb String.eqb Ascii.eqb Bool.eqb andb orb].
  Lemma i_atom : forall n e env G, atom e -> interp (S n) e env G = Some (quoted e, G).
  Proof. intros n [] env G H; try contradiction; reflexivity. Qed.
  Lemma i_quote : forall n s env G, interp (S n) (of_list [ssym "quote"; s]) env G = Some (quoted s, G).
  Proof. i_eq. reflexivity. Qed.
  Lemma i_lam : forall n ps b env G, interp (S n) (of_list [ssym "lambda"; of_list (map SSym ps); b]) env G =
    Some (VClo (mkIC ps b (map fst env)) (map snd env), G).
  Proof.
    i_eq. rewrite slist_of_list. replace (symbols (map SSym ps)) with (Some ps); [reflexivity|].
    induction ps as [|p ps IH]; cbn; [reflexivity|]. now rewrite <- IH.
  Qed.
  Lemma i_if : forall n a b c env G, interp (S n) (of_list [ssym "if"; a; b; c]) env G =
    match interp n a env G with
    | Some (VTrue, G1) => interp n b env G1
    | Some (_, G1) => interp n c env G1
    | None => None
    end.
  Proof. i_eq. reflexivity. Qed.
  Lemma i_do : forall n a b env G, interp (S n) (of_list [ssym "do"; a; b]) env G =
    match interp n a env G with Some (_, G1) => interp n b env G1 | None => None end.
  Proof. i_eq. reflexivity. Qed.
  Lemma i_let : forall n x b c env G, interp (S n) (of_list [ssym "let"; SSym x; b; c]) env G =
    match interp n b env G with Some (v, G1) => interp n c ((x, v) :: env) G1 | None => None end.
  Proof. i_eq. reflexivity. Qed.
  Lemma i_def : forall n x b env G, interp (S n) (of_list [ssym "def"; SSym x; b]) env G =
    match interp n b env G with Some (v, G1) => Some (v, g_set G1 x v) | None => None end.
  Proof. i_eq. reflexivity. Qed.
  Lemma i_app : forall n f args env G, call_head f (List.length args) ->
    interp (S n) (of_list (f :: args)) env G = icall n env f (of_list args) G.
  Proof.
    intros n f args env G (Q & Q1 & Q2 & Q3 & Q4 & Q5 & Q6). cbn [of_list ReplModel.interp]. rewrite Q, Q1, Q2, Q3, Q4.
    destruct (is_sym "def" f) eqn:D; [|reflexivity].
    destruct args as [|a1 [|a2 [|a3 args]]]; try reflexivity. exfalso. now apply Q5.
  Qed.

  (** * Primitives keep their globals unless they are set *)
  Definition keeps (G G1 : store icode) : Prop :=
    forall x, g_ver G x <= g_ver G1 x /\ (g_ver G x = g_ver G1 x -> g_val G x = g_val G1 x).
  Lemma keeps_refl : forall G, keeps G G.
  Proof. intros G x. auto. Qed.
  Lemma keeps_trans : forall G1 G2 G3, keeps G1 G2 -> keeps G2 G3 -> keeps G1 G3.
  Proof.
    intros G1 G2 G3 H1 H2 x. destruct (H1 x) as (A & B). destruct (H2 x) as (C & D). split; [lia|].
    intro E. rewrite B by lia. apply D. lia.
  Qed.
  Lemma keeps_set : forall G x v, keeps G (g_set G x v).
  Proof. intros G x v y. cbn. destruct (name_eqb y x); split; auto; lia. Qed.
  Lemma keeps_prim : forall p l G v G1, prim_sem ar p l G = Some (v, G1) -> keeps G G1.
  Proof.
    intros p l G v G1 E. destruct p; destruct l as [|a [|b [|c l]]]; cbn in E; try discriminate;
      try (destruct a; try discriminate); try (destruct b; try discriminate); try (destruct (ar _ _ _); try discriminate);
      try (destruct (veq _ _); try discriminate);
      injection E as <- <-; try apply keeps_refl; try apply keeps_set; intro x; cbn; auto.
  Qed.
  Lemma keeps_exact : forall run, (forall c vs l G v G1, run c vs l G = Some (v, G1) -> keeps G G1) ->
    forall f l G v G1, exact ar run f l G = Some (v, G1) -> keeps G G1.
  Proof.
    intros run HR. induction f; intros l G v G1 E; cbn in E; try discriminate; eauto. eapply keeps_prim; eauto.
  Qed.
  Lemma keeps_args : forall ev, (forall e G v G1, ev e G = Some (v, G1) -> keeps G G1) ->
    forall l G vs G1, map_eval ev l G = Some (vs, G1) -> keeps G G1.
  Proof.
    intros ev HE. induction l as [|e l IH]; intros G vs G1 E; cbn in E; [injection E as <- <-; apply keeps_refl|].
    destruct (ev e G) as [(v, G2)|] eqn:E1; [|discriminate]. destruct (map_eval ev l G2) as [(ws, G3)|] eqn:E2; [|discriminate].
    injection E as <- <-. eapply keeps_trans; eauto.
  Qed.
  Lemma keeps_apply : forall run, (forall c vs l G v G1, run c vs l G = Some (v, G1) -> keeps G G1) ->
    forall f l G v G1, native_apply ar run f l G = Some (v, G1) -> keeps G G1.
  Proof.
    intros run HR f l G v G1 E. unfold native_apply in E. destruct (need i_arity f); [|discriminate].
    destruct (_ =? _); [|discriminate]. eapply keeps_exact; eauto.
  Qed.
  Lemma keeps_interp : forall n e env G v G1, interp n e env G = Some (v, G1) -> keeps G G1.
  Proof.
    induction n as [|n IH]; intros e env G v G1 E; [discriminate|].
    assert (HC : forall h t v G1, icall n env h t G = Some (v, G1) -> keeps G G1).
    { intros h t v0 G0 E0. unfold icall in E0. destruct (interp n h env G) as [(f, G2)|] eqn:E1; [|discriminate].
      destruct (slist t) as [l|]; [|discriminate]. destruct (map_eval _ l G2) as [(args, G3)|] eqn:E2; [|discriminate].
      apply keeps_trans with G2; [exact (IH _ _ _ _ _ E1)|]. apply keeps_trans with G3.
      - refine (keeps_args (ieval n env) _ l G2 args G3 E2). intros; eapply IH; eassumption.
      - refine (keeps_apply (irun n) _ f args G3 v0 G0 E0). intros; eapply IH; eassumption. }
    destruct e as [z|x|s| | | |h t]; try (injection E as <- <-; apply keeps_refl).
    - cbn [ReplModel.interp] in E. destruct (lookup_env x env); [injection E as <- <-; apply keeps_refl|].
      destruct (g_val _ _); [injection E as <- <-; apply keeps_refl|discriminate].
    - cbn [ReplModel.interp] in E. change (ReplModel.interp gt exports imported ar n) with (interp n) in E.
      repeat match type of E with
      | (if ?b then _ else _) = _ => destruct b
      end.
      + specialize (HC h t v G1). destruct t as [| | | | | |a [| | | | | |]]; try exact (HC E). injection E as <- <-. apply keeps_refl.
      + destruct (three t) as [((a, b), c)|]; [|exact (HC h t v G1 E)].
        destruct (interp n a env G) as [(w, G2)|] eqn:E1; [|discriminate].
        eapply keeps_trans; [eauto|]. destruct w; eauto.
      + destruct (two t) as [(a, b)|]; [|exact (HC h t v G1 E)].
        destruct (interp n a env G) as [(w, G2)|] eqn:E1; [|discriminate]. eapply keeps_trans; eauto.
      + destruct (two t) as [(a, b)|]; [|exact (HC h t v G1 E)]. destruct a; try discriminate.
        destruct (interp n b env G) as [(w, G2)|] eqn:E1; [|discriminate]. injection E as <- <-.
        eapply keeps_trans; [eauto|apply keeps_set].
      + destruct (three t) as [((a, b), c)|]; [|exact (HC h t v G1 E)]. destruct a; try discriminate.
        destruct (interp n b env G) as [(w, G2)|] eqn:E1; [|discriminate]. eapply keeps_trans; eauto.
      + destruct (two t) as [(a, b)|]; [|exact (HC h t v G1 E)]. destruct (slist a) as [l|]; [|discriminate].
        destruct (symbols l); [|discriminate]. injection E as <- <-. apply keeps_refl.
      + exact (HC h t v G1 E).
  Qed.

  (** * Related values *)
  Definition crelI (c1 : icode) (c2 : ncode) : Prop :=
    ic_ps c1 = nc_ps c2 /\ ic_body c1 = nc_body c2 /\ nc_ctx c2 = X /\ NoDup (ic_ps c1) /\
    (exists k, plain k (ic_body c1) = true) /\ forall x, In x (ic_env c1) <-> In x (nc_env c2).
  Definition selI (c1 : icode) (c2 : ncode) (k i j : nat) : Prop :=
    exists x, index x (ic_env c1) = Some i /\ index x (nc_env c2) = Some j.
  Lemma crelI_arity : forall c1 c2, crelI c1 c2 -> i_arity c1 = n_arity c2.
  Proof. intros c1 c2 (H & _). unfold i_arity, n_arity. now rewrite H. Qed.
  Notation vrelI := (vrel crelI selI i_arity).
  Notation grelI := (grel crelI selI i_arity).
  Notation rresI := (rres crelI selI i_arity).
  Definition envI (env : ienv) (rho : list (name * val ncode)) : Prop :=
    forall x, match lookup x env, lookup x rho with Some v, Some w => vrelI v w | None, None => True | _, _ => False end.

  Lemma in_fst : forall {A} x (l : list (name * A)), In x (map fst l) <-> lookup x l <> None.
  Proof.
    intros A x l. split.
    - intro H. destruct (in_lookup x l H) as (v & ->). discriminate.
    - intro H. destruct (lookup x l) eqn:E; [|contradiction]. eapply lookup_in; eauto.
  Qed.
  Lemma index_lookup : forall {A} x (l : list (name * A)) i, index x (map fst l) = Some i -> nth_error (map snd l) i = lookup x l.
  Proof.
    intros A x l i E. rewrite <- (combine_fst_snd l) at 2. rewrite lookup_combine. now rewrite E.
  Qed.
  Lemma clo_rel : forall env rho ps b k, envI env rho -> NoDup ps -> plain k b = true ->
    vrelI (VClo (mkIC ps b (map fst env)) (map snd env)) (VClo (mkNC ps b (map fst rho) X) (map snd rho)).
  Proof.
    intros env rho ps b k HE HN HP. constructor.
    - repeat split; auto; [eauto|cbn; intro H|cbn; intro H]; apply in_fst; apply in_fst in H; specialize (HE x);
        destruct (lookup x env), (lookup x rho); try discriminate; try contradiction.
    - intros i j (x & E1 & E2). cbn in E1, E2. rewrite (index_lookup _ _ _ E1), (index_lookup _ _ _ E2).
      specialize (HE x). assert (H : In x (map fst env)) by (apply index_in; eauto). apply in_fst in H.
      destruct (lookup x env) as [v|]; [|contradiction]. destruct (lookup x rho) as [w|]; [|contradiction]. eauto.
  Qed.
  Lemma envI_captured : forall c1 c2 vs1 vs2, vrelI (VClo c1 vs1) (VClo c2 vs2) ->
    envI (combine (ic_env c1) vs1) (combine (nc_env c2) vs2).
  Proof.
    intros c1 c2 vs1 vs2 H x. inversion H as [| | | | | | |a b c d HC HS| |]; subst. rewrite !lookup_combine.
    destruct HC as (_ & _ & _ & _ & _ & HI). specialize (HI x). rewrite !index_in in HI.
    destruct (index x (ic_env c1)) as [i|] eqn:E1; destruct (index x (nc_env c2)) as [j|] eqn:E2.
    - destruct (HS i j) as (v1 & v2 & -> & -> & R); [exists x; auto|exact R].
    - destruct HI as (HI & _). destruct HI as (j & Hj); [eauto|discriminate].
    - destruct HI as (_ & HI). destruct HI as (j' & Hj); [eauto|discriminate].
    - exact I.
  Qed.
  Lemma envI_push : forall ps l1 l2 env rho, NoDup ps -> List.length l1 = List.length ps -> Forall2 vrelI l1 l2 -> envI env rho ->
    envI (push_args ps l1 env) (combine ps l2 ++ rho).
  Proof.
    intros ps l1 l2 env rho HN HL HF HE x. rewrite push_args_lookup by assumption. rewrite lookup_app.
    assert (A : match lookup x (combine ps l1), lookup x (combine ps l2) with Some v, Some w => vrelI v w | None, None => True | _, _ => False end).
    { clear HN HL HE. revert ps. induction HF; intros [|p ps]; cbn; auto. destruct (name_eqb x p); auto. apply IHHF. }
    destruct (lookup x (combine ps l1)), (lookup x (combine ps l2)); auto; try contradiction. apply HE.
  Qed.

  (** * The primitives are what they were *)
  Definition intact (G : store icode) : Prop :=
    forall x p, prim_of x = Some p -> g_val G x = None \/ g_val G x = Some (VPrim p).
  Definition unset {C} (G G1 : store C) : Prop := forall x p, prim_of x = Some p -> g_ver G1 x = g_ver G x.
  Lemma unset_split : forall G G1 G2, keeps G G1 -> keeps G1 G2 -> unset G G2 -> unset G G1 /\ unset G1 G2.
  Proof.
    intros G G1 G2 K1 K2 U. split; intros x p E; specialize (U x p E); destruct (K1 x), (K2 x); lia.
  Qed.
  Lemma intact_keep : forall G G1, intact G -> keeps G G1 -> unset G G1 -> intact G1.
  Proof.
    intros G G1 HI K U x p E. destruct (K x) as (_ & K2). rewrite <- K2; [auto|]. symmetry. eapply U; eauto.
  Qed.

  Hypothesis no_prim_exported : forall p x q, In p imported -> prim_of x = Some q -> ~ In x (exports p).

  Lemma prim_name : forall x q, prim_of x = Some q -> lookup_var gt exports x "" imported = x.
  Proof.
    intros x q E. rewrite lookup_var_ok.
    destruct (List.find (fun p => existsb (name_eqb x) (exports p)) imported) as [p|] eqn:F; [|reflexivity].
    apply find_some in F. destruct F as (F1 & F2). fold (mem x (exports p)) in F2. destruct (mem_spec x (exports p)); [|discriminate].
    exfalso. eapply no_prim_exported; eauto.
  Qed.
  Lemma global_same : forall x, lookup_var gt exports x "" imported = global_of gt exports X x.
  Proof.
    intro x. destruct (prim_of x) as [q|] eqn:E.
    - rewrite (prim_name x q E). unfold global_of. now rewrite E.
    - rewrite lookup_var_ok. unfold global_of. rewrite E. cbn. destruct (List.find _ _); reflexivity.
  Qed.

  Lemma use_all_false : forall {C} (l : list (opnd C)) G, use_all false l G = Some (map a_val l).
  Proof.
    induction l as [|a l IH]; intro G; cbn; [reflexivity|]. rewrite IH. unfold use. destruct (a_from a) as [(x, k)|]; reflexivity.
  Qed.
  Lemma use_false : forall {C} (a : opnd C) G, use false a G = Some (a_val a).
  Proof. intros C a G. unfold use. destruct (a_from a) as [(x, k)|]; reflexivity. Qed.

  Notation nev m := (neval gt exports ar false m).
  Notation nrun m := (fun c vs args G => result (nev m (nc_ctx c) (combine (nc_ps c) args ++ combine (nc_env c) vs) (nc_body c) G)).
  Definition rrop (r : ival * store icode) (r2 : opnd ncode * store ncode) : Prop :=
    vrelI (fst r) (a_val (fst r2)) /\ grelI (snd r) (snd r2).

  Definition sim_at (n : nat) : Prop := forall e env G v G1, interp n e env G = Some (v, G1) ->
    forall k rho G2, plain k e = true -> envI env rho -> grelI G G2 -> intact G -> unset G G1 ->
    evt (fun m => nev m X rho e G2) (rrop (v, G1)).

  Lemma exact_sim : forall n, sim_at n -> forall f1 f2 l1 l2 G G2 v G1, vrelI f1 f2 -> Forall2 vrelI l1 l2 ->
    need i_arity f1 = Some (List.length l1) -> grelI G G2 -> intact G -> unset G G1 ->
    exact ar (irun n) f1 l1 G = Some (v, G1) ->
    evt (fun m => exact ar (nrun m) f2 l2 G2) (rresI (v, G1)).
  Proof.
    intros n HS. induction f1; intros f2 l1 l2 G G2 v G1 HF HL HN HG HI HU E; inversion HF; subst; cbn in E; try discriminate.
    - cbn [exact]. match goal with H : crelI c _ |- _ => destruct H as (A1 & A2 & A3 & A4 & (k & A5) & A6) end.
      rewrite A3, <- A1, <- A2.
      assert (L : List.length l1 = List.length (ic_ps c)) by (cbn in HN; unfold i_arity in HN; congruence).
      destruct (HS _ _ _ _ _ E k (combine (ic_ps c) l2 ++ combine (nc_env c2) vs2) G2) as ((a, G3) & m & (R1 & R2) & EM); auto.
      { apply envI_push; auto. now apply envI_captured. }
      exists (a_val a, G3), m. split; [split; auto|]. intros m' Lm. rewrite (EM m' Lm). reflexivity.
    - cbn [exact]. cbn [need] in HN. match goal with A : need i_arity f1 = Some _ |- _ => rewrite A in HN end.
      injection HN as HN.
      eapply IHf1; eauto; [now apply Forall2_app|].
      match goal with A : need i_arity f1 = Some _ |- _ => rewrite A end. f_equal. rewrite app_length. lia.
    - cbn [exact]. destruct (prim_rel crelI selI i_arity ar _ _ _ _ _ _ _ HL HG E) as (r2 & -> & R). now apply evt_const.
  Qed.

  Lemma apply_exact : forall {C} (aty : C -> nat) run m f l G, need aty f = Some (List.length l) ->
    apply ar aty run (S m) f l G = exact ar run f l G.
  Proof.
    intros C aty run m f l G E. cbn [apply]. rewrite E. rewrite Nat.ltb_irrefl, firstn_all, skipn_all.
    destruct (exact ar run f l G) as [(v, G1)|]; reflexivity.
  Qed.

  Lemma call_sim : forall n, sim_at n -> forall f1 f2 l1 l2 G G2 v G1, vrelI f1 (a_val f2) -> Forall2 vrelI l1 (map a_val l2) ->
    grelI G G2 -> intact G -> unset G G1 -> native_apply ar (irun n) f1 l1 G = Some (v, G1) ->
    evt (fun m => match use false f2 G2, use_all false l2 G2 with
                  | Some f, Some args =>
                      match apply ar n_arity (nrun m) m f args G2 with Some (v, G) => Some (value v, G) | None => None end
                  | _, _ => None
                  end) (rrop (v, G1)).
  Proof.
    intros n HS f1 f2 l1 l2 G G2 v G1 HF HL HG HI HU E. unfold native_apply in E.
    destruct (need i_arity f1) as [q|] eqn:En; [|discriminate]. destruct (Nat.eqb_spec q (List.length l1)) as [->|]; [|discriminate].
    destruct (exact_sim n HS _ _ _ _ _ _ _ _ HF HL En HG HI HU E) as ((v2, G3) & m & (R1 & R2) & EM).
    exists (value v2, G3), (S m). split; [split; auto|]. intros [|m'] Lm; [lia|].
    rewrite use_false, use_all_false, apply_exact.
    - rewrite EM by lia. reflexivity.
    - rewrite <- (need_rel crelI selI i_arity n_arity crelI_arity _ _ HF), En. f_equal. eapply Forall2_len; eauto.
  Qed.

  Lemma args_sim : forall n, sim_at n -> forall es env G vs G1, map_eval (ieval n env) es G = Some (vs, G1) ->
    forall k rho G2, forallb (plain k) es = true -> envI env rho -> grelI G G2 -> intact G -> unset G G1 ->
    evt (fun m => ev_args (nev m X rho) es G2) (fun '(l, G3) => Forall2 vrelI vs (map a_val l) /\ grelI G1 G3).
  Proof.
    intros n HS. induction es as [|e es IH]; intros env G vs G1 E k rho G2 HP HE HG HI HU; cbn in E.
    - injection E as <- <-. apply evt_const. cbn. auto.
    - destruct (interp n e env G) as [(v, G3)|] eqn:E1; [|discriminate].
      destruct (map_eval (ieval n env) es G3) as [(ws, G4)|] eqn:E2; [|discriminate]. injection E as <- <-.
      cbn in HP. apply andb_prop in HP. destruct HP as (HP1 & HP2).
      assert (K1 : keeps G G3) by (eapply keeps_interp; eauto).
      assert (K2 : keeps G3 G4) by (refine (keeps_args (ieval n env) _ _ _ _ _ E2); intros; eapply keeps_interp; eassumption).
      destruct (unset_split _ _ _ K1 K2 HU) as (U1 & U2).
      cbn [ev_args].
      eapply evt_bind with (g := fun m '(a, G) => match ev_args (nev m X rho) es G with Some (la, G2') => Some (a :: la, G2') | None => None end);
        [exact (HS _ _ _ _ _ E1 k rho G2 HP1 HE HG HI U1)|].
      intros (a2, G5) (HA & HG5). cbn in HA, HG5.
      eapply evt_bind with (g := fun m '(la, G2') => Some (a2 :: la, G2'));
        [exact (IH _ _ _ _ E2 k rho G5 HP2 HE HG5 (intact_keep _ _ HI K1 U1) U2)|].
      intros (la, G6) (HL & HG6). apply evt_const. cbn. auto.
  Qed.

  Lemma result_sim : forall (f : nat -> option (opnd ncode * store ncode)) r, evt f (rrop r) -> evt (fun m => result (f m)) (rresI r).
  Proof.
    intros f r ((a, G) & m & (R1 & R2) & E). exists (a_val a, G), m. split; [split; auto|]. intros m' L. now rewrite (E m' L).
  Qed.

  Theorem interp_sim : forall n, sim_at n.
  Proof.
    induction n as [|n IH]; intros e env G v G1 E k rho G2 HP HE HG HI HU; [discriminate|].
    destruct k as [|k]; [discriminate|]. cbn [plain] in HP. pose proof (nview_shape e) as SH.
    apply evt_S. cbn [neval].
    destruct (nview e) as [f|x b|? ? ?|? ?] eqn:EV; [|clear EV|discriminate|discriminate].
    2: { inversion SH; subst. rewrite i_def in E. destruct (interp n b env G) as [(w, G3)|] eqn:E1; [|discriminate].
      injection E as <- <-. assert (K1 := keeps_interp _ _ _ _ _ _ E1).
      destruct (unset_split _ _ _ K1 (keeps_set G3 x w) HU) as (U1 & U2).
      eapply evt_bind with (g := fun m '(v, G1) => Some (value v, g_set G1 (defined_as gt X x) v));
        [apply result_sim; exact (IH _ _ _ _ _ E1 k rho G2 HP HE HG HI U1)|].
      intros (w2, G4) (R1 & R2). cbn in R1, R2. apply evt_const. split; [exact R1|]. cbn. now apply g_set_rel. }
    destruct f as [s|x|ps b|a b c|a b|x b c|f args|]; [| | | | | | |discriminate]; clear EV; inversion SH; subst.
    - rewrite i_atom in E by assumption. injection E as <- <-. apply evt_const. split; [apply quoted_rel|exact HG].
    - rewrite i_quote in E. injection E as <- <-. apply evt_const. split; [apply quoted_rel|exact HG].
    - cbn [ReplModel.interp] in E. rewrite lookup_env_eq, global_same in E. specialize (HE x).
      destruct (lookup x env) as [w|], (lookup x rho) as [w2|]; try contradiction.
      + injection E as <- <-. apply evt_const. split; auto.
      + destruct HG as (HG0 & HG1). pose proof (HG1 (global_of gt exports X x)) as HX.
        destruct (g_val G (global_of gt exports X x)) as [w|]; [|discriminate]. injection E as <- <-.
        destruct (g_val G2 (global_of gt exports X x)) as [w2|]; [|contradiction].
        apply evt_const. split; [exact HX|]. split; assumption.
    - rewrite i_lam in E. injection E as <- <-. apply andb_prop in HP. destruct HP as (HP1 & HP2).
      apply evt_const. split; [|exact HG]. cbn. apply clo_rel with k; auto. now apply distinct_nodup.
    - rewrite i_if in E. apply andb_prop in HP. destruct HP as (HP & HP3). apply andb_prop in HP. destruct HP as (HP1 & HP2).
      destruct (interp n a env G) as [(w, G3)|] eqn:E1; [|discriminate].
      assert (K1 := keeps_interp _ _ _ _ _ _ E1).
      assert (K2 : keeps G3 G1) by (destruct w; eapply keeps_interp; eauto).
      destruct (unset_split _ _ _ K1 K2 HU) as (U1 & U2).
      pose proof (intact_keep _ _ HI K1 U1) as HI3.
      eapply evt_bind with (g := fun m '(v, G1) => match v with VTrue => nev m X rho b G1 | _ => nev m X rho c G1 end).
      { eapply evt_ext; [|apply result_sim; exact (IH _ _ _ _ _ E1 k rho G2 HP1 HE HG HI U1)]. reflexivity. }
      intros (w2, G4) (R1 & R2). cbn in R1, R2.
      assert (T : evt (fun m => nev m X rho c G4) (rrop (v, G1)) \/ w = VTrue).
      { destruct w; (now right) || left; exact (IH _ _ _ _ _ E k rho G4 HP3 HE R2 HI3 U2). }
      destruct w; inversion R1; subst; try (destruct T as [T|T]; [exact T|discriminate]).
      exact (IH _ _ _ _ _ E k rho G4 HP2 HE R2 HI3 U2).
    - rewrite i_do in E. apply andb_prop in HP. destruct HP as (HP1 & HP2).
      destruct (interp n a env G) as [(w, G3)|] eqn:E1; [|discriminate].
      assert (K1 := keeps_interp _ _ _ _ _ _ E1). assert (K2 := keeps_interp _ _ _ _ _ _ E).
      destruct (unset_split _ _ _ K1 K2 HU) as (U1 & U2).
      eapply evt_bind with (g := fun m '(v, G1) => nev m X rho b G1);
        [apply result_sim; exact (IH _ _ _ _ _ E1 k rho G2 HP1 HE HG HI U1)|].
      intros (w2, G4) (R1 & R2). exact (IH _ _ _ _ _ E k rho G4 HP2 HE R2 (intact_keep _ _ HI K1 U1) U2).
    - rewrite i_let in E. apply andb_prop in HP. destruct HP as (HP1 & HP2).
      destruct (interp n b env G) as [(w, G3)|] eqn:E1; [|discriminate].
      assert (K1 := keeps_interp _ _ _ _ _ _ E1). assert (K2 := keeps_interp _ _ _ _ _ _ E).
      destruct (unset_split _ _ _ K1 K2 HU) as (U1 & U2).
      eapply evt_bind with (g := fun m '(v, G1) => nev m X ((x, v) :: rho) c G1);
        [apply result_sim; exact (IH _ _ _ _ _ E1 k rho G2 HP1 HE HG HI U1)|].
      intros (w2, G4) (R1 & R2). cbn in R1, R2.
      refine (IH _ _ _ _ _ E k _ G4 HP2 _ R2 (intact_keep _ _ HI K1 U1) U2).
      intro y. cbn. destruct (name_eqb y x); [exact R1|apply HE].
    - rewrite i_app in E by assumption. apply andb_prop in HP. destruct HP as (HP1 & HP2). unfold icall in E.
      destruct (interp n f env G) as [(w, G3)|] eqn:E1; [|discriminate]. rewrite slist_of_list in E.
      destruct (map_eval (ieval n env) args G3) as [(vs, G4)|] eqn:E2; [|discriminate].
      assert (K1 := keeps_interp _ _ _ _ _ _ E1).
      assert (K2 : keeps G3 G4) by (refine (keeps_args (ieval n env) _ _ _ _ _ E2); intros; eapply keeps_interp; eassumption).
      assert (K3 : keeps G4 G1) by (refine (keeps_apply (irun n) _ _ _ _ _ _ E); intros; eapply keeps_interp; eassumption).
      destruct (unset_split _ _ _ K1 (keeps_trans _ _ _ K2 K3) HU) as (U1 & U23).
      destruct (unset_split _ _ _ K2 K3 U23) as (U2 & U3).
      pose proof (intact_keep _ _ HI K1 U1) as HI3. pose proof (intact_keep _ _ HI3 K2 U2) as HI4.
      destruct (op_prim rho f) as [p|] eqn:EO.
      + assert (EW : w = VPrim p /\ G3 = G).
        { destruct f as [z|x|t| | | |? ?]; try discriminate. cbn in EO. specialize (HE x).
          destruct (lookup x rho); [discriminate|]. destruct n as [|n]; [discriminate|]. cbn [ReplModel.interp] in E1.
          rewrite lookup_env_eq, (prim_name x p EO) in E1. destruct (lookup x env); [contradiction|].
          destruct (HI x p EO) as [HX|HX]; rewrite HX in E1; [discriminate|]. injection E1 as <- <-. auto. }
        destruct EW as (-> & ->).
        eapply evt_bind with (g := fun m '(l, G1) => _);
          [exact (args_sim n IH _ _ _ _ _ E2 k rho G2 HP2 HE HG HI U2)|].
        intros (l, G5) (HL & HG5). eapply call_sim; eauto. constructor.
      + eapply evt_bind with (g := fun m '(a, G1) => match ev_args (nev m X rho) args G1 with Some (l, G2) => _ | None => None end);
          [exact (IH _ _ _ _ _ E1 k rho G2 HP1 HE HG HI U1)|].
        intros (a2, G5) (RA & RG). cbn in RA, RG.
        eapply evt_bind with (g := fun m '(l, G1) => _);
          [exact (args_sim n IH _ _ _ _ _ E2 k rho G5 HP2 HE RG HI3 U2)|].
        intros (l, G6) (HL & HG6). eapply call_sim; eauto.
  Qed.

  (** * The other way: a careful run is carried out *)
  Notation cr n := (careful_run gt exports ar n X).
  Notation crun n := (fun c vs args G => careful_run gt exports ar n (nc_ctx c) (combine (nc_ps c) args ++ combine (nc_env c) vs) (nc_body c) G).
  Lemma holds_eq : forall v p, holds v p = true -> v = Some (VPrim p).
  Proof. intros [[]|] q H; try discriminate. cbn in H. destruct (prim_eq_dec q p); congruence. Qed.

  Definition crelX (c1 : ncode) (c2 : icode) : Prop := crelI c2 c1.
  Definition selX (c1 : ncode) (c2 : icode) (k i j : nat) : Prop := selI c2 c1 k j i.
  Lemma crelX_arity : forall c1 c2, crelX c1 c2 -> n_arity c1 = i_arity c2.
  Proof. intros c1 c2 H. symmetry. now apply crelI_arity. Qed.
  Notation vrelX := (vrel crelX selX n_arity).
  Notation grelX := (grel crelX selX n_arity).
  Notation rresX := (rres crelX selX n_arity).
  Definition envX (rho : list (name * val ncode)) (env : ienv) : Prop :=
    forall x, match lookup x rho, lookup x env with Some v, Some w => vrelX v w | None, None => True | _, _ => False end.

  Lemma clo_relX : forall env rho ps b k, envX rho env -> NoDup ps -> plain k b = true ->
    vrelX (VClo (mkNC ps b (map fst rho) X) (map snd rho)) (VClo (mkIC ps b (map fst env)) (map snd env)).
  Proof.
    intros env rho ps b k HE HN HP. constructor.
    - repeat split; auto; [eauto|cbn; intro H|cbn; intro H]; apply in_fst; apply in_fst in H; specialize (HE x);
        destruct (lookup x env), (lookup x rho); try discriminate; try contradiction.
    - intros i j (x & E1 & E2). cbn in E1, E2. rewrite (index_lookup _ _ _ E1), (index_lookup _ _ _ E2).
      specialize (HE x). assert (H : In x (map fst env)) by (apply index_in; eauto). apply in_fst in H.
      destruct (lookup x env) as [v|]; [|contradiction]. destruct (lookup x rho) as [w|]; [|contradiction]. eauto.
  Qed.
  Lemma envX_captured : forall c1 c2 vs1 vs2, vrelX (VClo c1 vs1) (VClo c2 vs2) ->
    envX (combine (nc_env c1) vs1) (combine (ic_env c2) vs2).
  Proof.
    intros c1 c2 vs1 vs2 H x. inversion H as [| | | | | | |a b c d HC HS| |]; subst. rewrite !lookup_combine.
    destruct HC as (_ & _ & _ & _ & _ & HI). specialize (HI x). rewrite !index_in in HI.
    destruct (index x (nc_env c1)) as [i|] eqn:E1; destruct (index x (ic_env c2)) as [j|] eqn:E2.
    - destruct (HS i j) as (v1 & v2 & -> & -> & R); [exists x; auto|exact R].
    - destruct HI as (_ & HI). destruct HI as (j & Hj); [eauto|discriminate].
    - destruct HI as (HI & _). destruct HI as (j' & Hj); [eauto|discriminate].
    - exact I.
  Qed.
  Lemma envX_push : forall ps l1 l2 env rho, NoDup ps -> List.length l2 = List.length ps -> Forall2 vrelX l1 l2 -> envX rho env ->
    envX (combine ps l1 ++ rho) (push_args ps l2 env).
  Proof.
    intros ps l1 l2 env rho HN HL HF HE x. rewrite push_args_lookup by assumption. rewrite lookup_app.
    assert (A : match lookup x (combine ps l1), lookup x (combine ps l2) with Some v, Some w => vrelX v w | None, None => True | _, _ => False end).
    { clear HN HL HE. revert ps. induction HF; intros [|p ps]; cbn; auto. destruct (name_eqb x p); auto. apply IHHF. }
    destruct (lookup x (combine ps l1)), (lookup x (combine ps l2)); auto; try contradiction. apply HE.
  Qed.

  Definition careful_at (n : nat) : Prop := forall rho e G r, cr n rho e G = Some r ->
    forall k env G2, plain k e = true -> envX rho env -> grelX G G2 -> evt (fun m => interp m e env G2) (rresX r).

  Lemma careful_call : forall n, careful_at n -> forall f1 f2 l1 l2 G G2 r, vrelX f1 f2 -> Forall2 vrelX l1 l2 -> grelX G G2 ->
    match need n_arity f1 with
    | Some k => if k =? List.length l1 then exact ar (crun n) f1 l1 G else None
    | None => None
    end = Some r ->
    evt (fun m => native_apply ar (irun m) f2 l2 G2) (rresX r).
  Proof.
    intros n HS f1 f2 l1 l2 G G2 r HF HL HG E. unfold native_apply.
    rewrite <- (need_rel crelX selX n_arity i_arity crelX_arity _ _ HF).
    destruct (need n_arity f1) as [q|] eqn:En; [|discriminate].
    rewrite <- (Forall2_len _ _ _ HL). destruct (Nat.eqb_spec q (List.length l1)) as [->|]; [|discriminate].
    refine (exact_rel crelX selX n_arity ar (crun n) (fun m => irun m) _ _ _ _ _ _ _ _ HF HL En HG E).
    clear - HS. intros c1 c2 vs1 vs2 l1 l2 G1 G2 r HC HL HN HG E.
    pose proof (envX_captured _ _ _ _ HC) as HE.
    inversion HC as [| | | | | | |a b c d HCR HSE| |]; subst. destruct HCR as (A1 & A2 & A3 & A4 & (k & A5) & A6).
    rewrite A3, <- A2 in E. apply (HS _ _ _ _ E k).
    - exact A5.
    - rewrite <- A1. apply envX_push; auto. rewrite <- (Forall2_len _ _ _ HL), HN. unfold n_arity. now rewrite A1.
    - exact HG.
  Qed.

  Lemma careful_args : forall n, careful_at n -> forall es rho G vs G1, each (cr n rho) es G = Some (vs, G1) ->
    forall k env G2, forallb (plain k) es = true -> envX rho env -> grelX G G2 ->
    evt (fun m => map_eval (ieval m env) es G2) (fun '(l, G3) => Forall2 vrelX vs l /\ grelX G1 G3).
  Proof.
    intros n HS. induction es as [|e es IH]; intros rho G vs G1 E k env G2 HP HE HG; cbn in E.
    - injection E as <- <-. apply evt_const. auto.
    - destruct (cr n rho e G) as [(v, G3)|] eqn:E1; [|discriminate].
      destruct (each (cr n rho) es G3) as [(ws, G4)|] eqn:E2; [|discriminate]. injection E as <- <-.
      cbn in HP. apply andb_prop in HP. destruct HP as (HP1 & HP2). cbn [map_eval].
      eapply evt_bind with (g := fun m '(a, G) => match map_eval (ieval m env) es G with Some (la, G2') => Some (a :: la, G2') | None => None end);
        [exact (HS _ _ _ _ E1 k env G2 HP1 HE HG)|].
      intros (a2, G5) (HA & HG5). cbn in HA, HG5.
      eapply evt_bind with (g := fun m '(la, G2') => Some (a2 :: la, G2')); [exact (IH _ _ _ _ E2 k env G5 HP2 HE HG5)|].
      intros (la, G6) (HL & HG6). apply evt_const. auto.
  Qed.

  Theorem careful_sim : forall n, careful_at n.
  Proof.
    induction n as [|n IH]; intros rho e G r E k env G2 HP HE HG; [discriminate|].
    destruct k as [|k]; [discriminate|]. cbn [plain] in HP. pose proof (nview_shape e) as SH.
    apply evt_S. cbn [careful_run] in E.
    destruct (nview e) as [f|x b|? ? ?|? ?] eqn:EV; [|clear EV|discriminate|discriminate].
    2: { inversion SH; subst. eapply evt_ext; [intro; symmetry; apply i_def|].
      destruct (cr n rho b G) as [(w, G3)|] eqn:E1; [|discriminate]. injection E as <-.
      eapply evt_bind with (g := fun m '(v, G1) => Some (v, g_set G1 x v)); [exact (IH _ _ _ _ E1 k env G2 HP HE HG)|].
      intros (w2, G4) (R1 & R2). apply evt_const. split; [exact R1|]. now apply g_set_rel. }
    destruct f as [s|x|ps b|a b c|a b|x b c|f args|]; [| | | | | | |discriminate]; clear EV; inversion SH; subst.
    - injection E as <-. eapply evt_ext; [intro; symmetry; now apply i_atom|]. apply evt_const. split; [apply quoted_rel|exact HG].
    - injection E as <-. eapply evt_ext; [intro; symmetry; apply i_quote|]. apply evt_const. split; [apply quoted_rel|exact HG].
    - cbn [ReplModel.interp]. rewrite lookup_env_eq, global_same. specialize (HE x).
      destruct (lookup x env) as [w|], (lookup x rho) as [w2|]; try contradiction.
      + injection E as <-. apply evt_const. split; auto.
      + destruct HG as (HG0 & HG1). pose proof (HG1 (global_of gt exports X x)) as HX.
        destruct (g_val G (global_of gt exports X x)) as [w|]; [|discriminate]. injection E as <-.
        destruct (g_val G2 (global_of gt exports X x)) as [w2|]; [|contradiction].
        apply evt_const. split; [exact HX|]. split; assumption.
    - injection E as <-. eapply evt_ext; [intro; symmetry; apply i_lam|]. apply andb_prop in HP. destruct HP as (HP1 & HP2).
      apply evt_const. split; [|exact HG]. cbn. apply clo_relX with k; auto. now apply distinct_nodup.
    - eapply evt_ext; [intro; symmetry; apply i_if|].
      apply andb_prop in HP. destruct HP as (HP & HP3). apply andb_prop in HP. destruct HP as (HP1 & HP2).
      destruct (cr n rho a G) as [(w, G3)|] eqn:E1; [|discriminate].
      eapply evt_bind with (g := fun m '(v, G1) => match v with VTrue => interp m b env G1 | _ => interp m c env G1 end);
        [exact (IH _ _ _ _ E1 k env G2 HP1 HE HG)|].
      intros (w2, G4) (R1 & R2). cbn in R1, R2.
      assert (T : evt (fun m => interp m c env G4) (rresX r) \/ w = VTrue).
      { destruct w; (now right) || left; exact (IH _ _ _ _ E k env G4 HP3 HE R2). }
      destruct w; inversion R1; subst; try (destruct T as [T|T]; [exact T|discriminate]).
      exact (IH _ _ _ _ E k env G4 HP2 HE R2).
    - eapply evt_ext; [intro; symmetry; apply i_do|]. apply andb_prop in HP. destruct HP as (HP1 & HP2).
      destruct (cr n rho a G) as [(w, G3)|] eqn:E1; [|discriminate].
      eapply evt_bind with (g := fun m '(v, G1) => interp m b env G1); [exact (IH _ _ _ _ E1 k env G2 HP1 HE HG)|].
      intros (w2, G4) (R1 & R2). exact (IH _ _ _ _ E k env G4 HP2 HE R2).
    - eapply evt_ext; [intro; symmetry; apply i_let|]. apply andb_prop in HP. destruct HP as (HP1 & HP2).
      destruct (cr n rho b G) as [(w, G3)|] eqn:E1; [|discriminate].
      eapply evt_bind with (g := fun m '(v, G1) => interp m c ((x, v) :: env) G1); [exact (IH _ _ _ _ E1 k env G2 HP1 HE HG)|].
      intros (w2, G4) (R1 & R2). cbn in R1, R2. refine (IH _ _ _ _ E k _ G4 HP2 _ R2).
      intro y. cbn. destruct (name_eqb y x); [exact R1|apply HE].
    - eapply evt_ext; [intro; symmetry; now apply i_app|]. unfold icall. rewrite slist_of_list.
      apply andb_prop in HP. destruct HP as (HP1 & HP2).
      destruct (op_prim rho f) as [p|] eqn:EO.
      + destruct f as [z|x|t| | | |? ?]; try discriminate. cbn in EO. pose proof (HE x) as HX.
        destruct (lookup x rho); [discriminate|]. destruct (holds (g_val G x) p) eqn:EH; [|discriminate].
        apply holds_eq in EH. destruct (lookup x env) eqn:EL; [contradiction|].
        destruct (each (cr n rho) args G) as [(l, G3)|] eqn:E1; [|discriminate].
        assert (EX : evt (fun m => interp m (SSym x) env G2) (fun r => r = (VPrim p, G2))).
        { apply evt_S. cbn [ReplModel.interp]. rewrite lookup_env_eq, EL, (prim_name x p EO).
          destruct HG as (_ & HG1). specialize (HG1 x). rewrite EH in HG1. destruct (g_val G2 x); [|contradiction].
          inversion HG1; subst. now apply evt_const. }
        eapply evt_bind with (g := fun m '(f, G1) => _); [exact EX|]. intros ? ->.
        eapply evt_bind with (g := fun m '(l, G1) => _); [exact (careful_args n IH _ _ _ _ _ E1 k env G2 HP2 HE HG)|].
        intros (l2, G5) (HL & HG5). eapply careful_call; eauto. constructor.
      + destruct (cr n rho f G) as [(w, G3)|] eqn:E1; [|discriminate].
        destruct (each (cr n rho) args G3) as [(l, G4)|] eqn:E2; [|discriminate].
        eapply evt_bind with (g := fun m '(f, G1) => match map_eval (ieval m env) args G1 with Some (l, G2) => _ | None => None end);
          [exact (IH _ _ _ _ E1 k env G2 HP1 HE HG)|].
        intros (w2, G5) (R1 & R2). cbn in R1, R2.
        eapply evt_bind with (g := fun m '(l, G1) => _); [exact (careful_args n IH _ _ _ _ _ E2 k env G5 HP2 HE R2)|].
        intros (l2, G6) (HL & HG6). eapply careful_call; eauto.
  Qed.

  (** * A careful run is a run *)
  Lemma exact_more : forall {C} (run1 run2 : C -> list (val C) -> list (val C) -> store C -> option (val C * store C)),
    (forall c vs l G r, run1 c vs l G = Some r -> run2 c vs l G = Some r) ->
    forall f l G r, exact ar run1 f l G = Some r -> exact ar run2 f l G = Some r.
  Proof. intros C run1 run2 H. induction f; intros l G r E; cbn in *; try discriminate; auto. Qed.

  Definition in_language (n : nat) : Prop := forall c rho e G r, careful_run gt exports ar n c rho e G = Some r ->
    result (nev (S n) c rho e G) = Some r.
  Lemma each_args : forall n, in_language n -> forall c rho es G vs G1, each (careful_run gt exports ar n c rho) es G = Some (vs, G1) ->
    exists l, ev_args (nev (S n) c rho) es G = Some (l, G1) /\ map a_val l = vs.
  Proof.
    intros n IH c rho. induction es as [|e es IE]; intros G vs G1 E; cbn [each] in E.
    - injection E as <- <-. exists []. auto.
    - destruct (careful_run gt exports ar n c rho e G) as [(v, G3)|] eqn:E1; [|discriminate].
      destruct (each _ es G3) as [(ws, G4)|] eqn:E2; [|discriminate]. injection E as <- <-.
      apply IH in E1. destruct (IE _ _ _ E2) as (l & E3 & <-). cbn [ev_args].
      destruct (nev (S n) c rho e G) as [(a, G5)|]; [|discriminate]. cbn in E1. injection E1 as <- <-. rewrite E3. eexists; split; reflexivity.
  Qed.
  Theorem careful_in_language : forall n, in_language n.
  Proof.
    induction n as [|n IH]; intros c rho e G r E; [discriminate|].
    cbn [careful_run] in E. remember (S n) as n' eqn:En. cbn [neval].
    assert (CALL : forall f a l vs G1, a_val a = f -> map a_val l = vs ->
      match need n_arity f with Some k => if k =? List.length vs then exact ar (crun n) f vs G1 else None | None => None end = Some r ->
      result match use false a G1, use_all false l G1 with
             | Some f, Some args => match apply ar n_arity (nrun n') n' f args G1 with Some (v, G2) => Some (value v, G2) | None => None end
             | _, _ => None end = Some r).
    { intros f a l vs G1 <- <- EC. rewrite use_false, use_all_false. destruct (need n_arity (a_val a)) as [q|] eqn:EN; [|discriminate].
      destruct (Nat.eqb_spec q (List.length (map a_val l))) as [->|]; [|discriminate].
      assert (AE : apply ar n_arity (nrun n') n' (a_val a) (map a_val l) G1 = exact ar (nrun n') (a_val a) (map a_val l) G1)
        by (generalize (nrun n'); intro; rewrite En; now apply apply_exact).
      rewrite AE.
      assert (EE : exact ar (nrun n') (a_val a) (map a_val l) G1 = Some r).
      { eapply exact_more; [|exact EC]. intros c0 vs0 l0 G0 r0 E0. subst n'. exact (IH _ _ _ _ _ E0). }
      rewrite EE. destruct r. reflexivity. }
    assert (IH' : forall c rho e G v G1, careful_run gt exports ar n c rho e G = Some (v, G1) ->
      exists a, nev n' c rho e G = Some (a, G1) /\ a_val a = v).
    { intros c0 rho0 e0 G0 v0 G1 E0. apply IH in E0. rewrite <- En in E0. destruct (nev n' c0 rho0 e0 G0) as [(a, G5)|]; [|discriminate].
      cbn in E0. injection E0 as <- <-. eauto. }
    assert (RES : forall c rho e G v G1, careful_run gt exports ar n c rho e G = Some (v, G1) -> result (nev n' c rho e G) = Some (v, G1)).
    { intros. subst n'. now apply IH. }
    destruct (nview e) as [f|x b|? ? ?|? ?]; [|..|discriminate|discriminate].
    - destruct f as [s|x|ps b|a b d|a b|x b d|f args|]; [| | | | | | |discriminate].
      + injection E as <-. reflexivity.
      + destruct (lookup x rho); [injection E as <-; reflexivity|].
        destruct (g_val G _); [injection E as <-; reflexivity|discriminate].
      + injection E as <-. reflexivity.
      + destruct (careful_run gt exports ar n c rho a G) as [(v, G1)|] eqn:E1; [|discriminate]. apply RES in E1. rewrite E1.
        destruct r as (v1, G2). destruct v; apply RES; exact E.
      + destruct (careful_run gt exports ar n c rho a G) as [(v, G1)|] eqn:E1; [|discriminate]. apply RES in E1. rewrite E1.
        destruct r as (v1, G2). apply RES; exact E.
      + destruct (careful_run gt exports ar n c rho b G) as [(v, G1)|] eqn:E1; [|discriminate]. apply RES in E1. rewrite E1.
        destruct r as (v1, G2). apply RES; exact E.
      + destruct (op_prim rho f) as [p|].
        * destruct (match f with SSym x => holds (g_val G x) p | _ => false end); [|discriminate].
          destruct (each _ args G) as [(vs, G1)|] eqn:E1; [|discriminate].
          destruct (each_args n IH _ _ _ _ _ _ E1) as (l & E2 & EM). rewrite <- En in E2. rewrite E2.
          exact (CALL _ (value (VPrim p)) l vs G1 eq_refl EM E).
        * destruct (careful_run gt exports ar n c rho f G) as [(w, G1)|] eqn:E0; [|discriminate].
          destruct (each _ args G1) as [(vs, G2)|] eqn:E1; [|discriminate].
          destruct (IH' _ _ _ _ _ _ E0) as (a & -> & EA).
          destruct (each_args n IH _ _ _ _ _ _ E1) as (l & E2 & EM). rewrite <- En in E2. rewrite E2.
          exact (CALL _ a l vs G2 EA EM E).
    - destruct (careful_run gt exports ar n c rho b G) as [(v, G1)|] eqn:E1; [|discriminate]. apply RES in E1. rewrite E1.
      injection E as <-. reflexivity.
  Qed.
End Repl.
