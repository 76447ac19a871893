(** The expansion of a program computes what the program means. *)
From Coq Require Import FinFun List ZArith Bool String Arith Lia.
From Verif Require Import CoreSpec TocModel TocSem CoreProofs TocParse EvalRel NsSpec NsModel NsProofs MacroModel SurfSpec MacroExp.
Import ListNotations.
Local Open Scope list_scope.
Local Open Scope nat_scope.

Local Notation Y s := (SSym (NS s)).
Local Notation "'L' l" := (of_list l) (at level 9, l at level 0).
Notation nval := (val ncode).
Notation nenv := (list (name * val ncode)).

(** * Patterns *)
Section Pat.
  Context {C : Type}.
  Notation binds := (list (name * val C)).
  Fixpoint cmatch (p : cpat) (v : val C) : option binds :=
    match p with
    | CVar x => Some [(NS x, v)]
    | CLit s | CQuote s => match veq (quoted s) v with Some true => Some [] | _ => None end
    | CCons p q =>
        match v with
        | VCons a d => match cmatch p a, cmatch q d with Some b1, Some b2 => Some (b2 ++ b1) | _, _ => None end
        | _ => None
        end
    end.
  Lemma veq_nil : forall v : val C, match veq VNil v with Some true => Some ([] : binds) | _ => None end = match v with VNil => Some [] | _ => None end.
  Proof. intros []; reflexivity. Qed.
  Lemma pmatch_desugar : forall p (v : val C), pmatch p v = cmatch (desugar p) v.
  Proof.
    intro p. pattern p. apply pat_ind'; clear p.
    - reflexivity.
    - reflexivity.
    - reflexivity.
    - intros p q Hp Hq v. cbn. destruct v; try reflexivity. now rewrite Hp, Hq.
    - intros l F. cbn [desugar]. induction F as [|p l Hp F IH]; intro v.
      + cbn. destruct v; reflexivity.
      + cbn. destruct v; try reflexivity. rewrite Hp. cbn in IH. now rewrite IH.
    - intros l q F Hq. cbn [desugar]. induction F as [|p l Hp F IH]; intro v.
      + cbn. apply Hq.
      + cbn. destruct v; try reflexivity. rewrite Hp. cbn in IH. now rewrite IH.
  Qed.
  Lemma pmatch_all_list : forall ps (vs : list (val C)), pmatch_all ps vs = cmatch (desugar (QList ps)) (fold_right VCons VNil vs).
  Proof.
    cbn [desugar]. induction ps as [|p ps IH]; intros [|v vs]; cbn; try reflexivity. rewrite pmatch_desugar, IH. reflexivity.
  Qed.
  Fixpoint cvars (p : cpat) : list string :=
    match p with CVar x => [x] | CLit _ | CQuote _ => [] | CCons p q => cvars p ++ cvars q end.
  Lemma cvars_desugar : forall p, cvars (desugar p) = pvars p.
  Proof.
    intro p. pattern p. apply pat_ind'; clear p; try reflexivity.
    - intros p q Hp Hq. cbn. now rewrite Hp, Hq.
    - intros l F. cbn. induction F as [|p l Hp F IH]; cbn; [reflexivity|]. now rewrite Hp, IH.
    - intros l q F Hq. cbn. induction F as [|p l Hp F IH]; cbn; [exact Hq|]. rewrite Hp, IH. apply app_assoc.
  Qed.
  Lemma cmatch_dom : forall p (v : val C) bs s, cmatch p v = Some bs -> (In s (cvars p) <-> In (NS s) (map fst bs)).
  Proof.
    induction p as [x|t|t|p IHp q IHq]; intros v bs s H; cbn in H.
    - injection H as <-. cbn. split; intros [E|[]]; left; congruence.
    - destruct (veq _ v) as [[]|]; try discriminate. injection H as <-. reflexivity.
    - destruct (veq _ v) as [[]|]; try discriminate. injection H as <-. reflexivity.
    - destruct v; try discriminate. destruct (cmatch p _) as [b1|] eqn:E1; [|discriminate]. destruct (cmatch q _) as [b2|] eqn:E2; [|discriminate].
      injection H as <-. cbn. rewrite map_app, !in_app_iff, (IHp _ _ s E1), (IHq _ _ s E2). tauto.
  Qed.
  Lemma cmatch_gen : forall p (v : val C) bs k, cmatch p v = Some bs -> lookup (NG k) bs = None.
  Proof.
    induction p as [x|t|t|p IHp q IHq]; intros v bs k H; cbn in H.
    - injection H as <-. reflexivity.
    - destruct (veq _ v) as [[]|]; try discriminate. injection H as <-. reflexivity.
    - destruct (veq _ v) as [[]|]; try discriminate. injection H as <-. reflexivity.
    - destruct v; try discriminate. destruct (cmatch p _) as [b1|] eqn:E1; [|discriminate]. destruct (cmatch q _) as [b2|] eqn:E2; [|discriminate].
      injection H as <-. now rewrite lookup_app, (IHq _ _ _ E2), (IHp _ _ _ E1).
  Qed.
  Lemma veq_data : forall s (v : val C), exists b, veq (quoted s) v = Some b.
  Proof.
    induction s as [z|x|s| | | |a IHa d IHd]; intros []; cbn; eauto.
    destruct (IHa a0) as ([] & ->); eauto.
  Qed.
  Lemma veq_refl : forall s, is_atom s = true -> veq (quoted s : val C) (quoted s) = Some true.
  Proof. intros [] H; try discriminate; cbn; try reflexivity; f_equal; [apply Z.eqb_refl|apply String.eqb_refl]. Qed.
End Pat.

(** * Running an expansion *)
Section Sim.
  Context (gt : nat -> string) (exports : string -> list name) (ar : arith) (strict : bool).
  Notation nev := (neval gt exports ar strict).
  Notation xev := (xeval gt exports ar strict).

  Definition NE (c : ctx) (rho : nenv) (e : sexp) (G : store ncode) (Q : opnd ncode * store ncode -> Prop) : Prop :=
    evt (fun m => nev m c rho e G) Q.
  Lemma ne_weaken : forall c rho e G (P Q : _ -> Prop), (forall r, P r -> Q r) -> NE c rho e G P -> NE c rho e G Q.
  Proof. intros. eapply evt_weaken; eauto. Qed.
  Lemma ne_const : forall c rho s G (Q : _ -> Prop), is_atom s = true -> Q (value (quoted s), G) -> NE c rho s G Q.
  Proof. intros c rho s G Q H HQ. apply evt_S. destruct s; try discriminate; apply evt_const; exact HQ. Qed.
  Lemma ne_quote : forall c rho s G (Q : _ -> Prop), Q (value (quoted s), G) -> NE c rho (L [Y "quote"; s]) G Q.
  Proof. intros c rho s G Q HQ. apply evt_S. cbn. now apply evt_const. Qed.
  Lemma ne_local : forall c rho x w G (Q : _ -> Prop), lookup x rho = Some w -> Q (value w, G) -> NE c rho (SSym x) G Q.
  Proof. intros c rho x w G Q H HQ. apply evt_S. cbn. rewrite H. now apply evt_const. Qed.
  Lemma ne_global : forall c rho x w G (Q : _ -> Prop), lookup x rho = None -> let y := global_of gt exports c x in
    g_val G y = Some w -> Q (mkA w (Some (y, g_ver G y)), G) -> NE c rho (SSym x) G Q.
  Proof. intros c rho x w G Q H y H1 HQ. apply evt_S. cbn. rewrite H. fold y. rewrite H1. now apply evt_const. Qed.
  Lemma nview_lam : forall ps b, nview (lam ps b) = NCore (FLam ps b).
  Proof.
    intros ps b. unfold lam, nview. cbn [slist of_list view]. cbn [is_sym name_eqb String.eqb Ascii.eqb Bool.eqb]. rewrite slist_of_list.
    assert (symbols (map SSym ps) = Some ps) as -> by (clear; induction ps as [|p ps IH]; cbn; [reflexivity|now rewrite IH]). reflexivity.
  Qed.
  Lemma ne_lam : forall c rho ps b G (Q : _ -> Prop), Q (value (VClo (mkNC ps b (map fst rho) c) (map snd rho)), G) -> NE c rho (lam ps b) G Q.
  Proof. intros c rho ps b G Q HQ. apply evt_S. cbn [neval]. rewrite nview_lam. now apply evt_const. Qed.
  Lemma evt_result : forall {P Q : _ -> Prop} c rho e G (g : nat -> nval * store ncode -> option (opnd ncode * store ncode)), NE c rho e G P ->
    (forall o G1, P (o, G1) -> evt (fun m => g m (a_val o, G1)) Q) ->
    evt (fun m => match result (nev m c rho e G) with Some r => g m r | None => None end) Q.
  Proof.
    intros P Q c rho e G g H K. eapply (evt_bind (fun m => result (nev m c rho e G)) g (fun r => exists o, P (o, snd r) /\ fst r = a_val o)).
    - destruct H as ((o, G1) & m & H & E). exists (a_val o, G1), m. split; [exists o; auto|]. intros m' Hm. now rewrite (E _ Hm).
    - intros (v, G1) (o & H1 & H2). cbn in H1, H2. subst v. now apply K.
  Qed.
  Lemma ne_if : forall (P Q : _ -> Prop) c rho a b d G, NE c rho a G P ->
    (forall o G1, P (o, G1) -> match a_val o with VTrue => NE c rho b G1 Q | _ => NE c rho d G1 Q end) ->
    NE c rho (L [Y "if"; a; b; d]) G Q.
  Proof.
    intros P Q c rho a b d G HA HK. apply evt_S. cbn.
    eapply evt_ext; [|eapply (evt_result c rho a G (fun m '(v, G1) => match v with VTrue => nev m c rho b G1 | _ => nev m c rho d G1 end)); [exact HA|]].
    - intro m. cbv beta. destruct (result _) as [(v, G1)|]; [|reflexivity]. destruct v; reflexivity.
    - intros o G1 H. specialize (HK _ _ H). cbv beta. destruct (a_val o); exact HK.
  Qed.
  Lemma ne_let : forall (P Q : _ -> Prop) c rho x b d G, NE c rho b G P ->
    (forall o G1, P (o, G1) -> NE c ((x, a_val o) :: rho) d G1 Q) ->
    NE c rho (L [Y "let"; SSym x; b; d]) G Q.
  Proof.
    intros P Q c rho x b d G HA HK. apply evt_S. cbn.
    eapply (evt_result c rho b G (fun m '(v, G1) => nev m c ((x, v) :: rho) d G1)); [exact HA|]. exact HK.
  Qed.
  Lemma ne_do : forall (P Q : _ -> Prop) c rho a b G, import_of a = None -> NE c rho a G P ->
    (forall o G1, P (o, G1) -> NE c rho b G1 Q) -> NE c rho (L [Y "do"; a; b]) G Q.
  Proof.
    intros P Q c rho a b G HI HA HK. apply evt_S. cbn [neval].
    assert (V : nview (L [Y "do"; a; b]) = NCore (FDo a b)) by (unfold nview; cbn; now rewrite HI).
    rewrite V. eapply (evt_result c rho a G (fun m '(v, G1) => nev m c rho b G1)); [exact HA|]. exact HK.
  Qed.
  Lemma ne_import : forall (P Q : _ -> Prop) c rho p b G, NE c rho (L [Y "import"; SStr p]) G P ->
    (forall o G1, P (o, G1) -> NE (mkX (x_ns c) (p :: x_imports c)) rho b G1 Q) ->
    NE c rho (L [Y "do"; L [Y "import"; SStr p]; b]) G Q.
  Proof.
    intros P Q c rho p b G HA HK. apply evt_S. cbn.
    eapply (evt_result c rho (L [Y "import"; SStr p]) G (fun m '(v, G1) => nev m (mkX (x_ns c) (p :: x_imports c)) rho b G1)); [exact HA|]. exact HK.
  Qed.
  Lemma ne_def : forall (P Q : _ -> Prop) c rho x b G, NE c rho b G P ->
    (forall o G1, P (o, G1) -> Q (value (a_val o), g_set G1 (defined_as gt c x) (a_val o))) -> NE c rho (L [Y "def"; SSym x; b]) G Q.
  Proof.
    intros P Q c rho x b G HA HK. apply evt_S. cbn.
    eapply (evt_result c rho b G (fun m '(v, G1) => Some (value v, g_set G1 (defined_as gt c x) v))); [exact HA|].
    intros o G1 H. apply evt_const. now apply HK.
  Qed.
  Lemma strings_map : forall l, strings (map SStr l) = Some l.
  Proof. induction l; cbn; [reflexivity|]. now rewrite IHl. Qed.
  Lemma ne_ns : forall (Q : _ -> Prop) c rho p imports b G, NE (mkX p imports) rho b G Q ->
    NE c rho (L [Y "ns"; SStr p; L (map SStr imports); b]) G Q.
  Proof.
    intros Q c rho p imports b G H. apply evt_S. cbn [neval].
    assert (V : nview (L [Y "ns"; SStr p; L (map SStr imports); b]) = NNs p imports b).
    { unfold nview. cbn. now rewrite slist_of_list, strings_map. }
    rewrite V. exact H.
  Qed.

  Definition nhead (f : sexp) : Prop := match f with SSym (NS s) => operator s = true | _ => True end.
  Lemma nview_app : forall f args, nhead f -> nview (L (f :: args)) = NCore (FApp f args).
  Proof.
    intros f args H.
    assert (X : is_sym "def" f = false /\ is_sym "do" f = false /\ is_sym "ns" f = false /\ is_sym "quote" f = false /\ is_sym "lambda" f = false /\
      is_sym "if" f = false /\ is_sym "let" f = false).
    { destruct f as [z|[s|k]|s| | | |a d]; try (repeat split; reflexivity).
      cbn in H. unfold operator in H. apply negb_true_iff in H. unfold among in H. cbn [existsb] in H.
      repeat match type of H with _ || _ = false => apply orb_false_iff in H; let X := fresh in destruct H as (X & H) end.
      cbn [is_sym name_eqb]. repeat split; assumption. }
    destruct X as (X1 & X2 & X3 & X4 & X5 & X6 & X7).
    assert (V : view (L (f :: args)) = FApp f args) by (apply view_call; assumption).
    unfold nview. rewrite slist_of_list. destruct args as [|a [|b [|d [|e args]]]]; rewrite ?X1, ?X2, ?X3, V; reflexivity.
  Qed.
  Definition nrun (m : nat) (c : ncode) (vs args : list nval) (G : store ncode) : option (nval * store ncode) :=
    result (nev m (nc_ctx c) (combine (nc_ps c) args ++ combine (nc_env c) vs) (nc_body c) G).
  Definition ncall (m : nat) (f : opnd ncode) (args : list (opnd ncode)) (G : store ncode) : option (opnd ncode * store ncode) :=
    match use strict f G, use_all strict args G with
    | Some f, Some args => match apply ar n_arity (nrun m) m f args G with Some (v, G1) => Some (value v, G1) | None => None end
    | _, _ => None
    end.
  Lemma nev_app : forall m c rho f args G, nhead f -> nev (S m) c rho (L (f :: args)) G =
    match op_prim rho f with
    | Some p => match ev_args (nev m c rho) args G with Some (l, G1) => ncall m (value (VPrim p)) l G1 | None => None end
    | None =>
        match nev m c rho f G with
        | Some (a, G1) => match ev_args (nev m c rho) args G1 with Some (l, G2) => ncall m a l G2 | None => None end
        | None => None
        end
    end.
  Proof. intros m c rho f args G H. cbn [neval]. rewrite nview_app by exact H. reflexivity. Qed.

  (** a call of a function without arguments *)
  Lemma ne_thunk : forall (P Q : _ -> Prop) c rho k b c' rho' G, lookup (NG k) rho = Some (VClo (mkNC [] b (map fst rho') c') (map snd rho')) ->
    NE c' rho' b G P -> (forall o G1, P (o, G1) -> Q (value (a_val o), G1)) -> NE c rho (L [SSym (NG k)]) G Q.
  Proof.
    intros P Q c rho k b c' rho' G HL HB HQ. apply evt_S. eapply evt_ext; [intro m; symmetry; apply nev_app; exact I|].
    cbn [op_prim]. rewrite HL. apply evt_S. cbn [neval nview slist view]. rewrite HL. cbn [ev_args ncall use a_from value use_all a_val].
    eapply evt_ext with (f := fun m => match result (nev (S m) c' rho' b G) with Some (v, G1) => Some (value v, G1) | None => None end).
    - intro m. unfold ncall. cbn [use a_from value use_all a_val apply need n_arity nc_ps List.length Nat.ltb Nat.leb exact firstn skipn].
      unfold nrun. cbn [nc_ctx nc_ps nc_env nc_body combine app]. rewrite combine_fst_snd. destruct (result _) as [(v, G1)|]; reflexivity.
    - apply (evt_S_inv (fun m => match result (nev m c' rho' b G) with Some (v, G1) => Some (value v, G1) | None => None end)).
      eapply (evt_result c' rho' b G (fun m '(v, G1) => Some (value v, G1))); [exact HB|]. intros o G1 H. apply evt_const. now apply HQ.
  Qed.

  (** calls of primitives *)
  Lemma ne_prim : forall c rho s p args l vs r G G1 (Q : _ -> Prop), lookup (NS s) rho = None -> prim_of (NS s) = Some p -> operator s = true ->
    evt (fun m => ev_args (nev m c rho) args G) (fun r => r = (l, G1)) -> use_all strict l G1 = Some vs ->
    List.length vs = prim_arity p -> prim_sem ar p vs G1 = Some r -> Q (value (fst r), snd r) -> NE c rho (L (Y s :: args)) G Q.
  Proof.
    intros c rho s p args l vs r G G1 Q HL HP HO HA HU HN HR HQ. apply evt_S. eapply evt_ext; [intro m; symmetry; apply nev_app; exact HO|].
    cbn [op_prim]. rewrite HL, HP. destruct HA as (? & m & -> & HA). exists (value (fst r), snd r), (S m). split; [exact HQ|].
    intros m' Hm. rewrite HA by lia. unfold ncall. cbn [use a_from value a_val]. rewrite HU.
    destruct m' as [|m']; [lia|]. cbn [apply need exact]. rewrite HN, Nat.ltb_irrefl, <- HN, firstn_all, skipn_all, HR. destruct r; reflexivity.
  Qed.

  (** * Expressions without effects *)
  Section Den.
    Variable V : name -> Prop.
    Inductive den (rho : nenv) : sexp -> nval -> Prop :=
    | d_atom s : is_atom s = true -> den rho s (quoted s)
    | d_sym x w : V x -> lookup x rho = Some w -> den rho (SSym x) w
    | d_quote s : den rho (L [Y "quote"; s]) (quoted s)
    | d_cons a b u v : den rho a u -> den rho b v -> den rho (L [Y "cons"; a; b]) (VCons u v)
    | d_car a u v : den rho a (VCons u v) -> den rho (L [Y "car"; a]) u
    | d_cdr a u v : den rho a (VCons u v) -> den rho (L [Y "cdr"; a]) v.
    Lemma den_agree : forall rho rho', (forall x, V x -> lookup x rho' = lookup x rho) -> forall e w, den rho e w -> den rho' e w.
    Proof.
      intros rho rho' H e w D. induction D; [now constructor|constructor; [assumption|now rewrite H]|constructor|now constructor|econstructor; eassumption..].
    Qed.
    Definition clean {A} (rho : list (name * A)) : Prop := forall s, binder s = false -> lookup (NS s) rho = None.
    Lemma den_ne : forall rho, clean rho -> forall e w, den rho e w -> forall c G (Q : _ -> Prop), Q (value w, G) -> NE c rho e G Q.
    Proof.
      intros rho HC e w D. induction D; intros c G Q HQ.
      - now apply ne_const.
      - eapply ne_local; eauto.
      - now apply ne_quote.
      - eapply (ne_prim c rho "cons" PCons [a; b] [value u; value v] [u; v] (VCons u v, G)); try reflexivity; [now apply HC| |exact HQ].
        cbn [ev_args]. destruct (IHD1 c G (fun r => r = (value u, G)) eq_refl) as (? & m1 & -> & E1).
        destruct (IHD2 c G (fun r => r = (value v, G)) eq_refl) as (? & m2 & -> & E2).
        exists ([value u; value v], G), (max m1 m2). split; [reflexivity|]. intros m Hm. now rewrite E1, E2 by lia.
      - eapply (ne_prim c rho "car" PCar [a] [value (VCons u v)] [VCons u v] (u, G)); try reflexivity; [now apply HC| |exact HQ].
        cbn [ev_args]. destruct (IHD c G (fun r => r = (value (VCons u v), G)) eq_refl) as (? & m1 & -> & E1).
        exists ([value (VCons u v)], G), m1. split; [reflexivity|]. intros m Hm. now rewrite E1 by lia.
      - eapply (ne_prim c rho "cdr" PCdr [a] [value (VCons u v)] [VCons u v] (v, G)); try reflexivity; [now apply HC| |exact HQ].
        cbn [ev_args]. destruct (IHD c G (fun r => r = (value (VCons u v), G)) eq_refl) as (? & m1 & -> & E1).
        exists ([value (VCons u v)], G), m1. split; [reflexivity|]. intros m Hm. now rewrite E1 by lia.
    Qed.
    Lemma ne_iscons : forall rho, clean rho -> forall e w, den rho e w -> forall c G (Q : _ -> Prop),
      Q (value (of_bool match w with VCons _ _ => true | _ => false end), G) -> NE c rho (L [Y "cons?"; e]) G Q.
    Proof.
      intros rho HC e w D c G Q HQ.
      eapply (ne_prim c rho "cons?" PIsCons [e] [value w] [w] (_, G)); try reflexivity; [now apply HC| |exact HQ].
      cbn [ev_args]. destruct (den_ne rho HC e w D c G (fun r => r = (value w, G)) eq_refl) as (? & m1 & -> & E1).
      exists ([value w], G), m1. split; [reflexivity|]. intros m Hm. now rewrite E1 by lia.
    Qed.
    Lemma ne_eq : forall rho, clean rho -> forall s q e w b, den rho q (quoted s) -> den rho e w -> veq (quoted s) w = Some b ->
      forall c G (Q : _ -> Prop), Q (value (of_bool b), G) -> NE c rho (L [Y "="; q; e]) G Q.
    Proof.
      intros rho HC s q e w b D1 D HV c G Q HQ.
      eapply (ne_prim c rho "=" PEq [q; e] [value (quoted s); value w] [quoted s; w] (of_bool b, G)); try reflexivity; [now apply HC| |cbn; now rewrite HV|exact HQ].
      cbn [ev_args]. destruct (den_ne rho HC e w D c G (fun r => r = (value w, G)) eq_refl) as (? & m1 & -> & E1).
      destruct (den_ne rho HC q _ D1 c G (fun r => r = (value (quoted s), G)) eq_refl) as (? & m2 & -> & E2).
      exists ([value (quoted s); value w], G), (max m1 m2). split; [reflexivity|]. intros m Hm. now rewrite E2, E1 by lia.
    Qed.
    Lemma den_headed : forall rho e w, den rho e w -> headed "cons" e = true -> exists a b u v, e = L [Y "cons"; a; b] /\ w = VCons u v /\ den rho a u /\ den rho b v.
    Proof.
      intros rho e w D H. destruct D; try discriminate.
      - destruct s; discriminate.
      - do 4 eexists. split; [reflexivity|]. auto.
    Qed.

    (** a pattern *)
    Lemma m1_match : forall p e w rho body k c G (Q : _ -> Prop), ok_cpat p = true -> clean rho -> den rho e w -> (forall s, In s (cvars p) -> ~ V (NS s)) ->
      match cmatch p w with
      | Some bs => NE c (bs ++ rho) body G Q
      | None => forall bs, (forall x, V x -> lookup x bs = None) -> (forall j, lookup (NG j) bs = None) -> NE c (bs ++ rho) (L [SSym (NG k)]) G Q
      end -> NE c rho (m1 p e body (NG k)) G Q.
    Proof.
      assert (BIN : forall s, binder s = true \/ binder s = false) by (intro s; destruct (binder s); auto).
      induction p as [x|s|s|p IHp q IHq]; intros e w rho body k c G Q HO HC HD HV H.
      - cbn [cmatch m1] in *. eapply ne_let; [apply (den_ne rho HC e w HD c G (fun r => r = (value w, G)) eq_refl)|].
        intros o G1 E. injection E as -> ->. exact H.
      - cbn [cmatch m1] in *. destruct (sexp_eqb s e) eqn:ES.
        + apply sexp_eqb_eq in ES. subst e. assert (w = quoted s) as ->.
          { cbn in HO. inversion HD; subst; try reflexivity; discriminate. }
          rewrite veq_refl in H by exact HO. exact H.
        + destruct (veq_data s w) as (b & EB). rewrite EB in H.
          eapply ne_if; [eapply (ne_eq rho HC s s e w b); [now constructor|exact HD|exact EB|instantiate (1 := fun r => r = (value (of_bool b), G)); reflexivity]|].
          intros o G1 E. injection E as -> ->. cbn [a_val value]. destruct b; cbn [of_bool]; [exact H|]. apply (H []); reflexivity.
      - cbn [cmatch m1] in *. destruct (veq_data s w) as (b & EB). rewrite EB in H.
        eapply ne_if; [eapply (ne_eq rho HC s _ e w b); [apply d_quote|exact HD|exact EB|instantiate (1 := fun r => r = (value (of_bool b), G)); reflexivity]|].
        intros o G1 E. injection E as -> ->. cbn [a_val value]. destruct b; cbn [of_bool]; [exact H|]. apply (H []); reflexivity.
      - cbn in HO. apply andb_prop in HO as (Op & Oq). cbn [cvars] in HV.
        assert (MAIN : forall e1 e2 u v, w = VCons u v -> den rho e1 u -> den rho e2 v -> NE c rho (m1 p e1 (m1 q e2 body (NG k)) (NG k)) G Q).
        { intros e1 e2 u v -> D1 D2. cbn [cmatch] in H. eapply IHp; [exact Op|exact HC|exact D1|intros; apply HV, in_or_app; auto|].
          destruct (cmatch p u) as [b1|] eqn:E1; [|exact H].
          assert (B1 : forall x, V x -> lookup x b1 = None).
          { intros [s|j] Hx; [|eapply cmatch_gen; eauto]. destruct (lookup (NS s) b1) eqn:EL; [|reflexivity]. exfalso. apply lookup_in in EL.
            apply (cmatch_dom _ _ _ s E1) in EL. apply (HV s); [apply in_or_app; auto|exact Hx]. }
          eapply IHq; [exact Oq| | |intros; apply HV, in_or_app; auto|].
          - intros s Hs. rewrite lookup_app, (HC s Hs). destruct (lookup (NS s) b1) eqn:EL; [|reflexivity]. exfalso. apply lookup_in in EL.
            apply (cmatch_dom _ _ _ s E1) in EL. clear - EL Op Hs. revert EL. induction p as [x| | |p1 IH1 p2 IH2]; cbn in *; try tauto.
            + intros [->|[]]. congruence.
            + apply andb_prop in Op as (O1 & O2). rewrite in_app_iff. intros [|]; auto.
          - eapply den_agree; [|exact D2]. intros x Hx. now rewrite lookup_app, B1.
          - destruct (cmatch q v) as [b2|]; [rewrite app_assoc; exact H|].
            intros bs H1 H2. rewrite app_assoc. apply H.
            + intros x Hx. now rewrite lookup_app, H1, B1.
            + intro j. rewrite lookup_app, H2. eapply cmatch_gen; eauto. }
        destruct (headed "cons" e) eqn:EH.
        + destruct (den_headed _ _ _ HD EH) as (a & b & u & v & -> & E & D1 & D2). rewrite m1_cons. eapply MAIN; eauto.
        + rewrite m1_other by exact EH.
          eapply ne_if; [eapply (ne_iscons rho HC e w HD); instantiate (1 := fun r => r = (value (of_bool match w with VCons _ _ => true | _ => false end), G)); reflexivity|].
          intros o G1 E. injection E as -> ->. cbn [a_val value].
          destruct w; cbn [of_bool]; try (apply (H []); reflexivity).
          eapply MAIN; [reflexivity|eapply d_car; exact HD|eapply d_cdr; exact HD].
    Qed.
  End Den.

  Lemma ne_prim2 : forall (P P2 Q : _ -> Prop) c rho s p a b G, lookup (NS s) rho = None -> prim_of (NS s) = Some p -> operator s = true -> prim_arity p = 2 ->
    NE c rho a G P ->
    (forall o G1, P (o, G1) -> NE c rho b G1 P2 /\ forall o2 G2, P2 (o2, G2) -> exists v1 v2 r,
       use strict o G2 = Some v1 /\ use strict o2 G2 = Some v2 /\ prim_sem ar p [v1; v2] G2 = Some r /\ Q (value (fst r), snd r)) ->
    NE c rho (L [Y s; a; b]) G Q.
  Proof.
    intros P P2 Q c rho s p a b G HL HP HO HA ((o, G1) & m1 & H1 & E1) K. destruct (K _ _ H1) as (((o2, G2) & m2 & H2 & E2) & K2).
    destruct (K2 _ _ H2) as (v1 & v2 & r & U1 & U2 & HR & HQ).
    eapply (ne_prim c rho s p [a; b] [o; o2] [v1; v2] r G G2); auto; [|cbn; now rewrite U1, U2].
    exists ([o; o2], G2), (max m1 m2). split; [reflexivity|]. intros m Hm. cbn [ev_args]. now rewrite E1, E2 by lia.
  Qed.

  (** * Shapes of expansions *)
  Ltac exs := repeat match goal with |- context [match ?t with (_, _) => _ end] => destruct t end.
  Lemma ex_shp : forall env x n, ok env x = true -> shp x (fst (ex x n)).
  Proof.
    intros env x n H.
    destruct x as [s|s|x|ps b|a b c|a b|f l|bs b|cs|l|l|l|l|l t|t|v cs|x e|f ps b|f cs|p imports b]; cbn [ex]; try (exs; exact I); try reflexivity.
    - pose proof (gens_length (fun (q : string * src) n => let (e, m) := ex (snd q) n in ((fst q, e), m)) bs n) as LL.
      destruct (gens _ bs n) as (l, n1). destruct (ex b n1) as (b1, n2). destruct bs; [discriminate|]. destruct l; [discriminate|exact I].
    - destruct (gens _ cs n) as (l, n1). destruct l; exact I.
    - destruct (gens _ l n) as (l1, n1). destruct l1; exact I.
    - destruct (gens _ l n) as (l1, n1). destruct l1; exact I.
    - pose proof (gens_length ex l n) as LL. destruct (gens _ l n) as (l1, n1). destruct l as [|? [|? ?]]; try discriminate.
      destruct l1 as [|? [|? ?]]; try discriminate; exact I.
    - destruct (gens _ l n) as (l1, n1). destruct l1; exact I.
    - pose proof (gens_length ex l n) as LL. destruct (gens _ l n) as (l1, n1). destruct (ex t n1). destruct l; [discriminate|]. destruct l1; [discriminate|exact I].
    - cbn [ok] in H. apply andb_prop in H as (H1 & H2). destruct t as [s| | |l]; try discriminate; cbn [ext]; [destruct s; try discriminate; exact I|exact I|].
      destruct (gens _ l n) as (l1, n1). destruct l1; exact I.
    - destruct (ex v n) as (v1, n1). destruct (computed v); [exs; exact I|].
      destruct (rules_cons desugar ex v1 cs n1 (n1 + List.length cs)) as (h & t & E & _). unfold shp. rewrite E. exact I.
  Qed.
  Lemma import_ex : forall env x n, ok env x = true -> import_of (fst (ex x n)) = import_call x.
  Proof.
    intros env x n H.
    destruct x as [s|s|x|ps b|a b c|a b|f l|bs b|cs|l|l|l|l|l t|t|v cs|x e|f ps b|f cs|p imports b]; cbn [ex]; try (exs; apply import_long); try reflexivity.
    - cbn in *. destruct s; try discriminate; reflexivity.
    - cbn. destruct s; reflexivity.
    - cbn [ok] in H. apply andb_prop in H as (H & Oa). apply andb_prop in H as (OH & Of). pose proof (ex_shp _ _ n Of) as SF. destruct (ex f n) as (f1, n1).
      pose proof (gens_length ex l n1) as LL.
      destruct l as [|a l]; [|destruct l as [|a2 l]].
      + destruct (gens ex [] n1) as (l1, n2). destruct l1; [|discriminate]. cbn. destruct f; reflexivity.
      + cbn [gens] in *. cbn in Oa. apply andb_prop in Oa as (Oa & _). pose proof (ex_shp _ _ n1 Oa) as SA. destruct (ex a n1) as (a1, n2). cbn [fst] in *.
        assert (X : import_of (L [f1; a1]) = match a with XLit (SStr p) => if is_sym "import" f1 then Some p else None | _ => None end).
        { unfold import_of. cbn [slist of_list]. destruct a; cbn in SA, Oa; subst; try reflexivity; destruct a1; try contradiction; reflexivity. }
        assert (X2 : is_sym "import" f1 = match f with XVar i => String.eqb i "import" | _ => false end).
        { clear X. destruct f; cbn in SF, Of; subst; try reflexivity; try (destruct f1; try contradiction; reflexivity). destruct s; try discriminate; reflexivity. }
        rewrite X, X2. unfold import_call. destruct f; try reflexivity; destruct a; try reflexivity; destruct s; try reflexivity; destruct s0; reflexivity.
      + destruct (gens ex (a :: a2 :: l) n1) as (l1, n2). cbn in LL. destruct l1 as [|? [|? ?]]; try discriminate. cbn [fst]. rewrite import_long.
        symmetry. cbn [import_call]. destruct f; try reflexivity. destruct a as [t| | | | | | | | | | | | | | | | | | |]; try reflexivity. destruct t; reflexivity.
    - pose proof (gens_length (fun (q : string * src) n => let (e, m) := ex (snd q) n in ((fst q, e), m)) bs n) as LL.
      destruct (gens _ bs n) as (l, n1). destruct (ex b n1) as (b1, n2). destruct bs; [discriminate|]. destruct l; [discriminate|]. apply import_long.
    - destruct (gens _ cs n) as (l, n1). destruct l; [reflexivity|apply import_long].
    - destruct (gens _ l n) as (l1, n1). destruct l1; [reflexivity|apply import_long].
    - destruct (gens _ l n) as (l1, n1). destruct l1; [reflexivity|apply import_long].
    - pose proof (gens_length ex l n) as LL. destruct (gens _ l n) as (l1, n1). destruct l as [|? [|? ?]]; try discriminate.
      destruct l1 as [|? [|? ?]]; try discriminate. apply import_long.
    - destruct (gens _ l n) as (l1, n1). destruct l1; [reflexivity|apply import_long].
    - pose proof (gens_length ex l n) as LL. destruct (gens _ l n) as (l1, n1). destruct (ex t n1). destruct l; [discriminate|]. destruct l1; [discriminate|apply import_long].
    - cbn [ok] in H. apply andb_prop in H as (H1 & H2). destruct t as [s|y| |l]; try discriminate; cbn [ext]; [destruct s; discriminate || reflexivity|reflexivity|].
      destruct (gens _ l n) as (l1, n1). destruct l1; [reflexivity|apply import_long].
    - destruct (ex v n) as (v1, n1). destruct (computed v); [exs; apply import_long|]. cbn [import_call].
      destruct cs; cbn [gen_rules]; [reflexivity|]. exs. apply import_long.
  Qed.

  (** * Related values *)
  Definition same_scope (env1 env2 : list name) : Prop :=
    (forall s, In (NS s) env1 <-> In (NS s) env2) /\ forall s, In (NS s) env1 -> binder s = true.
  Definition rule_env {P} (ds : P -> cpat) (env : list string) (q : P * option src * src) : Prop :=
    ok_cpat (ds (fst (fst q))) = true /\
    match snd (fst q) with Some g => ok (cvars (ds (fst (fst q))) ++ env) g = true | None => True end /\
    ok (cvars (ds (fst (fst q))) ++ env) (snd q) = true.
  Definition lists (ps : list pat) : cpat := desugar (QList ps).
  Inductive crelX : xcode -> ncode -> Prop :=
  | cx_exp ps b k senv env1 env2 c : ok (ps ++ senv) b = true -> forallb binder ps = true -> same_scope env1 env2 -> (forall s, In s senv -> In (NS s) env1) ->
      crelX (mkXC (BExp ps b) env1 c) (mkNC (map NS ps) (fst (ex b k)) env2 c)
  | cx_rules kk cs j n senv env1 env2 c : Forall (rule_env lists senv) cs -> same_scope env1 env2 -> (forall s, In s senv -> In (NS s) env1) ->
      crelX (mkXC (BRules kk cs) env1 c)
            (mkNC (map NG (seq j kk)) (fst (gen_rules lists ex (conses (map SSym (map NG (seq j kk))) SNil) cs (j + kk) n)) env2 c).
  Definition selX (c1 : xcode) (c2 : ncode) (k i j : nat) : Prop :=
    exists s, index (NS s) (xc_env c1) = Some i /\ index (NS s) (nc_env c2) = Some j.
  Lemma crelX_arity : forall c1 c2, crelX c1 c2 -> x_arity c1 = n_arity c2.
  Proof. intros c1 c2 H. destruct H; unfold x_arity, n_arity; cbn; rewrite ?map_length, ?seq_length; reflexivity. Qed.
  Notation vrelX := (vrel crelX selX x_arity).
  Notation grelX := (grel crelX selX x_arity).
  Notation orelX := (orel crelX selX x_arity).
  Notation ropX := (rop crelX selX x_arity).
  Notation rresX := (rres crelX selX x_arity).

  Definition envX (rho : xenv) (rho2 : nenv) : Prop := forall s,
    match lookup (NS s) rho, lookup (NS s) rho2 with Some v, Some w => vrelX v w | None, None => True | _, _ => False end.
  Definition scope {A} (env : list string) (rho : list (name * A)) : Prop := forall s, In s env -> exists v, lookup (NS s) rho = Some v.
  Lemma envX_clean : forall rho rho2, envX rho rho2 -> clean rho -> clean rho2.
  Proof. intros rho rho2 H C s B. specialize (H s). rewrite (C s B) in H. destruct (lookup (NS s) rho2); [contradiction|reflexivity]. Qed.
  Lemma envX_app : forall a a2 b b2, envX a a2 -> envX b b2 -> envX (a ++ b) (a2 ++ b2).
  Proof.
    intros a a2 b b2 H1 H2 s. rewrite !lookup_app. specialize (H1 s). specialize (H2 s).
    destruct (lookup (NS s) a), (lookup (NS s) a2); try contradiction; auto.
  Qed.
  Lemma envX_hidden : forall rho rho2 k w, envX rho rho2 -> envX rho ((NG k, w) :: rho2).
  Proof. intros rho rho2 k w H s. apply H. Qed.
  Definition brel (p : name * xval) (q : name * nval) : Prop := fst p = fst q /\ vrelX (snd p) (snd q).
  Lemma envX_binds : forall b1 b2, Forall2 brel b1 b2 -> envX b1 b2.
  Proof.
    intros b1 b2 H s. induction H as [|(x, v) (y, w) l1 l2 (H1 & H2) _ IH]; cbn [lookup fst snd] in *; [exact I|]. subst y. destruct (name_eqb (NS s) x); auto.
  Qed.
  Lemma envX_cons : forall s v w rho rho2, vrelX v w -> envX rho rho2 -> envX ((NS s, v) :: rho) ((NS s, w) :: rho2).
  Proof. intros s v w rho rho2 H1 H2. apply (envX_app [_] [_]); [|exact H2]. apply envX_binds. constructor; [split; auto|constructor]. Qed.
  Lemma combine_binds : forall ps l1 l2, Forall2 vrelX l1 l2 -> Forall2 brel (combine ps l1) (combine ps l2).
  Proof. intros ps l1 l2 H. revert ps. induction H; intros [|p ps]; cbn; constructor; [split; auto|auto]. Qed.
  Lemma clean_app : forall {A} (a b : list (name * A)), clean a -> clean b -> clean (a ++ b).
  Proof. intros A a b H1 H2 s B. now rewrite lookup_app, (H1 s B), (H2 s B). Qed.
  Lemma clean_keys : forall {A} (rho : list (name * A)), (forall s, In (NS s) (map fst rho) -> binder s = true) -> clean rho.
  Proof. intros A rho H s B. destruct (lookup (NS s) rho) eqn:E; [|reflexivity]. apply lookup_in in E. apply H in E. congruence. Qed.
  Lemma scope_app : forall {A} e1 e2 (a b : list (name * A)), scope e1 a -> scope e2 b -> scope (e1 ++ e2) (a ++ b).
  Proof.
    intros A e1 e2 a b H1 H2 s H. rewrite lookup_app. apply in_app_iff in H as [H|H]; [destruct (H1 s H) as (v & ->); eauto|].
    destruct (lookup (NS s) a); eauto.
  Qed.
  Lemma scope_combine : forall {A} ps (l : list A), List.length l = List.length ps -> scope ps (combine (map NS ps) l).
  Proof.
    intros A ps l H s HS. apply in_lookup. clear - H HS. revert l H. induction ps as [|p ps IH]; intros [|a l] H; cbn in *; try contradiction; try discriminate.
    destruct HS as [<-|HS]; [now left|]. right. apply IH; auto.
  Qed.
  Lemma clean_combine : forall {A} ps (l : list A), forallb binder ps = true -> clean (combine (map NS ps) l).
  Proof.
    intros A ps l H. apply clean_keys. intros s HS. revert l HS. induction ps as [|p ps IH]; intros [|a l] HS; cbn in *; try contradiction.
    apply andb_prop in H as (H1 & H2). destruct HS as [E|HS]; [congruence|eauto].
  Qed.
  Lemma index_lookup : forall {A} x (rho : list (name * A)) i, index x (map fst rho) = Some i -> nth_error (map snd rho) i = lookup x rho.
  Proof. intros A x rho i H. rewrite <- (combine_fst_snd rho) at 2. rewrite lookup_combine, H. reflexivity. Qed.
  Lemma envX_scope : forall rho rho2, envX rho rho2 -> clean rho -> same_scope (map fst rho) (map fst rho2).
  Proof.
    intros rho rho2 H C. split.
    - intro s. specialize (H s). split; intro HI; apply in_lookup in HI as (v & E); rewrite E in H.
      + destruct (lookup (NS s) rho2) eqn:E2; [|contradiction]. eapply lookup_in; eauto.
      + destruct (lookup (NS s) rho) eqn:E2; [|contradiction]. eapply lookup_in; eauto.
    - intros s HI. apply in_lookup in HI as (v & E). destruct (binder s) eqn:B; [reflexivity|]. rewrite (C s B) in E. discriminate.
  Qed.
  Lemma scope_keys : forall {A} env (rho : list (name * A)), scope env rho -> forall s, In s env -> In (NS s) (map fst rho).
  Proof. intros A env rho H s HS. destruct (H s HS) as (v & E). eapply lookup_in; eauto. Qed.
  Lemma clo_rel : forall rho rho2 c1 c2, envX rho rho2 -> crelX c1 c2 -> xc_env c1 = map fst rho -> nc_env c2 = map fst rho2 ->
    vrelX (VClo c1 (map snd rho)) (VClo c2 (map snd rho2)).
  Proof.
    intros rho rho2 c1 c2 H HC E1 E2. constructor; [exact HC|]. intros i j (s & I1 & I2). rewrite E1 in I1. rewrite E2 in I2.
    rewrite (index_lookup _ _ _ I1), (index_lookup _ _ _ I2). specialize (H s).
    apply index_some in I1. apply nth_error_In in I1. apply in_lookup in I1 as (v & EV). rewrite EV in *.
    destruct (lookup (NS s) rho2) as [w|]; [|contradiction]. eauto.
  Qed.
  Lemma rel_clo : forall c1 c2 vs1 vs2 env1 env2, vrelX (VClo c1 vs1) (VClo c2 vs2) -> xc_env c1 = env1 -> nc_env c2 = env2 -> same_scope env1 env2 ->
    envX (combine env1 vs1) (combine env2 vs2) /\ clean (combine env1 vs1) /\ (forall s, In (NS s) env1 -> exists v, lookup (NS s) (combine env1 vs1) = Some v).
  Proof.
    intros c1 c2 vs1 vs2 env1 env2 H E1 E2 (S1 & S2). inversion H as [| | | | | | |? ? ? ? HC HS| |]; subst.
    assert (X : forall s, In (NS s) (xc_env c1) -> exists v w, lookup (NS s) (combine (xc_env c1) vs1) = Some v /\ lookup (NS s) (combine (nc_env c2) vs2) = Some w /\ vrelX v w).
    { intros s HI. pose proof (proj1 (S1 s) HI) as HI2. apply index_in in HI as (i & I1). apply index_in in HI2 as (j & I2).
      destruct (HS i j) as (v & w & N1 & N2 & R); [exists s; auto|]. exists v, w. now rewrite !lookup_combine, I1, I2. }
    split; [|split].
    - intro s. destruct (lookup (NS s) (combine (xc_env c1) vs1)) as [v|] eqn:EL.
      + assert (HI : In (NS s) (xc_env c1)). { rewrite lookup_combine in EL. destruct (index (NS s) (xc_env c1)) eqn:EI; [|discriminate]. apply index_in. eauto. }
        destruct (X s HI) as (v' & w & L1 & L2 & R). rewrite L2. congruence.
      + destruct (lookup (NS s) (combine (nc_env c2) vs2)) as [w|] eqn:EL2; [|exact I].
        assert (HI : In (NS s) (nc_env c2)). { rewrite lookup_combine in EL2. destruct (index (NS s) (nc_env c2)) eqn:EI; [|discriminate]. apply index_in. eauto. }
        apply S1 in HI. destruct (X s HI) as (v' & w' & L1 & L2 & R). congruence.
    - intros s B. rewrite lookup_combine. destruct (index (NS s) (xc_env c1)) as [i|] eqn:EI; [|reflexivity].
      assert (HI : In (NS s) (xc_env c1)) by (apply index_in; eauto). apply S2 in HI. congruence.
    - intros s HI. destruct (X s HI) as (v & w & L1 & _). eauto.
  Qed.
  Lemma cmatch_rel : forall p w w2, vrelX w w2 ->
    match cmatch p w, cmatch p w2 with
    | Some b1, Some b2 => Forall2 brel b1 b2
    | None, None => True
    | _, _ => False
    end.
  Proof.
    induction p as [x|s|s|p IHp q IHq]; intros w w2 H; cbn.
    - constructor; [split; auto|constructor].
    - rewrite (veq_rel _ _ _ _ _ (quoted_rel crelX selX x_arity s) _ _ H). destruct (veq _ w2) as [[]|]; auto.
    - rewrite (veq_rel _ _ _ _ _ (quoted_rel crelX selX x_arity s) _ _ H). destruct (veq _ w2) as [[]|]; auto.
    - destruct H; try exact I. specialize (IHp _ _ H). specialize (IHq _ _ H0).
      destruct (cmatch p a1), (cmatch p a2); try contradiction; [|exact I].
      destruct (cmatch q d1), (cmatch q d2); try contradiction; [|exact I]. now apply Forall2_app.
  Qed.
  Lemma cvars_binder : forall p, ok_cpat p = true -> forall s, In s (cvars p) -> binder s = true.
  Proof.
    induction p as [x|t1|t2|p IHp q IHq]; intros H s HS; cbn in *; try contradiction.
    - destruct HS as [->|[]]. exact H.
    - apply andb_prop in H as (H1 & H2). apply in_app_iff in HS as [HS|HS]; auto.
  Qed.

  (** * One more step *)
  Definition SIM (n : nat) : Prop := forall c rho rho2 env x k G G2 r, xev n c rho x G = Some r -> ok env x = true ->
    envX rho rho2 -> clean rho -> scope env rho -> grelX G G2 -> NE c rho2 (fst (ex x k)) G2 (ropX r).

  Section Step.
    Variable n : nat.
    Hypothesis IH : SIM n.
    Notation xr := (xev n).

    (** its value *)
    Lemma sim_value : forall (Q : _ -> Prop) c rho rho2 env x k G G2 v G', result (xr c rho x G) = Some (v, G') -> ok env x = true ->
      envX rho rho2 -> clean rho -> scope env rho -> grelX G G2 ->
      (forall o G2', vrelX v (a_val o) -> grelX G' G2' -> Q (o, G2')) -> NE c rho2 (fst (ex x k)) G2 Q.
    Proof.
      intros Q c rho rho2 env x k G G2 v G' E HO HE HC HS HG HQ. destruct (xr c rho x G) as [(o, G1)|] eqn:EX; [|discriminate]. injection E as <- <-.
      eapply ne_weaken; [|eapply (IH c rho rho2 env x k); eauto]. intros (o2, G3) ((HV & _) & HG3). now apply HQ.
    Qed.

    (** clauses *)
    Lemma rules_sim : forall {P} (ds : P -> cpat) (mm : P -> option xenv) (V : name -> Prop) val w w2 c rho rho2 env,
      envX rho rho2 -> clean rho -> scope env rho -> vrelX w w2 -> den V rho2 val w2 ->
      forall cs i k G G2 r, (forall j, i <= j -> ~ V (NG j)) ->
      Forall (fun q => rule_env ds env q /\ mm (fst (fst q)) = cmatch (ds (fst (fst q))) w /\ forall s, In s (cvars (ds (fst (fst q)))) -> ~ V (NS s)) cs ->
      grelX G G2 -> ev_rules xr mm c rho cs G = Some r -> NE c rho2 (fst (gen_rules ds ex val cs i k)) G2 (ropX r).
    Proof.
      intros P ds mm V val w w2 c rho rho2 env HE HC HS HW HD cs. induction cs as [|((p, g), b) cs IHc]; intros i k G G2 r HV F HG E; [discriminate|].
      inversion F as [|? ? ((OP & OG & OB) & HM & HN) F']; subst. cbn [fst snd] in *. cbn [ev_rules] in E. cbn [gen_rules fst snd].
      assert (REST : forall G' G2' r, grelX G' G2' -> ev_rules xr mm c rho cs G' = Some r -> NE c rho2 (fst (gen_rules ds ex val cs (S i) k)) G2' (ropX r)).
      { intros. eapply IHc; eauto. intros j Hj. apply HV. lia. }
      destruct (gen_rules ds ex val cs (S i) k) as (rest, n1). cbn [fst] in REST.
      set (clo := VClo (mkNC [] rest (map fst rho2) c) (map snd rho2)).
      assert (CC : forall bs G' G2' r, (forall j, lookup (NG j) bs = None) -> grelX G' G2' -> ev_rules xr mm c rho cs G' = Some r ->
        NE c (bs ++ (NG i, clo) :: rho2) (L [SSym (NG i)]) G2' (ropX r)).
      { intros bs G' G2' r' HB HG' E'. eapply (ne_thunk (ropX r')); [rewrite lookup_app, HB; cbn [lookup name_eqb]; rewrite Nat.eqb_refl; reflexivity|now apply (REST G')|].
        intros o G3 ((HV' & _) & HG3). split; [split; [exact HV'|now left]|exact HG3]. }
      assert (ENV : forall bs bs2, Forall2 brel bs bs2 -> envX (bs ++ rho) (bs2 ++ (NG i, clo) :: rho2)).
      { intros bs bs2 HB. apply envX_app; [now apply envX_binds|now apply envX_hidden]. }
      destruct (gen_action ex g b (NG i) n1) as (act, n2) eqn:EA. cbn [fst].
      eapply ne_let; [apply (ne_lam c rho2 [] rest G2 (fun r => r = (value clo, G2))); reflexivity|].
      intros o G1 EO. injection EO as -> ->. cbn [a_val value].
      eapply (m1_match V _ _ w2); [exact OP| | |exact HN|].
      { intros s B. cbn [lookup name_eqb]. now apply (envX_clean _ _ HE HC). }
      { eapply den_agree; [|exact HD]. intros [s|j] Hx; [reflexivity|]. cbn [lookup name_eqb]. destruct (Nat.eqb_spec j i) as [->|N]; [|reflexivity].
        exfalso. apply (HV i); [lia|exact Hx]. }
      pose proof (cmatch_rel (ds p) w w2 HW) as CM. rewrite HM in E. pose proof (cmatch_dom (ds p) w) as DOM.
      destruct (cmatch (ds p) w) as [bs|], (cmatch (ds p) w2) as [bs2|] eqn:EM2; try contradiction.
      - specialize (ENV _ _ CM). specialize (DOM bs).
        assert (CL : clean (bs ++ rho)).
        { apply clean_app; [|exact HC]. apply clean_keys. intros s Hs. apply (DOM s eq_refl) in Hs. eapply cvars_binder; eauto. }
        assert (SC : scope (cvars (ds p) ++ env) (bs ++ rho)).
        { apply scope_app; [|exact HS]. intros s Hs. apply in_lookup. now apply (DOM s eq_refl). }
        destruct g as [g|]; cbn [gen_action] in EA.
        + destruct (result (xr c (bs ++ rho) g G)) as [(v, G1)|] eqn:EG; [|discriminate].
          pose proof (fun Q K => sim_value Q c (bs ++ rho) (bs2 ++ (NG i, clo) :: rho2) (cvars (ds p) ++ env) g n1 G G2 v G1 EG OG ENV CL SC HG K) as GV.
          destruct (ex g n1) as (g1, n3). pose proof (fun G G2 r E HG => IH c (bs ++ rho) (bs2 ++ (NG i, clo) :: rho2) (cvars (ds p) ++ env) b n3 G G2 r E OB ENV CL SC HG) as BV.
          destruct (ex b n3) as (b1, n4). injection EA as <- <-. cbn [fst] in *.
          eapply (ne_if (fun r => vrelX v (a_val (fst r)) /\ grelX G1 (snd r))); [apply GV; auto|].
          assert (GB : forall j, lookup (NG j) bs2 = None) by (intro j; eapply cmatch_gen; exact EM2).
          intros o G3 (HV3 & HG3). cbn [fst snd] in HV3, HG3.
          destruct HV3; try (now apply (CC bs2 G1)). now apply (BV G1).
        + pose proof (IH c (bs ++ rho) (bs2 ++ (NG i, clo) :: rho2) (cvars (ds p) ++ env) b n1 G G2 r E OB ENV CL SC HG) as BV. rewrite EA in BV. exact BV.
      - intros bs _ HB. now apply (CC bs G).
    Qed.

    (** calls *)
    Definition xrun (c : xcode) (vs args : list xval) (G : store xcode) : option (xval * store xcode) :=
      match xc_body c with
      | BExp ps b => result (xr (xc_ctx c) (combine (map NS ps) args ++ combine (xc_env c) vs) b G)
      | BRules _ cs => result (ev_rules xr (fun ps => pmatch_all ps args) (xc_ctx c) (combine (xc_env c) vs) cs G)
      end.
    Lemma den_args : forall (V : name -> Prop) rho l ws, Forall2 (fun x w => V x /\ lookup x rho = Some w) l ws ->
      den V rho (conses (map SSym l) SNil) (fold_right VCons VNil ws).
    Proof.
      intros V rho l ws F. induction F as [|x w l ws (H1 & H2) F IHF]; [now apply (d_atom V rho SNil)|]. apply d_cons; [now constructor|exact IHF].
    Qed.
    Lemma args_lookup : forall kk j (ws : list nval) rho, List.length ws = kk ->
      Forall2 (fun x w => In x (map NG (seq j kk)) /\ lookup x (combine (map NG (seq j kk)) ws ++ rho) = Some w) (map NG (seq j kk)) ws.
    Proof.
      intros kk j ws rho HL.
      assert (X : forall l (ws : list nval), NoDup l -> List.length ws = List.length l -> forall rho, Forall2 (fun x w => lookup x (combine l ws ++ rho) = Some w) l ws).
      { clear. intros l ws ND. revert ws. induction ND as [|x l NI ND IHn]; intros [|w ws] HL rho; cbn in *; try discriminate; constructor.
        - now rewrite name_eqb_refl.
        - specialize (IHn ws ltac:(lia) rho). clear HL. revert NI IHn. generalize (combine l ws ++ rho). intros g NI F.
          induction F as [|y v l' ws' H F IHF]; constructor.
          + cbn in NI. destruct (name_eqb_spec y x) as [->|N]; [tauto|exact H].
          + apply IHF; [|cbn in NI; tauto]. now inversion ND. }
      assert (ND : NoDup (map NG (seq j kk))).
      { apply Injective_map_NoDup; [intros a b E; congruence|apply seq_NoDup]. }
      specialize (X (map NG (seq j kk)) ws ND ltac:(rewrite map_length, seq_length; exact HL) rho).
      assert (Y2 : forall (l l0 : list name) (ws : list nval) (f : name -> nval -> Prop), incl l l0 -> Forall2 f l ws -> Forall2 (fun x w => In x l0 /\ f x w) l ws).
      { clear. intros l l0 ws f HI F. induction F; constructor; [split; [apply HI; now left|assumption]|]. apply IHF. intros z Hz. apply HI. now right. }
      apply (Y2 _ _ _ (fun x w => lookup x (combine (map NG (seq j kk)) ws ++ rho) = Some w)); [apply incl_refl|exact X].
    Qed.
    Lemma run_sim : forall c1 c2 vs1 vs2 l1 l2 G1 G2 r, vrelX (VClo c1 vs1) (VClo c2 vs2) -> Forall2 vrelX l1 l2 -> List.length l1 = x_arity c1 -> grelX G1 G2 ->
      xrun c1 vs1 l1 G1 = Some r -> evt (fun m => nrun m c2 vs2 l2 G2) (rresX r).
    Proof.
      intros c1 c2 vs1 vs2 l1 l2 G1 G2 (v, G') HF HL HN HG E. pose proof HF as HF'. inversion HF as [| | | | | | |? ? ? ? HC _| |]; subst. unfold nrun.
      destruct HC as [ps b k senv env1 env2 c OB OP SS SE|kk cs j m senv env1 env2 c F SS SE]; cbn [xc_body xc_env xc_ctx nc_ctx nc_ps nc_env nc_body x_arity] in *;
        destruct (rel_clo _ _ _ _ env1 env2 HF' eq_refl eq_refl SS) as (R1 & R2 & R3); unfold xrun in E; cbn [xc_body xc_env xc_ctx] in E.
      - eapply (result_rel crelX selX x_arity (xr c (combine (map NS ps) l1 ++ combine env1 vs1) b G1)); [|exact E].
        intros r EX. eapply (IH c _ _ (ps ++ senv) b k); [exact EX|exact OB| | | |exact HG].
        + apply envX_app; [apply envX_binds, combine_binds, HL|exact R1].
        + apply clean_app; [now apply clean_combine|exact R2].
        + apply scope_app; [now apply scope_combine|]. intros s Hs. apply R3, SE, Hs.
      - eapply (result_rel crelX selX x_arity (ev_rules xr (fun ps => pmatch_all ps l1) c (combine env1 vs1) cs G1)); [|exact E].
        intros r EX. pose proof (Forall2_len _ _ _ HL) as LL. unfold x_arity in HN. cbn [xc_body] in HN.
        eapply (rules_sim lists (fun ps => pmatch_all ps l1) (fun x => In x (map NG (seq j kk))) _ (fold_right VCons VNil l1) (fold_right VCons VNil l2) c (combine env1 vs1) _ senv);
          [ |exact R2| | | | | |exact HG|exact EX].
        + apply (envX_app []); [|exact R1]. intro s. cbn [lookup]. rewrite lookup_combine.
          destruct (index (NS s) (map NG (seq j kk))) as [i|] eqn:EI; [|exact I]. assert (HI : In (NS s) (map NG (seq j kk))) by (apply index_in; eauto).
          apply in_map_iff in HI as (? & ? & _). discriminate.
        + intros s Hs. apply R3, SE, Hs.
        + clear - HL. induction HL; cbn; constructor; auto.
        + apply den_args. apply args_lookup. congruence.
        + intros i Hi HI. apply in_map_iff in HI as (a & Ea & HI). injection Ea as ->. apply in_seq in HI. lia.
        + eapply Forall_impl; [|exact F]. intros q Hq. split; [exact Hq|]. split; [apply pmatch_all_list|].
          intros s _ HI. apply in_map_iff in HI as (a & Ea & _). discriminate.
    Qed.
    Definition xcall (f : opnd xcode) (args : list (opnd xcode)) (G : store xcode) : xres :=
      match use strict f G, use_all strict args G with
      | Some f, Some args => match apply ar x_arity xrun n f args G with Some (v, G1) => Some (value v, G1) | None => None end
      | _, _ => None
      end.
    Lemma call_sim : forall f1 f2 l1 l2 G1 G2 r, orelX f1 f2 -> Forall2 orelX l1 l2 -> grelX G1 G2 -> xcall f1 l1 G1 = Some r ->
      evt (fun m => ncall m f2 l2 G2) (ropX r).
    Proof. intros. eapply (call_rel crelX selX x_arity n_arity ar crelX_arity xrun nrun run_sim); eauto. Qed.
    Lemma args_sim : forall c rho rho2 env, envX rho rho2 -> clean rho -> scope env rho -> forall l k, forallb (ok env) l = true ->
      Forall2 (fun x e => forall G G2 r, grelX G G2 -> xr c rho x G = Some r -> NE c rho2 e G2 (ropX r)) l (fst (gens ex l k)).
    Proof.
      intros c rho rho2 env HE HC HS l. induction l as [|x l IHl]; intros k HO; cbn [gens]; [constructor|]. cbn in HO. apply andb_prop in HO as (O1 & O2).
      pose proof (fun G G2 r HG E => IH c rho rho2 env x k G G2 r E O1 HE HC HS HG) as X. destruct (ex x k) as (e, k1). specialize (IHl k1 O2).
      destruct (gens ex l k1) as (es, k2). cbn [fst] in *. constructor; auto.
    Qed.

    (** let, cond, and, or, begin *)
    Lemma let_sim : forall c b bs rho rho2 env k G G2 r, ok_let env bs b = true -> envX rho rho2 -> clean rho -> scope env rho -> grelX G G2 ->
      ev_let xr c rho bs b G = Some r -> let (l, k1) := gen_binds bs k in NE c rho2 (lets l (fst (ex b k1))) G2 (ropX r).
    Proof.
      intros c b bs. induction bs as [|(x, e) bs IHb]; intros rho rho2 env k G G2 r HO HE HC HS HG E.
      - cbn in *. eapply IH; eauto.
      - cbn [ok_let] in HO. apply andb_prop in HO as (HO & O2). apply andb_prop in HO as (OB & O1). cbn [ev_let] in E.
        destruct (result (xr c rho e G)) as [(v, G1)|] eqn:EV; [|discriminate]. unfold gen_binds. cbn [gens fst snd].
        pose proof (fun Q => sim_value Q c rho rho2 env e k G G2 v G1 EV O1 HE HC HS HG) as X. destruct (ex e k) as (e1, k1). cbn [fst] in X.
        fold gen_binds. pose proof (fun rho2 G2 => IHb ((NS x, v) :: rho) rho2 (x :: env) k1 G1 G2 r O2) as Y1.
        destruct (gen_binds bs k1) as (l, k2). unfold lets. cbn [fold_right fst snd]. fold (lets l (fst (ex b k2))).
        eapply (ne_let (fun r => vrelX v (a_val (fst r)) /\ grelX G1 (snd r))); [apply X; auto|].
        intros o G3 (HV & HG3). cbn [fst snd] in *. apply Y1; auto.
        + now apply envX_cons.
        + apply (clean_app [_]); [|exact HC]. apply clean_keys. cbn. intros s [Es|[]]. congruence.
        + apply (scope_app [x] env [_]); [|exact HS]. intros s [<-|[]]. apply in_lookup. now left.
    Qed.
    Definition gen_conds := gens (fun (q : src * src) n => let (a, n1) := ex (fst q) n in let (b, n2) := ex (snd q) n1 in ((a, b), n2)).
    Lemma cond_sim : forall c rho rho2 env, envX rho rho2 -> clean rho -> scope env rho -> forall cs k G G2 r,
      forallb (fun q => ok env (fst q) && ok env (snd q)) cs = true -> grelX G G2 ->
      ev_cond xr c rho cs G = Some r -> NE c rho2 (ifs (fst (gen_conds cs k))) G2 (ropX r).
    Proof.
      intros c rho rho2 env HE HC HS cs. induction cs as [|(a, b) cs IHc]; intros k G G2 r HO HG E; [discriminate|].
      cbn [forallb fst snd] in HO. apply andb_prop in HO as (HO & O3). apply andb_prop in HO as (O1 & O2). cbn [ev_cond] in E.
      destruct (result (xr c rho a G)) as [(v, G1)|] eqn:EV; [|discriminate]. unfold gen_conds. cbn [gens fst snd].
      pose proof (fun Q => sim_value Q c rho rho2 env a k G G2 v G1 EV O1 HE HC HS HG) as X. destruct (ex a k) as (a1, k1).
      pose proof (fun G2 r E HG => IH c rho rho2 env b k1 G1 G2 r E O2 HE HC HS HG) as Y1. destruct (ex b k1) as (b1, k2).
      fold gen_conds. specialize (IHc k2 G1). destruct (gen_conds cs k2) as (l, k3). cbn [fst] in *. unfold ifs. cbn [fold_right fst snd]. fold (ifs l).
      eapply (ne_if (fun r => vrelX v (a_val (fst r)) /\ grelX G1 (snd r))); [apply X; auto|].
      intros o G3 (HV & HG3). cbn [fst snd] in *. destruct HV; auto.
    Qed.
    Lemma and_sim : forall c rho rho2 env, envX rho rho2 -> clean rho -> scope env rho -> forall l k G G2 r, forallb (ok env) l = true -> grelX G G2 ->
      ev_and xr c rho l G = Some r -> NE c rho2 (ands (fst (gens ex l k))) G2 (ropX r).
    Proof.
      intros c rho rho2 env HE HC HS l. induction l as [|a l IHl]; intros k G G2 r HO HG E.
      - injection E as <-. apply ne_const; [reflexivity|]. split; [apply value_rel; constructor|exact HG].
      - cbn [forallb] in HO. apply andb_prop in HO as (O1 & O2). cbn [ev_and] in E.
        destruct (result (xr c rho a G)) as [(v, G1)|] eqn:EV; [|discriminate]. cbn [gens].
        pose proof (fun Q => sim_value Q c rho rho2 env a k G G2 v G1 EV O1 HE HC HS HG) as X. destruct (ex a k) as (a1, k1).
        specialize (IHl k1 G1). destruct (gens ex l k1) as (es, k2). cbn [fst] in *. unfold ands. cbn [fold_right]. fold (ands es).
        eapply (ne_if (fun r => vrelX v (a_val (fst r)) /\ grelX G1 (snd r))); [apply X; auto|].
        intros o G3 (HV & HG3). cbn [fst snd] in *.
        assert (FA : forall r, Some (value VFalse, G1) = Some r -> NE c rho2 SFalse G3 (ropX r)).
        { intros r' E'. injection E' as <-. apply ne_const; [reflexivity|]. split; [apply value_rel; constructor|exact HG3]. }
        destruct HV; auto.
    Qed.
    Lemma or_sim : forall c rho rho2 env, envX rho rho2 -> clean rho -> scope env rho -> forall l k G G2 r, forallb (ok env) l = true -> grelX G G2 ->
      ev_or xr c rho l G = Some r -> NE c rho2 (ors (fst (gens ex l k))) G2 (ropX r).
    Proof.
      intros c rho rho2 env HE HC HS l. induction l as [|a l IHl]; intros k G G2 r HO HG E.
      - injection E as <-. apply ne_const; [reflexivity|]. split; [apply value_rel; constructor|exact HG].
      - cbn [forallb] in HO. apply andb_prop in HO as (O1 & O2). cbn [ev_or] in E.
        destruct (result (xr c rho a G)) as [(v, G1)|] eqn:EV; [|discriminate]. cbn [gens].
        pose proof (fun Q => sim_value Q c rho rho2 env a k G G2 v G1 EV O1 HE HC HS HG) as X. destruct (ex a k) as (a1, k1).
        specialize (IHl k1 G1). destruct (gens ex l k1) as (es, k2). cbn [fst] in *. unfold ors. cbn [fold_right]. fold (ors es).
        eapply (ne_if (fun r => vrelX v (a_val (fst r)) /\ grelX G1 (snd r))); [apply X; auto|].
        intros o G3 (HV & HG3). cbn [fst snd] in *.
        destruct HV; auto. injection E as <-. apply ne_const; [reflexivity|]. split; [apply value_rel; constructor|exact HG3].
    Qed.
    (** a form and what follows it *)
    Lemma seq_sim : forall c rho rho2 env a k G G2 v G1 b (Q : _ -> Prop), envX rho rho2 -> clean rho -> scope env rho -> ok env a = true -> grelX G G2 ->
      result (xr c rho a G) = Some (v, G1) -> (forall G3, grelX G1 G3 -> NE (after a c) rho2 b G3 Q) ->
      NE c rho2 (L [Y "do"; fst (ex a k); b]) G2 Q.
    Proof.
      intros c rho rho2 env a k G G2 v G1 b Q HE HC HS HO HG EV HB. pose proof (import_ex env a k HO) as EI.
      pose proof (sim_value (fun r => vrelX v (a_val (fst r)) /\ grelX G1 (snd r)) c rho rho2 env a k G G2 v G1 EV HO HE HC HS HG (fun o G2 h1 h2 => conj h1 h2)) as X.
      unfold after in HB. destruct (import_call a) as [p|].
      - apply import_of_some in EI. rewrite EI in *. eapply ne_import; [exact X|]. intros o G3 (_ & H). now apply HB.
      - eapply ne_do; [exact EI|exact X|]. intros o G3 (_ & H). now apply HB.
    Qed.
    Lemma begin_sim : forall rho rho2 env, envX rho rho2 -> clean rho -> scope env rho -> forall l c k G G2 r, forallb (ok env) l = true -> grelX G G2 ->
      ev_begin xr c rho l G = Some r -> NE c rho2 (dos (fst (gens ex l k))) G2 (ropX r).
    Proof.
      intros rho rho2 env HE HC HS l. induction l as [|a l IHl]; intros c k G G2 r HO HG E; [discriminate|].
      cbn [forallb] in HO. apply andb_prop in HO as (O1 & O2). destruct l as [|a2 l].
      - cbn [gens]. cbn [ev_begin] in E. pose proof (IH c rho rho2 env a k G G2 r E O1 HE HC HS HG) as X. destruct (ex a k). exact X.
      - change (match result (xr c rho a G) with Some (_, G1) => ev_begin xr (after a c) rho (a2 :: l) G1 | None => None end = Some r) in E.
        destruct (result (xr c rho a G)) as [(v, G1)|] eqn:EV; [|discriminate].
        pose proof (fun b Q => seq_sim c rho rho2 env a k G G2 v G1 b Q HE HC HS O1 HG EV) as X.
        change (gens ex (a :: a2 :: l) k) with (let (y, n1) := ex a k in let (ys, n2) := gens ex (a2 :: l) n1 in (y :: ys, n2)).
        destruct (ex a k) as (a1, k1). pose proof (fun G3 HG3 => IHl (after a c) k1 G1 G3 r O2 HG3 E) as Y1. pose proof (gens_length ex (a2 :: l) k1) as LL.
        destruct (gens ex (a2 :: l) k1) as (es, k2). destruct es as [|e2 es]; [discriminate|]. cbn [fst] in *.
        change (dos (a1 :: e2 :: es)) with (L [Y "do"; a1; dos (e2 :: es)]). now apply X.
    Qed.

    (** lists *)
    Lemma conses_sim : forall {E} (ev1 : E -> store xcode -> xres) (tl : store xcode -> xres) c rho2 te, clean rho2 ->
      (forall G G2 r, grelX G G2 -> tl G = Some r -> NE c rho2 te G2 (ropX r)) ->
      forall xs es, Forall2 (fun x e => forall G G2 r, grelX G G2 -> ev1 x G = Some r -> NE c rho2 e G2 (ropX r)) xs es ->
      forall G G2 os G1 o G' vs w, grelX G G2 -> ev_args ev1 xs G = Some (os, G1) -> tl G1 = Some (o, G') ->
      use_all strict os G' = Some vs -> use strict o G' = Some w ->
      NE c rho2 (conses es te) G2 (fun r2 => grelX G' (snd r2) /\ (xs <> [] -> a_from (fst r2) = None) /\
        exists w2, use strict (fst r2) (snd r2) = Some w2 /\ vrelX (fold_right VCons w vs) w2).
    Proof.
      intros E ev1 tl c rho2 te HC HT xs es F. induction F as [|x e xs es HX F IHF]; intros G G2 os G1 o G' vs w HG EA ET EU EW.
      - injection EA as <- <-. injection EU as <-. cbn [conses fold_right]. eapply ne_weaken; [|eapply HT; eauto].
        intros (o2, G3) (H1 & H2). cbn [fst snd] in *. split; [exact H2|]. split; [congruence|]. eapply use_rel; eauto.
      - cbn [ev_args] in EA. destruct (ev1 x G) as [(o1, G3)|] eqn:E1; [|discriminate]. destruct (ev_args ev1 xs G3) as [(os', G4)|] eqn:E2; [|discriminate].
        injection EA as <- <-. cbn [use_all] in EU. destruct (use strict o1 G') as [v1|] eqn:U1; [|discriminate].
        destruct (use_all strict os' G') as [vs'|] eqn:U2; [|discriminate]. injection EU as <-. unfold conses. cbn [fold_right]. fold (conses es te).
        eapply (ne_prim2 (ropX (o1, G3))); [now apply HC|reflexivity|reflexivity|reflexivity|now apply (HX G)|].
        intros o2 G5 (H1 & H2). cbn [fst snd] in *. split; [eapply IHF; eauto|].
        intros o3 G6 (H3 & _ & w2 & H4 & H5). cbn [fst snd] in *. destruct (use_rel _ _ _ _ _ _ _ _ _ H1 H3 U1) as (v2 & U3 & HV).
        exists v2, w2, (VCons v2 w2, G6). split; [exact U3|]. split; [exact H4|]. split; [reflexivity|]. cbn [fst snd].
        split; [exact H3|]. split; [reflexivity|]. exists (VCons v2 w2). split; [reflexivity|]. now constructor.
    Qed.
    Lemma listing_sim : forall {E} (ev1 : E -> store xcode -> xres) (tl : store xcode -> xres) c rho2 te, clean rho2 ->
      (forall G G2 r, grelX G G2 -> tl G = Some r -> NE c rho2 te G2 (ropX r)) ->
      forall xs es, Forall2 (fun x e => forall G G2 r, grelX G G2 -> ev1 x G = Some r -> NE c rho2 e G2 (ropX r)) xs es -> xs <> [] ->
      forall G G2 os G1 o G' r, grelX G G2 -> ev_args ev1 xs G = Some (os, G1) -> tl G1 = Some (o, G') -> listing strict os o G' = Some r ->
      NE c rho2 (conses es te) G2 (ropX r).
    Proof.
      intros E ev1 tl c rho2 te HC HT xs es F HN G G2 os G1 o G' r HG EA ET EL. unfold listing in EL.
      destruct (use_all strict os G') as [vs|] eqn:U1; [|discriminate]. destruct (use strict o G') as [w|] eqn:U2; [|discriminate]. injection EL as <-.
      eapply ne_weaken; [|eapply (conses_sim ev1 tl c rho2 te HC HT xs es F); eauto].
      intros (o2, G3) (H1 & H2 & w2 & H3 & H4). cbn [fst snd] in *. specialize (H2 HN). split; [|exact H1]. split; [|now left].
      unfold use in H3. rewrite H2 in H3. cbn in *. injection H3 as <-. exact H4.
    Qed.

    Lemma ev_tmpl_list : forall c rho l G, ev_tmpl xr strict c rho (TList l) G =
      match ev_args (ev_tmpl xr strict c rho) l G with Some (os, G1) => listing strict os (value VNil) G1 | None => None end.
    Proof.
      intros c rho l G. cbn [ev_tmpl].
      match goal with |- match ?f l G with _ => _ end = _ => assert (X : forall l G, f l G = ev_args (ev_tmpl xr strict c rho) l G) end.
      { clear. induction l as [|t l IHl]; intro G; [reflexivity|]. cbn [ev_args]. destruct (ev_tmpl xr strict c rho t G) as [(o, G1)|]; [|reflexivity].
        rewrite IHl. reflexivity. }
      now rewrite X.
    Qed.
    Lemma nil_sim : forall c rho2 G G2 r, grelX G G2 -> Some (value VNil, G) = Some r -> NE c rho2 SNil G2 (ropX r).
    Proof. intros c rho2 G G2 r HG E. injection E as <-. apply ne_const; [reflexivity|]. split; [apply value_rel; constructor|exact HG]. Qed.
    Lemma tmpl_sim : forall c rho rho2 env, envX rho rho2 -> clean rho -> scope env rho -> forall t k G G2 r, ok_tmpl env t = true -> grelX G G2 ->
      ev_tmpl xr strict c rho t G = Some r -> NE c rho2 (fst (ext t k)) G2 (ropX r).
    Proof.
      intros c rho rho2 env HE HC HS. pose proof (envX_clean _ _ HE HC) as HC2.
      apply (tmpl_ind' (fun _ => True) (fun t => forall k G G2 r, ok_tmpl env t = true -> grelX G G2 ->
        ev_tmpl xr strict c rho t G = Some r -> NE c rho2 (fst (ext t k)) G2 (ropX r))); auto.
      - intros s k G G2 r HO HG E. injection E as <-. cbn in *. apply ne_const; [exact HO|]. split; [apply value_rel, quoted_rel|exact HG].
      - intros x k G G2 r _ HG E. injection E as <-. cbn [ext fst]. apply ne_quote. split; [apply value_rel; constructor|exact HG].
      - intros e _ k G G2 r HO HG E. cbn in *. eapply IH; eauto.
      - intros l F k G G2 r HO HG E. rewrite ev_tmpl_list in E. cbn [ok_tmpl] in HO. apply andb_prop in HO as (HO & HF). apply andb_prop in HO as (HN & _).
        destruct (ev_args _ l G) as [(os, G1)|] eqn:EA; [|discriminate]. cbn [ext].
        assert (X : Forall2 (fun t e => forall G G2 r, grelX G G2 -> ev_tmpl xr strict c rho t G = Some r -> NE c rho2 e G2 (ropX r)) l (fst (gens ext l k))).
        { clear - F HF. revert k. induction F as [|t l Ht F IHF]; intro k; cbn [gens]; [constructor|]. cbn in HF. apply andb_prop in HF as (H1 & H2).
          specialize (IHF H2). pose proof (fun G G2 r HG E => Ht k G G2 r H1 HG E) as Ht'. destruct (ext t k) as (e, k1). specialize (IHF k1).
          destruct (gens ext l k1). cbn [fst] in *. constructor; auto. }
        destruct (gens ext l k) as (es, k1). cbn [fst] in *.
        eapply (listing_sim (ev_tmpl xr strict c rho) (fun G => Some (value VNil, G)) c rho2 SNil HC2); [|exact X| |exact HG|exact EA|reflexivity|exact E].
        + intros. eapply nil_sim; eauto.
        + destruct l; discriminate.
    Qed.

    (** what a match takes apart, when it is not computed *)
    Definition local_names (locals : string -> bool) (x : name) : Prop := match x with NS s => locals s = true | NG _ => False end.
  End Step.

  Lemma den_conses : forall V rho l t ws w, Forall2 (den V rho) l ws -> den V rho t w -> den V rho (conses l t) (fold_right VCons w ws).
  Proof. intros V rho l t ws w F H. unfold conses. induction F; cbn [fold_right]; [exact H|]. now apply d_cons. Qed.
  Lemma use_values : forall {C} (vs : list (val C)) G, use_all strict (map value vs) G = Some vs.
  Proof. induction vs as [|v vs IHv]; intro G; [reflexivity|]. cbn. now rewrite IHv. Qed.
  Lemma simple_den : forall locals c rho rho2, envX rho rho2 -> clean rho -> (forall s, locals s = true -> exists v, lookup (NS s) rho = Some v) ->
    forall n x k G o G1, simple locals x = true -> xev n c rho x G = Some (o, G1) ->
    G1 = G /\ exists w w2, o = value w /\ vrelX w w2 /\ den (local_names locals) rho2 (fst (ex x k)) w2.
  Proof.
    intros locals c rho rho2 HE HC HL n. induction n as [|n IHn]; intros x k G o G1 HS E; [discriminate|].
    assert (ARGS : forall l k G os G1, forallb (simple locals) l = true -> ev_args (xev n c rho) l G = Some (os, G1) ->
      G1 = G /\ exists ws ws2, os = map value ws /\ Forall2 vrelX ws ws2 /\ Forall2 (den (local_names locals) rho2) (fst (gens ex l k)) ws2).
    { clear x k G o G1 HS E. induction l as [|x l IHl]; intros k G os G1 HS E; cbn [ev_args] in E.
      - injection E as <- <-. split; [reflexivity|]. exists [], []. cbn. auto.
      - cbn in HS. apply andb_prop in HS as (H1 & H2). destruct (xev n c rho x G) as [(o, G2)|] eqn:EX; [|discriminate].
        destruct (ev_args _ l G2) as [(os', G3)|] eqn:EA; [|discriminate]. injection E as <- <-.
        destruct (IHn x k _ _ _ H1 EX) as (-> & w & w2 & -> & R1 & D1). cbn [gens]. destruct (ex x k) as (e, k1).
        destruct (IHl k1 _ _ _ H2 EA) as (-> & ws & ws2 & -> & R2 & D2). destruct (gens ex l k1) as (es, k2). cbn [fst] in *.
        split; [reflexivity|]. exists (w :: ws), (w2 :: ws2). cbn. auto. }
    assert (FR : forall ws ws2 w w2, Forall2 vrelX ws ws2 -> vrelX w w2 -> vrelX (fold_right VCons w ws) (fold_right VCons w2 ws2)).
    { clear. intros ws ws2 w w2 F H. induction F; cbn; [exact H|]. now constructor. }
    destruct x as [s|s|x|ps b|a b d|a b|f l|bs b|cs|l|l|l|l|l t|t|v cs|x e|f ps b|f cs|p imports b]; try discriminate; cbn [xeval] in E.
    - injection E as <- <-. split; [reflexivity|]. exists (quoted s), (quoted s). split; [reflexivity|]. split; [apply quoted_rel|]. now constructor.
    - injection E as <- <-. split; [reflexivity|]. exists (quoted s), (quoted s). split; [reflexivity|]. split; [apply quoted_rel|]. constructor.
    - cbn [simple] in HS. destruct (HL x HS) as (v & EL). rewrite EL in E. injection E as <- <-. split; [reflexivity|].
      specialize (HE x). rewrite EL in HE. destruct (lookup (NS x) rho2) as [w|] eqn:EL2; [|contradiction]. exists v, w. split; [reflexivity|]. split; [exact HE|]. now constructor.
    - cbn [simple] in HS. destruct f as [ | |s| | | | | | | | | | | | | | | | |]; try discriminate. destruct l as [|a [|b [|? ?]]]; try discriminate.
      apply andb_prop in HS as (HS & H2). apply andb_prop in HS as (H0 & H1). apply String.eqb_eq in H0. subst s.
      assert (EP : x_prim rho (XVar "cons") = Some PCons) by (unfold x_prim; now rewrite (HC "cons"%string)). rewrite EP in E.
      destruct (ev_args _ [a; b] G) as [(os, G2)|] eqn:EA; [|discriminate].
      destruct (ARGS [a; b] k _ _ _ ltac:(cbn; now rewrite H1, H2) EA) as (-> & ws & ws2 & -> & R1 & D1).
      cbn [use value a_from a_val] in E. rewrite use_values in E. cbn [ex]. cbn [gens] in D1 |- *. destruct (ex a k) as (a1, k1). destruct (ex b k1) as (b1, k2). cbn [fst] in *.
      inversion D1 as [|? u2 ? ? Da D1']; subst. inversion D1' as [|? v2 ? ? Db D1'']; subst. inversion D1''; subst.
      inversion R1 as [|u ? ? ? Ra R1']; subst. inversion R1' as [|v ? ? ? Rb R1'']; subst. inversion R1''; subst.
      destruct n as [|n]; [discriminate|]. cbn in E. injection E as <- <-. split; [reflexivity|]. exists (VCons u v), (VCons u2 v2).
      split; [reflexivity|]. split; [now constructor|]. now apply d_cons.
    - cbn [simple] in HS. destruct (ev_args _ l G) as [(os, G2)|] eqn:EA; [|discriminate]. destruct (ARGS l k _ _ _ HS EA) as (-> & ws & ws2 & -> & R1 & D1).
      unfold listing in E. rewrite use_values in E. cbn [use value a_from a_val] in E. injection E as <- <-. split; [reflexivity|]. cbn [ex].
      destruct (gens ex l k) as (es, k1). cbn [fst] in *. exists (fold_right VCons VNil ws), (fold_right VCons VNil ws2). split; [reflexivity|].
      split; [apply FR; [exact R1|constructor]|]. apply den_conses; [exact D1|]. now apply (d_atom _ _ SNil).
    - cbn [simple] in HS. apply andb_prop in HS as (HS & HT). apply andb_prop in HS as (_ & HS).
      destruct (ev_args _ l G) as [(os, G2)|] eqn:EA; [|discriminate]. destruct (ARGS l k _ _ _ HS EA) as (-> & ws & ws2 & -> & R1 & D1).
      destruct (xev n c rho t G) as [(ot, G2)|] eqn:ET; [|discriminate]. cbn [ex]. destruct (gens ex l k) as (es, k1).
      destruct (IHn t k1 _ _ _ HT ET) as (-> & w & w2 & -> & R2 & D2). destruct (ex t k1) as (t1, k2). cbn [fst] in *.
      unfold listing in E. rewrite use_values in E. cbn [use value a_from a_val] in E. injection E as <- <-. split; [reflexivity|].
      exists (fold_right VCons w ws), (fold_right VCons w2 ws2). split; [reflexivity|]. split; [now apply FR|]. now apply den_conses.
  Qed.

  Lemma among_in : forall s l, among s l = true <-> In s l.
  Proof.
    intros s l. unfold among. rewrite existsb_exists. split.
    - intros (t & H & E). apply String.eqb_eq in E. congruence.
    - intro H. exists s. split; [exact H|apply String.eqb_refl].
  Qed.
  Lemma match_rules : forall env (cs : list (pat * option src * src)),
    forallb (fun q => ok_pat (fst (fst q)) && match snd (fst q) with Some g => ok (pvars (fst (fst q)) ++ env) g | None => true end &&
                   ok (pvars (fst (fst q)) ++ env) (snd q)) cs = true -> Forall (rule_env desugar env) cs.
  Proof.
    intros env cs. apply forallb_Forall. intros q H. apply andb_prop in H as (H & H3). apply andb_prop in H as (H1 & H2).
    split; [now apply desugar_ok|]. rewrite cvars_desugar. split; [destruct (snd (fst q)); auto|exact H3].
  Qed.
  Lemma func_rules : forall env k (cs : list (list pat * option src * src)),
    forallb (fun q => (List.length (fst (fst q)) =? k) && forallb ok_pat (fst (fst q)) &&
      match snd (fst q) with Some g => ok (flat_map pvars (fst (fst q)) ++ env) g | None => true end &&
      ok (flat_map pvars (fst (fst q)) ++ env) (snd q)) cs = true -> Forall (rule_env lists env) cs.
  Proof.
    intros env k cs. apply forallb_Forall. intros q H. apply andb_prop in H as (H & H3). apply andb_prop in H as (H & H2). apply andb_prop in H as (_ & H1).
    unfold rule_env, lists. split; [now apply desugar_ok|]. rewrite cvars_desugar. split; [destruct (snd (fst q)); auto|exact H3].
  Qed.

  Theorem macro_sim : forall n, SIM n.
  Proof.
    induction n as [|n IHn]; intros c rho rho2 env x k G G2 r E HO HE HC HS HG; [discriminate|].
    pose proof (envX_clean _ _ HE HC) as HC2.
    assert (DEF : forall s v w G G2 r, vrelX v w -> grelX G G2 -> Some (value v, g_set G (defined_as gt c (NS s)) v) = Some r ->
      ropX r (value w, g_set G2 (defined_as gt c (NS s)) w)).
    { intros s v w G' G2' r' HV HG' E'. injection E' as <-. split; [now apply value_rel|now apply g_set_rel]. }
    destruct x as [s|s|x|ps b|a b d|a b|f l|bs b|cs|l|l|l|l|l t|t|v cs|x e|f ps b|f cs|p imports b].
    - (* constant *) injection E as <-. cbn in *. apply ne_const; [exact HO|]. split; [apply value_rel, quoted_rel|exact HG].
    - injection E as <-. cbn [ex fst]. apply ne_quote. split; [apply value_rel, quoted_rel|exact HG].
    - (* variable *) cbn [ex fst]. cbn [xeval] in E. specialize (HE x). destruct (lookup (NS x) rho) as [v|] eqn:EL.
      + injection E as <-. destruct (lookup (NS x) rho2) as [w|] eqn:EL2; [|contradiction]. eapply ne_local; [exact EL2|]. split; [now apply value_rel|exact HG].
      + destruct (lookup (NS x) rho2) as [w|] eqn:EL2; [contradiction|]. pose proof HG as ((HN & HT) & HG'). specialize (HG' (global_of gt exports c (NS x))).
        destruct (g_val G _) as [v|]; [|discriminate]. injection E as <-. destruct (g_val G2 _) as [w|] eqn:EG; [|contradiction].
        eapply ne_global; [exact EL2|exact EG|]. split; [split; [exact HG'|right; cbn; now rewrite HT]|exact HG].
    - (* lambda *) injection E as <-. cbn [ok] in HO. apply andb_prop in HO as (OP & OB). cbn [ex]. destruct (ex b k) as (b1, k1) eqn:EB. cbn [fst].
      apply ne_lam. split; [apply value_rel|exact HG]. apply clo_rel; [exact HE| |reflexivity|reflexivity].
      replace b1 with (fst (ex b k)) by (now rewrite EB). apply (cx_exp _ _ _ env); [exact OB|exact OP|now apply envX_scope|now apply scope_keys].
    - (* if *) cbn [ok] in HO. apply andb_prop in HO as (HO & O3). apply andb_prop in HO as (O1 & O2). cbn [xeval] in E. cbn [ex].
      destruct (result (xev n c rho a G)) as [(v, G1)|] eqn:EV; [|discriminate].
      pose proof (fun Q => sim_value n IHn Q c rho rho2 env a k G G2 v G1 EV O1 HE HC HS HG) as X. destruct (ex a k) as (a1, k1).
      pose proof (fun G2 r E HG => IHn c rho rho2 env b k1 G1 G2 r E O2 HE HC HS HG) as XB. destruct (ex b k1) as (b1, k2).
      pose proof (fun G2 r E HG => IHn c rho rho2 env d k2 G1 G2 r E O3 HE HC HS HG) as XD. destruct (ex d k2) as (d1, k3). cbn [fst] in *.
      eapply (ne_if (fun r => vrelX v (a_val (fst r)) /\ grelX G1 (snd r))); [apply X; auto|].
      intros o G3 (HV & HG3). cbn [fst snd] in *. destruct HV; auto.
    - (* do *) cbn [ok] in HO. apply andb_prop in HO as (O1 & O2). cbn [xeval] in E. cbn [ex].
      destruct (result (xev n c rho a G)) as [(v, G1)|] eqn:EV; [|discriminate].
      pose proof (fun b Q => seq_sim n IHn c rho rho2 env a k G G2 v G1 b Q HE HC HS O1 HG EV) as X. destruct (ex a k) as (a1, k1).
      pose proof (fun G2 r E HG => IHn (after a c) rho rho2 env b k1 G1 G2 r E O2 HE HC HS HG) as XB. destruct (ex b k1) as (b1, k2). cbn [fst] in *.
      apply X. intros G3 HG3. now apply XB.
    - (* application *) cbn [ok] in HO. apply andb_prop in HO as (HO & OA). apply andb_prop in HO as (OH & OF). cbn [ex].
      pose proof (ex_shp env f k OF) as SF. pose proof (fun G2 r E HG => IHn c rho rho2 env f k G G2 r E OF HE HC HS HG) as XF. destruct (ex f k) as (f1, k1).
      pose proof (args_sim n IHn c rho rho2 env HE HC HS l k1 OA) as XA. destruct (gens ex l k1) as (es, k2). cbn [fst] in *.
      assert (NH : nhead f1).
      { destruct f; cbn in SF, OF; subst; try exact OH; try (destruct f1; try contradiction; exact I). destruct s; try discriminate; exact I. }
      assert (OP : op_prim rho2 f1 = x_prim rho f).
      { destruct f; cbn in SF, OF; subst; try (destruct f1; try contradiction; reflexivity); [destruct s; try discriminate; reflexivity|].
        cbn [op_prim x_prim]. specialize (HE x). destruct (lookup (NS x) rho), (lookup (NS x) rho2); try contradiction; reflexivity. }
      apply evt_S. eapply evt_ext; [intro m; symmetry; apply nev_app; exact NH|]. rewrite OP.
      assert (ARGS : forall G1 G3 os G4, grelX G1 G3 -> ev_args (xev n c rho) l G1 = Some (os, G4) ->
        evt (fun m => ev_args (nev m c rho2) es G3) (fun '(l2, G5) => Forall2 orelX os l2 /\ grelX G4 G5)).
      { intros G1 G3 os G4 HG1 EA. eapply (ev_args_rel _ _ _ (xev n c rho) (fun m => nev m c rho2)); [|exact HG1|exact EA]. exact XA. }
      assert (E' : match x_prim rho f with
        | Some p => match ev_args (xev n c rho) l G with Some (l, G1) => xcall n (value (VPrim p)) l G1 | None => None end
        | None =>
            match xev n c rho f G with
            | Some (a, G1) => match ev_args (xev n c rho) l G1 with Some (l, G2) => xcall n a l G2 | None => None end
            | None => None
            end
        end = Some r) by exact E. clear E.
      destruct (x_prim rho f) as [p|].
      + destruct (ev_args (xev n c rho) l G) as [(os, G1)|] eqn:EA; [|discriminate].
        eapply evt_bind with (g := fun m '(l, G1) => ncall m (value (VPrim p)) l G1); [eapply ARGS; eauto|].
        intros (l2, G3) (HL2 & HG3). eapply (call_sim n IHn); [|exact HL2|exact HG3|exact E']. apply value_rel. constructor.
      + destruct (xev n c rho f G) as [(a, G1)|] eqn:EF; [|discriminate]. destruct (ev_args (xev n c rho) l G1) as [(os, G3)|] eqn:EA; [|discriminate].
        eapply evt_bind with (g := fun m '(a, G1) => match ev_args (nev m c rho2) es G1 with Some (l, G2) => ncall m a l G2 | None => None end); [apply XF; eauto|].
        intros (a2, G4) (HA & HG4). cbn [fst snd] in *.
        eapply evt_bind with (g := fun m '(l, G1) => ncall m a2 l G1); [eapply ARGS; eauto|].
        intros (l2, G5) (HL2 & HG5). eapply (call_sim n IHn); [exact HA|exact HL2|exact HG5|exact E'].
    - (* let *) rewrite ok_let_eq in HO. apply andb_prop in HO as (_ & HO). cbn [xeval] in E.
      pose proof (let_sim n IHn c b bs rho rho2 env k G G2 r HO HE HC HS HG E) as X. cbn [ex]. unfold gen_binds in X. destruct (gens _ bs k) as (l, k1).
      destruct (ex b k1). exact X.
    - (* cond *) cbn [ok] in HO. cbn [xeval] in E. pose proof (cond_sim n IHn c rho rho2 env HE HC HS cs k G G2 r HO HG E) as X. cbn [ex].
      unfold gen_conds in X. destruct (gens _ cs k). exact X.
    - (* and *) cbn [ok] in HO. cbn [xeval] in E. cbn [ex]. assert (HO' : forallb (ok env) l = true).
      { rewrite forallb_forall in *. intros y Hy. apply HO in Hy. now apply andb_prop in Hy. }
      pose proof (and_sim n IHn c rho rho2 env HE HC HS l k G G2 r HO' HG E) as X. destruct (gens ex l k). exact X.
    - (* or *) cbn [ok] in HO. cbn [xeval] in E. cbn [ex]. assert (HO' : forallb (ok env) l = true).
      { rewrite forallb_forall in *. intros y Hy. apply HO in Hy. now apply andb_prop in Hy. }
      pose proof (or_sim n IHn c rho rho2 env HE HC HS l k G G2 r HO' HG E) as X. destruct (gens ex l k). exact X.
    - (* begin *) cbn [ok] in HO. apply andb_prop in HO as (_ & HO). cbn [xeval] in E. cbn [ex].
      pose proof (begin_sim n IHn rho rho2 env HE HC HS l c k G G2 r HO HG E) as X. destruct (gens ex l k). exact X.
    - (* list *) cbn [ok] in HO. cbn [xeval] in E. cbn [ex]. destruct (ev_args (xev n c rho) l G) as [(os, G1)|] eqn:EA; [|discriminate].
      pose proof (args_sim n IHn c rho rho2 env HE HC HS l k HO) as XA. destruct (gens ex l k) as (es, k1). cbn [fst] in *. destruct l as [|a l].
      + injection EA as <- <-. inversion XA; subst. unfold listing in E. cbn in E. eapply nil_sim; eauto.
      + eapply (listing_sim (xev n c rho) (fun G => Some (value VNil, G)) c rho2 SNil HC2); [|exact XA|discriminate|exact HG|exact EA|reflexivity|exact E].
        intros. eapply nil_sim; eauto.
    - (* list with a tail *) cbn [ok] in HO. apply andb_prop in HO as (HO & OT). apply andb_prop in HO as (HN & HO). cbn [xeval] in E. cbn [ex].
      destruct (ev_args (xev n c rho) l G) as [(os, G1)|] eqn:EA; [|discriminate]. destruct (xev n c rho t G1) as [(o, G3)|] eqn:ET; [|discriminate].
      pose proof (args_sim n IHn c rho rho2 env HE HC HS l k HO) as XA. destruct (gens ex l k) as (es, k1). cbn [fst] in *.
      pose proof (fun G G2 r HG E => IHn c rho rho2 env t k1 G G2 r E OT HE HC HS HG) as XT. destruct (ex t k1) as (t1, k2). cbn [fst] in *.
      eapply (listing_sim (xev n c rho) (xev n c rho t) c rho2 t1 HC2 XT); [exact XA|destruct l; discriminate|exact HG|exact EA|exact ET|exact E].
    - (* backquote *) cbn [ok] in HO. apply andb_prop in HO as (_ & HO). cbn [xeval] in E. cbn [ex]. eapply (tmpl_sim n IHn); eauto.
    - (* match *) cbn [ok] in HO. apply andb_prop in HO as (HO & OC). apply andb_prop in HO as (HO & OV). apply andb_prop in HO as (OE & _).
      apply match_rules in OC. cbn [xeval] in E. destruct (result (xev n c rho v G)) as [(w, G1)|] eqn:EV; [|discriminate]. cbn [ex].
      pose proof (fun Q => sim_value n IHn Q c rho rho2 env v k G G2 w G1 EV OE HE HC HS HG) as X.
      destruct (computed v).
      + destruct (ex v k) as (v1, k1). destruct (gen_rules desugar ex (SSym (NG k1)) cs (S k1) (S k1 + List.length cs)) as (e, k2) eqn:EG. cbn [fst] in *.
        eapply (ne_let (fun r => vrelX w (a_val (fst r)) /\ grelX G1 (snd r))); [apply X; auto|].
        intros o G3 (HV & HG3). cbn [fst snd] in *. replace e with (fst (gen_rules desugar ex (SSym (NG k1)) cs (S k1) (S k1 + List.length cs))) by (now rewrite EG).
        eapply (rules_sim n IHn desugar (fun p => pmatch p w) (fun x => x = NG k1) _ w (a_val o) c rho _ env); [now apply envX_hidden|exact HC|exact HS|exact HV| | | |exact HG3|exact E].
        * constructor; [reflexivity|]. cbn [lookup name_eqb]. now rewrite Nat.eqb_refl.
        * intros j Hj Ej. injection Ej as ->. lia.
        * eapply Forall_impl; [|exact OC]. intros q Hq. split; [exact Hq|]. split; [apply pmatch_desugar|]. intros s _ Es. discriminate.
      + cbn [orb] in OV. set (locals := fun s => _) in OV.
        assert (HL : forall s, locals s = true -> exists v, lookup (NS s) rho = Some v).
        { intros s Hs. apply andb_prop in Hs as (Hs & _). apply HS. now apply among_in. }
        destruct (xev n c rho v G) as [(ov, G1')|] eqn:EX; [|discriminate]. injection EV as <- <-.
        destruct (simple_den locals c rho rho2 HE HC HL n v k G ov G1' OV EX) as (-> & u & u2 & -> & RU & DU). clear X.
        destruct (ex v k) as (v1, k1). cbn [fst a_val value] in *.
        eapply (rules_sim n IHn desugar (fun p => pmatch p u) (local_names locals) v1 u u2 c rho rho2 env HE HC HS RU DU); [| |exact HG|exact E].
        * intros j _ [].
        * rewrite Forall_forall in *. intros q Hq. split; [now apply OC|]. split; [apply pmatch_desugar|].
          intros s Hs HV. cbn in HV. apply andb_prop in HV as (_ & HV). rewrite forallb_forall in HV. specialize (HV q Hq).
          rewrite cvars_desugar in Hs. apply negb_true_iff in HV. apply among_in in Hs. congruence.
    - (* def *) cbn [ok] in HO. cbn [xeval] in E. destruct (result (xev n c rho e G)) as [(v, G1)|] eqn:EV; [|discriminate]. cbn [ex].
      pose proof (fun Q => sim_value n IHn Q c rho rho2 env e k G G2 v G1 EV HO HE HC HS HG) as X. destruct (ex e k) as (e1, k1). cbn [fst] in *.
      eapply (ne_def (fun r => vrelX v (a_val (fst r)) /\ grelX G1 (snd r))); [apply X; auto|]. intros o G3 (HV & HG3). cbn [fst snd] in *. eapply DEF; eauto.
    - (* defun *) cbn [ok] in HO. apply andb_prop in HO as (OP & OB). cbn [xeval] in E. cbn [ex]. destruct (ex b k) as (b1, k1) eqn:EB. cbn [fst].
      eapply ne_def; [apply ne_lam; instantiate (1 := fun r => r = (_, _)); reflexivity|]. intros o G3 EO. injection EO as -> ->. cbn [a_val value].
      eapply DEF; [|exact HG|exact E]. apply clo_rel; [exact HE| |reflexivity|reflexivity].
      replace b1 with (fst (ex b k)) by (now rewrite EB). apply (cx_exp _ _ _ env); [exact OB|exact OP|now apply envX_scope|now apply scope_keys].
    - (* func *) cbn [xeval] in E. cbn [ex]. fold (rules_arity cs) in E. set (kk := rules_arity cs) in *.
      assert (OK : Forall (rule_env lists env) cs).
      { cbn [ok] in HO. destruct cs as [|((ps, g), b) cs]; [discriminate|]. eapply func_rules. exact HO. }
      fold lists. destruct (gen_rules _ ex _ cs (k + kk) (k + kk + List.length cs)) as (e, k1) eqn:EG. cbn [fst].
      eapply ne_def; [apply ne_lam; instantiate (1 := fun r => r = (_, _)); reflexivity|]. intros o G3 EO. injection EO as -> ->. cbn [a_val value].
      eapply DEF; [|exact HG|exact E]. apply clo_rel; [exact HE| |reflexivity|reflexivity].
      replace e with (fst (gen_rules lists ex (conses (map SSym (map NG (seq k kk))) SNil) cs (k + kk) (k + kk + List.length cs)))
        by (now rewrite EG).
      apply (cx_rules kk cs k _ env); [exact OK|now apply envX_scope|now apply scope_keys].
    - (* ns *) cbn [ok] in HO. cbn [xeval] in E. cbn [ex]. pose proof (IHn (mkX p imports) rho rho2 env b k G G2 r E HO HE HC HS HG) as X.
      destruct (ex b k) as (b1, k1). now apply ne_ns.
  Qed.
End Sim.
