(** The simulation for parse. *)
From Coq Require Import List ZArith Bool String Arith Lia.
From Verif Require Import CoreSpec CoreProofs TocModel TocSem TocClosure TocTail TocParse.
Import ListNotations.
Local Open Scope list_scope.
Local Open Scope nat_scope.

Section Sim.
  Context (ar : arith) (n0 : nat).

  Definition s_arity (c : scode) : nat := List.length (sc_ps c).

  Definition crelP (c1 : scode) (c2 : ecode) : Prop :=
    sc_ps c1 = e_ps c2 /\ forallb (binder_ok n0) (sc_ps c1) = true /\
    (forall x p, prim_of x = Some p -> ~ In x (sc_env c1)) /\
    exists k env st st' ks, parse k (sc_ps c1 ++ env) st (sc_body c1) = Some (e_body c2, st') /\
      n0 <= p_gen st /\ src_ok n0 ks (sc_body c1) = true /\
      forall x, older n0 x = true -> (In x env <-> In x (sc_env c1)) /\ (In x env -> In x (e_env c2)).
  Definition selP (c1 : scode) (c2 : ecode) (_ i j : nat) : Prop :=
    exists x, older n0 x = true /\ index x (sc_env c1) = Some i /\ index x (e_env c2) = Some j.

  Notation vrelP := (vrel crelP selP s_arity).
  Notation grelP := (grel crelP selP s_arity).

  Lemma crelP_arity : forall c1 c2, crelP c1 c2 -> s_arity c1 = e_arity c2.
  Proof. intros c1 c2 (H & _). unfold s_arity, e_arity. congruence. Qed.

  Definition envP (env : list name) (rho : list (name * val scode)) (rho' : list (name * val ecode)) : Prop :=
    (forall x p, prim_of x = Some p -> lookup x rho = None) /\
    forall x, older n0 x = true ->
      (In x env /\ exists v v', lookup x rho = Some v /\ lookup x rho' = Some v' /\ vrelP v v') \/
      (~ In x env /\ lookup x rho = None).

  Definition okA (a : operand) (a2 : ans ecode) : Prop :=
    match a2 with
    | AVal v2 => vrelP (a_val a) v2
    | AGlob x => exists k, a_from a = Some (x, k)
    end.
  Definition okR (r : operand * store scode) (r2 : ans ecode * store ecode) : Prop :=
    okA (fst r) (fst r2) /\ grelP (snd r) (snd r2).

  Lemma envP_gen : forall env rho rho' i v', n0 <= i -> envP env rho rho' -> envP (NG i :: env) rho ((NG i, v') :: rho').
  Proof.
    intros env rho rho' i v' L (HN & H). split; [exact HN|]. intros x Hx.
    assert (N : x <> NG i) by (intros ->; cbn in Hx; apply Nat.ltb_lt in Hx; lia).
    destruct (H x Hx) as [(A & v & v2 & B1 & B2 & B3)|(A & B)].
    - left. split; [now right|]. exists v, v2. cbn. destruct (name_eqb_spec x (NG i)); [contradiction|]. auto.
    - right. split; [|exact B]. intros [E|E]; [congruence|contradiction].
  Qed.
  Lemma envP_bind : forall env rho rho' x v v', binder_ok n0 x = true -> vrelP v v' -> envP env rho rho' ->
    envP (x :: env) ((x, v) :: rho) ((x, v') :: rho').
  Proof.
    intros env rho rho' x v v' HB HV (HN & H). unfold binder_ok in HB. apply andb_true_iff in HB as [HB1 HB2]. split.
    - intros y p Hp. cbn. destruct (name_eqb_spec y x) as [->|N]; [rewrite Hp in HB2; discriminate|eauto].
    - intros y Hy. cbn [lookup]. destruct (name_eqb_spec y x) as [->|N].
      + left. split; [now left|]. eauto.
      + destruct (H y Hy) as [(A & B)|(A & B)]; [left; split; [now right|exact B]|right].
        split; [|exact B]. intros [E|E]; [congruence|contradiction].
  Qed.

  Lemma use_ok : forall strict a a2 G G2 v, strict = true -> use strict a G = Some v -> okA a a2 -> tracked G a -> grelP G G2 ->
    exists v2, force a2 G2 = Some v2 /\ vrelP v v2.
  Proof.
    intros strict a a2 G G2 v -> E HO HT HG. unfold use, tracked in *. destruct a2 as [v2|x]; cbn in HO.
    - exists v2. split; [reflexivity|]. destruct (a_from a) as [(x, k)|]; [destruct (true && _); [discriminate|]|]; congruence.
    - destruct HO as (k & Ek). rewrite Ek in *. destruct (Nat.eqb_spec (g_ver G x) k) as [Ev|]; [|discriminate]. cbn in E.
      injection E as <-. destruct HT as (_ & HT). specialize (HT Ev). destruct HG as (_ & HG). specialize (HG x). rewrite HT in HG.
      cbn. destruct (g_val G2 x); [eauto|contradiction].
  Qed.
  Lemma use_all_ok : forall l l2 G G2 vs, use_all true l G = Some vs -> Forall2 okA l l2 -> Forall (tracked G) l -> grelP G G2 ->
    exists vs2, force_all l2 G2 = Some vs2 /\ Forall2 vrelP vs vs2.
  Proof.
    intros l l2 G G2 vs E HO. revert vs E. induction HO as [|a a2 l l2 Ha HO IH]; intros vs E HT HG; cbn in *.
    - injection E as <-. exists []. auto.
    - destruct (use true a G) as [v|] eqn:E1; [|discriminate]. destruct (use_all true l G) as [ws|] eqn:E2; [|discriminate].
      injection E as <-. inversion HT; subst.
      destruct (use_ok true a a2 G G2 v eq_refl E1 Ha) as (v2 & -> & R); auto.
      destruct (IH _ eq_refl) as (ws2 & -> & R2); auto. eauto.
  Qed.
  Lemma result_ok : forall r r2 v G, okR r r2 -> fresh (snd r) (fst r) -> result (Some r) = Some (v, G) ->
    exists o2, forced (Some r2) = Some o2 /\ rres crelP selP s_arity (v, G) o2.
  Proof.
    intros (a & G1) (a2 & G2) v G (HO & HG) HF E. cbn in *. injection E as <- <-. destruct a2 as [v2|x]; cbn in *.
    - eexists. split; [reflexivity|]. split; auto.
    - destruct HO as (k & Ek). unfold fresh in HF. rewrite Ek in HF. destruct HF as (_ & HF).
      pose proof HG as (HN & HG'). specialize (HG' x). rewrite HF in HG'. destruct (g_val G2 x) as [v2|]; [|contradiction].
      eexists. split; [reflexivity|]. split; auto.
  Qed.

  Definition sim_n (n : nat) : Prop :=
    forall rho e G r, eval ar true n rho e G = Some r ->
    forall k env st x st' ks rho' phi G2, parse k env st e = Some (x, st') -> n0 <= p_gen st -> src_ok n0 ks e = true ->
    envP env rho rho' -> grelP G G2 -> evt (fun m => ev1 ar m rho' phi x G2) (okR r).

  Lemma args_sim : forall n, sim_n n -> forall rho args G la G', ev_args (eval ar true n rho) args G = Some (la, G') ->
    forall k env st es st' ks rho' phi G2, parse_list (parse k env) st args = Some (es, st') -> n0 <= p_gen st ->
    forallb (src_ok n0 ks) args = true -> envP env rho rho' -> grelP G G2 ->
    evt (fun m => ev_list (ev1 ar m rho' phi) es G2) (fun '(l2, G2') => Forall2 okA la l2 /\ grelP G' G2').
  Proof.
    intros n SIM rho args. induction args as [|e args IH]; intros G la G' E k env st es st' ks rho' phi G2 EP HN HS HE HG; cbn in E.
    - injection E as <- <-. apply parse_list_nil in EP. destruct EP as (-> & _). cbn. apply evt_const. auto.
    - destruct (eval ar true n rho e G) as [(a, G1)|] eqn:E1; [|discriminate].
      destruct (ev_args (eval ar true n rho) args G1) as [(lb, G3)|] eqn:E2; [|discriminate]. injection E as <- <-.
      apply parse_list_app in EP. destruct EP as (x & st1 & es1 & P1 & P2 & ->).
      cbn in HS. apply andb_true_iff in HS as [HS1 HS2]. pose proof (parse_mono _ _ _ _ _ _ P1) as L.
      cbn [ev_list].
      eapply evt_bind with (g := fun m '(a, G) => match ev_list (ev1 ar m rho' phi) es1 G with Some (la, G2') => Some (a :: la, G2') | None => None end);
        [eapply SIM; eauto|].
      intros (a2, G5) (HA & HG5). cbn in HA, HG5.
      eapply evt_bind with (g := fun m '(la, G2') => Some (a2 :: la, G2')); [eapply IH; eauto; lia|].
      intros (l2, G6) (HL & HG6). apply evt_const. auto.
  Qed.

  Lemma forall_binder : forall ps x, forallb (binder_ok n0) ps = true -> In x ps -> prim_of x = None.
  Proof.
    intros ps x H Hx. rewrite forallb_forall in H. specialize (H x Hx). unfold binder_ok in H.
    destruct (prim_of x); [|reflexivity]. rewrite andb_false_r in H. discriminate.
  Qed.

  Theorem parse_sim : forall n, sim_n n.
  Proof.
    induction n as [|n IH]; intros rho e G r E k env st x st' ks rho' phi G2 EP HN HS HE HG; [discriminate|].
    assert (FRC : forall e G1 G2 v G1' k env st x st' ks rho rho' phi, result (eval ar true n rho e G1) = Some (v, G1') ->
       parse k env st e = Some (x, st') -> n0 <= p_gen st -> src_ok n0 ks e = true -> envP env rho rho' -> grelP G1 G2 ->
       evt (fun m => forced (ev1 ar m rho' phi x G2)) (rres crelP selP s_arity (v, G1'))).
    { intros e0 G1 G3 v G1' k0 env0 st0 x0 st0' ks0 rho0 rho0' phi0 E0 P0 N0 S0 H0 HG0.
      destruct (eval ar true n rho0 e0 G1) as [p|] eqn:E1; [|discriminate].
      eapply evt_bind with (g := fun m r => forced (Some r)); [eapply IH; eauto|].
      intros r2 R2. destruct p as (a, G4). destruct (eval_props _ _ _ _ _ _ _ _ E1) as (_ & HF).
      destruct (result_ok _ _ _ _ R2 HF E0) as (o2 & E2 & R3).
      exists o2, 0. split; [exact R3|]. intros. exact E2. }
    assert (RUN : forall c1 c2 vs1 vs2 l1 l2 G1 G2 r,
      vrelP (VClo c1 vs1) (VClo c2 vs2) -> Forall2 vrelP l1 l2 -> List.length l1 = s_arity c1 -> grelP G1 G2 ->
      result (eval ar true n (combine (sc_ps c1) l1 ++ combine (sc_env c1) vs1) (sc_body c1) G1) = Some r ->
      evt (fun m => forced (ev1 ar m (combine (e_ps c2) l2 ++ combine (e_env c2) vs2) vs2 (e_body c2) G2)) (rres crelP selP s_arity r)).
    { clear - FRC. intros c1 c2 vs1 vs2 l1 l2 G1 G2 (v, G1') HV HL HLen HG E.
      inversion HV as [| | | | | | |? ? ? ? HCr HS| |]; subst.
      destruct HCr as (A1 & A2 & A3 & k & env & st & st' & ks & A4 & A5 & A6 & A7).
      eapply FRC; eauto. split.
      - intros x p Hp. rewrite lookup_app, !lookup_combine.
        assert (N1 : index x (sc_ps c1) = None).
        { apply index_none. intro Hx. rewrite (forall_binder _ _ A2 Hx) in Hp. discriminate. }
        assert (N2 : index x (sc_env c1) = None) by (apply index_none; eauto).
        now rewrite N1, N2.
      - intros x Hx. destruct (A7 x Hx) as (B1 & B2). rewrite !lookup_app, !lookup_combine, <- A1.
        destruct (index x (sc_ps c1)) as [i|] eqn:Ei.
        + left. split; [apply in_or_app; left; apply index_in; eauto|].
          assert (Li : i < List.length l1).
          { rewrite HLen. unfold s_arity. apply nth_error_Some. rewrite (index_some _ _ _ Ei). discriminate. }
          destruct (nth_error l1 i) as [w|] eqn:Ew; [|apply nth_error_None in Ew; lia].
          destruct (Forall2_nth _ _ _ HL _ _ Ew) as (w2 & Ew2 & Rw). rewrite Ew2. eauto.
        + destruct (index x (sc_env c1)) as [i|] eqn:Ei2.
          * left. assert (Hin : In x env) by (apply B1; apply index_in; eauto).
            split; [apply in_or_app; now right|].
            apply B2 in Hin. apply index_in in Hin. destruct Hin as (j & Ej).
            destruct (HS i j) as (v1 & v2 & N1 & N2 & R); [exists x; auto|].
            exists v1, v2. rewrite Ej. auto.
          * right. split; [|reflexivity]. intro Hin. apply in_app_or in Hin. destruct Hin as [Hin|Hin].
            -- apply index_none in Ei. contradiction.
            -- apply B1 in Hin. apply index_none in Ei2. contradiction. }
    destruct k as [|k]; [discriminate|]. destruct ks as [|ks]; [discriminate|].
    (* calls *)
    assert (CALL : forall f l a2 l2 G1 G3 r,
      match use true f G1, use_all true l G1 with
        | Some f, Some args =>
            match apply ar s_arity (fun c vs args G => result (eval ar true n (combine (sc_ps c) args ++ combine (sc_env c) vs) (sc_body c) G)) n f args G1 with
            | Some (v, G1) => Some (value v, G1)
            | None => None
            end
        | _, _ => None
        end = Some r ->
      okA f a2 -> tracked G1 f -> Forall2 okA l l2 -> Forall (tracked G1) l -> grelP G1 G3 ->
      evt (fun m => match force a2 G3, force_all l2 G3 with
           | Some f, Some vs =>
               match apply ar e_arity (fun c vs args G => forced (ev1 ar m (combine (e_ps c) args ++ combine (e_env c) vs) vs (e_body c) G)) m f vs G3 with
               | Some (v, G3) => Some (AVal v, G3) | None => None end
           | _, _ => None end) (okR r)).
    { intros f l a2 l2 G1 G3 r0 E0 HF TF HL TL HG0.
      destruct (use true f G1) as [fv|] eqn:E1; [|discriminate]. destruct (use_all true l G1) as [vs|] eqn:E2; [|discriminate].
      destruct (use_ok true _ _ _ _ _ eq_refl E1 HF TF HG0) as (fv2 & -> & RF).
      destruct (use_all_ok _ _ _ _ _ E2 HL TL HG0) as (vs2 & -> & RV).
      match type of E0 with match ?X with _ => _ end = _ => destruct X as [(v, G5)|] eqn:E5; [|discriminate] end.
      injection E0 as <-.
      eapply evt_bind with (g := fun m '(v, G3) => Some (AVal v, G3)).
      { eapply apply_rel with (run2 := fun m c vs args G => forced (ev1 ar m (combine (e_ps c) args ++ combine (e_env c) vs) vs (e_body c) G));
          [exact crelP_arity|exact RUN|exact RF|exact RV|exact HG0|exact E5]. }
      intros (v2, G7) (R1 & R2). apply evt_const. split; auto. }
    change (fun c : scode => List.length (sc_ps c)) with s_arity in *.
    cbn [eval] in E. cbn [parse] in EP. cbn [src_ok] in HS.
    destruct e as [z|y|s| | | |e1 e2];
      cbn [view] in E, HS;
      try (injection EP as <- <-; injection E as <-; eexists; exists 1; split;
           [|intros [|m] Lm; [lia|reflexivity]]; split; [cbn [fst okA value a_val]; first [apply quoted_rel | constructor]|exact HG]).
    - (* symbol *)
      cbn [view] in *. destruct HE as (HN1 & HE). destruct (HE y HS) as [(A & v & v' & B1 & B2 & B3)|(A & B)].
      + destruct (mem_spec y env); [|contradiction]. injection EP as <- <-. rewrite B1 in E. injection E as <-.
        apply evt_now with (a := (AVal v', G2)); [split; auto|]. intro m. cbn. now rewrite B2.
      + destruct (mem_spec y env); [contradiction|]. injection EP as <- <-. rewrite B in E.
        destruct (g_val G y) as [v|] eqn:Ev; [|discriminate]. injection E as <-.
        apply evt_now with (a := (AGlob y, G2)); [|reflexivity]. split; [|exact HG]. cbn. eauto.
    - cbn [view] in *. destruct (slist (SCons e1 e2)) as [[|h l]|] eqn:Esl; try discriminate.
      destruct (is_sym "quote" h).
      { destruct l as [|c [|? ?]]; try discriminate. injection EP as <- <-. injection E as <-.
        apply evt_now with (a := (AVal (quoted c), G2)); [split; [exact (quoted_rel crelP selP s_arity c)|exact HG]|reflexivity]. }
      destruct (is_sym "lambda" h).
      { destruct l as [|ps [|b [|? ?]]]; try discriminate. unfold names_of in EP.
        destruct (slist ps) as [lp|]; [|discriminate]. destruct (symbols lp) as [xs|]; [|discriminate].
        destruct (existsb reserved xs); [discriminate|].
        destruct (parse k (xs ++ env) st b) as [(eb, st1)|] eqn:E1; [|discriminate]. injection EP as <- <-. injection E as <-.
        apply andb_true_iff in HS as [HS1 HS2].
        apply evt_now with (a := (AVal (VClo (mkE xs eb (map fst rho')) (map snd rho')), G2)); [|reflexivity].
        split; [|exact HG]. cbn. destruct HE as (HN1 & HE). constructor.
        - split; [reflexivity|]. split; [exact HS1|]. cbn. split.
          + intros y p Hp Hy. apply in_lookup in Hy. destruct Hy as (v & Hv). rewrite (HN1 _ _ Hp) in Hv. discriminate.
          + exists k, env, st, st1, ks. repeat split; auto.
            * intro Hy. destruct (HE x H) as [(A & v & v' & B1 & B2 & B3)|(A & B)]; [|contradiction]. eapply lookup_in; eauto.
            * intro Hy. destruct (HE x H) as [(A & v & v' & B1 & B2 & B3)|(A & B)]; [exact A|].
              apply in_lookup in Hy. destruct Hy as (v & Hv). congruence.
            * intro Hy. destruct (HE x H) as [(A & v & v' & B1 & B2 & B3)|(A & B)]; [|contradiction]. eapply lookup_in; eauto.
        - intros i j (y & Hy & Hi & Hj). cbn in Hi, Hj.
          destruct (HE y Hy) as [(A & v & v' & B1 & B2 & B3)|(A & B)].
          + exists v, v'. rewrite <- (combine_fst_snd rho), lookup_combine, Hi in B1.
            rewrite <- (combine_fst_snd rho'), lookup_combine, Hj in B2. auto.
          + exfalso. assert (Q : In y (map fst rho)) by (apply index_in; eauto). apply in_lookup in Q. destruct Q. congruence. }
      destruct (is_sym "if" h).
      { destruct l as [|c [|a [|b [|? ?]]]]; try discriminate.
        apply andb_true_iff in HS as [HS HS3]. apply andb_true_iff in HS as [HS1 HS2].
        destruct (result (eval ar true n rho c G)) as [(t, G1)|] eqn:Ec; [|discriminate].
        destruct (headed "if" c).
        - (* through a local function *)
          set (i := p_gen st) in *. set (j := S i) in *.
          apply parse_nested_if in EP.
          destruct EP as (k1 & k2 & ea & eb & ec & st1 & st2 & P1 & P2 & P3 & ->).
          pose proof (parse_mono _ _ _ _ _ _ P1) as L1. pose proof (parse_mono _ _ _ _ _ _ P2) as L2.
          cbn [p_gen] in L1.
          set (F := @VClo ecode (mkE [NG j] (EIf (EVar (NG j)) ea eb) (map fst rho')) (map snd rho')).
          assert (HC : evt (fun m => forced (ev1 ar m ((NG i, F) :: rho') phi ec G2)) (rres crelP selP s_arity (t, G1))).
          { eapply FRC; [exact Ec|exact P3| |exact HS1| |exact HG].
            - subst i j. lia.
            - apply envP_gen; [subst i; lia|exact HE]. }
          destruct HC as ((t2, G3) & m1 & (RT & HG3) & K1). cbn in RT, HG3.
          assert (BR : evt (fun m => ev1 ar m ((NG j, t2) :: rho') (map snd rho') (if match t2 with VTrue => true | _ => false end then ea else eb) G3) (okR r)).
          { assert (HE' : envP (NG j :: env) rho ((NG j, t2) :: rho')) by (apply envP_gen; [subst j; lia|exact HE]).
            destruct RT; (eapply IH; [exact E| | | |exact HE'|exact HG3]); try exact P1; try exact P2; try eassumption; cbn [p_gen]; subst i j; lia. }
          destruct BR as ((a2, G4) & m2 & BR & K2).
          (* the value the local function returns *)
          assert (FR : fresh (snd r) (fst r)) by (destruct r as (ra, rG); cbn; destruct t; eapply eval_props; exact E).
          destruct r as (ra, rG). cbn in FR.
          destruct (result_ok (ra, rG) (a2, G4) _ _ BR FR eq_refl) as ((v2, G5) & Ev2 & (R1 & R2)). cbn in R1, R2.
          exists (AVal v2, G5), (8 + m1 + m2). split; [split; auto|].
          intros m' Lm. destruct m' as [|[|[|[|m']]]]; try lia. cbv beta.
          change (ev1 ar (S (S (S (S m')))) rho' phi (ELet (NG i) (ELam [NG j] (EIf (EVar (NG j)) ea eb)) (EApp (EVar (NG i)) [ec])) G2)
            with (ev1 ar (S (S (S m'))) ((NG i, F) :: rho') phi (EApp (EVar (NG i)) [ec]) G2).
          assert (Q : ev1 ar (S (S (S m'))) ((NG i, F) :: rho') phi (EApp (EVar (NG i)) [ec]) G2 =
             match match ev1 ar (S (S m')) ((NG i, F) :: rho') phi ec G2 with Some (a, G) => Some ([a], G) | None => None end with
             | Some (l, G2) =>
                  match force_all l G2 with
                  | Some vs =>
                      match apply ar e_arity (fun c vs args G => forced (ev1 ar (S (S m')) (combine (e_ps c) args ++ combine (e_env c) vs) vs (e_body c) G)) (S (S m')) F vs G2 with
                      | Some (v, G3) => Some (AVal v, G3)
                      | None => None
                      end
                  | _ => None
                  end
              | None => None
              end).
          { cbn [ev1 lookup]. rewrite name_eqb_refl. reflexivity. }
          rewrite Q. clear Q. specialize (K1 (S (S m')) ltac:(lia)).
          destruct (ev1 ar (S (S m')) ((NG i, F) :: rho') phi ec G2) as [(ac, G6)|]; [|discriminate].
          cbn [forced] in K1. destruct (force ac G6) as [tc|] eqn:Efc; [|discriminate]. injection K1 as -> ->.
          cbn [force_all]. rewrite Efc.
          assert (Q : forced (ev1 ar (S (S m')) ((NG j, t2) :: rho') (map snd rho') (EIf (EVar (NG j)) ea eb) G3) = Some (v2, G5)).
          { rewrite <- Ev2. rewrite <- (K2 (S m')) by lia.
            assert (Q : ev1 ar (S (S m')) ((NG j, t2) :: rho') (map snd rho') (EIf (EVar (NG j)) ea eb) G3 =
              match t2 with VTrue => ev1 ar (S m') ((NG j, t2) :: rho') (map snd rho') ea G3
                          | _ => ev1 ar (S m') ((NG j, t2) :: rho') (map snd rho') eb G3 end).
            { remember (S m') as q eqn:Eq. cbn [ev1]. subst q. cbn [ev1 lookup]. rewrite name_eqb_refl. cbn [forced force]. reflexivity. }
            rewrite Q. destruct t2; reflexivity. }
          cbn [apply need e_arity e_ps List.length F]. cbn [firstn skipn exact e_env e_body e_ps combine app Nat.ltb Nat.leb F].
          rewrite combine_fst_snd, Q. reflexivity.
        - destruct (parse_list (parse k env) st [c; a; b]) as [(es, st1)|] eqn:E1; [|discriminate].
          apply parse_list_app in E1. destruct E1 as (x1 & s1 & es1 & A1 & E1 & ->).
          apply parse_list_app in E1. destruct E1 as (x2 & s2 & es2 & A2 & E1 & ->).
          apply parse_list_app in E1. destruct E1 as (x3 & s3 & es3 & A3 & E1 & ->).
          apply parse_list_nil in E1. destruct E1 as (-> & ->). injection EP as <- <-.
          pose proof (parse_mono _ _ _ _ _ _ A1) as L1. pose proof (parse_mono _ _ _ _ _ _ A2) as L2.
          apply evt_S. cbn [ev1].
          eapply evt_bind with (g := fun m '(v, G1) => match v with VTrue => ev1 ar m rho' phi x2 G1 | _ => ev1 ar m rho' phi x3 G1 end).
          { eapply FRC; eauto. }
          intros (t2, G3) (HT & HG3). cbn in HT, HG3.
          destruct HT; (eapply IH; [exact E| | | |exact HE|exact HG3]); try exact A2; try exact A3; try eassumption; lia. }
      destruct (is_sym "do" h).
      { destruct l as [|a [|b [|? ?]]]; try discriminate.
        apply andb_true_iff in HS as [HS1 HS2].
        destruct (result (eval ar true n rho a G)) as [(t, G1)|] eqn:Ec; [|discriminate].
        destruct (parse_list (parse k env) st [a; b]) as [(es, st1)|] eqn:E1; [|discriminate].
        apply parse_list_app in E1. destruct E1 as (x1 & s1 & es1 & A1 & E1 & ->).
        apply parse_list_app in E1. destruct E1 as (x2 & s2 & es2 & A2 & E1 & ->).
        apply parse_list_nil in E1. destruct E1 as (-> & ->). injection EP as <- <-.
        pose proof (parse_mono _ _ _ _ _ _ A1) as L1.
        apply evt_S. cbn [ev1].
        eapply evt_bind with (g := fun m '(_, G1) => ev1 ar m rho' phi x2 G1).
        { eapply FRC; eauto. }
        intros (t2, G3) (HT & HG3). cbn in HT, HG3. eapply IH; eauto. lia. }
      destruct (is_sym "let" h).
      { destruct l as [|y [|b [|c [|? ?]]]]; try discriminate; destruct y; try discriminate.
        apply andb_true_iff in HS as [HS HS3]. apply andb_true_iff in HS as [HS1 HS2].
        destruct (reserved x0); [discriminate|].
        destruct (parse k env st b) as [(eb, st1)|] eqn:E1; [|discriminate].
        destruct (parse k (x0 :: env) st1 c) as [(ec, st2)|] eqn:E2; [|discriminate]. injection EP as <- <-.
        destruct (result (eval ar true n rho b G)) as [(t, G1)|] eqn:Ec; [|discriminate].
        pose proof (parse_mono _ _ _ _ _ _ E1) as L1.
        apply evt_S. cbn [ev1].
        eapply evt_bind with (g := fun m '(v, G1) => ev1 ar m ((x0, v) :: rho') phi ec G1).
        { eapply FRC; eauto. }
        intros (t2, G3) (HT & HG3). cbn in HT, HG3. eapply IH; [exact E|exact E2|lia|exact HS3| |exact HG3].
        now apply envP_bind. }
      (* application *)
      apply andb_true_iff in HS as [HS1 HS2].
      destruct (headed "lambda" h && match l with [a] => headed "if" a | _ => false end) eqn:EH.
      { (* a redex whose argument is an if *)
        apply andb_true_iff in EH as [EH1 EH2].
        assert (OP : op_prim rho h = None) by (destruct h; try reflexivity; discriminate).
        rewrite OP in E.
        destruct (eval ar true n rho h G) as [(a, G1)|] eqn:E1; [|discriminate].
        destruct (ev_args (eval ar true n rho) l G1) as [(la, G3)|] eqn:E2; [|discriminate].
        assert (HS1' : src_ok n0 ks h = true) by (destruct h; try discriminate; exact HS1).
        set (i := p_gen st) in *.
        apply parse_redex_if in EP. destruct EP as (k1 & k2 & eh & st1 & es & P1 & P2 & ->).
        pose proof (parse_mono _ _ _ _ _ _ P1) as L1. cbn [p_gen] in L1.
        destruct (eval_props _ _ _ _ _ _ _ _ E1) as (Gr1 & Fr1).
        destruct (ev_args_props _ _ _ _ _ _ _ _ E2) as (Gr2 & Tr2).
        assert (HF : evt (fun m => forced (ev1 ar m rho' phi eh G2)) (rres crelP selP s_arity (a_val a, G1))).
        { eapply FRC; [rewrite E1; reflexivity|exact P1|cbn [p_gen]; lia|exact HS1'|exact HE|exact HG]. }
        apply evt_S. cbn [ev1].
        eapply evt_bind with (g := fun m '(v, G1) => ev1 ar m ((NG i, v) :: rho') phi (EApp (EVar (NG i)) es) G1); [exact HF|].
        intros (f2, G4) (RF & HG4). cbn in RF, HG4.
        assert (HA : evt (fun m => ev_list (ev1 ar m ((NG i, f2) :: rho') phi) es G4) (fun '(l2, G2') => Forall2 okA la l2 /\ grelP G3 G2')).
        { eapply args_sim; [exact IH|exact E2|exact P2|subst i; lia|exact HS2| |exact HG4]. apply envP_gen; [exact HN|exact HE]. }
        (* the operator is a variable read at once *)
        apply evt_S. apply evt_S.
        apply evt_ext with (f := fun m =>
             match ev_list (ev1 ar (S m) ((NG i, f2) :: rho') phi) es G4 with
             | Some (l, G2) =>
                  match force (AVal f2) G2, force_all l G2 with
                  | Some f, Some vs =>
                      match apply ar e_arity (fun c vs args G => forced (ev1 ar (S m) (combine (e_ps c) args ++ combine (e_env c) vs) vs (e_body c) G)) (S m) f vs G2 with
                      | Some (v, G3) => Some (AVal v, G3)
                      | None => None
                      end
                  | _, _ => None
                  end
              | None => None
              end).
        { intro m. remember (S m) as q eqn:Eq. cbn [ev1]. subst q.
          replace (ev1 ar (S m) ((NG i, f2) :: rho') phi (EVar (NG i)) G4) with (Some (AVal f2, G4)).
          - reflexivity.
          - cbn [ev1 lookup]. now rewrite name_eqb_refl. }
        apply (evt_S_inv (fun m => match ev_list (ev1 ar m ((NG i, f2) :: rho') phi) es G4 with
             | Some (l, G2) =>
                  match force (AVal f2) G2, force_all l G2 with
                  | Some f, Some vs =>
                      match apply ar e_arity (fun c vs args G => forced (ev1 ar m (combine (e_ps c) args ++ combine (e_env c) vs) vs (e_body c) G)) m f vs G2 with
                      | Some (v, G3) => Some (AVal v, G3)
                      | None => None
                      end
                  | _, _ => None
                  end
              | None => None
              end)).
        eapply evt_bind with (g := fun m '(l, G2) => match force (AVal f2) G2, force_all l G2 with
                  | Some f, Some vs =>
                      match apply ar e_arity (fun c vs args G => forced (ev1 ar m (combine (e_ps c) args ++ combine (e_env c) vs) vs (e_body c) G)) m f vs G2 with
                      | Some (v, G3) => Some (AVal v, G3)
                      | None => None
                      end
                  | _, _ => None
                  end); [exact HA|].
        intros (l2, G6) (HL & HG6). eapply CALL; [exact E|exact RF| |exact HL|exact Tr2|exact HG6].
        eapply tracked_grows; [exact Gr2|]. now apply fresh_tracked. }
      destruct (match h with SSym s => prim_of s | _ => None end) as [p|] eqn:EPr.
      { (* primitive *)
        assert (OP : op_prim rho h = Some p).
        { destruct h; try discriminate. cbn. destruct HE as (HN1 & _). now rewrite (HN1 _ _ EPr). }
        rewrite OP in E. destruct (ev_args (eval ar true n rho) l G) as [(la, G3)|] eqn:E2; [|discriminate].
        rewrite HS1 in EP. destruct (parse_list (parse k env) st l) as [(es, st1)|] eqn:P2; [|discriminate]. injection EP as <- <-.
        destruct (ev_args_props _ _ _ _ _ _ _ _ E2) as (Gr2 & Tr2).
        apply evt_S. cbn [ev1].
        eapply evt_bind with (g := fun m '(l, G1) => match force_all l G1 with Some vs => match prim_sem ar p vs G1 with Some (v, G2) => Some (AVal v, G2) | None => None end | None => None end).
        { eapply args_sim; [exact IH|exact E2|exact P2|exact HN|exact HS2|exact HE|exact HG]. }
        intros (l2, G6) (HL & HG6). cbn [use value a_from a_val] in E.
        destruct (use_all true la G3) as [vs|] eqn:Eu; [|discriminate].
        destruct (use_all_ok _ _ _ _ _ Eu HL Tr2 HG6) as (vs2 & -> & RV).
        match type of E with match ?X with _ => _ end = _ => destruct X as [(v, G5)|] eqn:E5; [|discriminate] end.
        injection E as <-.
        assert (LV : List.length vs = prim_arity p).
        { apply Nat.eqb_eq in HS1. rewrite HS1. clear - E2 Eu.
          assert (L1 : List.length la = List.length l).
          { revert G la G3 E2 Eu. induction l as [|e l IHl]; intros G la G3 E2 Eu; cbn in E2; [injection E2 as <- <-; reflexivity|].
            destruct (eval ar true n rho e G) as [(b, G2)|]; [|discriminate].
            destruct (ev_args (eval ar true n rho) l G2) as [(lb, G4)|] eqn:E3; [|discriminate]. injection E2 as <- <-.
            cbn in Eu |- *. destruct (use true b G4); [|discriminate]. destruct (use_all true lb G4) eqn:E4; [|discriminate].
            f_equal. clear Eu. revert E3 E4. intros E3 E4. assert (vs = vs) by reflexivity. 
            clear - IHl E3 E4. assert (Z : forall v, use_all true lb G4 = Some v -> List.length v = List.length lb).
            { clear. induction lb as [|a lb IH]; intros v E; cbn in E; [injection E as <-; reflexivity|].
              destruct (use true a G4); [|discriminate]. destruct (use_all true lb G4); [|discriminate]. injection E as <-. cbn. f_equal. auto. }
            clear Z. revert IHl. intro IHl.
            assert (W : forall G lb G4, ev_args (eval ar true n rho) l G = Some (lb, G4) -> List.length lb = List.length l).
            { clear. induction l as [|e l IH]; intros G lb G4 E; cbn in E; [injection E as <- <-; reflexivity|].
              destruct (eval ar true n rho e G) as [(b, G2)|]; [|discriminate].
              destruct (ev_args (eval ar true n rho) l G2) as [(lc, G5)|] eqn:E3; [|discriminate]. injection E as <- <-. cbn. f_equal. eauto. }
            eauto. }
          rewrite <- L1. clear - Eu. revert vs Eu. induction la as [|a la IH]; intros vs E; cbn in E; [injection E as <-; reflexivity|].
          destruct (use true a G3); [|discriminate]. destruct (use_all true la G3); [|discriminate]. injection E as <-. cbn. f_equal. auto. }
        destruct n as [|n']; [discriminate|]. cbn [apply need] in E5.
        rewrite LV in E5. rewrite Nat.ltb_irrefl in E5. cbn [exact] in E5.
        rewrite <- LV, firstn_all, skipn_all in E5.
        destruct (prim_sem ar p vs G3) as [(w, G7)|] eqn:E6; [|discriminate]. injection E5 as -> ->.
        destruct (prim_rel _ _ _ _ _ _ _ _ _ _ _ RV HG6 E6) as ((v2, G8) & -> & (R1 & R2)).
        apply evt_const. split; auto. }
      (* ordinary call *)
      assert (OP : op_prim rho h = None).
      { destruct h; try reflexivity. cbn. destruct (lookup x0 rho); [reflexivity|exact EPr]. }
      rewrite OP in E.
      destruct (eval ar true n rho h G) as [(a, G1)|] eqn:E1; [|discriminate].
      destruct (ev_args (eval ar true n rho) l G1) as [(la, G3)|] eqn:E2; [|discriminate].
      destruct (parse_list (parse k env) st (h :: l)) as [(es, st1)|] eqn:P2; [|discriminate].
      apply parse_list_app in P2. destruct P2 as (eh & s1 & es1 & P1 & P2 & ->). injection EP as <- <-.
      pose proof (parse_mono _ _ _ _ _ _ P1) as L1.
      destruct (eval_props _ _ _ _ _ _ _ _ E1) as (Gr1 & Fr1).
      destruct (ev_args_props _ _ _ _ _ _ _ _ E2) as (Gr2 & Tr2).
      apply evt_S. cbn [ev1].
      eapply evt_bind with (g := fun m '(a, G1) =>
         match ev_list (ev1 ar m rho' phi) es1 G1 with
         | Some (l, G2) =>
             match force a G2, force_all l G2 with
             | Some f, Some vs =>
                 match apply ar e_arity (fun c vs args G => forced (ev1 ar m (combine (e_ps c) args ++ combine (e_env c) vs) vs (e_body c) G)) m f vs G2 with
                 | Some (v, G3) => Some (AVal v, G3) | None => None end
             | _, _ => None
             end
         | None => None
         end).
      { eapply IH; eauto. }
      intros (a2, G4) (HA & HG4). cbn in HA, HG4.
      eapply evt_bind with (g := fun m '(l, G2) =>
             match force a2 G2, force_all l G2 with
             | Some f, Some vs =>
                 match apply ar e_arity (fun c vs args G => forced (ev1 ar m (combine (e_ps c) args ++ combine (e_env c) vs) vs (e_body c) G)) m f vs G2 with
                 | Some (v, G3) => Some (AVal v, G3) | None => None end
             | _, _ => None
             end).
      { eapply args_sim; [exact IH|exact E2|exact P2|lia|exact HS2|exact HE|exact HG4]. }
      intros (l2, G6) (HL & HG6). eapply CALL; [exact E|exact HA| |exact HL|exact Tr2|exact HG6].
      eapply tracked_grows; [exact Gr2|]. now apply fresh_tracked.
  Qed.
End Sim.
