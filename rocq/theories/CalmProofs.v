(** Assignments and the use of operands: proofs. *)
From Coq Require Import List ZArith Bool String Arith Lia.
From Verif Require Import CoreSpec CoreProofs TocWhole CalmSpec.
Import ListNotations.
Local Open Scope list_scope.
Local Open Scope nat_scope.

Lemma named_in : forall x l, named x l = true <-> In x l.
Proof.
  intros x l. unfold named. rewrite existsb_exists. split.
  - intros (y & H & E). destruct (name_eqb_spec x y); [congruence|discriminate].
  - intro H. exists x. split; [exact H|apply name_eqb_refl].
Qed.

(** * Values without set *)
Section Values.
  Context {C : Type} (ar : arith) (arity : C -> nat) (good : C -> Prop) (S : list name).
  Inductive safe : val C -> Prop :=
  | sa_num z : safe (VNum z) | sa_sym x : safe (VSym x) | sa_str s : safe (VStr s)
  | sa_true : safe VTrue | sa_false : safe VFalse | sa_nil : safe VNil
  | sa_cons a d : safe a -> safe d -> safe (VCons a d)
  | sa_clo c vs : good c -> Forall safe vs -> safe (VClo c vs)
  | sa_pap f args : safe f -> Forall safe args -> safe (VPap f args)
  | sa_prim p : p <> PSet -> safe (VPrim p).
  Definition safe_store (G : store C) : Prop := forall x v, x <> NS "set" -> g_val G x = Some v -> safe v.
  (** only variables of [S] have been set *)
  Definition keeps (G G' : store C) : Prop := forall x, ~ In x S -> g_ver G' x = g_ver G x.
  Definition fresh (a : opnd C) (G : store C) : Prop := forall x k, a_from a = Some (x, k) -> g_ver G x = k.
  Lemma keeps_refl : forall G, keeps G G.
  Proof. intros G x _. reflexivity. Qed.
  Lemma keeps_trans : forall G1 G2 G3, keeps G1 G2 -> keeps G2 G3 -> keeps G1 G3.
  Proof. intros G1 G2 G3 H1 H2 x H. rewrite H2, H1; auto. Qed.
  Lemma fresh_value : forall v G, fresh (value v) G.
  Proof. intros v G x k H. discriminate. Qed.
  Lemma fresh_use : forall a G strict, fresh a G -> use strict a G = Some (a_val a).
  Proof.
    intros a G strict H. unfold use. destruct (a_from a) as [[x k]|] eqn:E; [|reflexivity]. rewrite (H _ _ E), Nat.eqb_refl. now destruct strict.
  Qed.
  Lemma fresh_uses : forall l G strict, Forall (fun a => fresh a G) l -> use_all strict l G = Some (map a_val l).
  Proof. induction 1; [reflexivity|]. cbn. rewrite fresh_use by assumption. now rewrite IHForall. Qed.
  Lemma lax_use : forall (a : opnd C) G, use false a G = Some (a_val a).
  Proof. intros a G. unfold use. now destruct (a_from a) as [[x k]|]. Qed.
  Lemma lax_uses : forall (l : list (opnd C)) G, use_all false l G = Some (map a_val l).
  Proof. induction l as [|a l IH]; intro G; [reflexivity|]. cbn. now rewrite lax_use, IH. Qed.
  Lemma safe_quoted : forall s, safe (quoted s).
  Proof. induction s; cbn; constructor; auto. Qed.
  Lemma safe_bool : forall b : bool, safe (of_bool b).
  Proof. intros []; constructor. Qed.

  Lemma safe_prim : forall p args G v G', p <> PSet -> Forall safe args -> safe_store G -> prim_sem ar p args G = Some (v, G') ->
    safe v /\ safe_store G' /\ keeps G G'.
  Proof.
    intros p args G v G' NP FA SG E.
    assert (X : forall w, Some (w, G) = Some (v, G') -> safe w -> safe v /\ safe_store G' /\ keeps G G').
    { intros w Ew Sw. injection Ew as <- <-. split; [exact Sw|]. split; [exact SG|apply keeps_refl]. }
    destruct p; try congruence; cbn in E;
      repeat match type of E with context [match ?a with _ => _ end] => destruct a eqn:?; try discriminate end;
      try (eapply X; [exact E|]); try apply safe_bool; try constructor;
      repeat match goal with H : Forall _ (_ :: _) |- _ => inversion H; subst; clear H end; auto;
      repeat match goal with H : safe (VCons _ _) |- _ => inversion H; subst; clear H end; auto.
    - injection E as <- <-. constructor.
    - injection E as <- <-. split; [exact SG|]. intros x _. reflexivity.
  Qed.

  (** a call *)
  Section Call.
    Variable runf runt : C -> list (val C) -> list (val C) -> store C -> option (val C * store C).
    Hypothesis RUN : forall c vs args G v G', good c -> Forall safe vs -> Forall safe args -> safe_store G -> runf c vs args G = Some (v, G') ->
      runt c vs args G = Some (v, G') /\ safe v /\ safe_store G' /\ keeps G G'.
    Lemma safe_exact : forall f args G v G', safe f -> Forall safe args -> safe_store G -> exact ar runf f args G = Some (v, G') ->
      exact ar runt f args G = Some (v, G') /\ safe v /\ safe_store G' /\ keeps G G'.
    Proof.
      induction f; intros l G w G' SF SA SG E; cbn in E |- *; try discriminate; inversion SF; subst.
      - eapply RUN; eauto.
      - eapply IHf; eauto. apply Forall_app. auto.
      - split; [exact E|]. eapply safe_prim; eauto.
    Qed.
    Lemma forall_firstn : forall (P : val C -> Prop) k l, Forall P l -> Forall P (firstn k l).
    Proof. intros P k l H. rewrite <- (firstn_skipn k l) in H. now apply Forall_app in H. Qed.
    Lemma forall_skipn : forall (P : val C -> Prop) k l, Forall P l -> Forall P (skipn k l).
    Proof. intros P k l H. rewrite <- (firstn_skipn k l) in H. now apply Forall_app in H. Qed.
    Lemma safe_apply : forall n f args G v G', safe f -> Forall safe args -> safe_store G -> apply ar arity runf n f args G = Some (v, G') ->
      apply ar arity runt n f args G = Some (v, G') /\ safe v /\ safe_store G' /\ keeps G G'.
    Proof.
      induction n as [|n IH]; intros f args G v G' SF SA SG E; cbn [apply] in E |- *; [discriminate|].
      destruct (need arity f) as [rq|]; [|discriminate]. destruct (List.length args <? rq).
      - injection E as <- <-. split; [reflexivity|]. split; [destruct args; [exact SF|now constructor]|]. split; [exact SG|apply keeps_refl].
      - destruct (exact ar runf f (firstn rq args) G) as [(v1, G1)|] eqn:E1; [|discriminate].
        destruct (safe_exact f _ G v1 G1 SF (forall_firstn _ _ _ SA) SG E1) as (E2 & S1 & S2 & K). rewrite E2.
        destruct (skipn rq args) as [|w l] eqn:ES.
        + injection E as <- <-. auto.
        + assert (SL : Forall safe (w :: l)) by (rewrite <- ES; now apply forall_skipn).
          destruct (IH v1 (w :: l) G1 v G' S1 SL S2 E) as (E3 & S3 & S4 & K2). split; [exact E3|]. split; [exact S3|]. split; [exact S4|]. eapply keeps_trans; eauto.
    Qed.
  End Call.
End Values.

(** * Core programs *)
Section Core.
  Variable ar : arith.
  Variable S : list name.
  Definition good_code (c : scode) : Prop := exists ks, calm ks S (sc_body c) = true.
  Notation ssafe := (safe good_code).
  Notation gsafe := (safe_store good_code).
  Definition esafe (rho : senv) : Prop := Forall ssafe (map snd rho).

  Definition calm_run n : Prop := forall ks e rho G a G', calm ks S e = true -> esafe rho -> gsafe G -> eval ar false n rho e G = Some (a, G') ->
    eval ar true n rho e G = Some (a, G') /\ ssafe (a_val a) /\ gsafe G' /\ keeps S G G' /\ fresh a G' /\
    (forall x k, a_from a = Some (x, k) -> In x (tails ks e)) /\ (trivial e = true -> G' = G).

  Lemma calm_args : forall n, calm_run n -> forall k l rho G la G', forallb (calm k S) l = true -> steady k S l = true -> esafe rho -> gsafe G ->
    ev_args (eval ar false n rho) l G = Some (la, G') ->
    ev_args (eval ar true n rho) l G = Some (la, G') /\ Forall ssafe (map a_val la) /\ gsafe G' /\ keeps S G G' /\ Forall (fun a => fresh a G') la /\
    (forallb trivial l = true -> G' = G).
  Proof.
    intros n IH k. induction l as [|e l IHl]; intros rho G la G' HC HS HR HG E; cbn in E |- *.
    - injection E as <- <-. repeat split; auto using keeps_refl; constructor.
    - cbn in HC, HS. apply andb_true_iff in HC as (HC1 & HC2). apply andb_true_iff in HS as (HS1 & HS2).
      destruct (eval ar false n rho e G) as [(a, G1)|] eqn:E1; [|discriminate].
      destruct (ev_args (eval ar false n rho) l G1) as [(la1, G2)|] eqn:E2; [|discriminate]. injection E as <- <-.
      destruct (IH k e rho G a G1 HC1 HR HG E1) as (A1 & A2 & A3 & A4 & A5 & A6 & A7).
      destruct (IHl rho G1 la1 G2 HC2 HS2 HR A3 E2) as (B1 & B2 & B3 & B4 & B5 & B6).
      rewrite A1, B1. split; [reflexivity|]. split; [now constructor|]. split; [exact B3|]. split; [eapply keeps_trans; eauto|]. split.
      + constructor; [|exact B5]. intros x j F. apply orb_true_iff in HS1 as [T|T].
        * rewrite (B6 T). now apply A5.
        * rewrite forallb_forall in T. specialize (T x (A6 _ _ F)). rewrite B4; [now apply A5|]. intro I. apply named_in in I. now rewrite I in T.
      + intro T. apply andb_true_iff in T as (T1 & T2). rewrite (B6 T2). now apply A7.
  Qed.

  Lemma esafe_lookup : forall rho x v, esafe rho -> lookup x rho = Some v -> ssafe v.
  Proof.
    induction rho as [|(y, w) rho IH]; intros x v H E; [discriminate|]. inversion H; subst. cbn in E.
    destruct (name_eqb x y); [injection E as <-; assumption|]. eapply IH; eauto.
  Qed.
  Lemma esafe_combine : forall ps (vs : list sval), Forall ssafe vs -> esafe (combine ps vs).
  Proof.
    induction ps as [|p ps IH]; intros [|v vs] H; try constructor; inversion H; subst; [assumption|]. now apply IH.
  Qed.
  Lemma esafe_app : forall r1 r2, esafe r1 -> esafe r2 -> esafe (r1 ++ r2).
  Proof. intros r1 r2 H1 H2. unfold esafe. rewrite map_app. now apply Forall_app. Qed.
  Lemma assigned_inv : forall f args x v, assigned f args = Some (x, v) -> f = SSym (NS "set") /\ exists q, args = [q; v] /\ view q = FConst (SSym x).
  Proof.
    intros f args x v H. unfold assigned in H. destruct (is_sym "set" f) eqn:E; [|discriminate]. destruct args as [|q [|e [|]]]; try discriminate.
    destruct (view q) eqn:V; try discriminate. destruct s; try discriminate. injection H as <- <-. split; [|eauto].
    destruct f; try discriminate. cbn in E. now destruct (name_eqb_spec x (NS "set")); subst.
  Qed.
  Lemma gsafe_set : forall G x v, gsafe G -> ssafe v -> gsafe (g_set G x v).
  Proof. intros G x v HG HV y w N E. cbn in E. destruct (name_eqb y x); [congruence|]. eapply HG; eauto. Qed.

  Lemma run_safe : forall n, calm_run n -> forall c vs args G v G', good_code c -> Forall ssafe vs -> Forall ssafe args -> gsafe G ->
    result (eval ar false n (combine (sc_ps c) args ++ combine (sc_env c) vs) (sc_body c) G) = Some (v, G') ->
    result (eval ar true n (combine (sc_ps c) args ++ combine (sc_env c) vs) (sc_body c) G) = Some (v, G') /\ ssafe v /\ gsafe G' /\ keeps S G G'.
  Proof.
    intros n IH c vs args G v G' (ks & HC) HV HA HG E. destruct (eval ar false n _ _ G) as [(a, G1)|] eqn:E1; [|discriminate]. injection E as <- <-.
    destruct (IH ks _ (combine (sc_ps c) args ++ combine (sc_env c) vs) G a G1 HC ltac:(auto using esafe_app, esafe_combine) HG E1) as (A1 & A2 & A3 & A4 & _). rewrite A1. auto.
  Qed.
  Lemma call_safe : forall n, calm_run n -> forall m f l G v G', ssafe f -> Forall ssafe l -> gsafe G ->
    apply ar (fun c => List.length (sc_ps c)) (fun c vs args G => result (eval ar false n (combine (sc_ps c) args ++ combine (sc_env c) vs) (sc_body c) G)) m f l G = Some (v, G') ->
    apply ar (fun c => List.length (sc_ps c)) (fun c vs args G => result (eval ar true n (combine (sc_ps c) args ++ combine (sc_env c) vs) (sc_body c) G)) m f l G = Some (v, G') /\
    ssafe v /\ gsafe G' /\ keeps S G G'.
  Proof. intros n IH m f l G v G' SF SL SG E. eapply safe_apply; eauto. intros. eapply run_safe; eauto. Qed.

  Lemma prim_set : forall y, prim_of y = Some PSet -> y = NS "set".
  Proof.
    intros [s|k] H; [|discriminate]. cbn in H. destruct (String.eqb_spec s "set"); [now subst|exfalso].
    repeat match type of H with context [if ?b then _ else _] => destruct b; try discriminate end.
  Qed.
  Lemma eval_local : forall strict n rho x w G r, lookup x rho = Some w -> eval ar strict n rho (SSym x) G = Some r -> r = (value w, G).
  Proof. intros strict [|n] rho x w G r L E; [discriminate|]. cbn in E. rewrite L in E. congruence. Qed.
  Lemma eval_local2 : forall n rho x w G r, lookup x rho = Some w -> eval ar false n rho (SSym x) G = Some r -> eval ar true n rho (SSym x) G = Some r.
  Proof. intros [|n] rho x w G r L E; [discriminate|]. cbn in E |- *. now rewrite L in *. Qed.

  Lemma calm_all : forall n, calm_run n.
  Proof.
    induction n as [|n IH]; intros ks e rho G a G' HC HR HG E; [discriminate|]. destruct ks as [|k]; [discriminate|].
    cbn [eval calm tails] in *. unfold trivial. destruct (view e) as [s|x|ps b|c1 b1 b2|a1 b1|x b1 c1|f args|] eqn:V.
    - injection E as <- <-. split; [reflexivity|]. split; [apply safe_quoted|]. repeat split; auto using keeps_refl, fresh_value. discriminate.
    - destruct (lookup x rho) as [v|] eqn:L.
      + injection E as <- <-. split; [reflexivity|]. split; [eapply esafe_lookup; eauto|]. repeat split; auto using keeps_refl, fresh_value. discriminate.
      + destruct (g_val G x) as [v|] eqn:L2; [|discriminate]. injection E as <- <-. split; [reflexivity|]. cbn. split.
        { eapply HG; [|exact L2]. intros ->. now rewrite name_eqb_refl in HC. }
        split; [exact HG|]. split; [apply keeps_refl|]. split; [intros y j Q; injection Q as <- <-; reflexivity|]. split; [|auto].
        intros y j Q. injection Q as <- <-. now left.
    - injection E as <- <-. split; [reflexivity|]. split; [constructor; [exists k; exact HC|exact HR]|]. repeat split; auto using keeps_refl, fresh_value. discriminate.
    - rewrite !andb_true_iff in HC. destruct HC as ((H1 & H2) & H3).
      destruct (eval ar false n rho c1 G) as [(o, G1)|] eqn:E1; [|discriminate]. destruct (IH k c1 rho G o G1 H1 HR HG E1) as (A1 & A2 & A3 & A4 & _).
      rewrite A1. cbn [result] in E |- *.
      assert (D : forall bb, calm k S bb = true -> eval ar false n rho bb G1 = Some (a, G') -> incl (tails k bb) (tails k b1 ++ tails k b2) ->
        eval ar true n rho bb G1 = Some (a, G') /\ ssafe (a_val a) /\ gsafe G' /\ keeps S G G' /\ fresh a G' /\
        (forall x j, a_from a = Some (x, j) -> In x (tails k b1 ++ tails k b2)) /\ (false = true -> G' = G)).
      { intros bb HB EB HI. destruct (IH k bb rho G1 a G' HB HR A3 EB) as (B1 & B2 & B3 & B4 & B5 & B6 & _).
        split; [exact B1|]. split; [exact B2|]. split; [exact B3|]. split; [eapply keeps_trans; eauto|]. split; [exact B5|]. split; [eauto|discriminate]. }
      destruct (a_val o); (apply D; [assumption|exact E|intros u Hu; apply in_or_app; auto]).
    - rewrite !andb_true_iff in HC. destruct HC as (H1 & H2).
      destruct (eval ar false n rho a1 G) as [(o, G1)|] eqn:E1; [|discriminate]. destruct (IH k a1 rho G o G1 H1 HR HG E1) as (A1 & A2 & A3 & A4 & _).
      rewrite A1. cbn [result] in E |- *. destruct (IH k b1 rho G1 a G' H2 HR A3 E) as (B1 & B2 & B3 & B4 & B5 & B6 & _).
      split; [exact B1|]. split; [exact B2|]. split; [exact B3|]. split; [eapply keeps_trans; eauto|]. split; [exact B5|]. split; [eauto|discriminate].
    - rewrite !andb_true_iff in HC. destruct HC as (H1 & H2).
      destruct (eval ar false n rho b1 G) as [(o, G1)|] eqn:E1; [|discriminate]. destruct (IH k b1 rho G o G1 H1 HR HG E1) as (A1 & A2 & A3 & A4 & _).
      rewrite A1. cbn [result] in E |- *. destruct (IH k c1 ((x, a_val o) :: rho) G1 a G' H2 ltac:(now constructor) A3 E) as (B1 & B2 & B3 & B4 & B5 & B6 & _).
      split; [exact B1|]. split; [exact B2|]. split; [exact B3|]. split; [eapply keeps_trans; eauto|]. split; [exact B5|]. split; [eauto|discriminate].
    - destruct (assigned f args) as [(x, v)|] eqn:EA.
      + apply assigned_inv in EA as (-> & q & -> & VQ). apply andb_true_iff in HC as (HX & HV).
        assert (CQ : calm k S q = true) by (destruct k; [discriminate|]; cbn [calm]; now rewrite VQ).
        assert (TQ : tails k q = []) by (destruct k; [reflexivity|]; cbn [tails]; now rewrite VQ).
        assert (HS : steady k S [q; v] = true) by (cbn [steady]; rewrite TQ; cbn [forallb]; now rewrite !orb_true_r).
        assert (HF : forallb (calm k S) [q; v] = true) by (cbn [forallb]; now rewrite CQ, HV).
        cbn [op_prim] in E |- *. destruct (lookup (NS "set") rho) as [w|] eqn:L.
        * destruct (eval ar false n rho (SSym (NS "set")) G) as [(o, G1)|] eqn:E0; [|discriminate]. rewrite (eval_local2 _ _ _ _ _ _ L E0).
          pose proof (eval_local _ _ _ _ _ _ _ L E0) as Q. injection Q as -> ->.
          destruct (ev_args (eval ar false n rho) [q; v] G) as [(la, G2)|] eqn:E1; [|discriminate].
          destruct (calm_args n IH k _ rho G la G2 HF HS HR HG E1) as (A1 & A2 & A3 & A4 & A5 & _). rewrite A1.
          rewrite lax_uses in E. cbn [use value a_from a_val] in E |- *. rewrite (fresh_uses la G2 true A5).
          match type of E with match ?t with _ => _ end = _ => destruct t as [(r, G3)|] eqn:EP; [|discriminate] end. injection E as <- <-.
          destruct (call_safe n IH n w _ G2 r G3 (esafe_lookup _ _ _ HR L) A2 A3 EP) as (B1 & B2 & B3 & B4). rewrite B1.
          split; [reflexivity|]. split; [exact B2|]. split; [exact B3|]. split; [eapply keeps_trans; eauto|]. split; [apply fresh_value|]. split; [intros y j Z; discriminate Z|discriminate].
        * change (prim_of (NS "set")) with (Some PSet) in *. cbn iota in *.
          destruct (ev_args (eval ar false n rho) [q; v] G) as [(la, G2)|] eqn:E1; [|discriminate].
          destruct (calm_args n IH k _ rho G la G2 HF HS HR HG E1) as (A1 & A2 & A3 & A4 & A5 & _). rewrite A1.
          rewrite lax_uses in E. cbn [use value a_from a_val] in E |- *. rewrite (fresh_uses la G2 true A5).
          assert (exists o, la = [value (VSym x); o]) as (o & ->).
          { cbn [ev_args] in E1. destruct n as [|n']; [discriminate|]. cbn [eval] in E1. rewrite VQ in E1. cbn [quoted] in E1.
            match type of E1 with match (match ?t with _ => _ end) with _ => _ end = _ => destruct t as [(o, Go)|]; [|discriminate] end. injection E1 as <- <-. eauto. }
          destruct n as [|n']; [discriminate|]. cbn in E |- *. injection E as <- <-.
          split; [reflexivity|]. inversion A2 as [|? ? ? A2']; subst. inversion A2' as [|? ? A2'' ?]; subst. split; [exact A2''|]. split; [now apply gsafe_set|].
          split; [|split; [apply fresh_value|split; [intros y j Z; discriminate Z|discriminate]]].
          intros y Hy. cbn. destruct (name_eqb_spec y x); [subst y; now apply named_in in HX|]. now apply A4.
      + rewrite !andb_true_iff in HC. destruct HC as ((HF & HA) & HS). cbn [steady] in HS. apply andb_true_iff in HS as (HS1 & HS2).
        destruct (op_prim rho f) as [p|] eqn:EO.
        * destruct (ev_args (eval ar false n rho) args G) as [(la, G2)|] eqn:E1; [|discriminate].
          destruct (calm_args n IH k _ rho G la G2 HA HS2 HR HG E1) as (A1 & A2 & A3 & A4 & A5 & _). rewrite A1.
          rewrite lax_uses in E. cbn [use value a_from a_val] in E |- *. rewrite (fresh_uses la G2 true A5).
          match type of E with match ?t with _ => _ end = _ => destruct t as [(r, G3)|] eqn:EP; [|discriminate] end. injection E as <- <-.
          assert (SP : ssafe (VPrim p)).
          { constructor. intros ->. destruct f; try discriminate. cbn in EO. destruct (lookup x rho); [discriminate|]. apply prim_set in EO as ->. destruct k; discriminate. }
          destruct (call_safe n IH n _ _ G2 r G3 SP A2 A3 EP) as (B1 & B2 & B3 & B4). rewrite B1.
          split; [reflexivity|]. split; [exact B2|]. split; [exact B3|]. split; [eapply keeps_trans; eauto|]. split; [apply fresh_value|]. split; [intros y j Z; discriminate Z|discriminate].
        * destruct (eval ar false n rho f G) as [(o, G1)|] eqn:E0; [|discriminate]. destruct (IH k f rho G o G1 HF HR HG E0) as (C1 & C2 & C3 & C4 & C5 & C6 & _). rewrite C1.
          destruct (ev_args (eval ar false n rho) args G1) as [(la, G2)|] eqn:E1; [|discriminate].
          destruct (calm_args n IH k _ rho G1 la G2 HA HS2 HR C3 E1) as (A1 & A2 & A3 & A4 & A5 & A6). rewrite A1.
          rewrite lax_use, lax_uses in E. rewrite (fresh_uses la G2 true A5).
          assert (FO : fresh o G2).
          { intros x j F. apply orb_true_iff in HS1 as [T|T].
            - rewrite (A6 T). now apply C5.
            - rewrite forallb_forall in T. specialize (T x (C6 _ _ F)). rewrite A4; [now apply C5|]. intro I. apply named_in in I. now rewrite I in T. }
          rewrite (fresh_use o G2 true FO).
          match type of E with match ?t with _ => _ end = _ => destruct t as [(r, G3)|] eqn:EP; [|discriminate] end. injection E as <- <-.
          destruct (call_safe n IH n _ _ G2 r G3 C2 A2 A3 EP) as (B1 & B2 & B3 & B4). rewrite B1.
          split; [reflexivity|]. split; [exact B2|]. split; [exact B3|]. split; [eapply keeps_trans; [exact C4|eapply keeps_trans; eauto]|]. split; [apply fresh_value|]. split; [intros y j Z; discriminate Z|discriminate].
    - discriminate.
  Qed.

  Lemma definitions_run : forall n ks e rho G a G', definitions ks S e = true -> esafe rho -> gsafe G -> eval ar false n rho e G = Some (a, G') ->
    eval ar true n rho e G = Some (a, G') /\ ssafe (a_val a) /\ gsafe G' /\ fresh a G'.
  Proof.
    induction n as [|n IH]; intros ks e rho G a G' HC HR HG E; [discriminate|]. destruct ks as [|k]; [discriminate|].
    cbn [definitions] in HC. apply orb_true_iff in HC as [HC|HC].
    { destruct (calm_all (Datatypes.S n) _ _ _ _ _ _ HC HR HG E) as (A1 & A2 & A3 & _ & A5 & _). auto. }
    cbn [eval] in *. destruct (view e) as [s|x|ps b|c1 b1 b2|a1 b1|x b1 c1|f args|] eqn:V; try discriminate.
    - rewrite !andb_true_iff in HC. destruct HC as ((H1 & H2) & H3).
      destruct (eval ar false n rho c1 G) as [(o, G1)|] eqn:E1; [|discriminate]. destruct (IH k c1 rho G o G1 H1 HR HG E1) as (A1 & A2 & A3 & A4).
      rewrite A1. cbn [result] in E |- *. destruct (a_val o); eauto.
    - rewrite !andb_true_iff in HC. destruct HC as (H1 & H2).
      destruct (eval ar false n rho a1 G) as [(o, G1)|] eqn:E1; [|discriminate]. destruct (IH k a1 rho G o G1 H1 HR HG E1) as (A1 & A2 & A3 & A4).
      rewrite A1. cbn [result] in E |- *. eauto.
    - rewrite !andb_true_iff in HC. destruct HC as (H1 & H2).
      destruct (eval ar false n rho b1 G) as [(o, G1)|] eqn:E1; [|discriminate]. destruct (IH k b1 rho G o G1 H1 HR HG E1) as (A1 & A2 & A3 & A4).
      rewrite A1. cbn [result] in E |- *. apply (IH k c1 ((x, a_val o) :: rho)); auto. now constructor.
    - destruct (assigned f args) as [(x, v)|] eqn:EA; [|discriminate]. apply assigned_inv in EA as (-> & q & -> & VQ).
      assert (AR : forall G la G2, gsafe G -> ev_args (eval ar false n rho) [q; v] G = Some (la, G2) ->
        ev_args (eval ar true n rho) [q; v] G = Some (la, G2) /\ Forall ssafe (map a_val la) /\ gsafe G2 /\ Forall (fun a => fresh a G2) la /\ exists o, la = [value (VSym x); o]).
      { intros G0 la G2 HG0 E1. cbn [ev_args] in E1 |- *.
        assert (EQ : forall strict, eval ar strict n rho q G0 = match n with O => None | _ => Some (value (VSym x), G0) end) by (intro strict; destruct n; [reflexivity|]; cbn [eval]; now rewrite VQ).
        rewrite !EQ in *. destruct n as [|n'] eqn:EN; [discriminate|]. rewrite <- EN in *. destruct (eval ar false n rho v G0) as [(o, G3)|] eqn:E2; [|discriminate].
        injection E1 as <- <-. destruct (IH k v rho G0 o G3 HC HR HG0 E2) as (A1 & A2 & A3 & A4). rewrite A1. split; [reflexivity|].
        split; [constructor; [constructor|constructor; [exact A2|constructor]]|]. split; [exact A3|]. split; [|eauto].
        constructor; [apply fresh_value|constructor; [exact A4|constructor]]. }
      cbn [op_prim] in E |- *. destruct (lookup (NS "set") rho) as [w|] eqn:L.
      + destruct (eval ar false n rho (SSym (NS "set")) G) as [(o, G1)|] eqn:E0; [|discriminate]. rewrite (eval_local2 _ _ _ _ _ _ L E0).
        pose proof (eval_local _ _ _ _ _ _ _ L E0) as Q. injection Q as -> ->.
        destruct (ev_args (eval ar false n rho) [q; v] G) as [(la, G2)|] eqn:E1; [|discriminate].
        destruct (AR G la G2 HG E1) as (A1 & A2 & A3 & A5 & _). rewrite A1.
        rewrite lax_uses in E. cbn [use value a_from a_val] in E |- *. rewrite (fresh_uses la G2 true A5).
        match type of E with match ?t with _ => _ end = _ => destruct t as [(r, G3)|] eqn:EP; [|discriminate] end. injection E as <- <-.
        destruct (call_safe n (calm_all n) n w _ G2 r G3 (esafe_lookup _ _ _ HR L) A2 A3 EP) as (B1 & B2 & B3 & B4). rewrite B1.
        split; [reflexivity|]. split; [exact B2|]. split; [exact B3|]. apply fresh_value.
      + change (prim_of (NS "set")) with (Some PSet) in *. cbn iota in *.
        destruct (ev_args (eval ar false n rho) [q; v] G) as [(la, G2)|] eqn:E1; [|discriminate].
        destruct (AR G la G2 HG E1) as (A1 & A2 & A3 & A5 & o & ->). rewrite A1.
        rewrite lax_uses in E. cbn [use value a_from a_val] in E |- *. rewrite (fresh_uses _ G2 true A5).
        destruct n as [|n']; [discriminate|]. cbn in E |- *. injection E as <- <-.
        split; [reflexivity|]. inversion A2 as [|? ? ? A2']; subst. inversion A2' as [|? ? A2'' ?]; subst. split; [exact A2''|]. split; [now apply gsafe_set|]. apply fresh_value.
  Qed.
End Core.

Lemma init_safe : forall {C} (good : C -> Prop) B g, quiet_base B -> safe_store good (init B g).
Proof.
  intros C good B g H x v N E. cbn in E. specialize (H x). destruct (B x) as [[s|p]|]; [|..]; try discriminate; injection E as <-.
  - apply safe_quoted.
  - constructor. intros ->. now apply N, H.
Qed.

(** In such a program no operand is assigned before it is used. *)
Theorem calm_program : forall ar ks S e B g n r, quiet_base B -> definitions ks S e = true ->
  program ar false n e (init B g) = Some r -> program ar true n e (init B g) = Some r.
Proof.
  intros ar ks S e B g n r HB HD E. unfold program in *. destruct (eval ar false n [] e (init B g)) as [(a, G)|] eqn:E1; [|discriminate].
  destruct (definitions_run ar S n ks e [] (init B g) a G HD ltac:(constructor) (init_safe _ B g HB) E1) as (A1 & _). now rewrite A1.
Qed.
