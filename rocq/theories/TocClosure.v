(** Closure conversion preserves meaning when no let rebinds a captured
    variable. *)
From Coq Require Import List ZArith Bool String Arith Lia.
From Verif Require Import CoreSpec CoreProofs TocModel TocSem.
Import ListNotations.
Local Open Scope list_scope.
Local Open Scope nat_scope.

(** The output of [parse]: no closures or references yet. *)
Fixpoint plain (e : exp) : bool :=
  match e with
  | EConst _ | EGlob _ | EVar _ => true
  | ERef _ | EClo _ _ _ => false
  | ELam _ b => plain b
  | EIf a b c => plain a && plain b && plain c
  | EDo a b => plain a && plain b
  | ELet _ b c => plain b && plain c
  | EPrim _ args => forallb plain args
  | EApp f args => plain f && forallb plain args
  end.

(** No let inside a function rebinds a variable the function captures. *)
Fixpoint cc_ok (fvs : list name) (e : exp) : bool :=
  match e with
  | EConst _ | EGlob _ | EVar _ | ERef _ | EClo _ _ _ => true
  | ELam ps b => cc_ok (free_vars (ELam ps b)) b
  | EIf a b c => cc_ok fvs a && cc_ok fvs b && cc_ok fvs c
  | EDo a b => cc_ok fvs a && cc_ok fvs b
  | ELet x b c => negb (mem x fvs) && cc_ok fvs b && cc_ok fvs c
  | EPrim _ args => forallb (cc_ok fvs) args
  | EApp f args => cc_ok fvs f && forallb (cc_ok fvs) args
  end.

Definition crelC (c1 c2 : ecode) : Prop :=
  let fvs := free_vars (ELam (e_ps c1) (e_body c1)) in
  e_ps c1 = e_ps c2 /\ e_env c2 = [] /\ e_body c2 = closure_convert fvs (e_body c1) /\
  plain (e_body c1) = true /\ cc_ok fvs (e_body c1) = true /\ incl fvs (e_env c1).
Definition selC (c1 c2 : ecode) (_ i j : nat) : Prop :=
  exists x, index x (e_env c1) = Some i /\ index x (free_vars (ELam (e_ps c1) (e_body c1))) = Some j.

Notation vrelC := (vrel crelC selC e_arity).
Notation grelC := (grel crelC selC e_arity).

Definition envC (fvs : list name) (rho rho' : list (name * val ecode)) (phi' : list (val ecode)) (x : name) : Prop :=
  exists v v', lookup x rho = Some v /\ vrelC v v' /\
    match index x fvs with
    | Some j => nth_error phi' j = Some v'
    | None => lookup x rho' = Some v'
    end.

Lemma crelC_arity : forall c1 c2, crelC c1 c2 -> e_arity c1 = e_arity c2.
Proof. intros c1 c2 (H & _). unfold e_arity. congruence. Qed.

Lemma frees_ok : forall fvs rho rho' phi' l, (forall x, In x l -> envC fvs rho rho' phi' x) ->
  exists vs', opts (free_val rho' phi') (map (convert_var fvs) l) = Some vs' /\
    forall j x, nth_error l j = Some x -> exists v v', lookup x rho = Some v /\ nth_error vs' j = Some v' /\ vrelC v v'.
Proof.
  intros fvs rho rho' phi' l. induction l as [|x l IH]; intros H.
  - exists []. split; [reflexivity|]. intros [|j] x E; discriminate.
  - destruct IH as (vs' & E & K); [intros y Hy; apply H; now right|].
    destruct (H x (or_introl eq_refl)) as (v & v' & L & R & T).
    exists (v' :: vs'). split.
    + cbn [map opts]. rewrite E. unfold convert_var. destruct (index x fvs); cbn [free_val]; now rewrite T.
    + intros [|j] y Hy; cbn in *; [injection Hy as <-; eauto|eauto].
Qed.

Lemma forallb_Forall2_map : forall {A B} (f : A -> B) l, Forall2 (fun x y => y = f x) l (map f l).
Proof. intros A B f l. induction l; cbn; constructor; auto. Qed.

Lemma in_unions_map : forall x e l, In e l -> In x (free_vars e) -> forall s, In x (unions (s :: map free_vars l)).
Proof.
  intros x e l He Hx s. apply in_unions. exists (free_vars e). split; [right; now apply in_map|exact Hx].
Qed.

Theorem closure_convert_sim : forall ar n rho phi e G r, ev1 ar n rho phi e G = Some r ->
  forall fvs rho' phi' G2, plain e = true -> cc_ok fvs e = true ->
  (forall x, In x (free_vars e) -> envC fvs rho rho' phi' x) -> grelC G G2 ->
  evt (fun m => ev1 ar m rho' phi' (closure_convert fvs e) G2) (rans crelC selC e_arity r).
Proof.
  intros ar n. induction n as [|n IH]; intros rho phi e G r E fvs rho' phi' G2 HP HC HE HG; [discriminate|].
  assert (RUN : forall c1 c2 vs1 vs2 l1 l2 G1 G2 r,
    vrelC (VClo c1 vs1) (VClo c2 vs2) -> Forall2 vrelC l1 l2 -> List.length l1 = e_arity c1 -> grelC G1 G2 ->
    forced (ev1 ar n (combine (e_ps c1) l1 ++ combine (e_env c1) vs1) vs1 (e_body c1) G1) = Some r ->
    evt (fun m => forced (ev1 ar m (combine (e_ps c2) l2 ++ combine (e_env c2) vs2) vs2 (e_body c2) G2)) (rres crelC selC e_arity r)).
  { clear - IH. intros c1 c2 vs1 vs2 l1 l2 G1 G2 r HV HL HN HG E.
    inversion HV as [| | | | | | |? ? ? ? HCr HS| |]; subst.
    destruct HCr as (A1 & A2 & A3 & A4 & A5 & A6).
    destruct (ev1 ar n (combine (e_ps c1) l1 ++ combine (e_env c1) vs1) vs1 (e_body c1) G1) as [(a, G3)|] eqn:E1; [|discriminate].
    set (fvs := free_vars (ELam (e_ps c1) (e_body c1))) in *.
    eapply evt_bind with (g := fun m r => forced (Some r)).
    - rewrite A3. eapply IH; eauto. intros x Hx. unfold envC. rewrite lookup_app, lookup_combine.
      destruct (index x (e_ps c1)) as [i|] eqn:Ei.
      + assert (Hps : In x (e_ps c1)) by (apply index_in; eauto).
        assert (Hn : index x fvs = None) by (apply index_none; unfold fvs; cbn; rewrite in_diff; tauto).
        rewrite Hn, lookup_app, (lookup_combine x (e_ps c2)), <- A1, Ei.
        assert (Li : i < List.length l1).
        { rewrite HN. unfold e_arity. apply nth_error_Some. rewrite (index_some _ _ _ Ei). discriminate. }
        destruct (nth_error l1 i) as [v|] eqn:Ev; [|apply nth_error_None in Ev; lia].
        destruct (nth_error l2 i) as [v'|] eqn:Ev'.
        * exists v, v'. repeat split; auto. clear - HL Ev Ev'. revert i Ev Ev'.
          induction HL; intros [|i] Ev Ev'; cbn in *; try discriminate; [congruence|eauto].
        * apply nth_error_None in Ev'. rewrite <- (Forall2_len _ _ _ HL) in Ev'. lia.
      + assert (Hf : In x fvs).
        { unfold fvs. cbn. rewrite in_diff. split; [exact Hx|]. now apply index_none. }
        pose proof (A6 x Hf) as He. apply index_in in He. destruct He as (k & Ek).
        apply index_in in Hf. destruct Hf as (j & Ej).
        destruct (HS k j) as (v1 & v2 & N1 & N2 & R); [exists x; auto|].
        exists v1, v2. rewrite Ej, lookup_combine, Ek. auto.
    - intros r2 R2. destruct (forced_rel _ _ _ _ _ _ R2 E) as (o2 & E2 & R3).
      exists o2, 0. split; [exact R3|]. intros. exact E2. }
  assert (FRC : forall e G1 G2 r, forced (ev1 ar n rho phi e G1) = Some r ->
     plain e = true -> cc_ok fvs e = true -> (forall x, In x (free_vars e) -> envC fvs rho rho' phi' x) -> grelC G1 G2 ->
     evt (fun m => forced (ev1 ar m rho' phi' (closure_convert fvs e) G2)) (rres crelC selC e_arity r)).
  { intros e0 G1 G3 r0 E0 P0 C0 H0 HG0.
    destruct (ev1 ar n rho phi e0 G1) as [(a, G4)|] eqn:E1; [|discriminate].
    eapply evt_bind with (g := fun m r => forced (Some r)); [eapply IH; eauto|].
    intros r2 R2. destruct (forced_rel _ _ _ _ _ _ R2 E0) as (o2 & E2 & R3).
    exists o2, 0. split; [exact R3|]. intros. exact E2. }
  assert (EVL : forall args G1 G2 l1 G1', forallb plain args = true -> forallb (cc_ok fvs) args = true ->
     (forall e x, In e args -> In x (free_vars e) -> envC fvs rho rho' phi' x) -> grelC G1 G2 ->
     ev_list (ev1 ar n rho phi) args G1 = Some (l1, G1') ->
     evt (fun m => ev_list (ev1 ar m rho' phi') (map (closure_convert fvs) args) G2)
         (fun '(l2, G2') => Forall2 (arel crelC selC e_arity) l1 l2 /\ grelC G1' G2')).
  { intros args G1 G3 l1 G1' P0 C0 H0 HG0 E0.
    eapply ev_list_rel with (ev2 := fun m => ev1 ar m rho' phi'); eauto.
    clear - IH P0 C0 H0. induction args as [|e args IHa]; cbn; constructor.
    - cbn in P0, C0. apply andb_true_iff in P0 as [P0 _]. apply andb_true_iff in C0 as [C0 _].
      intros G1 G2 r HG E. eapply IH; eauto. intros x Hx. eapply H0; [now left|exact Hx].
    - cbn in P0, C0. apply andb_true_iff in P0 as [_ P0]. apply andb_true_iff in C0 as [_ C0].
      apply IHa; auto. intros e0 x He Hx. eapply H0; [right; exact He|exact Hx]. }
  apply evt_S. destruct e as [s|x|x|i|ps b|ps b frees|a b c|a b|x b c|p args|f args]; cbn [ev1 closure_convert plain cc_ok free_vars] in *.
  - injection E as <-. apply evt_const. split; [apply quoted_rel|exact HG].
  - injection E as <-. apply evt_const. split; [reflexivity|exact HG].
  - destruct (HE x (or_introl eq_refl)) as (v & v' & L & R & T). rewrite L in E. injection E as <-.
    unfold convert_var. destruct (index x fvs); rewrite T; apply evt_const; split; auto.
  - discriminate.
  - injection E as <-. set (fvs1 := diff (free_vars b) ps) in *.
    destruct (frees_ok fvs rho rho' phi' fvs1 HE) as (vs' & Ev & K). rewrite Ev.
    apply evt_const. split; [|exact HG]. cbn. constructor.
    + repeat split; cbn; auto. intros x Hx. destruct (HE x Hx) as (v & v' & L & _).
      eapply lookup_in; eauto.
    + intros i j (x & Hi & Hj). cbn in Hi, Hj. fold fvs1 in Hj.
      destruct (K j x) as (v & v' & L & N & R); [now apply index_some|].
      exists v, v'. repeat split; auto. rewrite <- (combine_fst_snd rho), lookup_combine, Hi in L. exact L.
  - discriminate.
  - apply andb_true_iff in HP as [HP HP3]. apply andb_true_iff in HP as [HP1 HP2].
    apply andb_true_iff in HC as [HC HC3]. apply andb_true_iff in HC as [HC1 HC2].
    assert (In3 : forall e x, In e [a; b; c] -> In x (free_vars e) -> envC fvs rho rho' phi' x).
    { intros e x He Hx. apply HE. apply in_unions. exists (free_vars e). split; [|exact Hx].
      cbn in He |- *. intuition (subst; auto). }
    destruct (forced (ev1 ar n rho phi a G)) as [(t, G1)|] eqn:E1; [|discriminate].
    eapply evt_bind with (g := fun m '(v, G1) => match v with VTrue => ev1 ar m rho' phi' (closure_convert fvs b) G1 | _ => ev1 ar m rho' phi' (closure_convert fvs c) G1 end).
    { eapply FRC; eauto. intros y Hy. eapply In3; [|exact Hy]; cbn; auto. }
    intros (t2, G3) (HT & HG3). cbn in HT, HG3.
    assert (Eb : In b [a; b; c]) by (cbn; auto). assert (Ec : In c [a; b; c]) by (cbn; auto).
    inversion HT; subst; (eapply IH; [exact E| | | |exact HG3]; eauto).
  - apply andb_true_iff in HP as [HP1 HP2]. apply andb_true_iff in HC as [HC1 HC2].
    assert (In3 : forall e x, In e [a; b] -> In x (free_vars e) -> envC fvs rho rho' phi' x).
    { intros e x He Hx. apply HE. apply in_unions. exists (free_vars e). split; [|exact Hx].
      cbn in He |- *. intuition (subst; auto). }
    destruct (forced (ev1 ar n rho phi a G)) as [(t, G1)|] eqn:E1; [|discriminate].
    eapply evt_bind with (g := fun m '(_, G1) => ev1 ar m rho' phi' (closure_convert fvs b) G1).
    { eapply FRC; eauto. intros y Hy. eapply In3; [|exact Hy]; cbn; auto. }
    intros (t2, G3) (HT & HG3). cbn in HT, HG3. eapply IH; eauto. intros y Hy. eapply In3; [|exact Hy]; cbn; auto.
  - apply andb_true_iff in HP as [HP1 HP2]. apply andb_true_iff in HC as [HC HC2]. apply andb_true_iff in HC as [HC0 HC1].
    destruct (mem_spec x fvs) as [Hm|Hm]; [discriminate|].
    destruct (forced (ev1 ar n rho phi b G)) as [(t, G1)|] eqn:E1; [|discriminate].
    eapply evt_bind with (g := fun m '(v, G1) => ev1 ar m ((x, v) :: rho') phi' (closure_convert fvs c) G1).
    { eapply FRC; eauto. intros y Hy. apply HE. apply in_union. auto. }
    intros (t2, G3) (HT & HG3). cbn in HT, HG3. eapply IH; eauto.
    intros y Hy. unfold envC. cbn [lookup]. destruct (name_eqb_spec y x) as [->|N].
    + exists t, t2. repeat split; auto. replace (index x fvs) with (@None nat); [reflexivity|].
      symmetry. now apply index_none.
    + apply HE. apply in_union. right. apply in_diff. split; [exact Hy|]. cbn. intuition.
  - destruct (ev_list (ev1 ar n rho phi) args G) as [(l, G1)|] eqn:E1; [|discriminate].
    destruct (force_all l G1) as [vs|] eqn:E2; [|discriminate].
    destruct (prim_sem ar p vs G1) as [(v, G3)|] eqn:E3; [|discriminate]. injection E as <-.
    eapply evt_bind with (g := fun m '(l, G1) => match force_all l G1 with Some vs => match prim_sem ar p vs G1 with Some (v, G2) => Some (AVal v, G2) | None => None end | None => None end).
    { eapply EVL; eauto. intros e x He Hx. apply HE. eapply in_unions_map; eauto. }
    intros (l2, G4) (HL & HG4).
    destruct (force_all_rel _ _ _ _ _ _ _ _ HL HG4 E2) as (vs2 & -> & HV).
    destruct (prim_rel _ _ _ _ _ _ _ _ _ _ _ HV HG4 E3) as ((v2, G5) & -> & (R1 & R2)).
    apply evt_const. split; auto.
  - apply andb_true_iff in HP as [HP1 HP2]. apply andb_true_iff in HC as [HC1 HC2].
    destruct (ev1 ar n rho phi f G) as [(a, G1)|] eqn:E1; [|discriminate].
    destruct (ev_list (ev1 ar n rho phi) args G1) as [(l, G3)|] eqn:E2; [|discriminate].
    destruct (force a G3) as [fv|] eqn:E3; [|discriminate].
    destruct (force_all l G3) as [vs|] eqn:E4; [|discriminate].
    match type of E with match ?X with _ => _ end = _ => destruct X as [(v, G5)|] eqn:E5; [|discriminate] end.
    injection E as <-.
    eapply evt_bind with (g := fun m '(a, G1) =>
       match ev_list (ev1 ar m rho' phi') (map (closure_convert fvs) args) G1 with
       | Some (l, G2) =>
           match force a G2, force_all l G2 with
           | Some f, Some vs =>
               match apply ar e_arity (fun c vs args G => forced (ev1 ar m (combine (e_ps c) args ++ combine (e_env c) vs) vs (e_body c) G)) m f vs G2 with
               | Some (v, G3) => Some (AVal v, G3) | None => None end
           | _, _ => None
           end
       | None => None
       end).
    { eapply IH; eauto. intros x Hx. apply HE. apply in_unions. exists (free_vars f). split; [now left|exact Hx]. }
    intros (a2, G4) (HA & HG4). cbn in HA, HG4.
    eapply evt_bind with (g := fun m '(l, G2) =>
           match force a2 G2, force_all l G2 with
           | Some f, Some vs =>
               match apply ar e_arity (fun c vs args G => forced (ev1 ar m (combine (e_ps c) args ++ combine (e_env c) vs) vs (e_body c) G)) m f vs G2 with
               | Some (v, G3) => Some (AVal v, G3) | None => None end
           | _, _ => None
           end).
    { eapply EVL; eauto. intros e x He Hx. apply HE. eapply in_unions_map; eauto. }
    intros (l2, G6) (HL & HG6).
    destruct (force_rel _ _ _ _ _ _ _ _ HA HG6 E3) as (f2 & -> & HF).
    destruct (force_all_rel _ _ _ _ _ _ _ _ HL HG6 E4) as (vs2 & -> & HV).
    eapply evt_bind with (g := fun m '(v, G3) => Some (AVal v, G3)).
    { eapply apply_rel with (run2 := fun m c vs args G => forced (ev1 ar m (combine (e_ps c) args ++ combine (e_env c) vs) vs (e_body c) G));
        [exact crelC_arity|exact RUN|exact HF|exact HV|exact HG6|exact E5]. }
    intros (v2, G7) (R1 & R2). apply evt_const. split; auto.
Qed.
