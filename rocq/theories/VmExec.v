(** Whole executions: from single steps to runs, layout of the stack,
    partial application, tail calls. *)
From Coq Require Import List Arith Bool ZArith Lia.
From Verif Require Import Base VmModel VmSpec VmProofs VmSim.
Import ListNotations.
Local Open Scope nat_scope.

(** ** runs *)

Lemma steps_app : forall l1 l2 s, steps s (l1 ++ l2) = obind (steps s l1) (fun s1 => steps s1 l2).
Proof.
  induction l1 as [|a l1 IH]; intros l2 s; cbn; [reflexivity|].
  destruct (step s a); cbn; auto.
Qed.

Lemma s_steps_app : forall l1 l2 S0, s_steps S0 (l1 ++ l2) =
  match s_steps S0 l1 with Some S1 => s_steps S1 l2 | None => None end.
Proof.
  induction l1 as [|a l1 IH]; intros l2 S0; cbn; [reflexivity|].
  destruct (s_step S0 a); auto.
Qed.

Definition permitted_along (s : vm) (S0 : sst) (l : list action) : Prop :=
  forall l1 a l2 s1 S1, l = l1 ++ a :: l2 -> steps s l1 = Ok s1 -> s_steps S0 l1 = Some S1 ->
  permitted s1 S1 a.

Lemma run_sim : forall l s S0 S',
  Rel s S0 -> ok_sst S0 -> Forall ok_action l -> permitted_along s S0 l ->
  s_steps S0 l = Some S' -> exists s', steps s l = Ok s' /\ Rel s' S' /\ ok_sst S'.
Proof.
  induction l as [|a l IH]; intros s S0 S' R O Fa P E; cbn in E.
  - injection E as <-. exists s. auto.
  - destruct (s_step S0 a) as [S1|] eqn:E1; [|discriminate]. inversion Fa; subst.
    destruct (step_sim s S0 a S1 R O) as (s1 & E2 & R1); auto.
    { apply (P [] a l s S0); reflexivity. }
    destruct (IH s1 S1 S' R1) as (s' & E3 & R3); auto.
    { eapply s_step_ok; eauto. }
    { intros l1 b l2 s2 S2 -> Q1 Q2. apply (P (a :: l1) b l2); [reflexivity| |].
      - cbn. now rewrite E2.
      - cbn. now rewrite E1. }
    exists s'. cbn. rewrite E2. auto.
Qed.

Lemma start_sim : forall c nf d, ok_obj (ONative c nf 0 d) -> c <> CTry ->
  exists s S0, start (ONative c nf 0 d) = Ok s /\ s_start (ONative c nf 0 d) = Some S0 /\ Rel s S0 /\ ok_sst S0.
Proof.
  intros c nf d O NT. pose proof O as O'. apply ok_native in O' as (N & _ & _).
  unfold start, coraCallN. cbn [mustNative obind Nat.eqb negb].
  unfold enter, stackAlloc. cbn [coraNew v_ctx f_sp fst snd f_fn f_label v_cur].
  unfold assertT. rewrite (proj2 (Nat.ltb_lt 0 nf)) by lia. cbn [Nat.eqb]. rewrite stack_ltb. cbn [plus].
  rewrite (proj2 (Nat.leb_le nf 255)) by lia. cbn [obind set_ctx v_mem v_ctx f_bp].
  set (m0 := v_mem coraNew).
  destruct (mwrites_ok [ONative c nf 0 d] m0 0 0) as (m & Em & Lv & Vn & Vo); [discriminate|cbn; lia|].
  rewrite Em. cbn [obind]. eexists. eexists. split; [reflexivity|]. split; [reflexivity|].
  assert (OS : ok_sst (mkS (Some (mkA c 0 (fresh_slots (ONative c nf 0 d) [] nf))) [] None (OImm 0) (fun _ => None) 0)).
  { constructor; cbn [s_cur s_pend s_wait s_res s_k]; auto; try exact I. 2: discriminate. apply ok_fresh; auto. }
  split; [|exact OS].
  eapply R_run with (b := 0) (e := nf); cbn [s_cur s_wait s_pend s_k s_res s_nextk]; try reflexivity.
  - intros (_ & Q). discriminate.
  - lia.
  - repeat split; cbn [f_bp f_sp fst snd a_slots].
    + rewrite fresh_length by (cbn; lia). cbn [set_ctx set_callstack set_mem v_ctx f_sp f_bp snd]. lia.
    + intros i v Hi. apply nth_error_fresh in Hi. now apply Vn.
  - constructor; cbn [set_ctx set_callstack set_mem v_segs v_cur v_callstack v_try v_mem v_next v_cst v_conts v_nextk v_ctx f_bp f_sp coraNew].
    + eauto.
    + constructor; [intros []|constructor].
    + apply ch_exit; cbn; auto. lia.
    + exists [], (mkF None 0 (0, 0) (0, nf)). split; [reflexivity|constructor].
    + intros g [<-|[]]. split; [|lia]. apply Lv. discriminate.
    + reflexivity.
    + discriminate.
    + congruence.
    + reflexivity.
Qed.

(** ** reading the layout off the machine *)

(** Frame [f] holds activation [a]. *)
Definition shows (s : vm) (f : frame) (a : act) : Prop :=
  f_fn f = Some (a_code a) /\ f_label f = a_label a /\
  fst (f_bp f) = fst (f_sp f) /\ snd (f_sp f) = snd (f_bp f) + length (a_slots a) /\
  forall i v, nth_error (a_slots a) i = Some (Some v) ->
    mread (v_mem s) (fst (f_bp f), snd (f_bp f) + i) = Ok v.

(** The machine is where the specification is. *)
Definition represents (s : vm) (S0 : sst) : Prop :=
  v_res s = s_res S0 /\
  match s_cur S0 with Some a => shows s (v_ctx s) a | None => f_fn (v_ctx s) = None end /\
  ((s_cur S0 <> None \/ s_wait S0 <> None) ->
    exists fs ex, v_callstack s = fs ++ [ex] /\
      Forall2 (fun f i => match i with IAct a => shows s f a | IArgs _ => f_fn f = None end) fs (s_pend S0)).

Definition frame_apart (inner outer : frame) : Prop :=
  fst (f_bp inner) <> fst (f_bp outer) \/ snd (f_sp outer) <= snd (f_bp inner).

(** Every activation's frame lies inside one segment that is in use and has
    not been freed; frames of different activations do not overlap. *)
Definition layout (s : vm) : Prop :=
  let fs := filter (fun f => match f_fn f with Some _ => true | None => false end) (v_ctx s :: v_callstack s) in
  Forall (fun f => fst (f_bp f) = fst (f_sp f) /\ snd (f_bp f) <= snd (f_sp f) <= INIT_STACK_SIZE /\
                   In (fst (f_bp f)) (v_segs s) /\ v_mem s (fst (f_bp f)) <> None) fs /\
  ForallOrdPairs frame_apart fs.

Lemma frame_rel_shows : forall s f a g b e, frame_rel (v_mem s) f a -> f_bp f = (g, b) -> f_sp f = (g, e) ->
  b <= e <= 255 -> shows s f a.
Proof.
  intros s f a g b e (F1 & F2 & F3 & F4) Eb Ee L. unfold shows. rewrite Eb, Ee in *. cbn [fst snd] in *.
  repeat split; auto; try lia. intros i v Hi. specialize (F4 i v Hi). cbn [fst snd] in F4.
  apply mread_val; [exact F4|]. assert (i < length (a_slots a)) by (apply nth_error_Some; congruence). lia.
Qed.

Lemma chain_apart : forall segs lim fs t, chain segs lim fs t -> NoDup segs ->
  ForallOrdPairs frame_apart (filter (fun f => match f_fn f with Some _ => true | None => false end) fs).
Proof.
  intros segs lim fs t H. induction H; intros ND.
  - cbn. destruct (f_fn f); constructor; constructor.
  - cbn. rewrite H. now apply IHchain.
  - cbn. destruct (f_fn f) eqn:Ef; [|congruence]. constructor; [|now apply IHchain].
    apply Forall_forall. intros x Hx. apply filter_In in Hx as (Hx & Nx).
    destruct (chain_regions _ _ _ _ H5 ND x Hx) as (g0 & b0 & e0 & A1 & A2 & A3 & A4 & A5).
    { destruct (f_fn x); congruence. }
    unfold frame_apart. rewrite H1, A1, A2. cbn [fst snd].
    destruct (Nat.eq_dec g g0) as [<-|Q]; [right; apply A5; reflexivity|now left].
  - cbn. destruct (f_fn f) eqn:Ef; [|destruct H; congruence]. 
    assert (ND2 : NoDup (g2 :: gs)) by now inversion ND.
    constructor; [|now apply IHchain].
    apply Forall_forall. intros x Hx. apply filter_In in Hx as (Hx & Nx).
    destruct (chain_regions _ _ _ _ H4 ND2 x Hx) as (g0 & b0 & e0 & A1 & A2 & A3 & A4 & A5).
    { destruct (f_fn x); congruence. }
    unfold frame_apart. rewrite H0, A1. cbn [fst snd]. left. intros ->. inversion ND; subst. tauto.
  - apply IHchain. now inversion ND.
Qed.

Lemma stk_layout : forall s b p kk, Stk s b p kk ->
  (forall c, f_fn (v_ctx s) = Some c -> f_bp (v_ctx s) = (v_cur s, b) /\
     exists e, f_sp (v_ctx s) = (v_cur s, e) /\ b <= e <= 255) -> layout s.
Proof.
  intros s b p kk [K1 K2 K3 K4 K5 K6 K7 K8 K9] HC. unfold layout.
  destruct K1 as (gs & Eg).
  assert (A : Forall (fun f => fst (f_bp f) = fst (f_sp f) /\ snd (f_bp f) <= snd (f_sp f) <= INIT_STACK_SIZE /\
                   In (fst (f_bp f)) (v_segs s) /\ v_mem s (fst (f_bp f)) <> None)
             (filter (fun f => match f_fn f with Some _ => true | None => false end) (v_callstack s))).
  { apply Forall_forall. intros x Hx. apply filter_In in Hx as (Hx & Nx).
    destruct (chain_regions _ _ _ _ K3 K2 x Hx) as (g0 & b0 & e0 & A1 & A2 & A3 & A4 & A5).
    { destruct (f_fn x); congruence. }
    rewrite A1, A2. cbn [fst snd]. repeat split; auto; try lia.
    - unfold INIT_STACK_SIZE. lia.
    - now apply (K5 g0). }
  cbn [filter]. destruct (f_fn (v_ctx s)) as [c|] eqn:Ec.
  - destruct (HC c eq_refl) as (Eb & e & Ee & L). split.
    + constructor; [|exact A]. rewrite Eb, Ee. cbn [fst snd]. repeat split; auto; try lia.
      * unfold INIT_STACK_SIZE. lia.
      * rewrite Eg. now left.
      * apply (K5 (v_cur s)). rewrite Eg. now left.
    + constructor; [|eapply chain_apart; eauto].
      apply Forall_forall. intros x Hx. apply filter_In in Hx as (Hx & Nx).
      destruct (chain_regions _ _ _ _ K3 K2 x Hx) as (g0 & b0 & e0 & A1 & A2 & A3 & A4 & A5).
      { destruct (f_fn x); congruence. }
      unfold frame_apart. rewrite Eb, A1, A2. cbn [fst snd].
      destruct (Nat.eq_dec (v_cur s) g0) as [<-|Q]; [right|now left]. apply A5. rewrite Eg. reflexivity.
  - split; [exact A|eapply chain_apart; eauto].
Qed.

Lemma stk_shows : forall s b p kk, Stk s b p kk ->
  exists fs ex, v_callstack s = fs ++ [ex] /\
    Forall2 (fun f i => match i with IAct a => shows s f a | IArgs _ => f_fn f = None end) fs p.
Proof.
  intros s b p kk [K1 K2 K3 K4 K5 K6 K7 K8 K9]. destruct K4 as (fs & ex & E & F). exists fs, ex. split; [exact E|].
  eapply Forall2_imp; [exact F|]. intros f i Hf Hi. destruct i as [a|l]; [|exact Hi].
  rewrite E in K3. destruct (chain_regions _ _ _ _ K3 K2 f) as (g0 & b0 & e0 & A1 & A2 & A3 & A4 & A5).
  { apply in_or_app. now left. } { destruct Hi. congruence. }
  eapply frame_rel_shows; eauto.
Qed.

Lemma rel_layout : forall s S0, Rel s S0 -> (s_cur S0 <> None \/ s_wait S0 <> None) -> layout s.
Proof.
  intros s S0 [a b e Ec Ew NP Eb Ee L F K RS NK|a b e Ec Ew NP Eb Ee L F K RS NK|ar e Ec Ew Ef Ee L TH Cs K RS NK|Ec Ew Ef Cs RS] H.
  - eapply stk_layout; eauto.
  - assert (Q : layout (set_try s (tl (v_try s)))) by (eapply stk_layout; eauto). exact Q.
  - assert (Q : layout (set_cst s (args_of (s_pend S0)))).
    { eapply stk_layout; eauto. intros c. cbn. congruence. }
    exact Q.
  - tauto.
Qed.

Lemma rel_represents : forall s S0, Rel s S0 -> represents s S0.
Proof.
  intros s S0 [a b e Ec Ew NP Eb Ee L F K RS NK|a b e Ec Ew NP Eb Ee L F K RS NK|ar e Ec Ew Ef Ee L TH Cs K RS NK|Ec Ew Ef Cs RS];
  unfold represents; rewrite Ec, Ew; (split; [exact RS|]).
  - split; [|intros _; exact (stk_shows _ _ _ _ K)]. eapply frame_rel_shows; eauto.
  - split; [|intros _; exact (stk_shows _ _ _ _ K)]. eapply frame_rel_shows; eauto.
  - split; [exact Ef|intros _; exact (stk_shows _ _ _ _ K)].
  - split; [exact Ef|]. intros [Q|Q]; congruence.
Qed.

(** ** executions made of plain calls *)

(** Only user functions and partial applications of them are running, and no
    call passes more arguments than its function takes. *)
Definition plain (S0 : sst) : Prop :=
  (forall a, s_cur S0 = Some a -> (exists n, a_code a = CUser n) \/ a_code a = CCurry) /\
  args_of (s_pend S0) = [].

Lemma rel_code : forall s S0 c, Rel s S0 -> f_fn (v_ctx s) = Some c -> exists a, s_cur S0 = Some a /\ a_code a = c.
Proof.
  intros s S0 c [a b e Ec Ew NP Eb Ee L F K RS NK|a b e Ec Ew NP Eb Ee L F K RS NK|ar e Ec Ew Ef Ee L TH Cs K RS NK|Ec Ew Ef Cs RS] H;
  try congruence; exists a; split; auto; destruct F; congruence.
Qed.

Lemma plain_permitted : forall s S0 a, Rel s S0 -> plain S0 ->
  (forall S', s_step S0 a = Some S' -> plain S') -> permitted s S0 a.
Proof.
  intros s S0 a R (P1 & P2) PS. constructor.
  - intros c Hc D. destruct (rel_code _ _ _ R Hc) as (x & Ex & <-). destruct (P1 x Ex) as [(n & Q)|Q]; rewrite Q in D;
      destruct D as [D|[D|(D & _)]]; discriminate.
  - intros s' S' _ E W. destruct (PS _ E) as (_ & Q). unfold more_args in W. rewrite Q in W. cbn in W. lia.
  - intros up h below Hc. destruct (rel_code _ _ _ R Hc) as (x & Ex & Q). destruct (P1 x Ex) as [(n & Z)|Z]; congruence.
Qed.

Lemma plain_run : forall l s S0 S', Rel s S0 -> ok_sst S0 -> Forall ok_action l ->
  (forall l1 l2 S1, l = l1 ++ l2 -> s_steps S0 l1 = Some S1 -> plain S1) ->
  s_steps S0 l = Some S' -> exists s', steps s l = Ok s' /\ Rel s' S' /\ ok_sst S'.
Proof.
  induction l as [|a l IH]; intros s S0 S' R O Fa P E; cbn in E.
  - injection E as <-. exists s. auto.
  - destruct (s_step S0 a) as [S1|] eqn:E1; [|discriminate]. inversion Fa; subst.
    destruct (step_sim s S0 a S1 R O) as (s1 & E2 & R1); auto.
    { apply plain_permitted; auto.
      - apply (P [] (a :: l)); reflexivity.
      - intros S2 E2. apply (P [a] l); [reflexivity|]. cbn. now rewrite E2. }
    destruct (IH s1 S1 S' R1) as (s' & E3 & R3); auto.
    { eapply s_step_ok; eauto. }
    { intros l1 l2 S2 -> Q2. apply (P (a :: l1) l2); [reflexivity|]. cbn. now rewrite E1. }
    exists s'. cbn. rewrite E2. auto.
Qed.

(** ** what can stop the specification *)

Definition stuck_reason (S0 : sst) (a : action) : Prop :=
  (* a value that is not a function is called *)
  (exists o, (forall c nf rq d, o <> ONative c nf rq d) /\
     ((exists l args, a = ACall l o args) \/ (exists args, a = ATail o args) \/
      (s_wait S0 <> None /\ o = s_res S0) \/
      (exists l x ar, s_cur S0 = Some (mkA CApply l [x; Some o; ar])) \/
      (exists l x h, s_cur S0 = Some (mkA CTry l [x; Some o; h])) \/
      (exists l sl up below, s_cur S0 = Some (mkA CThrow l sl) /\ cut (s_pend S0) = Some (up, o, below)))) \/
  (* a store outside the frame *)
  (exists i v x, a = AWrite i v /\ s_cur S0 = Some x /\ length (a_slots x) <= i) \/
  (* apply with the wrong number of arguments, or something that is not a list *)
  (exists l x c nf rq d ar, s_cur S0 = Some (mkA CApply l [x; Some (ONative c nf rq d); Some ar]) /\
     forall es, elems ar = Some es -> length es <> rq) \/
  (* throw outside any try *)
  (exists l sl, s_cur S0 = Some (mkA CThrow l sl) /\ forallb (fun i => negb (is_try i)) (s_pend S0) = true) \/
  (* a continuation used before *)
  (exists l nf rq id v, s_cur S0 = Some (mkA CCont l [Some (ONative CCont nf rq [OCont id]); Some v]) /\ s_k S0 id = None).

Lemma s_return_some : forall S0 v, s_return S0 v <> None.
Proof. intros S0 v. unfold s_return. destruct (s_pend S0) as [|[?|?] ?]; discriminate. Qed.

Lemma s_call_none : forall S0 fn args, s_call S0 fn args = None -> forall c nf rq d, fn <> ONative c nf rq d.
Proof.
  intros S0 fn args E c nf rq d ->. unfold s_call in E. destruct (length args <? rq).
  - now apply s_return_some in E.
  - discriminate.
Qed.

Lemma cut_none : forall p, Forall ok_item p -> cut p = None -> forallb (fun i => negb (is_try i)) p = true.
Proof.
  induction p as [|i q IH]; intros F E; [reflexivity|]. cbn [cut] in E. inversion F; subst. cbn [forallb].
  destruct (is_try i) eqn:T.
  - exfalso. destruct i as [[c l sl]|]; [|discriminate]. cbn in T. destruct c; try discriminate.
    destruct H1 as (_ & _ & x & y & z & Q). cbn in Q. subst sl. discriminate.
  - cbn. apply IH; [assumption|]. destruct (cut q) as [[[? ?] ?]|]; [discriminate|reflexivity].
Qed.

Lemma spec_progress : forall S0 a, ok_sst S0 -> s_step S0 a = None -> stuck_reason S0 a.
Proof.
  intros S0 a [O1 O2 O3 O4 O5] E. unfold s_step in E. unfold stuck_reason.
  destruct (s_cur S0) as [[c l sl]|] eqn:Ec.
  2:{ destruct (s_wait S0) as [ar|] eqn:Ew; [|discriminate]. left.
      exists (s_res S0). split; [eapply s_call_none; eauto|]. right. right. left. split; [discriminate|reflexivity]. }
  destruct O1 as (Os & Osh). cbn [a_slots a_code a_label] in Os, Osh. destruct c.
  - destruct a as [i v|l' fn args|fn args|v].
    + destruct (Nat.ltb_spec i (length sl)) as [|Hi]; [discriminate|]. right. left. exists i, v. eexists. eauto.
    + left. exists fn. split; [eapply s_call_none; eauto|]. left. eauto.
    + left. exists fn. split; [eapply s_call_none; eauto|]. right. left. eauto.
    + now apply s_return_some in E.
  - exfalso. destruct Osh as (nf & rq & d & ys & Ly & N & Esl).
    assert (Oc : ok_obj (ONative CCurry nf rq d)) by (apply (Os 0); rewrite Esl; reflexivity).
    apply ok_native in Oc as (_ & Sh & _). cbn in Sh. destruct d as [|[| | |c0 nf0 rq0 d0|] xs]; try contradiction.
    rewrite Esl in E. cbn in E. discriminate.
  - destruct Osh as (x & f & ar & Esl). rewrite Esl in *.
    destruct f as [z| |p q|c0 nf0 rq0 d0|id];
      try (left; eexists; split; [|right; right; right; left; exists l, x, (Some ar); reflexivity]; discriminate).
    right. right. left. exists l, x, c0, nf0, rq0, d0, ar. split; [reflexivity|]. intros es Ee. rewrite Ee in E.
    destruct (Nat.eqb_spec rq0 (length es)); [|congruence]. exfalso. exact (s_call_none _ _ _ E c0 nf0 rq0 d0 eq_refl).
  - destruct Osh as (Lb & x & y & z & Esl). rewrite Esl in *. destruct Lb as [-> | ->].
    + left. exists y. split; [eapply s_call_none; eauto|]. right. right. right. right. left. eauto.
    + now apply s_return_some in E.
  - destruct Osh as (x & v & Esl). rewrite Esl in *.
    destruct (cut (s_pend S0)) as [[[up h] below]|] eqn:Q.
    + left. exists h. split; [eapply s_call_none; eauto|]. do 5 right. exists l, [x; Some v], up, below. auto.
    + right. right. right. left. exists l, [x; Some v]. split; [reflexivity|]. now apply cut_none.
  - destruct Osh as (nf & rq & id & v & Esl). rewrite Esl in *.
    destruct (s_k S0 id) as [up|] eqn:Q.
    + now apply s_return_some in E.
    + do 4 right. exists l, nf, rq, id, v. auto.
Qed.

(** ** partial application *)

(** The value of applying [f] to the groups of arguments [gs], one after the
    other, too few in all to run it. *)
Definition papp1 (f : obj) (g : list obj) : obj :=
  match g with
  | [] => f
  | _ => match f with
         | ONative c nf rq d => ONative CCurry nf (rq - length g) (f :: g)
         | _ => f
         end
  end.

Definition papp (f : obj) (gs : list (list obj)) : obj := fold_left papp1 gs f.

Definition nonempty {A} (l : list A) : bool := match l with [] => false | _ => true end.

Lemma papp_native : forall gs c nf rq d, exists c' d', papp (ONative c nf rq d) gs = ONative c' nf (rq - length (concat gs)) d' .
Proof.
  induction gs as [|g gs IH]; intros c nf rq d; cbn.
  - rewrite Nat.sub_0_r. eauto.
  - destruct g as [|x g]; cbn [papp1 app]; [apply IH|].
    destruct (IH CCurry nf (rq - length (x :: g)) (ONative c nf rq d :: x :: g)) as (c' & d' & E).
    unfold papp in E. cbn [length] in *. rewrite E. exists c', d'. f_equal. rewrite !app_length. cbn. lia.
Qed.

Lemma partial_call : forall s c nf rq d gs g, S rq <= nf -> length (concat gs ++ g) < rq ->
  coraCallN s (papp (ONative c nf rq d) gs) g = coraReturn s (papp (ONative c nf rq d) (gs ++ [g])).
Proof.
  intros s c nf rq d gs g N L. unfold papp at 2. rewrite fold_left_app. cbn [fold_left]. fold (papp (ONative c nf rq d) gs).
  destruct (papp_native gs c nf rq d) as (c' & d' & E). rewrite E. rewrite app_length in L.
  rewrite coraCallN_eq by lia. rewrite (proj2 (Nat.ltb_lt _ _)) by lia. destruct g; reflexivity.
Qed.

Definition cells (m : memory) (R : addr) (l : list obj) : Prop :=
  forall i v, nth_error l i = Some v -> val m (fst R, snd R + i) = Some v.

Definition same_out (m m' : memory) (R : addr) (n : nat) : Prop :=
  (forall g, live m g <-> live m' g) /\
  forall g o, (g <> fst R \/ o < snd R \/ snd R + n <= o) -> val m (g, o) = val m' (g, o).

Lemma mread_cells : forall m R l i v, cells m R l -> nth_error l i = Some v -> snd R + length l <= 256 ->
  mread m (fst R, snd R + i) = Ok v.
Proof.
  intros m R l i v C H B. apply mread_val; [now apply C|].
  assert (i < length l) by (apply nth_error_Some; congruence). lia.
Qed.

Lemma mreads_cells : forall l m g o, (forall i v, nth_error l i = Some v -> val m (g, o + i) = Some v) ->
  o + length l <= 256 -> mreads m (g, o) (length l) = Ok l.
Proof.
  induction l as [|x l IH]; intros m g o C B; cbn [length mreads]; [reflexivity|]. cbn [length] in B.
  rewrite (mread_val _ _ _ x); [|specialize (C 0 x eq_refl); now rewrite Nat.add_0_r in C|lia]. cbn [obind fst snd].
  rewrite IH; [reflexivity| |lia]. intros i v H. specialize (C (S i) v H). rewrite <- C. f_equal. f_equal. lia.
Qed.

Lemma curry_step : forall s R sp nf rq c0 nf0 rq0 d0 xs ys,
  v_ctx s = mkF (Some CCurry) 0 R sp -> length ys = rq ->
  cells (v_mem s) R (ONative CCurry nf rq (ONative c0 nf0 rq0 d0 :: xs) :: ys) ->
  snd R + S (length xs + length ys) <= 256 ->
  exists m', callCurry s = Ok (set_ctx (set_mem s m') (mkF (Some c0) 0 R sp)) /\
    cells m' R (ONative c0 nf0 rq0 d0 :: xs ++ ys) /\ same_out (v_mem s) m' R (S (length xs + length ys)).
Proof.
  intros s [g b] sp nf rq c0 nf0 rq0 d0 xs ys Ec Ly C B. cbn [snd] in B. subst rq.
  unfold callCurry. rewrite Ec. cbn [f_bp f_sp].
  set (fn := ONative CCurry nf (length ys) (ONative c0 nf0 rq0 d0 :: xs)) in *.
  set (d := ONative c0 nf0 rq0 d0 :: xs) in *.
  assert (V0 : val (v_mem s) (g, b) = Some fn) by (specialize (C 0 fn eq_refl); cbn [fst snd] in C; now rewrite Nat.add_0_r in C).
  assert (Lg : live (v_mem s) g) by (unfold live; unfold val in V0; cbn [fst] in V0; destruct (v_mem s g); congruence).
  rewrite (mread_val _ _ _ _ V0) by lia. cbn [obind mustNative fn].
  assert (Ld : length d = S (length xs)) by reflexivity. cbn [fst snd].
  rewrite (mreads_cells ys); [| |lia].
  2:{ intros i v H. specialize (C (S i) v H). cbn [fst snd] in C. rewrite <- C. f_equal. f_equal. lia. }
  cbn [obind]. fold d.
  destruct (mwrites_ok ys (v_mem s) g (b + length d) Lg) as (m1 & E1 & L1 & W1 & O1); [lia|]. rewrite E1. cbn [obind].
  destruct (mwrites_ok d m1 g b) as (m2 & E2 & L2 & W2 & O2); [now apply L1|lia|]. rewrite E2. cbn [obind].
  assert (V2 : val m2 (g, b) = Some (ONative c0 nf0 rq0 d0)).
  { pose proof (W2 0 _ eq_refl) as Q. now rewrite Nat.add_0_r in Q. }
  rewrite (mread_val _ _ _ _ V2) by lia. cbn [obind mustNative]. exists m2. split; [reflexivity|]. split.
  - change (ONative c0 nf0 rq0 d0 :: xs ++ ys) with (d ++ ys). intros i v H. cbn [fst snd].
    destruct (le_lt_dec (length d) i) as [Q|Q].
    + rewrite nth_error_app2 in H by exact Q. rewrite O2 by lia. specialize (W1 _ _ H). rewrite <- W1. f_equal. f_equal. lia.
    + rewrite nth_error_app1 in H by exact Q. now apply W2.
  - split.
    + intros x. rewrite L2. symmetry. apply L1.
    + cbn [fst snd]. intros x y H. rewrite O2 by lia. now rewrite O1 by lia.
Qed.

Lemma unfold_papp : forall gs c nf rq d ys s R sp c' rq' d' acts,
  papp (ONative c nf rq d) gs = ONative c' nf rq' d' ->
  v_ctx s = mkF (Some c') 0 R sp -> length (concat gs ++ ys) = rq ->
  cells (v_mem s) R (papp (ONative c nf rq d) gs :: ys) -> snd R + S rq <= 256 ->
  length acts = length (filter nonempty gs) ->
  exists m', steps s acts = Ok (set_ctx (set_mem s m') (mkF (Some c) 0 R sp)) /\
    cells m' R (ONative c nf rq d :: concat gs ++ ys) /\ same_out (v_mem s) m' R (S rq).
Proof.
  induction gs as [|g gs IH] using rev_ind; intros c nf rq d ys s R sp c' rq' d' acts Ep Ec Ly C B La.
  - cbn in *. injection Ep as <- <- <-. destruct acts; [|discriminate]. cbn [steps]. exists (v_mem s).
    split; [|split; [exact C|split; intros; tauto]]. f_equal. destruct s; cbn in *. subst. reflexivity.
  - rewrite concat_app in *. cbn [concat] in *. rewrite app_nil_r in *. rewrite <- app_assoc in Ly.
    unfold papp in Ep, C. rewrite fold_left_app in Ep, C. cbn [fold_left] in Ep, C. fold (papp (ONative c nf rq d) gs) in Ep, C.
    rewrite filter_app, app_length in La. destruct g as [|x g].
    + cbn [papp1 filter nonempty length app] in *. rewrite Nat.add_0_r, app_nil_r in *.
      destruct (IH c nf rq d ys s R sp c' rq' d' acts) as (m' & A1 & A2 & A3); auto. exists m'. auto.
    + cbn [filter nonempty length] in La.
      destruct (papp_native gs c nf rq d) as (c1 & d1 & E1). rewrite E1 in *. cbn [papp1] in *. injection Ep as <- <- <-.
      destruct acts as [|a acts]; [cbn in La; lia|]. cbn [steps]. unfold step. rewrite Ec. cbn [f_fn].
      rewrite !app_length in Ly.
      destruct (curry_step s R sp nf (rq - length (concat gs) - length (x :: g)) c1 nf (rq - length (concat gs)) d1 (x :: g) ys) as (m1 & S1 & S2 & S3); auto.
      { lia. } { lia. }
      rewrite S1. cbn [obind].
      destruct (IH c nf rq d ((x :: g) ++ ys) (set_ctx (set_mem s m1) (mkF (Some c1) 0 R sp)) R sp c1 (rq - length (concat gs)) d1 acts) as (m2 & T1 & T2 & T3); auto.
      { rewrite !app_length. lia. }
      { rewrite E1. exact S2. }
      { cbn [length] in La. lia. }
      exists m2. rewrite T1. split; [reflexivity|]. rewrite <- app_assoc. split; [exact T2|].
      cbn [set_ctx set_mem v_mem] in T3. destruct S3 as (P1 & P2), T3 as (Q1 & Q2). split.
      * intros g0. rewrite P1. apply Q1.
      * intros g0 o H. rewrite P2 by lia. apply Q2. lia.
Qed.

(** All fields the same; the memory cell for cell. *)
Definition same_state (s s' : vm) : Prop :=
  v_ctx s = v_ctx s' /\ v_callstack s = v_callstack s' /\ v_segs s = v_segs s' /\ v_cur s = v_cur s' /\
  v_next s = v_next s' /\ v_res s = v_res s' /\ v_try s = v_try s' /\ v_conts s = v_conts s' /\
  v_nextk s = v_nextk s' /\ v_cst s = v_cst s' /\ forall a, val (v_mem s) a = val (v_mem s') a.

Lemma stackAlloc_room : forall s n s', stackAlloc s n = Ok s' -> snd (f_bp (v_ctx s')) + n <= 256.
Proof.
  unfold stackAlloc, stackAllocSlowPath, assertT. intros s n s' E.
  destruct (0 <? n); [|discriminate]. destruct (fst (f_sp (v_ctx s)) =? v_cur s); [|discriminate].
  destruct (Nat.ltb_spec (snd (f_sp (v_ctx s)) + n) INIT_STACK_SIZE) as [H|H].
  - apply Ok_inj in E. subst s'. cbn. unfold INIT_STACK_SIZE in H. lia.
  - destruct (Nat.ltb_spec n INIT_STACK_SIZE) as [Q|Q]; [|discriminate]. apply Ok_inj in E. subst s'. cbn.
    unfold INIT_STACK_SIZE in Q. lia.
Qed.

Lemma mwrites_live : forall v vs m a m', mwrites m a (v :: vs) = Ok m' -> live m (fst a).
Proof. intros v vs m a m' E. cbn in E. unfold mwrite in E. unfold live. destruct (m (fst a)); [discriminate|discriminate E]. Qed.

Lemma grouping : forall s c nf rq d gs g acts s2, S rq <= nf -> length (concat gs ++ g) = rq -> g <> [] \/ concat gs = [] ->
  length acts = length (filter nonempty gs) ->
  coraCallN s (ONative c nf rq d) (concat gs ++ g) = Ok s2 ->
  exists s1 s2', coraCallN s (papp (ONative c nf rq d) gs) g = Ok s1 /\ steps s1 acts = Ok s2' /\ same_state s2' s2.
Proof.
  intros s c nf rq d gs g acts s2 N Lg Ng La E.
  rewrite coraCallN_eq in E by exact N. rewrite Lg, Nat.ltb_irrefl, Nat.eqb_refl in E.
  destruct (papp_native gs c nf rq d) as (c' & d' & Ep). rewrite Ep.
  rewrite app_length in Lg. rewrite coraCallN_eq by lia.
  rewrite (proj2 (Nat.ltb_ge _ _)) by lia. rewrite (proj2 (Nat.eqb_eq _ _)) by lia.
  unfold enter in *. destruct (stackAlloc s nf) as [s0| |] eqn:Ea; try discriminate. cbn [obind] in *.
  pose proof (stackAlloc_room _ _ _ Ea) as Rm.
  destruct (f_bp (v_ctx s0)) as [gg b] eqn:Eb. cbn [snd] in Rm.
  destruct (mwrites (v_mem s0) (gg, b) (ONative c nf rq d :: concat gs ++ g)) as [m2| |] eqn:Ew; try discriminate. cbn [obind] in E.
  apply Ok_inj in E. subst s2.
  pose proof (mwrites_live _ _ _ _ _ Ew) as Lv. cbn [fst] in Lv.
  destruct (mwrites_ok (ONative c nf rq d :: concat gs ++ g) (v_mem s0) gg b Lv) as (m2' & E2 & L2 & W2 & O2).
  { cbn [length]. rewrite app_length. lia. }
  rewrite Ew in E2. apply Ok_inj in E2. subst m2'.
  destruct (mwrites_ok (ONative c' nf (rq - length (concat gs)) d' :: g) (v_mem s0) gg b Lv) as (m1 & E1 & L1 & W1 & O1).
  { cbn [length]. lia. }
  rewrite E1. cbn [obind].
  destruct (unfold_papp gs c nf rq d g
    (set_ctx (set_mem s0 m1) (mkF (Some c') 0 (gg, b) (f_sp (v_ctx s0)))) (gg, b) (f_sp (v_ctx s0)) c' _ d' acts Ep) as (m3 & T1 & T2 & T3); auto.
  { rewrite app_length. lia. }
  { rewrite Ep. exact W1. }
  { cbn [snd]. lia. }
  eexists. eexists. split; [reflexivity|]. split; [exact T1|].
  unfold same_state. cbn. repeat split; try reflexivity.
  destruct T3 as (Q1 & Q2). cbn in Q1, Q2. intros [x y].
  destruct (Nat.eq_dec x gg) as [->|Hx].
  - destruct (le_lt_dec b y) as [H1|H1]; [destruct (le_lt_dec (b + S rq) y) as [H2|H2]|].
    + rewrite <- Q2 by lia. rewrite O1 by (cbn [length]; lia). rewrite O2 by (cbn [length]; rewrite app_length; lia). reflexivity.
    + assert (H : y - b < length (ONative c nf rq d :: concat gs ++ g)) by (cbn [length]; rewrite app_length; lia).
      apply nth_error_Some in H. destruct (nth_error (ONative c nf rq d :: concat gs ++ g) (y - b)) as [v|] eqn:Ev; [|congruence].
      specialize (W2 _ _ Ev). specialize (T2 _ _ Ev). cbn [fst snd] in T2. replace (b + (y - b)) with y in * by lia. congruence.
    + rewrite <- Q2 by lia. rewrite O1 by lia. rewrite O2 by lia. reflexivity.
  - rewrite <- Q2 by lia. rewrite O1 by lia. rewrite O2 by lia. reflexivity.
Qed.

(** ** tail calls *)

(** A step of a loop of tail calls: stores, and tail calls of functions with
    as many arguments as they take. *)
Definition tail_step (s : vm) (a : action) : Prop :=
  match f_fn (v_ctx s) with
  | Some (CUser _) =>
      match a with
      | AWrite _ _ => True
      | ATail (ONative c nf rq d) args => length args = rq /\ S rq <= nf
      | _ => False
      end
  | Some CCurry => True
  | _ => False
  end.

Definition tail_run (s : vm) (l : list action) : Prop :=
  forall l1 a l2 s1, l = l1 ++ a :: l2 -> steps s l1 = Ok s1 -> tail_step s1 a.

Definition tight (s0 s : vm) : Prop :=
  v_callstack s = v_callstack s0 /\ v_try s = v_try s0 /\ v_cst s = v_cst s0 /\
  ((v_segs s = v_segs s0 /\ v_next s = v_next s0) \/
   (exists g, v_segs s = g :: v_segs s0 /\ v_next s = S (v_next s0) /\ f_bp (v_ctx s) = (g, 0))).

Lemma tight_alloc : forall s0 s n s', tight s0 s -> f_sp (v_ctx s) = f_bp (v_ctx s) -> stackAlloc s n = Ok s' -> tight s0 s'.
Proof.
  intros s0 s n s' (T1 & T2 & T3 & T4) Es E. unfold stackAlloc, stackAllocSlowPath, assertT in E.
  destruct (0 <? n); [|discriminate]. destruct (fst (f_sp (v_ctx s)) =? v_cur s); [|discriminate].
  destruct (Nat.ltb_spec (snd (f_sp (v_ctx s)) + n) INIT_STACK_SIZE) as [H|H].
  - apply Ok_inj in E. subst s'. unfold tight. cbn. repeat split; auto.
    destruct T4 as [?|(g & A & B & C)]; [now left|right]. exists g. rewrite Es. auto.
  - destruct (Nat.ltb_spec n INIT_STACK_SIZE) as [Q|Q]; [|discriminate]. apply Ok_inj in E. subst s'. unfold tight. cbn.
    repeat split; auto. destruct T4 as [(A & B)|(g & A & B & C)].
    + right. exists (v_next s). rewrite A, B. auto.
    + rewrite Es, C in H. cbn in H. lia.
Qed.

Lemma tight_step : forall s0 s a s', tight s0 s -> tail_step s a -> step s a = Ok s' -> tight s0 s'.
Proof.
  intros s0 s a s' T A E. unfold tail_step in A. unfold step in E.
  destruct (f_fn (v_ctx s)) as [[n| | | | |]|]; try contradiction.
  - destruct a as [i v|l f args|f args|v]; try contradiction; unfold user_step in E.
    + destruct (mwrite _ _ _); try discriminate. cbn in E. apply Ok_inj in E. subst s'. exact T.
    + destruct f as [| | |c nf rq d|]; try contradiction. destruct A as (A & N).
      rewrite coraCallN_eq in E by exact N. rewrite A, Nat.ltb_irrefl, Nat.eqb_refl in E. unfold enter in E.
      destruct (stackAlloc _ nf) as [s1| |] eqn:Ea; try discriminate. cbn [obind] in E.
      apply (tight_alloc s0) in Ea; [|exact T|reflexivity].
      destruct (mwrites _ _ _) as [m| |]; try discriminate. cbn [obind] in E. apply Ok_inj in E. subst s'. exact Ea.
  - unfold callCurry in E.
    destruct (mread _ _) as [fn| |]; try discriminate. cbn [obind] in E.
    destruct (mustNative fn) as [[[[c nf] rq] d]| |]; try discriminate. cbn [obind] in E.
    destruct (mreads _ _ _); try discriminate. cbn [obind] in E.
    destruct (mwrites _ _ _); try discriminate. cbn [obind] in E.
    destruct (mwrites _ _ _); try discriminate. cbn [obind] in E.
    destruct (mread _ _) as [f0| |]; try discriminate. cbn [obind] in E.
    destruct (mustNative f0) as [[[[c0 nf0] rq0] d0]| |]; try discriminate. cbn [obind] in E.
    apply Ok_inj in E. subst s'. exact T.
Qed.

Lemma tight_run : forall l s0 s s', tight s0 s -> tail_run s l -> steps s l = Ok s' -> tight s0 s'.
Proof.
  induction l as [|a l IH]; intros s0 s s' T R E; cbn in E.
  - apply Ok_inj in E. now subst.
  - destruct (step s a) as [s1| |] eqn:E1; try discriminate. cbn in E.
    assert (tight s0 s1). { eapply tight_step; [exact T| |exact E1]. eapply (R [] a l); reflexivity. }
    eapply IH; eauto. intros l1 b l2 s2 -> Q. eapply (R (a :: l1) b l2); [reflexivity|]. cbn. now rewrite E1.
Qed.

Lemma resume_args : forall s b p kk id up, Stk s b p kk -> kk id = Some up -> args_of up = [].
Proof.
  intros s b p kk id up [K1 K2 K3 K4 K5 K6 K7 K8 K9] E. destruct (K7 id up E) as (fs & sg & l & A1 & A2 & A3 & _).
  exact (acts_no_args _ _ _ A3 (part_act _ _ _ A2)).
Qed.

(** ** deciding [permitted], for examples *)

Definition hd_in_b (g : nat) (fs : list frame) : bool :=
  match fs with [] => false | f :: _ => fst (f_sp f) =? g end.

Definition permitted_b (s : vm) (S0 : sst) (a : action) : bool :=
  (match f_fn (v_ctx s) with
   | Some CApply | Some CCont => hd_in_b (v_cur s) (v_callstack s)
   | Some CTry => negb (f_label (v_ctx s) =? 0) || hd_in_b (v_cur s) (v_callstack s)
   | _ => true
   end) &&
  (match step s a, s_step S0 a with
   | Ok s', Some S' =>
       negb (length (args_of (s_pend S0)) <? length (args_of (s_pend S'))) ||
       match v_callstack s' with
       | x :: y :: _ => match f_fn x with None => fst (f_sp x) =? fst (f_sp y) | Some _ => true end
       | _ => true
       end
   | _, _ => true
   end) &&
  (match f_fn (v_ctx s), cut (s_pend S0) with
   | Some CThrow, Some (up, _, _) => match args_of up with [] => true | _ => false end
   | _, _ => true
   end).

Lemma hd_in_b_ok : forall g fs, hd_in_b g fs = true -> hd_in g fs.
Proof. intros g [|f fs] H; [discriminate|]. now apply Nat.eqb_eq in H. Qed.

Lemma permitted_b_ok : forall s S0 a, permitted_b s S0 a = true -> permitted s S0 a.
Proof.
  intros s S0 a H. unfold permitted_b in H. apply andb_true_iff in H as (H & H3). apply andb_true_iff in H as (H1 & H2). constructor.
  - intros c Ec Q. rewrite Ec in H1. unfold top_here. destruct Q as [->|[->|(-> & El)]].
    + now apply hd_in_b_ok.
    + now apply hd_in_b_ok.
    + rewrite El in H1. cbn in H1. now apply hd_in_b_ok.
  - intros s' S' E E' W. rewrite E, E' in H2. unfold more_args in W. rewrite (proj2 (Nat.ltb_lt _ _) W) in H2. cbn [negb orb] in H2.
    unfold over_ok. destruct (v_callstack s') as [|x [|y r]]; auto. intros Ex. rewrite Ex in H2. now apply Nat.eqb_eq.
  - intros up h below Ec Q. rewrite Ec, Q in H3. destruct (args_of up); [reflexivity|discriminate].
Qed.

Fixpoint permitted_all (s : vm) (S0 : sst) (l : list action) : bool :=
  match l with
  | [] => true
  | a :: l' => permitted_b s S0 a &&
      match step s a, s_step S0 a with Ok s1, Some S1 => permitted_all s1 S1 l' | _, _ => true end
  end.

Lemma permitted_all_ok : forall l s S0, permitted_all s S0 l = true -> permitted_along s S0 l.
Proof.
  induction l as [|a l IH]; intros s S0 H l1 b l2 s1 S1 E Q1 Q2; [destruct l1; discriminate|].
  cbn [permitted_all] in H. apply andb_true_iff in H as (H1 & H2). destruct l1 as [|x l1].
  - injection E as <- <-. cbn in Q1, Q2. apply Ok_inj in Q1. injection Q2 as <-. subst. now apply permitted_b_ok.
  - injection E as <- ->. cbn in Q1, Q2. destruct (step s a) as [s2| |]; try discriminate.
    destruct (s_step S0 a) as [S2|]; [|discriminate]. cbn in Q1. eapply IH; eauto.
Qed.
