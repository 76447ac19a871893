(** C36: what is saved in a frame across a call is what the rest of the
    function needs. *)
From Coq Require Import List ZArith Bool String Arith Lia.
From Verif Require Import CoreSpec CoreProofs TocModel TocSem TocClosure TocTail TocLive TocParse TocMach TocCollect.
Import ListNotations.
Local Open Scope list_scope.
Local Open Scope nat_scope.

(** * What it means *)

(** the C variables an operand reads; creating a closure reads the captured ones *)
Definition v_reads (s : simple) : list name := match s with SmVar x => [x] | _ => [] end.
Definition reads (s : simple) : list name :=
  match s with
  | SmVar x => [x]
  | SmLab _ _ _ frees => flat_map v_reads frees
  | _ => []
  end.

(** The block only reads variables that are defined at that point ([vis] when
    it is entered), and at each call the variables to be saved are defined, are
    different, and are the ones the continuation restores. *)
Fixpoint safe (conts : list cont) (vis : list name) (t : stm) : Prop :=
  match t with
  | TRet s => incl (reads s) vis
  | TTail f args => incl (flat_map reads (f :: args)) vis
  | TJump f args l live =>
      incl (flat_map reads (f :: args)) vis /\ incl live vis /\ NoDup live /\
      1 <= l /\ exists k, nth_error conts (l - 1) = Some k /\ k_live k = live
  | TLet x s k => incl (reads s) vis /\ safe conts (x :: vis) k
  | TPrim x _ args k => incl (flat_map reads args) vis /\ safe conts (x :: vis) k
  | TIf s a b => incl (reads s) vis /\ safe conts vis a /\ safe conts vis b
  | TDo s k => incl (reads s) vis /\ safe conts vis k
  | TCall _ _ _ _ _ => False                              (* not in C functions *)
  end.

(** The function needs nothing but its parameters, each continuation nothing
    but the result and what was saved, and there is room in the frame. *)
Definition safe_func (F : func) : Prop :=
  safe (f_conts F) (f_ps F) (f_first F) /\
  List.length (f_ps F) + 1 <= lambda_frame_size F /\
  forall k, In k (f_conts F) ->
    safe (f_conts F) (k_var k :: k_live k) (k_body k) /\ ~ In (k_var k) (k_live k) /\
    List.length (k_live k) + 1 <= lambda_frame_size F.

(** * Names in lists are listed once *)
Lemma nodup_union : forall a b, NoDup a -> NoDup b -> NoDup (union a b).
Proof.
  induction a as [|x a IH]; intros b Ha Hb; cbn; [exact Hb|]. inversion Ha; subst.
  destruct (mem_spec x b) as [|N]; [now apply IH|]. constructor; [|now apply IH]. rewrite in_union. tauto.
Qed.
Lemma nodup_diff : forall a b, NoDup a -> NoDup (diff a b).
Proof.
  induction a as [|x a IH]; intros b Ha; cbn; [constructor|]. inversion Ha; subst.
  destruct (mem_spec x b) as [|N]; [now apply IH|]. constructor; [|now apply IH]. rewrite in_diff. tauto.
Qed.
Lemma nodup_unions : forall l, Forall (@NoDup name) l -> NoDup (unions l).
Proof.
  intros l H. unfold unions. assert (Q : NoDup (@nil name)) by constructor. revert Q. generalize (@nil name).
  induction H as [|s l Hs H IH]; intros acc Q; cbn; [exact Q|]. apply IH. now apply nodup_union.
Qed.

Definition frees_ok (l : list simple) : bool := forallb (fun s => match s with SmVar _ | SmRef _ => true | _ => false end) l.

Lemma nodup_frees : forall frees, frees_ok frees = true -> Forall (@NoDup name) (map fv_simple frees).
Proof.
  induction frees as [|s l IH]; intro H; cbn in *; [constructor|]. apply andb_true_iff in H as (H1 & H2).
  constructor; [|auto]. destruct s; try discriminate; cbn; [|constructor]. constructor; [intros []|constructor].
Qed.
Lemma nodup_args : forall args, Forall (fun s => sok_simple s = true -> NoDup (fv_simple s)) args -> forallb sok_simple args = true ->
  Forall (@NoDup name) (map fv_simple args).
Proof.
  intros args H. induction H as [|s l Hs H IH]; intro HS; cbn in *; [constructor|]. apply andb_true_iff in HS as (H1 & H2). constructor; auto.
Qed.

Lemma nodup_fv : forall t, sok_stm t = true -> NoDup (fv_stm t).
Proof.
  apply (stm_ind' (fun s => sok_simple s = true -> NoDup (fv_simple s)) (fun t => sok_stm t = true -> NoDup (fv_stm t)));
    cbn -[unions]; intros; rewrite ?andb_true_iff in *; try discriminate; try (now constructor); auto.
  - constructor; [intros []|constructor].
  - destruct H0 as ((A & _) & B). apply nodup_unions. constructor; [apply nodup_diff; auto|]. now apply nodup_frees.
  - destruct H1 as (A & B). apply nodup_unions. constructor; auto. now apply nodup_args.
  - destruct H2 as (((A & B) & C) & _). apply nodup_unions. constructor; [apply nodup_unions; constructor; auto; now apply nodup_args|].
    constructor; [apply nodup_diff; auto|constructor].
  - destruct H1 as (A & B). apply nodup_union; auto. apply nodup_diff; auto.
  - destruct H1 as (A & B). apply nodup_union; [|apply nodup_diff; auto].
    apply nodup_unions. constructor; [constructor|]. now apply nodup_args.
  - destruct H2 as ((A & B) & C). apply nodup_unions. repeat constructor; auto.
  - destruct H1 as (A & B). apply nodup_unions. repeat constructor; auto.
Qed.

(** * Before the continuations are collected *)
Fixpoint wsc (vis : list name) (t : stm) : Prop :=
  match t with
  | TRet s => incl (reads s) vis
  | TTail f args => incl (flat_map reads (f :: args)) vis
  | TCall f args x k (Some live) =>
      incl (flat_map reads (f :: args)) vis /\ incl live vis /\ NoDup live /\ ~ In x live /\ wsc (x :: live) k
  | TCall _ _ _ _ None => False
  | TJump _ _ _ _ => False
  | TLet x s k => incl (reads s) vis /\ wsc (x :: vis) k
  | TPrim x _ args k => incl (flat_map reads args) vis /\ wsc (x :: vis) k
  | TIf s a b => incl (reads s) vis /\ wsc vis a /\ wsc vis b
  | TDo s k => incl (reads s) vis /\ wsc vis k
  end.

Definition cC (t : stm) : Prop := forall vis cs t1 cs1, wsc vis t -> collect_cont t cs = (t1, cs1) ->
  exists more, cs1 = more ++ cs /\ forall all rest, all = rest ++ cs1 ->
    safe (rev all) vis t1 /\
    forall k, In k more -> safe (rev all) (k_var k :: k_live k) (k_body k) /\ ~ In (k_var k) (k_live k).
Lemma collect_safe : forall t, cC t.
Proof.
  apply (stm_ind' (fun _ => True) cC); auto; unfold cC.
  - intros s _ vis cs t1 cs1 W E. cbn in E. injection E as <- <-. exists []. split; [reflexivity|]. intros all rest _. split; [exact W|intros k []].
  - intros f args _ _ vis cs t1 cs1 W E. cbn in E. injection E as <- <-. exists []. split; [reflexivity|]. intros all rest _. split; [exact W|intros k []].
  - intros f args x k live _ _ IH vis cs t1 cs1 W E. cbn in W, E. destruct live as [live|]; [|destruct W].
    destruct W as (W1 & W2 & W3 & W4 & W5). destruct (collect_cont k cs) as (k1, c1) eqn:E1. injection E as <- <-.
    destruct (IH _ _ _ _ W5 E1) as (more & -> & HK). exists (mkCont x k1 live :: more). split; [reflexivity|].
    intros all rest ->. destruct (HK (rest ++ mkCont x k1 live :: more ++ cs) (rest ++ [mkCont x k1 live])) as (A & B);
      [now rewrite <- app_assoc|]. split.
    + cbn [safe]. split; [exact W1|]. split; [exact W2|]. split; [exact W3|]. split; [lia|]. exists (mkCont x k1 live). split; [|reflexivity].
      rewrite rev_app_distr. cbn [rev]. rewrite <- app_assoc. rewrite nth_error_app2 by (rewrite rev_length; lia).
      rewrite rev_length. now replace (_ + 1 - 1 - _) with 0 by lia.
    + intros q [<-|Hq]; [cbn; auto|auto].
  - intros f args l live vis cs t1 cs1 [].
  - intros x s k _ IH vis cs t1 cs1 (W1 & W2) E. cbn in E. destruct (collect_cont k cs) as (k1, c1) eqn:E1. injection E as <- <-.
    destruct (IH _ _ _ _ W2 E1) as (more & -> & HK). exists more. split; [reflexivity|]. intros all rest Ea. destruct (HK all rest Ea). cbn. auto.
  - intros x p args k _ IH vis cs t1 cs1 (W1 & W2) E. cbn in E. destruct (collect_cont k cs) as (k1, c1) eqn:E1. injection E as <- <-.
    destruct (IH _ _ _ _ W2 E1) as (more & -> & HK). exists more. split; [reflexivity|]. intros all rest Ea. destruct (HK all rest Ea). cbn. auto.
  - intros s a b _ IHa IHb vis cs t1 cs1 (W1 & W2 & W3) E. cbn in E. destruct (collect_cont a cs) as (a1, c1) eqn:E1.
    destruct (collect_cont b c1) as (b1, c2) eqn:E2. injection E as <- <-.
    destruct (IHa _ _ _ _ W2 E1) as (m1 & -> & H1). destruct (IHb _ _ _ _ W3 E2) as (m2 & -> & H2).
    exists (m2 ++ m1). split; [now rewrite app_assoc|]. intros all rest Ea.
    destruct (H2 all rest Ea) as (A & B). destruct (H1 all (rest ++ m2)) as (C & D); [now rewrite <- app_assoc|].
    split; [cbn; auto|]. intros k Hk. apply in_app_or in Hk as [Hk|Hk]; auto.
  - intros s k _ IH vis cs t1 cs1 (W1 & W2) E. cbn in E. destruct (collect_cont k cs) as (k1, c1) eqn:E1. injection E as <- <-.
    destruct (IH _ _ _ _ W2 E1) as (more & -> & HK). exists more. split; [reflexivity|]. intros all rest Ea. destruct (HK all rest Ea). cbn. auto.
Qed.

Lemma final_safe : forall ps t, wsc ps t -> safe_func (rewrite_lambda_final ps t).
Proof.
  intros ps t W. pose proof (frame_params (rewrite_lambda_final ps t)) as L1. pose proof (frame_live (rewrite_lambda_final ps t)) as L2.
  unfold rewrite_lambda_final in *. destruct (collect_cont t []) as (b, cs) eqn:E.
  destruct (collect_safe _ _ _ _ _ W E) as (more & EM & H). rewrite app_nil_r in EM. subst more.
  destruct (H cs [] eq_refl) as (A & B). split; [exact A|]. split; [exact L1|].
  intros k Hk. cbn [f_conts] in *. assert (Hk' : In k cs) by now apply in_rev. destruct (B k Hk'). auto.
Qed.

Lemma reads_frees : forall l, frees_ok l = true -> forall x, In x (flat_map v_reads l) -> exists s, In s l /\ In x (fv_simple s).
Proof.
  intros l H x Hx. apply in_flat_map in Hx as (s & Hs & Hx). exists s. split; [exact Hs|].
  destruct s; cbn in *; auto; contradiction.
Qed.

Definition cS (s : simple) : Prop := sok_simple s = true -> forall vis, incl (fv_simple s) vis -> forall v s1 v1,
  cl_simple v (live_simple s) = (s1, v1) -> Forall safe_func v -> incl (reads s1) vis /\ Forall safe_func v1.
Definition cT (t : stm) : Prop := sok_stm t = true -> forall vis, incl (fv_stm t) vis -> forall v t1 v1,
  cl_stm v (live_stm t) = (t1, v1) -> Forall safe_func v -> wsc vis t1 /\ Forall safe_func v1.

Lemma cl_safe_list : forall l, Forall cS l -> forallb sok_simple l = true -> forall vis, (forall s, In s l -> incl (fv_simple s) vis) ->
  forall v l1 v1, cl_list v (map live_simple l) = (l1, v1) -> Forall safe_func v -> incl (flat_map reads l1) vis /\ Forall safe_func v1.
Proof.
  intros l H. induction H as [|s l Hs H IH]; intros HS vis HV v l1 v1 E Hv; cbn in E.
  - injection E as <- <-. split; [intros x []|exact Hv].
  - cbn in HS. apply andb_true_iff in HS as (S1 & S2). destruct (cl_simple v (live_simple s)) as (s1, v2) eqn:E1.
    destruct (cl_list v2 (map live_simple l)) as (l2, v3) eqn:E2. injection E as <- <-.
    destruct (Hs S1 vis (HV s (or_introl eq_refl)) _ _ _ E1 Hv) as (A & B).
    destruct (IH S2 vis (fun s' Hs' => HV s' (or_intror Hs')) _ _ _ E2 B) as (C & D).
    split; [|exact D]. cbn. now apply incl_app.
Qed.

Lemma cl_safe : forall t, cT t.
Proof.
  apply (stm_ind' cS cT); unfold cS, cT.
  1-4: intros; cbn in *; match goal with H : (_, _) = (_, _) |- _ => injection H as <- <- end; split; auto; try (intros ? []).
  - intros ps b frees IH HS vis HV v s1 v1 E Hv. cbn -[unions] in HS, HV, E. rewrite !andb_true_iff in HS. destruct HS as ((S1 & S2) & S3).
    destruct (cl_stm v (live_stm b)) as (b1, v2) eqn:E1. injection E as <- <-.
    assert (P : incl (fv_stm b) ps).
    { intros x Hx. rewrite forallb_forall in S2. specialize (S2 x Hx). destruct (mem_spec x ps); [assumption|discriminate]. }
    destruct (IH S1 ps P _ _ _ E1 Hv) as (A & B). split.
    + cbn. intros x Hx. apply HV. apply in_unions_simples. right.
      assert (EL : map live_simple frees = frees).
      { clear - S3. induction frees as [|s l IH]; cbn in *; [reflexivity|]. apply andb_true_iff in S3 as (H1 & H2).
        rewrite IH by exact H2. destruct s; try discriminate; reflexivity. }
      rewrite EL in Hx. now apply reads_frees.
    + unfold append_result. apply Forall_app. split; [exact B|]. constructor; [now apply final_safe|constructor].
  - intros; cbn in *; discriminate.
  - intros s IH HS vis HV v t1 v1 E Hv. cbn in HS, HV, E. destruct (cl_simple v (live_simple s)) eqn:E1. injection E as <- <-. cbn. eapply IH; eauto.
  - intros f args Hf Ha HS vis HV v t1 v1 E Hv. cbn -[unions] in HS, HV. cbn [live_stm] in E. rewrite cl_stm_tail in E.
    destruct (cl_simple v (live_simple f)) as (f1, w1) eqn:E1. destruct (cl_list w1 (map live_simple args)) as (a1, w2) eqn:E2.
    injection E as <- <-. apply andb_true_iff in HS as (S1 & S2).
    destruct (Hf S1 vis ltac:(intros x Hx; apply HV, in_unions_simples; auto) _ _ _ E1 Hv) as (A & B).
    destruct (cl_safe_list args Ha S2 vis ltac:(intros s Hs x Hx; apply HV, in_unions_simples; eauto) _ _ _ E2 B) as (C & D).
    split; [|exact D]. cbn. now apply incl_app.
  - intros f args x k live Hf Ha Hk HS vis HV v t1 v1 E Hv. cbn -[unions] in HS, HV. cbn [live_stm] in E. rewrite cl_stm_call in E.
    destruct (cl_simple v (live_simple f)) as (f1, w1) eqn:E1. destruct (cl_list w1 (map live_simple args)) as (a1, w2) eqn:E2.
    destruct (cl_stm w2 (live_stm k)) as (k1, w3) eqn:E3. injection E as <- <-. rewrite !andb_true_iff in HS. destruct HS as (((S1 & S2) & S3) & _).
    assert (V1 : forall y, In y (fv_simple f) \/ (exists s, In s args /\ In y (fv_simple s)) -> In y vis).
    { intros y Hy. apply HV, in_unions. eexists. split; [now left|]. now apply in_unions_simples. }
    assert (V2 : incl (diff (fv_stm k) [x]) vis).
    { intros y Hy. apply HV, in_unions. eexists. split; [right; now left|exact Hy]. }
    destruct (Hf S1 vis ltac:(intros y Hy; auto) _ _ _ E1 Hv) as (A & B).
    destruct (cl_safe_list args Ha S2 vis ltac:(intros s Hs y Hy; eauto) _ _ _ E2 B) as (C & D).
    assert (V3 : incl (fv_stm k) (x :: diff (fv_stm k) [x])).
    { intros y Hy. destruct (mem_spec y [x]) as [[<-|[]]|N]; [now left|]. right. now apply in_diff. }
    destruct (Hk S3 _ V3 _ _ _ E3 D) as (P & Q). split; [|exact Q]. cbn [wsc].
    split; [cbn; now apply incl_app|]. split; [exact V2|]. split; [now apply nodup_diff, nodup_fv|]. split; [|exact P].
    rewrite in_diff. intros (_ & N). apply N. now left.
  - intros; cbn in *; discriminate.
  - intros x s k Hs Hk HS vis HV v t1 v1 E Hv. cbn in HS, HV, E. destruct (cl_simple v (live_simple s)) as (s1, w1) eqn:E1.
    destruct (cl_stm w1 (live_stm k)) as (k1, w2) eqn:E2. injection E as <- <-. apply andb_true_iff in HS as (S1 & S2).
    destruct (Hs S1 vis ltac:(intros y Hy; apply HV, in_union; auto) _ _ _ E1 Hv) as (A & B).
    destruct (Hk S2 (x :: vis)) with (2 := E2) as (C & D); [|exact B|cbn; auto].
    intros y Hy. destruct (mem_spec y [x]) as [[<-|[]]|N]; [now left|]. right. apply HV, in_union. right. now apply in_diff.
  - intros x p args k Ha Hk HS vis HV v t1 v1 E Hv. cbn -[unions] in HS, HV. cbn [live_stm] in E. rewrite cl_stm_prim in E.
    destruct (cl_list v (map live_simple args)) as (a1, w1) eqn:E1.
    destruct (cl_stm w1 (live_stm k)) as (k1, w2) eqn:E2. injection E as <- <-. apply andb_true_iff in HS as (S1 & S2).
    destruct (cl_safe_list args Ha S1 vis ltac:(intros s Hs y Hy; apply HV, in_union; left; apply in_unions_simples; eauto) _ _ _ E1 Hv) as (A & B).
    destruct (Hk S2 (x :: vis)) with (2 := E2) as (C & D); [|exact B|cbn; auto].
    intros y Hy. destruct (mem_spec y [x]) as [[<-|[]]|N]; [now left|]. right. apply HV, in_union. right. now apply in_diff.
  - intros s a b Hs Ha Hb HS vis HV v t1 v1 E Hv. cbn -[unions] in HS, HV. cbn in E. destruct (cl_simple v (live_simple s)) as (s1, w1) eqn:E1.
    destruct (cl_stm w1 (live_stm a)) as (a1, w2) eqn:E2. destruct (cl_stm w2 (live_stm b)) as (b1, w3) eqn:E3. injection E as <- <-.
    rewrite !andb_true_iff in HS. destruct HS as ((S1 & S2) & S3).
    assert (V : forall l y, In l [fv_simple s; fv_stm a; fv_stm b] -> In y l -> In y vis).
    { intros l y Hl Hy. apply HV, in_unions. eauto. }
    destruct (Hs S1 vis ltac:(intros y Hy; eapply V; [|exact Hy]; cbn; auto) _ _ _ E1 Hv) as (A & B).
    destruct (Ha S2 vis ltac:(intros y Hy; eapply V; [|exact Hy]; cbn; auto) _ _ _ E2 B) as (C & D).
    destruct (Hb S3 vis ltac:(intros y Hy; eapply V; [|exact Hy]; cbn; auto) _ _ _ E3 D) as (P & Q). cbn. auto.
  - intros s k Hs Hk HS vis HV v t1 v1 E Hv. cbn -[unions] in HS, HV. cbn in E. destruct (cl_simple v (live_simple s)) as (s1, w1) eqn:E1.
    destruct (cl_stm w1 (live_stm k)) as (k1, w2) eqn:E2. injection E as <- <-. apply andb_true_iff in HS as (S1 & S2).
    assert (V : forall l y, In l [fv_simple s; fv_stm k] -> In y l -> In y vis).
    { intros l y Hl Hy. apply HV, in_unions. eauto. }
    destruct (Hs S1 vis ltac:(intros y Hy; eapply V; [|exact Hy]; cbn; auto) _ _ _ E1 Hv) as (A & B).
    destruct (Hk S2 vis ltac:(intros y Hy; eapply V; [|exact Hy]; cbn; auto) _ _ _ E2 B) as (C & D). cbn. auto.
Qed.

Lemma pass_safe : forall t, sok_stm t = true -> fv_stm t = [] -> Forall safe_func (collect_lambda_pass (live_stm t)).
Proof.
  intros t HS HV. unfold collect_lambda_pass. destruct (cl_stm [] (live_stm t)) as (t1, v) eqn:E.
  destruct (cl_safe t HS [] ltac:(rewrite HV; intros x []) _ _ _ E (Forall_nil _)) as (A & B).
  unfold append_result. apply Forall_app. split; [exact B|]. constructor; [now apply final_safe|constructor].
Qed.

(** * In a run *)

(** A function in the middle of a block makes a call ([sg] are its variables
    then): saving succeeds, and when the callee returns the continuation starts
    with the result and with every variable it may read as it was. *)
Lemma saved_and_restored : forall ar F sg vis f args l live R G saved l' fv avs G1,
  safe_func F -> safe (f_conts F) vis (TJump f args l live) -> lambda_frame_size F <= List.length R ->
  block ar sg R (TJump f args l live) G = Some (XCall saved l' fv avs, G1) ->
  exists k R1, nth_error (f_conts F) (l' - 1) = Some k /\ save 1 saved R = Some R1 /\ List.length R1 = List.length R /\ hd None R1 = hd None R /\
    safe (f_conts F) (k_var k :: k_live k) (k_body k) /\
    forall res, exists sg1, enter_case F l' R1 res = Some (sg1, k_body k) /\
      lookup (k_var k) sg1 = Some res /\ forall x, In x (k_live k) -> lookup x sg1 = lookup x sg /\ lookup x sg <> None.
Proof.
  intros ar F sg vis f args l live R G saved l' fv avs G1 (_ & _ & HK) (_ & _ & ND & L1 & k & EK & EL) LR E.
  cbn [block] in E. destruct (opts (fun x => lookup x sg) live) as [vs|] eqn:EO; [|discriminate].
  destruct (x_simple sg R f G) as [fv0|]; [|discriminate]. destruct (opts _ args) as [avs0|]; [|discriminate].
  injection E as <- <- <- <- <-. exists k. destruct (HK k (nth_error_In _ _ EK)) as (A & B & C).
  assert (LV : List.length live = List.length vs).
  { clear - EO. revert vs EO. induction live as [|x l IH]; intros vs E; cbn in E; [injection E as <-; reflexivity|].
    destruct (lookup x sg); [|discriminate]. destruct (opts _ l) as [vs'|]; [|discriminate]. injection E as <-. cbn. f_equal. auto. }
  rewrite EL in C. destruct R as [|h Rt]; [cbn in LR; lia|]. cbn [List.length] in LR.
  eexists. split; [exact EK|]. split; [apply save_spec; cbn; lia|]. split.
  { rewrite !app_length, firstn_length, map_length, skipn_length. cbn [List.length]. lia. }
  split; [reflexivity|]. split; [exact A|].
  intro res. destruct l as [|i]; [lia|]. cbn [Nat.sub] in EK. rewrite Nat.sub_0_r in EK. unfold enter_case. rewrite EK, EL.
  change (tl (firstn 1 (h :: Rt) ++ map Some vs ++ skipn (1 + Datatypes.length vs) (h :: Rt))) with (map Some vs ++ skipn (List.length vs) Rt).
  rewrite recover_spec by exact LV. eexists. split; [reflexivity|]. split.
  { cbn [lookup]. destruct (name_eqb_spec (k_var k) (k_var k)); [reflexivity|contradiction]. }
  intros x Hx. cbn [lookup]. destruct (name_eqb_spec x (k_var k)) as [->|_]; [rewrite EL in B; contradiction|].
  clear - EO ND Hx. revert vs EO. induction live as [|y l IH]; intros vs E; [destruct Hx|]. inversion ND; subst. cbn in E.
  destruct (lookup y sg) as [w|] eqn:EY; [|discriminate]. destruct (opts _ l) as [vs'|] eqn:E1; [|discriminate]. injection E as <-.
  cbn [combine lookup]. destruct (name_eqb_spec x y) as [->|N].
  - rewrite EY. split; [reflexivity|discriminate].
  - destruct Hx as [->|Hx]; [contradiction|]. eauto.
Qed.

(** * Closures are made with the frame their function needs *)
Fixpoint operands (t : stm) : list simple :=
  match t with
  | TRet s => [s]
  | TTail f args => f :: args
  | TCall f args _ k _ => f :: args ++ operands k
  | TJump f args _ _ => f :: args
  | TLet _ s k => s :: operands k
  | TPrim _ _ args k => args ++ operands k
  | TIf s a b => s :: operands a ++ operands b
  | TDo s k => s :: operands k
  end.
Definition f_operands (F : func) : list simple := operands (f_first F) ++ flat_map (fun k => operands (k_body k)) (f_conts F).

Definition sized (fs : list func) (s : simple) : Prop :=
  match s with
  | SmLab lab na nf _ => exists F, nth_error fs lab = Some F /\ na = List.length (f_ps F) /\ nf = lambda_frame_size F
  | SmClo _ _ _ => False
  | _ => True
  end.

Definition k_ops (cs : list cont) : list simple := flat_map (fun k => operands (k_body k)) cs.
Definition oC (t : stm) : Prop := forall cs t1 cs1, collect_cont t cs = (t1, cs1) ->
  incl (operands t1 ++ k_ops cs1) (operands t ++ k_ops cs).
Lemma collect_operands : forall t, oC t.
Proof.
  apply (stm_ind' (fun _ => True) oC); auto; unfold oC, k_ops.
  - intros s _ cs t1 cs1 E. injection E as <- <-. apply incl_refl.
  - intros f args _ _ cs t1 cs1 E. injection E as <- <-. apply incl_refl.
  - intros f args x k live _ _ IH cs t1 cs1 E. cbn in E. destruct (collect_cont k cs) as (k1, c1) eqn:E1. injection E as <- <-.
    specialize (IH _ _ _ E1). intros s Hs. specialize (IH s). cbn in *. rewrite !in_app_iff in *. tauto.
  - intros f args l live cs t1 cs1 E. injection E as <- <-. apply incl_refl.
  - intros x s0 k _ IH cs t1 cs1 E. cbn in E. destruct (collect_cont k cs) as (k1, c1) eqn:E1. injection E as <- <-.
    specialize (IH _ _ _ E1). intros s Hs. specialize (IH s). cbn in *. rewrite !in_app_iff in *. tauto.
  - intros x p args k _ IH cs t1 cs1 E. cbn in E. destruct (collect_cont k cs) as (k1, c1) eqn:E1. injection E as <- <-.
    specialize (IH _ _ _ E1). intros s Hs. specialize (IH s). cbn in *. rewrite !in_app_iff in *. tauto.
  - intros s0 a b _ IHa IHb cs t1 cs1 E. cbn in E. destruct (collect_cont a cs) as (a1, c1) eqn:E1.
    destruct (collect_cont b c1) as (b1, c2) eqn:E2. injection E as <- <-.
    specialize (IHa _ _ _ E1). specialize (IHb _ _ _ E2). intros s Hs. specialize (IHa s). specialize (IHb s). cbn in *. rewrite !in_app_iff in *. tauto.
  - intros s0 k _ IH cs t1 cs1 E. cbn in E. destruct (collect_cont k cs) as (k1, c1) eqn:E1. injection E as <- <-.
    specialize (IH _ _ _ E1). intros s Hs. specialize (IH s). cbn in *. rewrite !in_app_iff in *. tauto.
Qed.

Lemma final_operands : forall ps t, incl (f_operands (rewrite_lambda_final ps t)) (operands t).
Proof.
  intros ps t s Hs. unfold rewrite_lambda_final, f_operands in Hs. destruct (collect_cont t []) as (b, cs) eqn:E. cbn in Hs.
  pose proof (collect_operands _ _ _ _ E s) as H. cbn in H. rewrite app_nil_r in H. apply H. rewrite in_app_iff in *.
  destruct Hs as [Hs|Hs]; [auto|]. right. apply in_flat_map in Hs as (k & Hk & Hs). apply in_flat_map. exists k. split; [now apply in_rev|exact Hs].
Qed.
Lemma final_params : forall ps t, f_ps (rewrite_lambda_final ps t) = ps.
Proof. intros ps t. unfold rewrite_lambda_final. destruct (collect_cont t []). reflexivity. Qed.

(** no function numbers yet *)
Fixpoint raw_simple (s : simple) : bool :=
  match s with
  | SmClo _ b _ => raw_stm b
  | SmLab _ _ _ _ => false
  | _ => true
  end
with raw_stm (t : stm) : bool :=
  match t with
  | TRet s => raw_simple s
  | TTail f args => raw_simple f && forallb raw_simple args
  | TCall f args _ k _ => raw_simple f && forallb raw_simple args && raw_stm k
  | TJump _ _ _ _ => false
  | TLet _ s k => raw_simple s && raw_stm k
  | TPrim _ _ args k => forallb raw_simple args && raw_stm k
  | TIf s a b => raw_simple s && raw_stm a && raw_stm b
  | TDo s k => raw_simple s && raw_stm k
  end.
Lemma raw_live : forall t, sok_stm t = true -> raw_stm (live_stm t) = true.
Proof.
  assert (LL : forall l, Forall (fun s => sok_simple s = true -> raw_simple (live_simple s) = true) l ->
    forallb sok_simple l = true -> forallb raw_simple (List.map live_simple l) = true).
  { intros l H. induction H as [|s l Hs H IH]; intros E; cbn in *; [reflexivity|]. apply andb_true_iff in E as (E1 & E2).
    now rewrite (Hs E1), (IH E2). }
  apply (stm_ind' (fun s => sok_simple s = true -> raw_simple (live_simple s) = true) (fun t => sok_stm t = true -> raw_stm (live_stm t) = true));
    intros; cbn in *; rewrite ?andb_true_iff in *; auto; try discriminate; intuition.
Qed.

Section Sized.
  Context (fs : list func).
  Definition szF (F : func) : Prop := forall s, In s (f_operands F) -> sized fs s.
  Definition zS (s : simple) : Prop := raw_simple s = true -> forall v s1 v1, cl_simple v s = (s1, v1) -> extends v1 fs ->
    Forall szF v -> sized fs s1 /\ Forall szF v1.
  Definition zT (t : stm) : Prop := raw_stm t = true -> forall v t1 v1, cl_stm v t = (t1, v1) -> extends v1 fs ->
    Forall szF v -> (forall s, In s (operands t1) -> sized fs s) /\ Forall szF v1.

  Lemma cl_sized_list : forall l, Forall zS l -> forallb raw_simple l = true -> forall v l1 v1, cl_list v l = (l1, v1) -> extends v1 fs ->
    Forall szF v -> (forall s, In s l1 -> sized fs s) /\ Forall szF v1.
  Proof.
    intros l H. induction H as [|s l Hs H IH]; intros HF v l1 v1 E HX Hv; cbn in E.
    - injection E as <- <-. split; [intros s []|exact Hv].
    - cbn in HF. apply andb_true_iff in HF as (F1 & F2). destruct (cl_simple v s) as (s1, v2) eqn:E1.
      destruct (cl_list v2 l) as (l2, v3) eqn:E2. injection E as <- <-.
      destruct (Hs F1 _ _ _ E1 (extends_trans _ _ _ (cl_list_ext _ _ _ _ E2) HX) Hv) as (A & B).
      destruct (IH F2 _ _ _ E2 HX B) as (C & D). split; [|exact D]. intros s' [<-|Hs']; auto.
  Qed.

  Lemma cl_sized : forall t, zT t.
  Proof.
    apply (stm_ind' zS zT); unfold zS, zT.
    1-4: intros; cbn in *; match goal with H : (_, _) = (_, _) |- _ => injection H as <- <- end; split; [exact I|assumption].
    - intros ps b frees IH HF v s1 v1 E HX Hv. cbn in HF, E. destruct (cl_stm v b) as (b1, v2) eqn:E1. injection E as <- <-.
      assert (X2 : extends v2 fs).
      { eapply extends_trans; [|exact HX]. unfold append_result. now eexists. }
      destruct (IH HF _ _ _ E1 X2 Hv) as (A & B). split.
      + exists (rewrite_lambda_final ps b1). rewrite final_params. split; [|auto]. destruct HX as (u & ->). unfold append_result.
        rewrite <- app_assoc. rewrite nth_error_app2 by lia. now rewrite Nat.sub_diag.
      + unfold append_result. apply Forall_app. split; [exact B|]. constructor; [|constructor].
        intros s Hs. apply A. now apply final_operands in Hs.
    - intros; cbn in *; discriminate.
    - intros s IH HF v t1 v1 E HX Hv. cbn in HF, E. destruct (cl_simple v s) as (s1, w) eqn:E1. injection E as <- <-.
      destruct (IH HF _ _ _ E1 HX Hv) as (A & B). split; [|exact B]. intros s' [<-|[]]. exact A.
    - intros f args Hf Ha HF v t1 v1 E HX Hv. cbn in HF. rewrite cl_stm_tail in E.
      destruct (cl_simple v f) as (f1, w1) eqn:E1. destruct (cl_list w1 args) as (a1, w2) eqn:E2.
      injection E as <- <-. apply andb_true_iff in HF as (S1 & S2).
      destruct (Hf S1 _ _ _ E1 (extends_trans _ _ _ (cl_list_ext _ _ _ _ E2) HX) Hv) as (A & B).
      destruct (cl_sized_list args Ha S2 _ _ _ E2 HX B) as (C & D). split; [|exact D]. intros s' [<-|Hs']; auto.
    - intros f args x k live Hf Ha Hk HF v t1 v1 E HX Hv. cbn in HF. rewrite cl_stm_call in E.
      destruct (cl_simple v f) as (f1, w1) eqn:E1. destruct (cl_list w1 args) as (a1, w2) eqn:E2.
      destruct (cl_stm w2 k) as (k1, w3) eqn:E3. injection E as <- <-. rewrite !andb_true_iff in HF. destruct HF as ((S1 & S2) & S3).
      assert (X2 : extends w2 fs) by (eapply extends_trans; [exact (cl_stm_ext _ _ _ _ E3)|exact HX]).
      destruct (Hf S1 _ _ _ E1 (extends_trans _ _ _ (cl_list_ext _ _ _ _ E2) X2) Hv) as (A & B).
      destruct (cl_sized_list args Ha S2 _ _ _ E2 X2 B) as (C & D).
      destruct (Hk S3 _ _ _ E3 HX D) as (P & Q). split; [|exact Q]. cbn. intros s' [<-|Hs']; auto.
      apply in_app_iff in Hs' as [Hs'|Hs']; auto.
    - intros; cbn in *; discriminate.
    - intros x s k Hs Hk HF v t1 v1 E HX Hv. cbn in HF, E. destruct (cl_simple v s) as (s1, w1) eqn:E1.
      destruct (cl_stm w1 k) as (k1, w2) eqn:E2. injection E as <- <-. apply andb_true_iff in HF as (S1 & S2).
      destruct (Hs S1 _ _ _ E1 (extends_trans _ _ _ (cl_stm_ext _ _ _ _ E2) HX) Hv) as (A & B).
      destruct (Hk S2 _ _ _ E2 HX B) as (C & D). split; [|exact D]. cbn. intros s' [<-|Hs']; auto.
    - intros x p args k Ha Hk HF v t1 v1 E HX Hv. cbn in HF. rewrite cl_stm_prim in E.
      destruct (cl_list v args) as (a1, w1) eqn:E1.
      destruct (cl_stm w1 k) as (k1, w2) eqn:E2. injection E as <- <-. apply andb_true_iff in HF as (S1 & S2).
      destruct (cl_sized_list args Ha S1 _ _ _ E1 (extends_trans _ _ _ (cl_stm_ext _ _ _ _ E2) HX) Hv) as (A & B).
      destruct (Hk S2 _ _ _ E2 HX B) as (C & D). split; [|exact D]. cbn. intros s' Hs'. apply in_app_iff in Hs' as [Hs'|Hs']; auto.
    - intros s a b Hs Ha Hb HF v t1 v1 E HX Hv. cbn in HF, E. destruct (cl_simple v s) as (s1, w1) eqn:E1.
      destruct (cl_stm w1 a) as (a1, w2) eqn:E2. destruct (cl_stm w2 b) as (b1, w3) eqn:E3. injection E as <- <-.
      rewrite !andb_true_iff in HF. destruct HF as ((S1 & S2) & S3).
      assert (X2 : extends w2 fs) by (eapply extends_trans; [exact (cl_stm_ext _ _ _ _ E3)|exact HX]).
      destruct (Hs S1 _ _ _ E1 (extends_trans _ _ _ (cl_stm_ext _ _ _ _ E2) X2) Hv) as (A & B).
      destruct (Ha S2 _ _ _ E2 X2 B) as (C & D). destruct (Hb S3 _ _ _ E3 HX D) as (P & Q). split; [|exact Q].
      cbn. intros s' [<-|Hs']; auto. apply in_app_iff in Hs' as [Hs'|Hs']; auto.
    - intros s k Hs Hk HF v t1 v1 E HX Hv. cbn in HF, E. destruct (cl_simple v s) as (s1, w1) eqn:E1.
      destruct (cl_stm w1 k) as (k1, w2) eqn:E2. injection E as <- <-. apply andb_true_iff in HF as (S1 & S2).
      destruct (Hs S1 _ _ _ E1 (extends_trans _ _ _ (cl_stm_ext _ _ _ _ E2) HX) Hv) as (A & B).
      destruct (Hk S2 _ _ _ E2 HX B) as (C & D). split; [|exact D]. cbn. intros s' [<-|Hs']; auto.
  Qed.
End Sized.

Lemma pass_sized : forall t, raw_stm t = true -> forall F s, In F (collect_lambda_pass t) -> In s (f_operands F) -> sized (collect_lambda_pass t) s.
Proof.
  intros t HF. unfold collect_lambda_pass. destruct (cl_stm [] t) as (t1, v) eqn:E.
  destruct (cl_sized (append_result v (rewrite_lambda_final [] t1)) t HF _ _ _ E ltac:(unfold append_result; now eexists) (Forall_nil _)) as (A & B).
  intros F s HI Hs. unfold append_result in HI. apply in_app_iff in HI as [HI|[<-|[]]].
  - rewrite Forall_forall in B. exact (B F HI s Hs).
  - apply A. now apply final_operands in Hs.
Qed.

(** * Every program *)

(** what parse makes has no variable out of scope *)
Lemma parse_free : forall k env st x e st', parse k env st x = Some (e, st') -> incl (free_vars e) env.
Proof.
  induction k as [|k IH]; intros env st x e st' E; [discriminate|].
  assert (PL : forall env l st es st', parse_list (parse k env) st l = Some (es, st') -> forall e y, In e es -> In y (free_vars e) -> In y env).
  { intros env0 l. induction l as [|y l IHl]; intros st0 es st0' E0.
    - apply parse_list_nil in E0. destruct E0 as (-> & _). intros e0 y [].
    - apply parse_list_app in E0. destruct E0 as (e0 & s1 & es1 & A & B & ->). intros e2 z [<-|He] Hz.
      + exact (IH _ _ _ _ _ A z Hz).
      + exact (IHl _ _ _ B e2 z He Hz). }
  cbn [parse] in E. destruct x; try (injection E as <- _; intros y []).
  - destruct (mem_spec x env); injection E as <- _; intros y Hy; [destruct Hy as [<-|[]]; assumption|destruct Hy].
  - destruct (slist (SCons x1 x2)) as [[|h r]|]; try discriminate.
    destruct (is_sym "quote" h).
    { destruct r as [|c [|? ?]]; try discriminate. injection E as <- _. intros y []. }
    destruct (is_sym "lambda" h).
    { destruct r as [|ps [|b [|? ?]]]; try discriminate. destruct (names_of ps) as [xs|]; [|discriminate].
      destruct (existsb reserved xs); [discriminate|].
      destruct (parse k (xs ++ env) st b) as [(eb, st1)|] eqn:E1; [|discriminate]. injection E as <- _.
      intros y Hy. cbn in Hy. apply in_diff in Hy. destruct Hy as (Hy & N). apply (IH _ _ _ _ _ E1) in Hy. apply in_app_iff in Hy. tauto. }
    destruct (is_sym "if" h).
    { destruct r as [|c [|a [|b [|? ?]]]]; try discriminate. destruct (headed "if" c); [eauto|].
      destruct (parse_list (parse k env) st [c; a; b]) as [(es, st1)|] eqn:E1; [|discriminate].
      destruct es as [|e1 [|e2 [|e3 [|? ?]]]]; try discriminate. injection E as <- _.
      intros y Hy. cbn -[unions] in Hy. apply in_unions in Hy. destruct Hy as (s & [<-|[<-|[<-|[]]]] & Hy).
      - exact (PL _ _ _ _ _ E1 e1 y (or_introl eq_refl) Hy).
      - exact (PL _ _ _ _ _ E1 e2 y (or_intror (or_introl eq_refl)) Hy).
      - exact (PL _ _ _ _ _ E1 e3 y (or_intror (or_intror (or_introl eq_refl))) Hy). }
    destruct (is_sym "do" h).
    { destruct r as [|a [|b [|? ?]]]; try discriminate.
      destruct (parse_list (parse k env) st [a; b]) as [(es, st1)|] eqn:E1; [|discriminate].
      destruct es as [|e1 [|e2 [|? ?]]]; try discriminate. injection E as <- _.
      intros y Hy. cbn -[unions] in Hy. apply in_unions in Hy. destruct Hy as (s & [<-|[<-|[]]] & Hy).
      - exact (PL _ _ _ _ _ E1 e1 y (or_introl eq_refl) Hy).
      - exact (PL _ _ _ _ _ E1 e2 y (or_intror (or_introl eq_refl)) Hy). }
    destruct (is_sym "let" h).
    { destruct r as [|y [|b [|c [|? ?]]]]; try discriminate; destruct y; try discriminate.
      destruct (reserved x); [discriminate|].
      destruct (parse k env st b) as [(eb, st1)|] eqn:E1; [|discriminate].
      destruct (parse k (x :: env) st1 c) as [(ec, st2)|] eqn:E2; [|discriminate]. injection E as <- _.
      intros y Hy. cbn in Hy. apply in_union in Hy. destruct Hy as [Hy|Hy]; [exact (IH _ _ _ _ _ E1 y Hy)|].
      apply in_diff in Hy. destruct Hy as (Hy & N). apply (IH _ _ _ _ _ E2) in Hy. cbn in Hy, N. tauto. }
    destruct (headed "lambda" h && match r with [a] => headed "if" a | _ => false end); [eauto|].
    destruct (match h with SSym s => prim_of s | _ => None end) as [p|].
    { destruct (prim_arity p =? List.length r).
      - destruct (parse_list (parse k env) st r) as [(es, st1)|] eqn:E1; [|discriminate]. injection E as <- _.
        intros y Hy. cbn -[unions] in Hy. apply in_unions_map' in Hy. destruct Hy as (e0 & He & Hy). eauto.
      - destruct (List.length r <? prim_arity p); [|discriminate]. cbn [temp_list] in E. eauto. }
    destruct (parse_list (parse k env) st (h :: r)) as [(es, st1)|] eqn:E1; [|discriminate].
    destruct es as [|f es]; [discriminate|]. injection E as <- _.
    intros y Hy. cbn -[unions] in Hy. apply in_unions_app in Hy. destruct Hy as [Hy|(e0 & He & Hy)].
    + exact (PL _ _ _ _ _ E1 f y (or_introl eq_refl) Hy).
    + exact (PL _ _ _ _ _ E1 e0 y (or_intror He) Hy).
Qed.

Lemma compile_shape : forall fuel n e fs gl, compile fuel n e = Some (fs, gl) ->
  exists t, sok_stm t = true /\ fv_stm t = [] /\ fs = collect_lambda_pass (live_stm t).
Proof.
  intros fuel n e fs gl E. unfold compile in E. destruct (parse fuel [] (mkP n []) e) as [(e1, st)|] eqn:EP; [|discriminate].
  destruct (tailify (closure_convert [] e1) KId (p_gen st)) as [(t, m')|] eqn:ET; [|discriminate]. injection E as <- _.
  exists t. pose proof (parse_plain _ _ _ _ _ _ EP) as PP. pose proof (parse_free _ _ _ _ _ _ EP) as FV.
  assert (FV2 : free_vars (closure_convert [] e1) = []).
  { destruct (free_vars (closure_convert [] e1)) as [|x l] eqn:Q; [reflexivity|].
    destruct (convert_free e1 [] PP x) as (Hx & _); [rewrite Q; now left|]. destruct (FV x Hx). }
  destruct (tailify_closed _ _ _ _ (convert_closed e1 [] PP) FV2 ET) as (T1 & T2). auto.
Qed.
