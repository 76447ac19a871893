(** The collector: properties C26-C29. *)
From Coq Require Import ZArith Bool List Lia Arith.
From Verif Require Import Base ListLib GcModel GcProofs GcInv GcLive GcTerm.
Import ListNotations.
Open Scope Z_scope.
Ltac Zify.zify_post_hook ::= Z.div_mod_to_equations.

(** * C26: comparing 6-bit versions compares ages *)
Theorem version_order : forall v1 v2, Z.abs (v1 - v2) < 32 ->
  versionCmp (VERSION_MASKED v1) (VERSION_MASKED v2) = Z.sgn (v1 - v2).
Proof.
  intros v1 v2 H. unfold VERSION_MASKED.
  destruct (cmp_dist v2 v1 v2) as (A & B & C).
  { unfold dist. lia. }
  assert (E1 : dist v2 v1 = v1 - v2) by (unfold dist; lia).
  assert (E2 : dist v2 v2 = 0) by (unfold dist; lia).
  rewrite E1, E2 in *.
  assert (R : forall x y, versionCmp x y = -1 \/ versionCmp x y = 0 \/ versionCmp x y = 1).
  { intros x y. unfold versionCmp. repeat match goal with |- context [if ?b then _ else _] => destruct b end; auto. }
  destruct (R (v1 mod 64) (v2 mod 64)) as [E|[E|E]]; rewrite E in *;
  [rewrite Z.sgn_neg|replace (v1 - v2) with 0|rewrite Z.sgn_pos]; lia.
Qed.
Theorem version_antisym : forall a b, 0 <= a < 64 -> 0 <= b < 64 -> versionCmp a b = - versionCmp b a.
Proof.
  intros a b Ha Hb. unfold versionCmp.
  repeat match goal with |- context [?a =? ?b] => destruct (Z.eqb_spec a b) end;
  repeat match goal with |- context [?a <? ?b] => destruct (Z.ltb_spec a b) end; cbn [andb]; lia.
Qed.
Print Assumptions version_order.
Print Assumptions version_antisym.
(** a comparison across the wrap: 62 is older than 64 + 6 *)
Example version_order_ex : versionCmp (VERSION_MASKED 62) (VERSION_MASKED 70) = -1 /\ VERSION_MASKED 70 = 6.
Proof. now vm_compute. Qed.

(** * C27: the version of a survivor *)
(** [j]: how far ahead the object is marked.  The byte given while it is gray is odd; after
    scanning its age is gv + j + 1, so it is in use in this collection and the following
    ones up to that age, for which it is not collected, and the generation field is bumped. *)
Theorem survivor_version : forall gen gv, 0 <= gen <= 3 -> 2 <= gv -> gv mod 2 = 0 ->
  exists j, (j = 1 \/ j = 3 \/ j = 7 \/ j = 23) /\ j <= GEN_INCREMENTS (Z.to_nat gen) - 1 /\
  let v := nextVersion gen gv in
  let black := (v / 64) * 64 + (v + 1) mod 64 in
  0 <= v < 256 /\ v mod 2 = 1 /\ v / 64 = Z.min (gen + 1) 3 /\
  versionCmp (gv mod 64) (v mod 64) = -1 /\
  black mod 64 = (gv + j + 1) mod 64 /\
  (forall later, gv <= later <= gv + j + 1 -> versionCmp (later mod 64) (black mod 64) <= 0) /\
  (forall later, gv + j + 1 < later < gv + j + 33 -> versionCmp (later mod 64) (black mod 64) = 1).
Proof.
  intros gen gv Hg H2 Hv. unfold nextVersion.
  assert (K : exists j, bump_loop (Z.to_nat gen) gv = gv + j /\ (j = 1 \/ j = 3 \/ j = 7 \/ j = 23) /\
     j <= GEN_INCREMENTS (Z.to_nat gen) - 1).
  { assert (gen = 0 \/ gen = 1 \/ gen = 2 \/ gen = 3) as [-> | [-> | [-> | ->]]] by lia.
    - change (Z.to_nat 0) with 0%nat. cbn [bump_loop GEN_INCREMENTS]. rewrite Hv. cbn. exists 1. lia.
    - change (Z.to_nat 1) with 1%nat. cbn [bump_loop GEN_INCREMENTS]. rewrite Hv.
      destruct (gv mod 4 =? 0); [exists 3|exists 1]; cbn [Z.eqb]; lia.
    - change (Z.to_nat 2) with 2%nat. cbn [bump_loop GEN_INCREMENTS]. rewrite Hv.
      destruct (gv mod 8 =? 0); [exists 7; lia|]. destruct (gv mod 4 =? 0); [exists 3|exists 1]; cbn [Z.eqb]; lia.
    - change (Z.to_nat 3) with 3%nat. cbn [bump_loop GEN_INCREMENTS]. rewrite Hv.
      destruct (gv mod 24 =? 0); [exists 23; lia|].
      destruct (gv mod 8 =? 0); [exists 7; lia|]. destruct (gv mod 4 =? 0); [exists 3|exists 1]; cbn [Z.eqb]; lia. }
  destruct K as (j & -> & Hj & Hi). exists j. split; [exact Hj|]. split; [exact Hi|]. cbv zeta.
  set (gen' := if gen <? 3 then gen + 1 else gen).
  assert (Eg : gen' = Z.min (gen + 1) 3) by (unfold gen'; destruct (Z.ltb_spec gen 3); lia).
  assert (Hg' : 0 <= gen' <= 3) by lia. clearbody gen'.
  set (v := gen' * 64 + (gv + j) mod 64).
  assert (Vd : v / 64 = gen') by (unfold v; lia).
  assert (Vm : v mod 64 = (gv + j) mod 64) by (unfold v; lia).
  assert (Vb : (v / 64 * 64 + (v + 1) mod 64) mod 64 = (gv + j + 1) mod 64) by (unfold v; lia).
  split; [unfold v; lia|]. split; [unfold v; lia|]. split; [lia|].
  pose proof version_order as VO. unfold VERSION_MASKED in VO.
  split; [rewrite Vm, VO by lia; rewrite Z.sgn_neg; lia|].
  split; [exact Vb|]. split.
  - intros later Hl. rewrite Vb, VO by lia. destruct (Z.eq_dec later (gv + j + 1)) as [->|]; [rewrite Z.sub_diag; cbn; lia|].
    rewrite Z.sgn_neg; lia.
  - intros later Hl. rewrite Vb, VO by lia. apply Z.sgn_pos. lia.
Qed.
Print Assumptions survivor_version.
Example survivor_version_ex : nextVersion 1 64 = 2 * 64 + 3 /\ nextVersion 3 48 = 3 * 64 + 7.
Proof. now vm_compute. Qed.

(** * C28: safety *)
(** What a program can reach: the values it holds, and the fields of what it can reach.
    This is independent of versions, colours, queues and the remembered set. *)
Inductive reach (s : st) (roots : list value) : nat -> Prop :=
| reach_root : forall a, In (Ptr a) roots -> reach s roots a
| reach_field : forall b a, reach s roots b -> In (Ptr a) (o_fields (heap s b)) -> reach s roots a.

Lemma exec_inv : forall s ops r, exec s ops r -> forall (L : nat -> Prop), inv L s -> linv L s ->
  exists s' (L' : nat -> Prop), r = Ok s' /\ inv L' s' /\ linv L' s'.
Proof.
  intros s ops r H. induction H as [s|s o ops s1 r HP Hs Hr IH|s o ops HP Hs|s o ops HP Hs]; intros L HI HL.
  - eauto.
  - destruct (inv_step L s o HI HP) as (s' & E & HI'). rewrite Hs in E. apply Ok_inj in E. subst s'.
    apply (IH (Lnext L s o) HI'). eapply linv_step; eassumption.
  - destruct (inv_step L s o HI HP) as (s' & E & _). congruence.
  - destruct (inv_step L s o HI HP) as (s' & E & _). congruence.
Qed.
Lemma reachable_inv : forall ops s, exec init ops (Ok s) -> exists L : nat -> Prop, inv L s /\ linv L s.
Proof.
  intros ops s H. destruct (exec_inv _ _ _ H _ inv_init linv_init) as (s' & L & E & HI & HL).
  apply Ok_inj in E. subst. eauto.
Qed.
Lemma reach_L : forall (L : nat -> Prop) s a, inv L s -> reach s (mut s) a -> L a.
Proof.
  intros L s a [C _] H. induction H as [a H|b a Hb IH H]; [now apply (c_mut _ _ C)|]. eapply (c_fields _ _ C); eassumption.
Qed.

(** Every program and every schedule of collector steps: execution never hits an assertion,
    and in the state reached every reachable object is in use: its slot is neither free,
    nor allocatable, nor sweepable. *)
Theorem gc_safety : forall ops r, exec init ops r ->
  exists s, r = Ok s /\
  forall a, reach s (mut s) a ->
    o_used (heap s a) = true /\ is_inuse (g s) (heap s a) = true /\
    (forall m l f, ~ permitted s (OAlloc a m l f)) /\ sweep_obj (g s) (heap s a) = heap s a.
Proof.
  intros ops r H. destruct (exec_inv _ _ _ H _ inv_init linv_init) as (s & L & E & HI & HL).
  exists s. split; [exact E|]. intros a Ha. pose proof (reach_L L s a HI Ha) as La.
  pose proof (L_inuse L s a (c_lok _ _ (proj1 HI)) La) as U.
  split; [eapply is_inuse_used; exact U|]. split; [exact U|]. split.
  - intros m l f [X _]. congruence.
  - eapply sweep_obj_live; [apply HI|exact La].
Qed.
Print Assumptions gc_safety.

(** No transition changes the contents of a reachable object, except the program's own
    store into that very object, which changes that very field. *)
Lemma fields_gcMarkAll : forall vs s n x, o_fields (heap (gcMarkAll s vs n) x) = o_fields (heap s x).
Proof.
  induction vs as [|v vs IH]; intros s n x; [reflexivity|].
  change (gcMarkAll s (v :: vs) n) with (gcMarkAll (gcMark s v n) vs n). rewrite IH.
  destruct v as [|a]; [reflexivity|]. unfold gcMark, markObject. cbv zeta.
  repeat match goal with |- context [if ?b then _ else _] => destruct b end; cbn; try reflexivity;
    unfold upd; destruct (Nat.eqb_spec x a); subst; reflexivity.
Qed.
Lemma fields_gcMark : forall v s n x, o_fields (heap (gcMark s v n) x) = o_fields (heap s x).
Proof. intros v s n x. exact (fields_gcMarkAll [v] s n x). Qed.
Lemma fields_gcRSet : forall l s k x, o_fields (heap (gcRSet s l k) x) = o_fields (heap s x).
Proof.
  induction l as [|y l IH]; intros s k x; cbn [gcRSet]; [reflexivity|].
  destruct (_ <=? _); rewrite IH; [|apply fields_gcMarkAll].
  cbn. unfold upd. destruct (Nat.eqb_spec x y); subst; reflexivity.
Qed.
Lemma fields_store : forall s a i v x, o_fields (heap (store s a i v) x) =
  if Nat.eqb x a then list_set (o_fields (heap s a)) i v else o_fields (heap s x).
Proof.
  intros s a i v x. unfold store, writeBarrierForIncremental.
  set (s1 := match ph s with PInc => _ | _ => s end).
  assert (E1 : forall y, o_fields (heap s1 y) = o_fields (heap s y)) by (intro y; unfold s1; destruct (ph s); auto; apply fields_gcMark).
  set (s2 := with_obj s1 a _).
  assert (E2 : o_fields (heap s2 x) = if Nat.eqb x a then list_set (o_fields (heap s a)) i v else o_fields (heap s x)).
  { cbn. unfold upd. destruct (Nat.eqb_spec x a); cbn; now rewrite E1. }
  assert (E3 : o_fields (heap (add_rset s2 a) x) = o_fields (heap s2 x)).
  { unfold add_rset. destruct (o_inrset (heap s2 a)); [reflexivity|]. cbn [heap]. unfold upd. destruct (Nat.eqb_spec x a); subst; reflexivity. }
  unfold writeBarrierForGeneration. destruct v as [|b]; [exact E2|]. destruct (_ <=? 0); [exact E2|].
  destruct (ph s2); [congruence| |congruence]. destruct (_ && _); [exact E2|]. rewrite fields_gcMark. congruence.
Qed.

Theorem gc_contents : forall ops s o s', exec init ops (Ok s) -> permitted s o -> step s o = Ok s' ->
  forall a, reach s (mut s) a ->
  o_fields (heap s' a) =
    match o with
    | OWrite b i v => if Nat.eqb a b then list_set (o_fields (heap s a)) i v else o_fields (heap s a)
    | _ => o_fields (heap s a)
    end.
Proof.
  intros ops s o s' H HP Hs a Ha. destruct (reachable_inv _ _ H) as (L & HI & _).
  pose proof (reach_L L s a HI Ha) as La.
  pose proof (L_inuse L s a (c_lok _ _ (proj1 HI)) La) as U.
  destruct o as [b m l fields|b i|b i v|l|v|junk| |b|]; cbn [step permitted] in *.
  1-6, 8, 9: apply Ok_inj in Hs; subst s'.
  - cbn. rewrite upd_other; [reflexivity|]. intros ->. destruct HP. congruence.
  - reflexivity.
  - rewrite fields_store. destruct (Nat.eqb_spec a b); subst; reflexivity.
  - reflexivity.
  - apply fields_gcMark.
  - unfold gcMarkRoot. cbn [heap with_phase]. rewrite fields_gcRSet, fields_gcMarkAll. reflexivity.
  - cbn. unfold upd. destruct (Nat.eqb_spec a b) as [->|]; [apply sweep_obj_same|reflexivity].
  - cbn. apply sweep_obj_same.
  - unfold gcStep in Hs. destruct (queue s) as [|q rest].
    + destruct (g s mod 30 =? 0); apply Ok_inj in Hs; subst s'; reflexivity.
    + destruct (is_odd _); [|discriminate]. apply Ok_inj in Hs. subst s'. cbn. unfold upd.
      destruct (Nat.eqb_spec a q) as [->|]; cbn; rewrite fields_gcMarkAll; reflexivity.
Qed.
Print Assumptions gc_contents.

(** * executable runs, for the examples *)
Definition val_eqb (v w : value) : bool :=
  match v, w with Imm, Imm => true | Ptr a, Ptr b => Nat.eqb a b | _, _ => false end.
Definition memb (v : value) (l : list value) : bool := existsb (val_eqb v) l.
Definition ptr_in (v : value) (l : list value) : bool := match v with Imm => true | Ptr _ => memb v l end.
Definition permb (s : st) (o : op) : bool :=
  match o with
  | OAlloc a _ _ f => negb (is_inuse (g s) (heap s a)) && forallb (fun v => ptr_in v (mut s)) f
  | ORead a _ => memb (Ptr a) (mut s)
  | OWrite a _ v => memb (Ptr a) (mut s) && ptr_in v (mut s) && o_mut (heap s a)
  | ORoots l => forallb (fun v => memb v (mut s)) l
  | OMarkOld v => match ph s with PInc => ptr_in v (mut s) | _ => false end
  | OMarkRoot _ => match ph s with PNone => true | _ => false end
  | OStep => match ph s with PInc => true | _ => false end
  | OSweep _ | OSweepEnd => match ph s with PSweep => true | _ => false end
  end.
Fixpoint run (s : st) (ops : list op) : option st :=
  match ops with
  | [] => Some s
  | o :: ops' => if permb s o then match step s o with Ok s' => run s' ops' | _ => None end else None
  end.
Lemma memb_In : forall v l, memb v l = true -> In v l.
Proof.
  intros v l H. apply existsb_exists in H. destruct H as (w & Hin & E).
  destruct v as [|a], w as [|b]; cbn in E; try discriminate; [exact Hin|]. apply Nat.eqb_eq in E. now subst.
Qed.
Lemma permb_ok : forall s o, permb s o = true -> permitted s o.
Proof.
  intros s o H. destruct o as [b m l fields|b i|b i v|l|v|junk| |b|]; cbn in *.
  - apply andb_true_iff in H. destruct H as [H1 H2]. split; [now apply negb_true_iff|].
    intros c Hc. rewrite forallb_forall in H2. specialize (H2 _ Hc). now apply memb_In.
  - now apply memb_In.
  - apply andb_true_iff in H. destruct H as [H H3]. apply andb_true_iff in H. destruct H as [H1 H2].
    split; [now apply memb_In|]. split; [|exact H3]. intros c ->. now apply memb_In.
  - rewrite forallb_forall in H. intros v Hv. apply memb_In. auto.
  - destruct (ph s); try discriminate. split; [reflexivity|]. intros c ->. now apply memb_In.
  - destruct (ph s); auto; discriminate.
  - destruct (ph s); auto; discriminate.
  - destruct (ph s); auto; discriminate.
  - destruct (ph s); auto; discriminate.
Qed.
Lemma run_exec : forall ops s s', run s ops = Some s' -> exec s ops (Ok s').
Proof.
  induction ops as [|o ops IH]; intros s s' H; cbn in H.
  - injection H as <-. constructor.
  - destruct (permb s o) eqn:E; [|discriminate]. destruct (step s o) as [s1| |] eqn:Es; try discriminate.
    eapply exec_cons; [now apply permb_ok|exact Es|]. now apply IH.
Qed.

(** one collection with nothing going on: mark, scan everything, (sweep,) flip *)
Fixpoint drain (fuel : nat) (s : st) : option st :=
  match fuel with
  | O => Some s
  | S f => match ph s with
           | PInc => match gcStep s with Ok s' => drain f s' | _ => None end
           | _ => Some s
           end
  end.

(** A vector is allocated and promoted; a young pair is stored into it; only the vector
    is kept; later collections run.  The pair stays reachable and in use. *)
Definition prog_vec : list op :=
  [OAlloc 0 true false [Imm]; OMarkRoot []; OStep; OStep;
   OMarkRoot []; OStep; OStep;
   OAlloc 1 false false [Imm; Imm]; OWrite 0 0 (Ptr 1); ORoots [Ptr 0];
   OMarkRoot []; OStep; OStep; ORead 0 0].
Example gc_safety_ex : match run init prog_vec with
  | Some s => mut s = [Ptr 1; Ptr 0] /\ is_inuse (g s) (heap s 1%nat) = true /\ g s = 8
  | None => False
  end.
Proof. now vm_compute. Qed.

(** * C29: garbage goes away *)
Lemma rinv_gcRSet : forall s0 l (R : nat -> Prop) s kept, rinv s0 R s -> g s = g s0 ->
  (forall a, In a l -> D s0 a = 0) -> rinv s0 R (gcRSet s l kept).
Proof.
  intros s0. induction l as [|x l IH]; intros R s kept H Eg Hl; cbn [gcRSet].
  - eapply rinv_same with (s := s); auto; apply H.
  - destruct (Z.leb_spec 0 (versionCmp (g s mod 64) (ver s x mod 64))) as [Hc|Hc].
    + apply IH; [|exact Eg|intros; apply Hl; now right].
      apply rinv_same with (s := s); auto; try apply H.
      * intros a b Ra. cbn. unfold upd. destruct (Nat.eqb_spec a x) as [->|]; now apply (r_fields _ _ _ H).
      * intros a. right. cbn. unfold upd. destruct (Nat.eqb_spec a x) as [->|]; auto.
    + apply IH; [|rewrite gcMarkAll_g; exact Eg|intros; apply Hl; now right].
      apply rinv_gcMarkAll; [exact H|]. intros b Hb.
      destruct (r_other _ _ _ H x) as [Rx|(Ev & _)]; [eapply (r_fields _ _ _ H); eassumption|].
      exfalso. pose proof (Hl x (or_introl eq_refl)) as D0.
      rewrite Ev, Eg in Hc. unfold D, dist in D0. unfold versionCmp in Hc.
      replace (ver s0 x mod 64 - g s0 mod 64) with 0 in Hc by lia. cbn in Hc. lia.
Qed.

(** A step that ends the collection (the version advances). *)
Lemma flip_ver : forall s o s', step s o = Ok s' -> g s' <> g s -> forall a,
  ver s' a = ver s a /\ (o_used (heap s' a) = true -> o_used (heap s a) = true) /\ o_large (heap s' a) = o_large (heap s a) /\
  g s' = g s + 2.
Proof.
  intros s o s' H Hne a. pose proof (g_mono s o s' H) as GM.
  destruct o as [b m l fields|b i|b i v|l|v|junk| |b|]; cbn [step] in H.
  1-6, 8, 9: apply Ok_inj in H; subst s'.
  - now cbn in Hne.
  - now cbn in Hne.
  - exfalso. apply Hne. clear.
    unfold store, writeBarrierForIncremental, writeBarrierForGeneration.
    assert (PA : forall t y, g (add_rset t y) = g t) by (intros t y; unfold add_rset; destruct (o_inrset _); reflexivity).
    set (s1 := match ph s with PInc => _ | _ => s end).
    assert (E1 : g s1 = g s) by (unfold s1; destruct (ph s); auto; apply gcMark_g).
    destruct v as [|c]; [exact E1|]. set (s2 := with_obj _ b _). assert (g s2 = g s) by (exact E1).
    destruct (_ <=? 0); [lia|]. destruct (ph s2); rewrite ?PA; try lia. destruct (_ && _); [lia|]. rewrite gcMark_g, PA. lia.
  - now cbn in Hne.
  - exfalso. apply Hne. apply gcMark_g.
  - exfalso. apply Hne. unfold gcMarkRoot. cbn [g with_phase].
    assert (PR : forall l t k, g (gcRSet t l k) = g t).
    { induction l as [|x l IH]; intros t k; cbn [gcRSet]; [reflexivity|]. destruct (_ <=? _); rewrite IH; [reflexivity|apply gcMarkAll_g]. }
    rewrite PR, gcMarkAll_g. reflexivity.
  - now cbn in Hne.
  - cbn. split; [apply sweep_obj_same|]. unfold sweep_obj.
    destruct (o_large (heap s a)) eqn:E; [destruct (_ =? _)|destruct (is_inuse _ _)]; cbn; repeat split; auto; discriminate.
  - unfold gcStep in H. destruct (queue s) as [|q rest].
    + destruct (g s mod 30 =? 0); apply Ok_inj in H; subst s'; [now cbn in Hne|]. cbn. auto.
    + destruct (is_odd _); [|discriminate]. apply Ok_inj in H. subst s'. exfalso. apply Hne. cbn [g with_obj]. rewrite gcMarkAll_g. reflexivity.
Qed.

(** A collection that begins when the version is a multiple of 24 is a full one.  Let [a] be
    unreachable at its start, from the program's values and from the stale stack words
    [junk] that this collection happens to see.  Whatever the program does meanwhile,
    and however the collector's steps are scheduled, when the collection ends the slot
    is free unless it has been handed out again in between.  Holds for small objects
    of any age, and for large ones whose version is current. *)
Theorem full_collection_reclaims : forall before s0 junk ops s o s' a,
  exec init before (Ok s0) -> ph s0 = PNone -> (g s0) mod 24 = 0 ->
  ~ reach s0 (mut s0 ++ junk) a ->
  o_large (heap s0 a) = false \/ inuse (g s0) (heap s0 a) = 1 ->
  exec s0 (OMarkRoot junk :: ops) (Ok s) -> g s = g s0 ->
  (forall m l f, ~ In (OAlloc a m l f) ops) ->
  permitted s o -> step s o = Ok s' -> g s' <> g s ->
  g s' = g s0 + 2 /\ is_inuse (g s') (heap s' a) = false.
Proof.
  intros before s0 junk ops s o s' a Hb Hph H24 Hnr Hkind Hex Hg Hna HP Hs Hflip.
  destruct (reachable_inv _ _ Hb) as (L & HI & HL). pose proof (proj1 HI) as C.
  assert (Hbound : forall x, L x -> D s0 x = 0).
  { intros x Lx. pose proof (l_live _ _ HL x Lx) as X. destruct (c_lok _ _ C x Lx) as [_ R].
    unfold bound in X. rewrite Hph in X. unfold TT in X. lia. }
  assert (E0 : exists s1, step s0 (OMarkRoot junk) = Ok s1 /\ exec s1 ops (Ok s)).
  { inversion Hex; subst; eauto. }
  destruct E0 as (s1 & Hs1 & Hex1).
  set (R := reach s0 (mut s0 ++ junk)).
  assert (Hq0 : queue s0 = []) by (destruct HI as [_ I]; rewrite Hph in I; apply I).
  assert (R0 : rinv s0 R s0).
  { constructor.
    - intros x Hx. apply reach_root. apply in_or_app. now left.
    - rewrite Hq0. contradiction.
    - intros x y Hx Hy. eapply reach_field; eassumption.
    - intro x. right. auto. }
  assert (R1 : rinv s0 R s1 /\ ph s1 = PInc).
  { cbn [step] in Hs1. apply Ok_inj in Hs1. subst s1. unfold gcMarkRoot.
    set (t1 := mkSt (g s0) (ph s0) (heap s0) [] (rset s0) (mut s0)).
    assert (Et : t1 = s0) by (destruct s0; cbn in *; unfold t1; cbn; congruence). rewrite Et. clear t1 Et.
    split; [|reflexivity].
    assert (R2 : rinv s0 R (gcMarkAll s0 (mut s0 ++ junk) 0)).
    { apply rinv_gcMarkAll; [exact R0|]. intros x Hx. now apply reach_root. }
    destruct (keepr_gcMarkAll (mut s0 ++ junk) s0 0) as [K _].
    assert (R3 : rinv s0 R (gcRSet (gcMarkAll s0 (mut s0 ++ junk) 0) (rset (gcMarkAll s0 (mut s0 ++ junk) 0)) [])).
    { apply rinv_gcRSet; [exact R2|apply gcMarkAll_g|]. intros x Hx. rewrite K in Hx. apply Hbound. now apply (c_rset _ _ C). }
    eapply rinv_same with (s := gcRSet (gcMarkAll s0 (mut s0 ++ junk) 0) (rset (gcMarkAll s0 (mut s0 ++ junk) 0)) []); auto; apply R3. }
  destruct R1 as [R1 Ph1].
  assert (Hg1 : g s1 = g s0).
  { pose proof (g_mono _ _ _ Hs1). pose proof (exec_g_mono _ _ _ Hex1 s eq_refl). lia. }
  destruct (rinv_exec s0 ops s1 (Ok s) Hex1 R s a R1) as (R' & Rs & Phs & Hn'); auto; try congruence.
  destruct (r_other _ _ _ Rs a) as [|(Ev & Eu & El)]; [contradiction|].
  destruct (flip_ver s o s' Hs Hflip a) as (Fv & Fu & Fl & Fg).
  rewrite Hg in Fg. split; [exact Fg|].
  destruct (o_used (heap s' a)) eqn:U; [|unfold is_inuse, inuse; now rewrite U].
  pose proof (Eu (Fu eq_refl)) as U0.
  (* the invariant at the end *)
  assert (Hend : exists L' : nat -> Prop, inv L' s' /\ linv L' s').
  { destruct (exec_inv _ _ _ Hex _ HI HL) as (t & L1 & Et & HI1 & HL1). apply Ok_inj in Et. subst t.
    destruct (inv_step L1 s o HI1 HP) as (t & Et & HI2). rewrite Hs in Et. apply Ok_inj in Et. subst t.
    exists (Lnext L1 s o). split; [exact HI2|]. eapply linv_step; eassumption. }
  destruct Hend as (L' & HI' & HL').
  assert (Hv : ver s' a = ver s0 a) by congruence.
  assert (HD0 : D s0 a <= 0 /\ D s' a = D s0 a - 2 /\ -30 <= D s' a).
  { destruct Hkind as [Sm|Cur].
    - assert (S' : o_large (heap s' a) = false) by congruence.
      pose proof (small_range L' s' a HI' HL' U S') as A1. pose proof (small_range L s0 a HI HL U0 Sm) as A2.
      assert (D s0 a <= 0).
      { destruct (l_dead _ _ HL a U0 Sm) as [La|[X _]]; [rewrite (Hbound a La); lia|lia]. }
      assert (D s' a = D s0 a - 2); [|lia].
      unfold D in *. rewrite Hv, Fg. apply dist_next. lia.
    - unfold inuse in Cur. rewrite U0 in Cur. cbn [negb] in Cur.
      assert (Z0 : D s0 a = 0).
      { assert (Ed : ver s0 a mod 64 = g s0 mod 64).
        { destruct (Z.eq_dec (ver s0 a mod 64) (g s0 mod 64)) as [|Hd]; [assumption|exfalso].
          revert Cur. unfold versionCmp.
          destruct (Z.eqb_spec (ver s0 a mod 64 - g s0 mod 64) 0) as [|_]; [lia|].
          destruct (_ && _); destruct (0 <? ver s0 a mod 64 - g s0 mod 64); discriminate. }
        unfold D, dist. lia. }
      assert (D s' a = D s0 a - 2); [|lia].
      unfold D in *. rewrite Hv, Fg. apply dist_next. lia. }
  destruct HD0 as (H1 & H2 & H3).
  destruct (is_inuse (g s') (heap s' a)) eqn:Eiu; [|reflexivity].
  apply inuse_dist in Eiu; [|fold (D s' a); lia]. fold (D s' a) in Eiu. lia.
Qed.
Print Assumptions full_collection_reclaims.

(** Full collections keep coming: one in every twelve. *)
Theorem full_collection_recurs : forall gv, gv mod 2 = 0 ->
  exists k, 0 <= k < 12 /\ (gv + 2 * k) mod 24 = 0.
Proof. intros gv H. exists (((- gv) mod 24) / 2). lia. Qed.
Print Assumptions full_collection_recurs.

(** Marking ends: during a collection the number of scanning steps is bounded by a number
    fixed at its start plus 16 per allocation made meanwhile.  (The runtime performs 200
    steps at each allocation, src/gc.c:946.) *)
Inductive marking_run : st -> list op -> st -> Prop :=
| mr_nil : forall s, ph s = PInc -> marking_run s [] s
| mr_cons : forall s o ops s1 s', ph s = PInc -> permitted s o -> step s o = Ok s1 -> marking_run s1 ops s' -> marking_run s (o :: ops) s'.
Definition steps_of (ops : list op) : Z := fold_right (fun o n => (match o with OStep => 1 | _ => 0 end) + n) 0 ops.
Definition allocs_of (ops : list op) : Z := fold_right (fun o n => (match o with OAlloc _ _ _ _ => 1 | _ => 0 end) + n) 0 ops.

Lemma marking_run_ph : forall s ops s', marking_run s ops s' -> ph s = PInc.
Proof. intros s ops s' []; auto. Qed.

Lemma marking_phi : forall n s ops s', marking_run s ops s' -> forall (L : nat -> Prop), inv L s -> fin n s ->
  (forall a m l f, In (OAlloc a m l f) ops -> (a < n)%nat) ->
  phi n s' + 3 * steps_of ops <= phi n s + 46 * allocs_of ops.
Proof.
  intros n s ops s' H. induction H as [s Hp|s o ops s1 s' Hp HP Hs Hr IH]; intros L HI F Ha.
  - cbn. lia.
  - destruct (inv_step L s o HI HP) as (t & Et & HI1). rewrite Hs in Et. apply Ok_inj in Et. subst t.
    destruct (phi_step n L s o s1 HI Hp (marking_run_ph _ _ _ Hr) HP Hs F) as [P1 F1].
    { intros a m l f ->. apply (Ha a m l f). now left. }
    specialize (IH _ HI1 F1). cbn [steps_of allocs_of fold_right].
    assert (IH' := IH (fun a m l f X => Ha a m l f (or_intror X))). clear IH.
    fold (steps_of ops). fold (allocs_of ops). unfold isStep, isAlloc in P1. destruct o; lia.
Qed.

(** only finitely many slots are ever used *)
Lemma used_gcMarkAll : forall vs s n x, o_used (heap (gcMarkAll s vs n) x) = o_used (heap s x).
Proof.
  induction vs as [|v vs IH]; intros s n x; [reflexivity|].
  change (gcMarkAll s (v :: vs) n) with (gcMarkAll (gcMark s v n) vs n). rewrite IH. apply used_gcMark.
Qed.
Lemma used_gcRSet : forall l s k x, o_used (heap (gcRSet s l k) x) = o_used (heap s x).
Proof.
  induction l as [|y l IH]; intros s k x; cbn [gcRSet]; [reflexivity|].
  destruct (_ <=? _); rewrite IH; [|apply used_gcMarkAll].
  cbn. unfold upd. destruct (Nat.eqb_spec x y); subst; reflexivity.
Qed.
Lemma used_sweep : forall gv o, o_used (sweep_obj gv o) = true -> o_used o = true.
Proof. intros gv o. unfold sweep_obj. destruct (o_large o); [destruct (_ =? _)|destruct (is_inuse _ _)]; cbn; auto; discriminate. Qed.
Lemma fin_step : forall n s o s', fin n s -> step s o = Ok s' -> exists m, fin m s'.
Proof.
  intros n s o s' F H.
  assert (K : (forall x, o_used (heap s' x) = true -> o_used (heap s x) = true) -> exists m, fin m s').
  { intro K. exists n. intros x Hx. destruct (o_used (heap s' x)) eqn:E; [|reflexivity]. specialize (K x E). rewrite (F x Hx) in K. discriminate. }
  destruct o as [b m l fields|b i|b i v|l|v|junk| |b|]; cbn [step] in H.
  1-6, 8, 9: apply Ok_inj in H; subst s'.
  - exists (Nat.max n (S b)). intros x Hx. cbn. rewrite upd_other by lia. apply F. lia.
  - apply K. auto.
  - apply K. intro x. clear. unfold store, writeBarrierForIncremental, writeBarrierForGeneration.
    assert (PA : forall t y, o_used (heap (add_rset t y) x) = o_used (heap t x)).
    { intros t y; unfold add_rset; destruct (o_inrset _); [reflexivity|]. cbn [heap]. unfold upd. destruct (Nat.eqb_spec x y); subst; reflexivity. }
    set (s1 := match ph s with PInc => _ | _ => s end).
    assert (E1 : o_used (heap s1 x) = o_used (heap s x)) by (unfold s1; destruct (ph s); auto; apply used_gcMark).
    set (s2 := with_obj _ b _).
    assert (E2 : o_used (heap s2 x) = o_used (heap s x)).
    { rewrite <- E1. cbn. unfold upd. destruct (Nat.eqb_spec x b); subst; reflexivity. }
    destruct v as [|c]; [congruence|].
    destruct (_ <=? 0); [congruence|]. destruct (ph s2); rewrite ?PA; try congruence. destruct (_ && _); [congruence|].
    rewrite used_gcMark, PA. congruence.
  - apply K. auto.
  - apply K. intro x. now rewrite used_gcMark.
  - apply K. intro x. unfold gcMarkRoot. cbn [heap with_phase]. now rewrite used_gcRSet, used_gcMarkAll.
  - apply K. intro x. cbn. unfold upd. destruct (Nat.eqb_spec x b) as [->|]; [apply used_sweep|auto].
  - apply K. intro x. cbn. apply used_sweep.
  - unfold gcStep in H. destruct (queue s) as [|q rest].
    + destruct (g s mod 30 =? 0); apply Ok_inj in H; subst s'; apply K; auto.
    + destruct (is_odd _); [|discriminate]. apply Ok_inj in H. subst s'. apply K. intro x. cbn. unfold upd.
      destruct (Nat.eqb_spec x q) as [->|]; cbn; now rewrite used_gcMarkAll.
Qed.
Lemma fin_exec : forall s ops r, exec s ops r -> forall n s', fin n s -> r = Ok s' -> exists m, fin m s'.
Proof.
  intros s ops r H. induction H as [s|s o ops s1 r HP Hs Hr IH| |]; intros n s' F E; try discriminate.
  - apply Ok_inj in E. subst. eauto.
  - destruct (fin_step n s o s1 F Hs) as [m F1]. eapply IH; eassumption.
Qed.

Theorem marking_terminates : forall before s, exec init before (Ok s) ->
  exists B, forall ops s', marking_run s ops s' -> steps_of ops <= B + 16 * allocs_of ops.
Proof.
  intros before s Hb. destruct (reachable_inv _ _ Hb) as (L & HI & _).
  destruct (fin_exec _ _ _ Hb 0%nat s fin_init eq_refl) as [n F].
  exists (phi n s). intros ops s' Hr.
  set (m := fold_right (fun o k => match o with OAlloc a _ _ _ => Nat.max (S a) k | _ => k end) n ops).
  assert (Hm : (n <= m)%nat /\ forall a x l f, In (OAlloc a x l f) ops -> (a < m)%nat).
  { unfold m. clear. induction ops as [|o ops [IH1 IH2]]; cbn [fold_right]; [split; [lia|intros ? ? ? ? []]|].
    split; [destruct o; lia|]. intros a x l f [-> |Hin]; [lia|]. specialize (IH2 a x l f Hin). destruct o; lia. }
  destruct Hm as [Hm1 Hm2].
  assert (Fm : fin m s) by (intros a Ha; apply F; lia).
  pose proof (marking_phi m s ops s' Hr L HI Fm Hm2) as P.
  rewrite (phi_extend n m s Hm1 F) in P. pose proof (phi_nonneg m s'). pose proof (phi_nonneg n s).
  assert (0 <= allocs_of ops).
  { clear. induction ops as [|o ops IH]; cbn [allocs_of fold_right]; [lia|]. fold (allocs_of ops). destruct o; lia. }
  lia.
Qed.
Print Assumptions marking_terminates.

(** A concrete full collection: at version 24 a promoted, then dropped, object is freed,
    and an unreachable cycle of two vectors with it. *)
Fixpoint cycles (n : nat) (s : st) : option st :=
  match n with
  | O => Some s
  | S n' => match step s (OMarkRoot []) with
            | Ok s1 => match drain 50 s1 with
                       | Some s2 => cycles n' (match ph s2 with PSweep => gcFlip (sweep_all s2) | _ => s2 end)
                       | None => None
                       end
            | _ => None
            end
  end.
Definition prog_cycle : list op :=
  [OAlloc 0 true false [Imm]; OAlloc 1 true false [Ptr 0]; OWrite 0 0 (Ptr 1); OAlloc 2 false false [Ptr 0]].
Example full_collection_ex :
  match run init prog_cycle with
  | Some s => match cycles 10 s with
     | Some s1 => match run s1 [ORoots []] with
        | Some s2 => (g s2 = 22 /\ is_inuse (g s2) (heap s2 1%nat) = true) /\
           match cycles 1 s2 with
           | Some s3 => g s3 = 24 /\ is_inuse 24 (heap s3 1%nat) = true /\
               match cycles 1 s3 with
               | Some s4 => g s4 = 26 /\ is_inuse 26 (heap s4 0%nat) = false /\ is_inuse 26 (heap s4 1%nat) = false
               | None => False end
           | None => False end
        | None => False end
     | None => False end
  | None => False end.
Proof. vm_compute. repeat split; reflexivity. Qed.

(** Large objects: the sweep frees a large object only if its version is exactly the previous
    one (src/gc.c:1013), so one that died earlier keeps its old version, and 17
    collections later the comparison wraps and the dead object counts as in use again
    although nothing refers to it. *)
Theorem large_garbage_stays_free_refuted : exists ops s n s',
  exec init ops (Ok s) /\ mut s = [] /\ o_large (heap s 0%nat) = true /\
  cycles 1 s <> None /\ is_inuse (g s) (heap s 0%nat) = false /\
  cycles n s = Some s' /\ is_inuse (g s') (heap s' 0%nat) = true.
Proof.
  set (ops := [OAlloc 0 true true [Imm]; ORoots []; OMarkRoot []; OStep]).
  destruct (run init ops) as [s|] eqn:E; [|vm_compute in E; discriminate].
  exists ops, s, 18%nat.
  assert (E' : s = match run init ops with Some t => t | None => init end) by (rewrite E; reflexivity).
  destruct (cycles 18 s) as [s'|] eqn:Ec; [|subst s; vm_compute in Ec; discriminate].
  exists s'. split; [now apply run_exec|].
  assert (Es' : s' = match cycles 18 s with Some t => t | None => init end) by (rewrite Ec; reflexivity).
  rewrite Es', E'. clear. vm_compute. repeat split; try reflexivity. discriminate.
Qed.
Print Assumptions large_garbage_stays_free_refuted.
