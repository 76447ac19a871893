(** Lemmas about what the collector finds. *)
From Coq Require Import List Arith Bool ZArith Lia.
From Verif Require Import Base VmModel VmSpec VmProofs VmSim VmExec RootsModel RootsSpec.
Import ListNotations.
Local Open Scope nat_scope.

Definition good (m : memory) (a : addr) : Prop := live m (fst a) /\ snd a <= 255.

Lemma read_all_ok : forall m l, Forall (good m) l ->
  exists vs, read_all m l = Ok vs /\ forall a v, In a l -> val m a = Some v -> In v vs.
Proof.
  intros m l H. induction H as [|a l (L & Ls) _ (vs & E & Hv)].
  - exists []. split; [reflexivity|]. intros a v [].
  - destruct a as (g, o). cbn [fst snd] in *.
    destruct (mread_live m g o L) as (v & Ev); [lia|].
    exists (v :: vs). cbn [read_all]. rewrite Ev. cbn [obind]. rewrite E. cbn [obind]. split; [reflexivity|].
    intros a w [<-|Ha] Hw; [left|right; eauto].
    unfold mread in Ev. unfold val in Hw. cbn [fst snd] in *. destruct (m g); [|discriminate].
    destruct (o <? INIT_STACK_SIZE); [|discriminate]. apply Ok_inj in Ev. congruence.
Qed.

Lemma frame_slots_good : forall m f g b e, f_bp f = (g, b) -> f_sp f = (g, e) -> e <= 255 -> live m g ->
  Forall (good m) (frame_slots f).
Proof.
  intros m f g b e Eb Ee L Lv. unfold frame_slots. rewrite Eb, Ee. cbn [fst snd].
  apply Forall_forall. intros a Ha. apply in_map_iff in Ha as (i & <- & Hi). apply in_seq in Hi.
  split; cbn [fst snd]; [exact Lv|lia].
Qed.

Lemma frame_slots_in : forall f i, snd (f_bp f) <= i < snd (f_sp f) -> In (fst (f_bp f), i) (frame_slots f).
Proof.
  intros f i H. unfold frame_slots. apply in_map_iff. exists i. split; [reflexivity|]. apply in_seq. lia.
Qed.

Lemma frames_good : forall m fs, (forall f, In f fs -> Forall (good m) (frame_slots f)) ->
  Forall (good m) (concat (map frame_slots (rev fs))).
Proof.
  intros m fs H. apply Forall_concat. apply Forall_forall. intros l Hl. apply in_map_iff in Hl as (f & <- & Hf).
  apply H. now apply in_rev.
Qed.

Lemma frames_in : forall fs f a, In f fs -> In a (frame_slots f) -> In a (concat (map frame_slots (rev fs))).
Proof.
  intros fs f a Hf Ha. apply in_concat. exists (frame_slots f). split; [|exact Ha]. apply in_map. now apply in_rev in Hf.
Qed.

Lemma chain_frames : forall segs lim fs t, chain segs lim fs t ->
  forall f, In f fs -> exists g b e, f_bp f = (g, b) /\ f_sp f = (g, e) /\ e <= 255 /\ In g segs.
Proof.
  intros segs lim fs t H. induction H; intros x Hx.
  - destruct Hx as [<-|[]]. destruct (f_bp f) as (g0, b0), (f_sp f) as (g1, e1). cbn [fst snd] in *. subst.
    exists g, b0, e1. repeat split; auto. now left.
  - destruct Hx as [<-|Hx]; [|now apply IHchain]. exists g, b, e. repeat split; auto; try lia. now left.
  - destruct Hx as [<-|Hx]; [|now apply IHchain]. exists g, b, e. repeat split; auto; try lia. now left.
  - destruct Hx as [<-|Hx].
    + exists g, 0, 3. repeat split; auto; try lia. now left.
    + destruct (IHchain x Hx) as (g0 & b0 & e0 & A1 & A2 & A3 & A4). exists g0, b0, e0. repeat split; auto. now right.
  - destruct (IHchain x Hx) as (g0 & b0 & e0 & A1 & A2 & A3 & A4). exists g0, b0, e0. repeat split; auto. now right.
Qed.

Lemma part_frames : forall segs lim fs, part segs lim fs ->
  forall f, In f fs -> exists g b e, f_bp f = (g, b) /\ f_sp f = (g, e) /\ e <= 255 /\ In g segs.
Proof.
  intros segs lim fs H. induction H; intros x Hx.
  - destruct Hx as [<-|[]]. exists g, 0, 3. repeat split; auto; try lia. now left.
  - destruct Hx as [<-|Hx]; [|now apply IHpart]. exists g, b, e. repeat split; auto; try lia. now left.
  - destruct (IHpart x Hx) as (g0 & b0 & e0 & A1 & A2 & A3 & A4). exists g0, b0, e0. repeat split; auto. now right.
Qed.

(** ** the state while a function runs *)

Record running (s : vm) (S0 : sst) (a : act) : Prop := {
  r_bp : exists b e, f_bp (v_ctx s) = (v_cur s, b) /\ f_sp (v_ctx s) = (v_cur s, e) /\ e <= 255;
  r_live : live (v_mem s) (v_cur s);
  r_ctx : frame_rel (v_mem s) (v_ctx s) a;
  r_fs : exists fs ex, v_callstack s = fs ++ [ex] /\ Forall2 (item_rel (v_mem s)) fs (s_pend S0);
  r_frames : forall f, In f (v_callstack s) ->
     exists g b e, f_bp f = (g, b) /\ f_sp f = (g, e) /\ e <= 255 /\ live (v_mem s) g;
  r_conts : forall id up, s_k S0 id = Some up -> exists fs sg, v_conts s id = Some (fs, sg) /\
     Forall2 (item_rel (v_mem s)) fs up /\ Forall (fun f => f_fn f <> None) fs /\
     forall f, In f fs -> exists g b e, f_bp f = (g, b) /\ f_sp f = (g, e) /\ e <= 255 /\ live (v_mem s) g;
  r_res : v_res s = s_res S0;
  r_cur : s_cur S0 = Some a;
  r_wait : s_wait S0 = None }.

Lemma part_fn : forall segs lim fs, part segs lim fs -> Forall (fun f => f_fn f <> None) fs.
Proof.
  intros segs lim fs H. induction H; auto. constructor; auto. destruct H. congruence.
Qed.

Lemma stk_running : forall s S0 a lim b e, f_bp (v_ctx s) = (v_cur s, b) -> f_sp (v_ctx s) = (v_cur s, e) -> e <= 255 ->
  frame_rel (v_mem s) (v_ctx s) a -> Stk s lim (s_pend S0) (s_k S0) -> v_res s = s_res S0 -> s_cur S0 = Some a -> s_wait S0 = None ->
  running s S0 a.
Proof.
  intros s S0 a lim b e Eb Ee L F [K1 K2 K3 K4 K5 K6 K7 K8 K9] Er Ec Ew. constructor; auto.
  - eauto.
  - apply K5. destruct K1 as (gs & ->). now left.
  - intros f Hf. destruct (chain_frames _ _ _ _ K3 f Hf) as (g & b0 & e0 & A1 & A2 & A3 & A4).
    exists g, b0, e0. repeat split; auto. now apply K5.
  - intros id up E. destruct (K7 id up E) as (fs & sg & l & B1 & B2 & B3 & B4 & B5).
    exists fs, sg. repeat split; auto. { eapply part_fn; eauto. }
    intros f Hf. destruct (part_frames _ _ _ B2 f Hf) as (g & b0 & e0 & A1 & A2 & A3 & A4).
    exists g, b0, e0. repeat split; auto. now apply B5.
Qed.

Lemma rel_running : forall s S0 a, Rel s S0 -> s_cur S0 = Some a -> running s S0 a.
Proof.
  intros s S0 a0 [a b e Ec Ew NP Eb Ee L F K RS NK|a b e Ec Ew NP Eb Ee L F K RS NK|ar e Ec Ew Ef Ee L TH Cs K RS NK|Ec Ew Ef Cs RS] E;
  try congruence; rewrite Ec in E; injection E as <-.
  - eapply stk_running; eauto. lia.
  - assert (Q : running (set_try s (tl (v_try s))) S0 a) by (eapply stk_running; eauto; lia).
    destruct Q; constructor; auto.
Qed.

Lemma Forall2_in_r : forall A B (R : A -> B -> Prop) l l', Forall2 R l l' -> forall y, In y l' -> exists x, In x l /\ R x y.
Proof.
  intros A B R l l' H. induction H; intros z Hz; [destruct Hz|]. destruct Hz as [<-|Hz]; [exists x; split; [now left|auto]|].
  destruct (IHForall2 z Hz) as (w & Hw & Rw). exists w. split; [now right|auto].
Qed.

(** A stored value is in a slot the collector reads. *)
Lemma slot_in : forall m f a v, frame_rel m f a -> In (Some v) (a_slots a) ->
  exists x, In x (frame_slots f) /\ val m x = Some v.
Proof.
  intros m f a v (F1 & F2 & F3 & F4) H. apply In_nth_error in H as (i & Hi).
  assert (Li : i < length (a_slots a)) by (apply nth_error_Some; congruence).
  exists (fst (f_bp f), snd (f_bp f) + i). split; [apply frame_slots_in; lia|now apply F4].
Qed.

Lemma roots_read : forall s S0 a, running s S0 a -> exists l, coraGCFunc s = Ok l /\ In (v_res s) l /\
  (forall v, In (Some v) (a_slots a) -> In v l) /\
  (forall b v, In (IAct b) (s_pend S0) -> In (Some v) (a_slots b) -> In v l).
Proof.
  intros s S0 a [(b & e & Eb & Ee & L) Lv F (fs & ex & Efs & F2) RF RC RR RU RW].
  destruct (read_all_ok (v_mem s) (frame_slots (v_ctx s))) as (v1 & E1 & H1).
  { eapply frame_slots_good; eauto. }
  destruct (read_all_ok (v_mem s) (concat (map frame_slots (rev (v_callstack s))))) as (v2 & E2 & H2).
  { apply frames_good. intros f Hf. destruct (RF f Hf) as (g & b0 & e0 & A1 & A2 & A3 & A4). eapply frame_slots_good; eauto. }
  exists (v1 ++ v_res s :: v2). unfold coraGCFunc. rewrite E1. cbn [obind]. rewrite E2. cbn [obind].
  split; [reflexivity|]. split; [apply in_or_app; right; now left|]. split.
  - intros v Hv. apply in_or_app. left. destruct (slot_in _ _ _ _ F Hv) as (x & X1 & X2). eauto.
  - intros c v Hc Hv. apply in_or_app. right. right.
    destruct (Forall2_in_r _ _ _ _ _ F2 _ Hc) as (f & Hf & Rf). cbn [item_rel] in Rf.
    destruct (slot_in _ _ _ _ Rf Hv) as (x & X1 & X2). eapply H2; eauto.
    eapply frames_in; eauto. rewrite Efs. apply in_or_app. now left.
Qed.

Lemma cont_read : forall s S0 a id up, running s S0 a -> s_k S0 id = Some up -> exists fs sg l,
  v_conts s id = Some (fs, sg) /\ continuationGCFunc s fs = Ok l /\
  (forall b v, In (IAct b) up -> In (Some v) (a_slots b) -> In v l) /\ (forall r, ~ In (IArgs r) up).
Proof.
  intros s S0 a id up R E. destruct R as [_ _ _ _ _ RC _ _ _]. destruct (RC id up E) as (fs & sg & C1 & C2 & C3 & C4).
  destruct (read_all_ok (v_mem s) (concat (map frame_slots (rev fs)))) as (v2 & E2 & H2).
  { apply frames_good. intros f Hf. destruct (C4 f Hf) as (g & b0 & e0 & A1 & A2 & A3 & A4). eapply frame_slots_good; eauto. }
  exists fs, sg, v2. split; [exact C1|]. split; [exact E2|]. split.
  - intros c v Hc Hv. destruct (Forall2_in_r _ _ _ _ _ C2 _ Hc) as (f & Hf & Rf). cbn [item_rel] in Rf.
    destruct (slot_in _ _ _ _ Rf Hv) as (x & X1 & X2). eapply H2; eauto. eapply frames_in; eauto.
  - intros r Hr. destruct (Forall2_in_r _ _ _ _ _ C2 _ Hr) as (f & Hf & Rf). cbn [item_rel] in Rf.
    rewrite Forall_forall in C3. now apply (C3 f Hf).
Qed.

Lemma usable_found : forall s S0 a, running s S0 a -> forall o, usable S0 o ->
  found s o \/ parts S0 (in_args S0) o.
Proof.
  intros s S0 a R o H. destruct (roots_read _ _ _ R) as (l & El & L1 & L2 & L3).
  unfold usable in H. induction H as [o H|x d H IH|x d H IH|c nf rq d o H IH Hi|id up b o H IH E Hb Ho|id up r o H IH E Hb Ho].
  - destruct H as [[->|[(b & Eb & Hb)|(b & Eb & Hb)]]|H].
    + left. rewrite <- (r_res _ _ _ R). eapply fd_root; eauto.
    + left. eapply fd_root; eauto. apply L2.
      assert (b = a); [|subst; exact Hb].
      pose proof (r_cur _ _ _ R). congruence.
    + left. eapply fd_root; eauto.
    + right. now apply p_here.
  - destruct IH as [IH|IH]; [left; eapply fd_car; eauto|right; eapply p_car; eauto].
  - destruct IH as [IH|IH]; [left; eapply fd_cdr; eauto|right; eapply p_cdr; eauto].
  - destruct IH as [IH|IH]; [left; eapply fd_data; eauto|right; eapply p_data; eauto].
  - destruct IH as [IH|IH]; [left|right; eapply p_cont; eauto].
    destruct (cont_read _ _ _ _ _ R E) as (fs & sg & l2 & C1 & C2 & C3 & C4). eapply fd_cont; eauto.
  - exfalso. destruct (cont_read _ _ _ _ _ R E) as (fs & sg & l2 & C1 & C2 & C3 & C4). now apply (C4 r).
Qed.
