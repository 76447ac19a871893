(** Simulation between the machine and the specification. *)
From Coq Require Import List Arith Bool ZArith Lia.
From Verif Require Import Base VmModel VmSpec VmProofs.
Import ListNotations.
Local Open Scope nat_scope.

(** The stack of the machine represents the pending items [p] and the unused
    continuations [kk]; offsets from [lim] on in the current segment are free. *)
Record Stk (s : vm) (lim : nat) (p : list item) (kk : nat -> option (list item)) : Prop := {
  k_segs : exists gs, v_segs s = v_cur s :: gs;
  k_nd : NoDup (v_segs s);
  k_chain : chain (v_segs s) lim (v_callstack s) (v_try s);
  k_items : exists fs ex, v_callstack s = fs ++ [ex] /\ Forall2 (item_rel (v_mem s)) fs p;
  k_live : forall g, In g (v_segs s) -> live (v_mem s) g /\ g < v_next s;
  k_cst : v_cst s = args_of p;
  k_conts : forall id up, kk id = Some up ->
    exists fs sg l, v_conts s id = Some (fs, sg) /\ part sg l fs /\
      Forall2 (item_rel (v_mem s)) fs up /\ NoDup sg /\
      (forall g, In g sg -> live (v_mem s) g /\ g < v_next s /\ ~ In g (v_segs s));
  k_disj : forall i j fs sg fs' sg', i <> j -> kk i <> None -> kk j <> None ->
    v_conts s i = Some (fs, sg) -> v_conts s j = Some (fs', sg') ->
    forall g, In g sg -> ~ In g sg';
  k_fresh : forall id, v_nextk s <= id -> kk id = None }.

(** ** stability of slots *)

Lemma frame_rel_stable : forall m m' f a,
  frame_rel m f a ->
  (forall o, snd (f_bp f) <= o < snd (f_sp f) -> val m' (fst (f_bp f), o) = val m (fst (f_bp f), o)) ->
  frame_rel m' f a.
Proof.
  intros m m' f a (A & B & C & D) H. repeat split; auto.
  intros i v Hi. rewrite H; [now apply D|].
  assert (i < length (a_slots a)) by (apply nth_error_Some; congruence). lia.
Qed.

Lemma item_rel_stable : forall m m' f i,
  item_rel m f i ->
  (f_fn f <> None -> forall o, snd (f_bp f) <= o < snd (f_sp f) ->
     val m' (fst (f_bp f), o) = val m (fst (f_bp f), o)) ->
  item_rel m' f i.
Proof.
  intros m m' f [a|l] H S; [|exact H]. cbn in *. eapply frame_rel_stable; eauto.
  apply S. destruct H. congruence.
Qed.

Lemma Forall2_imp : forall A B (R R' : A -> B -> Prop) l l',
  Forall2 R l l' -> (forall x y, In x l -> R x y -> R' x y) -> Forall2 R' l l'.
Proof.
  intros A B R R' l l' H. induction H; intros I; constructor.
  - apply I; [now left|assumption].
  - apply IHForall2. intros a b Ha. apply I. now right.
Qed.

(** Writes above the limit, or outside all segments in use, preserve everything. *)
Lemma items_stable : forall segs lim fs ex t p m m',
  chain segs lim (fs ++ [ex]) t -> NoDup segs ->
  Forall2 (item_rel m) fs p ->
  (forall g o, In g segs -> (hd_error segs = Some g -> o < lim) -> val m' (g, o) = val m (g, o)) ->
  Forall2 (item_rel m') fs p.
Proof.
  intros segs lim fs ex t p m m' C ND F H. eapply Forall2_imp; [exact F|].
  intros f i Hf Hr. eapply item_rel_stable; [exact Hr|]. intros Nf o Ho.
  destruct (chain_regions _ _ _ _ C ND f) as (g & b & e & A1 & A2 & A3 & A4 & A5).
  { apply in_or_app. now left. } { exact Nf. }
  rewrite A1, A2 in *. cbn [fst snd] in *. apply H; [exact A4|]. intros Q. specialize (A5 Q). lia.
Qed.

Lemma conts_stable : forall sg l fs up m m',
  part sg l fs -> Forall2 (item_rel m) fs up ->
  (forall g o, In g sg -> val m' (g, o) = val m (g, o)) ->
  Forall2 (item_rel m') fs up.
Proof.
  intros sg l fs up m m' P F H. eapply Forall2_imp; [exact F|].
  intros f i Hf Hr. eapply item_rel_stable; [exact Hr|]. intros Nf o Ho.
  destruct (part_regions _ _ _ P f Hf) as (g & b & e & A1 & A2 & A3 & A4).
  rewrite A1, A2 in *. cbn [fst snd] in *. now apply H.
Qed.

Lemma Stk_mem : forall s lim p kk m',
  Stk s lim p kk ->
  (forall x, live m' x <-> live (v_mem s) x) ->
  (forall g o, (g <> v_cur s \/ o < lim) -> val m' (g, o) = val (v_mem s) (g, o)) ->
  Stk (set_mem s m') lim p kk.
Proof.
  intros s lim p kk m' [K1 K2 K3 K4 K5 K6 K7 K8 K9] HL HV.
  constructor; cbn [set_mem v_segs v_cur v_callstack v_try v_mem v_next v_cst v_conts v_nextk]; auto.
  - destruct K4 as (fs & ex & E & F). exists fs, ex. split; [exact E|].
    rewrite E in K3. eapply items_stable; eauto. intros g o Hg Ho. apply HV.
    destruct K1 as (gs & Eg). rewrite Eg in Ho. cbn in Ho.
    destruct (Nat.eq_dec g (v_cur s)); [right; apply Ho; now subst|now left].
  - intros g Hg. rewrite HL. now apply K5.
  - intros id up Hk. destruct (K7 id up Hk) as (fs & sg & l & A1 & A2 & A3 & A4 & A5).
    exists fs, sg, l. split; [exact A1|]. split; [exact A2|]. split; [|split; [exact A4|]].
    + eapply conts_stable; eauto. intros g o Hg. apply HV. left. intros ->.
      destruct (A5 _ Hg) as (_ & _ & Q). apply Q. destruct K1 as (gs & ->). now left.
    + intros g Hg. rewrite HL. now apply A5.
Qed.

(** ** allocation of a frame *)

Lemma stack_ltb : forall n, (n <? INIT_STACK_SIZE) = (n <=? 255).
Proof. intros n. reflexivity. Qed.

Lemma Stk_hd : forall s lim p kk, Stk s lim p kk -> 
  hd_in (v_cur s) (v_callstack s) \/ lim = 0.
Proof.
  intros s lim p kk K. destruct (k_segs _ _ _ _ K) as (gs & E). pose proof (k_chain _ _ _ _ K) as C.
  rewrite E in C. destruct (chain_hd _ _ _ _ _ C) as [H|(H & _)]; auto.
Qed.

Lemma Stk_ctx : forall s lim p kk c, Stk s lim p kk -> Stk (set_ctx s c) lim p kk.
Proof. intros s lim p kk c [K1 K2 K3 K4 K5 K6 K7 K8 K9]. constructor; assumption. Qed.

Lemma Stk_res : forall s lim p kk c, Stk s lim p kk -> Stk (set_res s c) lim p kk.
Proof. intros s lim p kk c [K1 K2 K3 K4 K5 K6 K7 K8 K9]. constructor; assumption. Qed.

(** Moving the limit up is possible when the top frame is in this segment. *)
Lemma Stk_lift : forall s lim p kk lim', Stk s lim p kk -> hd_in (v_cur s) (v_callstack s) ->
  lim <= lim' -> Stk s lim' p kk.
Proof.
  intros s lim p kk lim' [K1 K2 K3 K4 K5 K6 K7 K8 K9] H L. constructor; try assumption.
  destruct K1 as (gs & E). eapply chain_lift; eauto.
Qed.

Lemma slow_ok : forall s lim p kk n,
  Stk s lim p kk -> lim <= 255 -> n <= 255 -> hd_in (v_cur s) (v_callstack s) ->
  exists s1, stackAllocSlowPath s n = Ok s1 /\ Stk s1 0 p kk /\
    v_ctx s1 = mkF (f_fn (v_ctx s)) (f_label (v_ctx s)) (v_next s, 0) (v_next s, n) /\
    v_cur s1 = v_next s /\ v_segs s1 = v_next s :: v_segs s /\ v_callstack s1 = v_callstack s /\ v_try s1 = v_try s /\
    v_res s1 = v_res s /\ v_nextk s1 = v_nextk s /\ v_conts s1 = v_conts s /\ v_cst s1 = v_cst s /\
    (forall g o, g <> v_next s -> val (v_mem s1) (g, o) = val (v_mem s) (g, o)).
Proof.
  intros s lim p kk n K L N Hh. pose proof K as [K1 K2 K3 K4 K5 K6 K7 K8 K9].
  unfold stackAllocSlowPath, assertT. rewrite stack_ltb.
  rewrite (proj2 (Nat.leb_le n 255) N).
  eexists. split; [reflexivity|]. 
  assert (HV : forall g o, g <> v_next s ->
    val (fun x => if x =? v_next s then Some (fun _ : nat => OImm 0) else v_mem s x) (g, o) = val (v_mem s) (g, o)).
  { intros g o Hg. unfold val. cbn [fst snd]. now rewrite (proj2 (Nat.eqb_neq _ _) Hg). }
  assert (HL : forall g, live (v_mem s) g -> live (fun x => if x =? v_next s then Some (fun _ : nat => OImm 0) else v_mem s x) g).
  { intros g Hg. unfold live. destruct (g =? v_next s); [discriminate|exact Hg]. }
  assert (Lt : forall g, In g (v_segs s) -> g < v_next s) by (intros g Hg; now apply K5).
  split; [|cbn; repeat split; auto].
  constructor; cbn [v_segs v_cur v_callstack v_try v_mem v_next v_cst v_conts v_nextk]; auto.
  - eauto.
  - constructor; [|exact K2]. intros Hi. specialize (Lt _ Hi). lia.
  - destruct K1 as (gs & E). rewrite E in *. eapply chain_up; eauto.
  - destruct K4 as (fs & ex & E & F). exists fs, ex. split; [exact E|]. rewrite E in K3.
    eapply items_stable; eauto. intros g o Hg _. apply HV. specialize (Lt _ Hg). lia.
  - intros g [<-|Hg].
    + split; [|lia]. unfold live. rewrite Nat.eqb_refl. discriminate.
    + destruct (K5 g Hg). split; [now apply HL|lia].
  - intros id up Hk. destruct (K7 id up Hk) as (fs & sg & l & A1 & A2 & A3 & A4 & A5).
    exists fs, sg, l. split; [exact A1|]. split; [exact A2|]. split; [|split; [exact A4|]].
    + eapply conts_stable; eauto. intros g o Hg. apply HV. destruct (A5 _ Hg) as (_ & Q & _). lia.
    + intros g Hg. destruct (A5 _ Hg) as (Q1 & Q2 & Q3). split; [now apply HL|]. split; [lia|].
      intros [<-|Hi]; [lia|tauto].
Qed.

Lemma alloc_ok : forall s lim p kk n,
  Stk s lim p kk -> f_sp (v_ctx s) = (v_cur s, lim) -> lim <= 255 -> 0 < n <= 255 ->
  exists s1 b, stackAlloc s n = Ok s1 /\ Stk s1 b p kk /\
    v_ctx s1 = mkF (f_fn (v_ctx s)) (f_label (v_ctx s)) (v_cur s1, b) (v_cur s1, b + n) /\
    b + n <= 255 /\ v_callstack s1 = v_callstack s /\ v_try s1 = v_try s /\
    v_res s1 = v_res s /\ v_nextk s1 = v_nextk s /\ v_cst s1 = v_cst s.
Proof.
  intros s lim p kk n K Esp L N. unfold stackAlloc. rewrite Esp. cbn [fst snd].
  unfold assertT at 1. rewrite (proj2 (Nat.ltb_lt 0 n)) by lia. rewrite Nat.eqb_refl.
  rewrite stack_ltb. destruct (Nat.leb_spec (lim + n) 255) as [H|H].
  - exists (set_ctx s (mkF (f_fn (v_ctx s)) (f_label (v_ctx s)) (v_cur s, lim) (v_cur s, lim + n))), lim.
    split; [reflexivity|]. split; [now apply Stk_ctx|]. cbn. repeat split; auto.
  - destruct (Stk_hd _ _ _ _ K) as [Hh|H0]; [|lia].
    destruct (slow_ok s lim p kk n K L) as (s1 & E & K' & C & Cu & _ & A1 & A2 & A3 & A4 & _ & A5 & _); [lia|exact Hh|].
    exists s1, 0. split; [exact E|]. split; [exact K'|]. rewrite C, Cu. cbn [plus]. repeat split; auto; lia.
Qed.

Lemma nth_error_fresh : forall fn args nf i v,
  nth_error (fresh_slots fn args nf) i = Some (Some v) -> nth_error (fn :: args) i = Some v.
Proof.
  intros fn args nf i v. unfold fresh_slots. intros H.
  destruct (le_lt_dec (length (map (@Some obj) (fn :: args))) i) as [Q|Q].
  - rewrite nth_error_app2 in H by exact Q. apply nth_error_In in H. apply repeat_spec in H. discriminate.
  - rewrite nth_error_app1 in H by exact Q. rewrite nth_error_map in H.
    destruct (nth_error (fn :: args) i); [|discriminate]. cbn in H. congruence.
Qed.

Lemma fresh_length : forall fn args nf, S (length args) <= nf -> length (fresh_slots fn args nf) = nf.
Proof.
  intros fn args nf H. unfold fresh_slots. rewrite app_length, map_length, repeat_length. cbn [length]. lia.
Qed.

Lemma Stk_live_cur : forall s lim p kk, Stk s lim p kk -> live (v_mem s) (v_cur s).
Proof.
  intros s lim p kk K. destruct (k_segs _ _ _ _ K) as (gs & E). apply (k_live _ _ _ _ K). rewrite E. now left.
Qed.

Lemma enter_ok : forall s lim p kk fn c nf args,
  Stk s lim p kk -> f_sp (v_ctx s) = (v_cur s, lim) -> lim <= 255 -> S (length args) <= nf <= 255 ->
  exists s1 b, enter s fn c nf args = Ok s1 /\ Stk s1 b p kk /\
    v_ctx s1 = mkF (Some c) 0 (v_cur s1, b) (v_cur s1, b + nf) /\
    frame_rel (v_mem s1) (v_ctx s1) (mkA c 0 (fresh_slots fn args nf)) /\
    b + nf <= 255 /\ v_callstack s1 = v_callstack s /\ v_try s1 = v_try s /\
    v_res s1 = v_res s /\ v_nextk s1 = v_nextk s /\ v_cst s1 = v_cst s.
Proof.
  intros s lim p kk fn c nf args K Esp L N. unfold enter.
  destruct (alloc_ok s lim p kk nf K Esp L) as (s1 & b & E & K1 & C & B & A1 & A2 & A3 & A4 & A5); [lia|].
  rewrite E. cbn [obind]. rewrite C. cbn [f_bp f_sp].
  destruct (mwrites_ok (fn :: args) (v_mem s1) (v_cur s1) b) as (m & Em & Lv & Vn & Vo).
  { eapply Stk_live_cur; eauto. } { cbn [length]. lia. }
  rewrite Em. cbn [obind].
  eexists. exists b. split; [reflexivity|].
  split. { apply Stk_ctx, Stk_mem; auto. intros g o Q. apply Vo. cbn [length]. lia. }
  cbn [set_ctx set_mem v_ctx v_cur v_callstack v_try v_res v_nextk v_cst v_mem f_bp f_sp].
  split; [reflexivity|]. split; [|repeat split; auto].
  repeat split; cbn [f_fn f_label f_bp f_sp fst snd a_slots a_code].
  - rewrite fresh_length by lia. lia.
  - intros i v Hi. apply nth_error_fresh in Hi. cbn [fst snd]. now apply Vn.
Qed.

(** ** related states *)

Definition prompt_act (a : act) : Prop := a_code a = CTry /\ a_label a = 1.

Inductive Rel (s : vm) (S : sst) : Prop :=
| R_run : forall a b e,
    s_cur S = Some a -> s_wait S = None -> ~ prompt_act a ->
    f_bp (v_ctx s) = (v_cur s, b) -> f_sp (v_ctx s) = (v_cur s, e) -> b <= e <= 255 ->
    frame_rel (v_mem s) (v_ctx s) a -> Stk s b (s_pend S) (s_k S) ->
    v_res s = s_res S -> v_nextk s = s_nextk S -> Rel s S
| R_try : forall a b e,
    s_cur S = Some a -> s_wait S = None -> prompt_act a ->
    f_bp (v_ctx s) = (v_cur s, b) -> f_sp (v_ctx s) = (v_cur s, e) -> b <= e <= 255 ->
    frame_rel (v_mem s) (v_ctx s) a -> Stk (set_try s (tl (v_try s))) b (s_pend S) (s_k S) ->
    v_res s = s_res S -> v_nextk s = s_nextk S -> Rel s S
| R_wait : forall l e,
    s_cur S = None -> s_wait S = Some l -> f_fn (v_ctx s) = None ->
    f_sp (v_ctx s) = (v_cur s, e) -> e <= 255 -> hd_in (v_cur s) (v_callstack s) ->
    v_cst s = l :: args_of (s_pend S) ->
    Stk (set_cst s (args_of (s_pend S))) e (s_pend S) (s_k S) ->
    v_res s = s_res S -> v_nextk s = s_nextk S -> Rel s S
| R_done :
    s_cur S = None -> s_wait S = None -> f_fn (v_ctx s) = None -> v_cst s = [] ->
    v_res s = s_res S -> Rel s S.

(** ** returning *)

Lemma inside_eq : forall s a, fst a = v_cur s -> snd a <= 255 -> inside s a = true.
Proof.
  intros s a E L. unfold inside. rewrite E, Nat.eqb_refl, stack_ltb. now apply Nat.leb_le.
Qed.

Lemma inside_false : forall s a, fst a <> v_cur s -> inside s a = false.
Proof. intros s a E. unfold inside. now rewrite (proj2 (Nat.eqb_neq _ _) E). Qed.

(** popping when the top frame is in the current segment *)
Lemma pop_here : forall s0 S0 v lim f fs c, 
  Stk s0 lim (s_pend S0) (s_k S0) -> v_nextk s0 = s_nextk S0 ->
  v_callstack s0 = f :: fs -> fst (f_sp f) = v_cur s0 -> c = set_ctx (set_callstack (set_res s0 v) fs) f ->
  exists S', s_return S0 v = Some S' /\ Rel c S'.
Proof.
  intros s [cur0 pend0 wait0 res0 kk0 nk0] v lim f fs c K NK Ecs Efs ->. cbn [s_pend s_k s_nextk s_res s_cur s_wait] in *. pose proof K as [K1 K2 K3 K4 K5 K6 K7 K8 K9].
  destruct K1 as (gs & Egs). destruct K4 as (us & ex & Eu & Fu).
  rewrite Ecs in *. rewrite Egs in *.
  assert (NN : forall b t' p' c', chain (v_cur s :: gs) b fs t' -> 
     (exists us' ex', fs = us' ++ [ex'] /\ Forall2 (item_rel (v_mem s)) us' p') -> c' = args_of p' ->
      Stk (set_cst (set_try (set_ctx (set_callstack (set_res s v) fs) f) t') c') b p' kk0).
  { intros. constructor; cbn; rewrite ?Egs; eauto. }
  unfold s_return. cbn [s_pend s_k s_nextk s_res s_cur s_wait]. inversion K3; subst.
  - (* the exit frame of the outermost coraRun *)
    destruct us as [|u us].
    + inversion Fu; subst. eexists. split; [reflexivity|]. apply R_done; cbn; auto.
    + exfalso. injection Eu as _ Eu. destruct us; discriminate.
  - (* over-application *)
    destruct us as [|u us]; [exfalso; injection Eu as _ ->; match goal with H : hd_in _ [] |- _ => elim H end|]. injection Eu as <- ->.
    inversion Fu as [|? i ? p' Hi Fp]; subst.
    destruct i as [a|l]; [destruct Hi; congruence|].
    eexists. split; [reflexivity|].
    assert (C1 : chain (v_cur s :: gs) b (us ++ [ex]) (v_try s)) by assumption.
    eapply R_wait with (l := l) (e := e); cbn [s_cur s_wait s_pend s_k s_res s_nextk]; auto.
    + cbn. lia.
    + apply (NN e (v_try s)); auto; [|eauto].
      eapply chain_lift; eauto. lia.
  - destruct us as [|u us]; [exfalso; injection Eu as _ ->; match goal with H : chain _ _ [] _ |- _ => now apply chain_nonempty in H end|]. injection Eu as <- ->.
    inversion Fu as [|? i ? p' Hi Fp]; subst.
    destruct i as [a|l]; [|cbn in Hi; congruence].
    eexists. split; [reflexivity|].
    eapply R_run with (a := a) (b := b) (e := e); cbn [s_cur s_wait s_pend s_k s_res s_nextk]; auto.
    + intros [P1 P2]. destruct Hi as (Q1 & Q2 & _). match goal with H : ~ prompt f |- _ => apply H end. split; congruence.
    + assert (Q : Stk (set_cst (set_try (set_ctx (set_callstack (set_res s v) (us ++ [ex])) f) (v_try s)) (v_cst s)) b p' kk0).
      { apply NN; eauto. }
      exact Q.
  - destruct us as [|u us]; [exfalso; injection Eu as _ ->; match goal with H : chain _ _ [] _ |- _ => now apply chain_nonempty in H end|]. injection Eu as <- ->.
    inversion Fu as [|? i ? p' Hi Fp]; subst.
    destruct i as [a|l]; [|cbn in Hi; match goal with H : prompt f |- _ => destruct H; congruence end].
    eexists. split; [reflexivity|].
    eapply R_try with (a := a) (b := 0) (e := 3); cbn [s_cur s_wait s_pend s_k s_res s_nextk]; auto.
    + destruct Hi as (Q1 & Q2 & _). match goal with H : prompt f |- _ => destruct H end. split; congruence.
    + cbn. lia.
    + assert (Q : Stk (set_cst (set_try (set_ctx (set_callstack (set_res s v) (us ++ [ex])) f) t) (v_cst s)) 0 p' kk0).
      { apply NN; eauto. now apply ch_next. }
      cbn. match goal with H : _ :: t = v_try s |- _ => rewrite <- H end. exact Q.
  - exfalso. destruct fs as [|f0 fs]; match goal with H : hd_in _ _ |- _ => cbn in H end.
    + subst. inversion K2; subst. match goal with H : ~ In _ _ |- _ => apply H end. left. congruence.
    + subst. inversion K2; subst. match goal with H : ~ In _ _ |- _ => apply H end. left. congruence.
Qed.

Lemma free_top : forall s p kk g2 gs,
  v_segs s = v_cur s :: g2 :: gs ->
  Stk s 0 p kk -> chain (g2 :: gs) 255 (v_callstack s) (v_try s) ->
  Stk (set_mem (set_segs s (g2 :: gs) g2) (fun x => if x =? v_cur s then None else v_mem s x)) 255 p kk.
Proof.
  intros s p kk g2 gs Es [K1 K2 K3 K4 K5 K6 K7 K8 K9] C.
  rewrite Es in K2. inversion K2 as [|? ? Hni ND]; subst.
  assert (HV : forall g o, g <> v_cur s ->
    val (fun x => if x =? v_cur s then None else v_mem s x) (g, o) = val (v_mem s) (g, o)).
  { intros g o Hg. unfold val. cbn [fst]. now rewrite (proj2 (Nat.eqb_neq _ _) Hg). }
  assert (HL : forall g, g <> v_cur s -> live (v_mem s) g -> live (fun x => if x =? v_cur s then None else v_mem s x) g).
  { intros g Hg Q. unfold live. now rewrite (proj2 (Nat.eqb_neq _ _) Hg). }
  constructor; cbn [set_mem set_segs v_segs v_cur v_callstack v_try v_mem v_next v_cst v_conts v_nextk]; eauto.
  - destruct K4 as (fs & ex & E & F). exists fs, ex. split; [exact E|]. rewrite E in C.
    eapply items_stable; eauto. intros g o Hg _. apply HV. intros ->. tauto.
  - intros g Hg. destruct (K5 g). { rewrite Es. now right. } split; [|assumption]. apply HL; [|assumption]. intros ->. tauto.
  - intros id up Hk. destruct (K7 id up Hk) as (fs & sg & l & A1 & A2 & A3 & A4 & A5).
    assert (Q : forall g, In g sg -> g <> v_cur s).
    { intros g Hg ->. destruct (A5 _ Hg) as (_ & _ & Z). apply Z. rewrite Es. now left. }
    exists fs, sg, l. split; [exact A1|]. split; [exact A2|]. split; [|split; [exact A4|]].
    + eapply conts_stable; eauto.
    + intros g Hg. destruct (A5 _ Hg) as (Q1 & Q2 & Q3). split; [apply HL; auto|]. split; [exact Q2|].
      intros Hi. apply Q3. rewrite Es. now right.
Qed.

Lemma return_ok : forall s S0 v lim,
  Stk s lim (s_pend S0) (s_k S0) -> v_nextk s = s_nextk S0 ->
  exists s' S', coraReturn s v = Ok s' /\ s_return S0 v = Some S' /\ Rel s' S'.
Proof.
  intros s S0 v lim K NK. pose proof (k_chain _ _ _ _ K) as C. destruct (k_segs _ _ _ _ K) as (gs & Es).
  pose proof (k_nd _ _ _ _ K) as ND.
  rewrite Es in C, ND. unfold coraReturn.
  destruct (v_callstack s) as [|f fs] eqn:Ef; [now apply chain_nonempty in C|].
  destruct (chain_hd _ _ _ _ _ C) as [H|(E0 & g2 & gs2 & -> & H2 & C2)].
  - cbn in H.
    assert (B : snd (f_sp f) <= 255).
    { inversion C; subst; try (match goal with Q : f_sp f = _ |- _ => rewrite Q; cbn; lia end); try assumption.
      exfalso. match goal with Q : hd_in _ _ |- _ => cbn in Q end. inversion ND; subst.
      match goal with Q : ~ In _ _ |- _ => apply Q end. left. congruence. }
    rewrite inside_eq; auto.
    destruct (pop_here s S0 v lim f fs _ K NK Ef H eq_refl) as (S' & E1 & R). eauto.
  - subst lim. cbn in H2. destruct (chain_at_sp _ _ _ _ _ C2 H2) as (B & _).
    rewrite inside_false.
    2:{ cbn. rewrite H2. inversion ND; subst. intros Q. match goal with Z : ~ In _ _ |- _ => apply Z end. left. congruence. }
    unfold coraReturnSlowPath. cbn [set_ctx set_callstack set_res v_segs v_cur v_mem]. rewrite Es. cbn [set_ctx set_callstack set_res v_segs v_cur v_mem].
    rewrite Nat.eqb_refl. unfold assertT at 1.
    pose proof (Stk_live_cur _ _ _ _ K) as Lc. unfold live in Lc.
    destruct (v_mem s (v_cur s)) eqn:Em; [|now elim Lc].
    unfold assertT. rewrite inside_eq; [|exact H2|exact B].
    assert (K' : Stk (set_mem (set_segs s (g2 :: gs2) g2) (fun x => if x =? v_cur s then None else v_mem s x)) 255 (s_pend S0) (s_k S0)).
    { eapply free_top; eauto. now rewrite Ef. }
    destruct (pop_here _ S0 v 255 f fs _ K' NK Ef H2 eq_refl) as (S' & E1 & R). 
    eexists. exists S'. split; [reflexivity|]. split; [exact E1|exact R].
Qed.

(** ** calling *)

Lemma coraCallN_eq : forall s c nf rq d args, S rq <= nf ->
  coraCallN s (ONative c nf rq d) args =
  if length args <? rq
  then coraReturn s (match args with [] => ONative c nf rq d
                     | _ => ONative CCurry nf (rq - length args) (ONative c nf rq d :: args) end)
  else if length args =? rq then enter s (ONative c nf rq d) c nf args
  else coraDispatch s (ONative c nf rq d) args.
Proof.
  intros s c nf rq d args N.
  assert (D : forall args, coraCall s (ONative c nf rq d) args = 
    if length args <? rq then coraReturn s (ONative CCurry nf (rq - length args) (ONative c nf rq d :: args))
    else if length args =? rq then enter s (ONative c nf rq d) c nf args
    else coraDispatch s (ONative c nf rq d) args).
  { intros l. unfold coraCall. cbn [mustNative obind]. rewrite (Nat.eqb_sym rq).
    destruct (Nat.eqb_spec (length l) rq) as [->|H]; cbn [negb].
    - rewrite Nat.ltb_irrefl. unfold assertT. now rewrite (proj2 (Nat.leb_le rq nf)) by lia.
    - unfold coraDispatch. cbn [mustNative obind]. rewrite (proj2 (Nat.eqb_neq _ _) H). cbn [negb]. unfold assertT at 1.
      destruct (length l <? rq) eqn:Q; [|reflexivity]. unfold makeCurry. cbn [mustNative obind]. now rewrite Q. }
  destruct args as [|a [|a2 [|a3 [|a4 [|a5 l]]]]]; try (apply D);
  unfold coraCallN; cbn [mustNative obind length]; rewrite (Nat.eqb_sym rq).
  - destruct rq; reflexivity.
  - rewrite D. cbn [length]. destruct (1 =? rq) eqn:Q; cbn [negb]; [|reflexivity]. apply Nat.eqb_eq in Q. subst. reflexivity.
  - rewrite D. cbn [length]. destruct (2 =? rq) eqn:Q; cbn [negb]; [|reflexivity]. apply Nat.eqb_eq in Q. subst. reflexivity.
  - rewrite D. cbn [length]. destruct (3 =? rq) eqn:Q; cbn [negb]; [|reflexivity]. apply Nat.eqb_eq in Q. subst. reflexivity.
  - rewrite D. cbn [length]. destruct (4 =? rq) eqn:Q; cbn [negb]; [|reflexivity]. apply Nat.eqb_eq in Q. subst. reflexivity.
Qed.

Lemma coraCall_N : forall s fn args, ok_obj fn -> args <> [] -> coraCall s fn args = coraCallN s fn args.
Proof.
  intros s fn args O N. destruct fn as [| | |c nf rq d|]; try (destruct args as [|a [|a2 [|a3 [|a4 [|a5 l]]]]]; [now elim N| | | | |]; reflexivity).
  apply ok_native in O. destruct O as (O & _).
  destruct args as [|a [|a2 [|a3 [|a4 [|a5 l]]]]]; [now elim N| | | | |reflexivity];
  unfold coraCallN, coraCall; cbn [mustNative obind length];
  match goal with |- context [negb (rq =? ?n)] => destruct (Nat.eqb_spec rq n) end; cbn [negb]; try reflexivity;
  unfold assertT; rewrite (proj2 (Nat.leb_le _ _)) by lia; reflexivity.
Qed.

(** A new over-application finds its callee's frame in the segment of the
    frame that is waiting. *)
Definition over_ok (s : vm) : Prop :=
  match v_callstack s with
  | x :: y :: _ => f_fn x = None -> fst (f_sp x) = fst (f_sp y)
  | _ => True
  end.

(** A call with too many arguments was made between [S0] and [S']. *)
Definition more_args (S0 S' : sst) : Prop := length (args_of (s_pend S0)) < length (args_of (s_pend S')).

Lemma call_ok : forall s S0 fn args lim S',
  Stk s lim (s_pend S0) (s_k S0) -> f_sp (v_ctx s) = (v_cur s, lim) -> lim <= 255 ->
  v_res s = s_res S0 -> v_nextk s = s_nextk S0 -> ok_obj fn -> Forall ok_obj args ->
  (forall s', coraCallN s fn args = Ok s' -> more_args S0 S' -> over_ok s') ->
  s_call S0 fn args = Some S' ->
  exists s', coraCallN s fn args = Ok s' /\ Rel s' S'.
Proof.
  intros s S0 fn args lim S' K Esp L RS NK Of Oa OV E.
  destruct fn as [| | |c nf rq d|]; try discriminate.
  apply ok_native in Of as (N & Sh & Od). rewrite coraCallN_eq in * by lia. cbn [s_call] in E.
  destruct (Nat.ltb_spec (length args) rq) as [H|H].
  - destruct (return_ok s S0 (match args with [] => ONative c nf rq d
                     | _ => ONative CCurry nf (rq - length args) (ONative c nf rq d :: args) end) lim K NK) as (s1 & S1 & E1 & E2 & R).
    exists s1. split; [exact E1|]. rewrite E in E2. now injection E2 as ->.
  - destruct (Nat.eqb_spec (length args) rq) as [Q|Q].
    + rewrite firstn_all2 in E by lia. rewrite skipn_all2 in E by lia. injection E as <-.
      destruct (enter_ok s lim _ _ (ONative c nf rq d) c nf args K Esp L) as (s1 & b & E1 & K1 & C & F & B & A1 & A2 & A3 & A4 & A5); [lia|].
      exists s1. split; [exact E1|].
      eapply R_run with (a := mkA c 0 (fresh_slots (ONative c nf rq d) args nf)) (b := b) (e := b + nf);
        cbn [s_cur s_wait s_pend s_k s_res s_nextk]; auto; try (rewrite C; reflexivity); try lia; try congruence.
      intros [_ P]. discriminate.
    + unfold coraDispatch in *. cbn [mustNative obind] in *. rewrite (proj2 (Nat.eqb_neq _ _) Q) in *. cbn [negb] in *.
      unfold assertT in OV |- *. rewrite (proj2 (Nat.ltb_ge _ _) H) in *.
      assert (Lf : length (firstn rq args) = rq) by (apply firstn_length_le; lia).
      destruct (enter_ok s lim _ _ (ONative c nf rq d) c nf (firstn rq args) K Esp L) as (s1 & b & E1 & K1 & C & F & B & A1 & A2 & A3 & A4 & A5); [lia|].
      rewrite E1 in *. cbn [obind] in *.
      eexists. split; [reflexivity|].
      assert (WA : more_args S0 S').
      { destruct (skipn rq args) as [|x l] eqn:Es.
        { exfalso. assert (Z : length (skipn rq args) = 0) by now rewrite Es. rewrite skipn_length in Z. lia. }
        injection E as <-. unfold more_args. cbn. lia. }
      specialize (OV _ eq_refl WA). unfold over_ok in OV. cbn [set_cst set_callstack v_callstack v_ctx f_fn f_sp] in OV.
      destruct (skipn rq args) as [|x l] eqn:Es.
      { exfalso. assert (Z : length (skipn rq args) = 0) by now rewrite Es. rewrite skipn_length in Z. lia. }
      injection E as <-.
      eapply R_run with (a := mkA c 0 (fresh_slots (ONative c nf rq d) (firstn rq args) nf)) (b := b) (e := b + nf);
        cbn [s_cur s_wait s_pend s_k s_res s_nextk]; auto; try (cbn; rewrite C; reflexivity); try lia; try (cbn; congruence).
      { intros [_ P]. discriminate. }
      pose proof K1 as [J1 J2 J3 J4 J5 J6 J7 J8 J9].
      constructor; cbn [set_cst set_callstack v_segs v_cur v_callstack v_try v_mem v_next v_cst v_conts v_nextk]; auto.
      * destruct J1 as (gs & Eg). rewrite Eg in *. rewrite C. cbn [f_bp f_sp].
        eapply ch_over with (b := b) (e := b + nf); cbn [f_fn f_bp f_sp]; eauto; try lia.
        destruct (v_callstack s1) as [|y fs] eqn:Ey; [now apply chain_nonempty in J3|].
        cbn. symmetry. rewrite C in OV. now apply OV.
      * destruct J4 as (fs & ex & Ef & Ff). rewrite Ef. exists (mkF None 0 (f_bp (v_ctx s1)) (f_sp (v_ctx s1)) :: fs), ex.
        split; [reflexivity|]. constructor; [reflexivity|exact Ff].
      * cbn [args_of]. now rewrite J6.
Qed.

(** ** one step *)

Lemma mwrite_ok : forall m g o v, live m g -> o <= 255 ->
  exists m', mwrite m (g, o) v = Ok m' /\
    (forall x, live m' x <-> live m x) /\ val m' (g, o) = Some v /\
    (forall x y, (x <> g \/ y <> o) -> val m' (x, y) = val m (x, y)).
Proof.
  intros m g o v L B. destruct (mwrites_ok [v] m g o L) as (m' & E & A1 & A2 & A3); [cbn; lia|].
  cbn [mwrites] in E. unfold obind in E. destruct (mwrite m (g, o) v) as [m1| |]; try discriminate.
  apply Ok_inj in E. subst m1. exists m'. split; [reflexivity|]. split; [exact A1|]. split.
  - specialize (A2 0 v eq_refl). now rewrite Nat.add_0_r in A2.
  - intros x y H. apply A3. cbn [length]. lia.
Qed.

Lemma upd_length : forall A (l : list A) i x, length (upd l i x) = length l.
Proof. induction l; intros [|i] x; cbn; auto. Qed.

Lemma nth_upd : forall A (l : list A) i x j, i < length l ->
  nth_error (upd l i x) j = if j =? i then Some x else nth_error l j.
Proof.
  induction l as [|y l IH]; intros i x j H; [cbn in H; lia|].
  destruct i as [|i], j as [|j]; cbn; auto. apply IH. cbn in H. lia.
Qed.

(** Pushing an activation that occupies [b, e) of the current segment. *)
Lemma Stk_push : forall s b e p kk f a,
  Stk s b p kk -> f_bp f = (v_cur s, b) -> f_sp f = (v_cur s, e) -> b <= e <= 255 ->
  ~ prompt f -> frame_rel (v_mem s) f a ->
  Stk (set_callstack s (f :: v_callstack s)) e (IAct a :: p) kk.
Proof.
  intros s b e p kk f a [K1 K2 K3 K4 K5 K6 K7 K8 K9] Eb Ee L NP F.
  constructor; cbn [set_callstack v_segs v_cur v_callstack v_try v_mem v_next v_cst v_conts v_nextk]; auto.
  - destruct K1 as (gs & Eg). rewrite Eg in *. eapply ch_same; eauto. destruct F. congruence.
  - destruct K4 as (fs & ex & E & Fs). rewrite E. exists (f :: fs), ex. split; [reflexivity|]. now constructor.
Qed.

Definition top_here (s : vm) : Prop := hd_in (v_cur s) (v_callstack s).

(** The steps the stack layout allows: [apply], [try] and a continuation are
    called while the top pending frame is in the current segment; an
    over-application opens no new segment; a throw does not cross an
    over-application. *)
Record permitted (s : vm) (S0 : sst) (a : action) : Prop := {
  pm_here : forall c, f_fn (v_ctx s) = Some c ->
    c = CApply \/ c = CCont \/ (c = CTry /\ f_label (v_ctx s) = 0) -> top_here s;
  pm_over : forall s' S', step s a = Ok s' -> s_step S0 a = Some S' -> more_args S0 S' -> over_ok s';
  pm_throw : forall up h below, f_fn (v_ctx s) = Some CThrow ->
    cut (s_pend S0) = Some (up, h, below) -> args_of up = [] }.

Lemma elems_ok : forall o l, elems o = Some l -> list_elems o = Ok l.
Proof.
  induction o as [z| |a IHa d IHd|c nf rq dd|id]; intros l H; cbn in *; try discriminate.
  - now injection H as <-.
  - destruct (elems d) as [l'|]; [|discriminate]. injection H as <-. now rewrite (IHd _ eq_refl).
Qed.

Lemma elems_ok_obj : forall o l, ok_obj o -> elems o = Some l -> Forall ok_obj l.
Proof.
  induction o as [z| |a IHa d IHd|c nf rq dd|id]; intros l O H; cbn in *; try discriminate.
  - now injection H as <-.
  - destruct (elems d) as [l'|]; [|discriminate]. injection H as <-. destruct O. constructor; auto.
Qed.

Lemma cut_spec : forall p up h below, cut p = Some (up, h, below) ->
  p = up ++ below /\ exists up0 x y, up = up0 ++ [IAct (mkA CTry 1 [x; y; Some h])] /\
  Forall (fun i => is_try i = false) up0.
Proof.
  induction p as [|i q IH]; intros up h below H; [discriminate|]. cbn [cut] in H.
  destruct (is_try i) eqn:T.
  - destruct i as [[c l sl]|]; [|discriminate]. 
    destruct sl as [|x [|y [|[z|] [|]]]]; try discriminate. injection H as <- <- <-.
    split; [reflexivity|]. exists [], x, y. split; [|constructor]. cbn in T.
    destruct c; try discriminate. destruct l as [|[|l]]; try discriminate. reflexivity.
  - destruct (cut q) as [[[u h'] b]|] eqn:Q; [|discriminate]. injection H as <- <- <-.
    destruct (IH _ _ _ eq_refl) as (-> & up0 & x & y & -> & F). split; [reflexivity|].
    exists (i :: up0), x, y. split; [reflexivity|]. constructor; assumption.
Qed.

Lemma args_of_app : forall p q, args_of (p ++ q) = args_of p ++ args_of q.
Proof. induction p as [|[a|l] p IH]; intros q; cbn; [reflexivity|apply IH|now rewrite IH]. Qed.

Lemma args_of_nil : forall p, args_of p = [] -> Forall (fun i => exists a, i = IAct a) p.
Proof. induction p as [|[a|l] p IH]; intros H; [constructor|constructor; eauto|discriminate]. Qed.

Lemma acts_no_args : forall m fs up, Forall2 (item_rel m) fs up -> Forall (fun f => f_fn f <> None) fs -> args_of up = [].
Proof.
  intros m fs up F. induction F as [|f i fs up Hi F IH]; intros Q; [reflexivity|]. inversion Q; subst.
  destruct i as [a|l]; [now apply IH|]. cbn in Hi. congruence.
Qed.

Lemma curry_ok : forall s S0 a l nf rq f xs sl b e,
  s_cur S0 = Some a -> a = mkA CCurry l (Some (ONative CCurry nf rq (f :: xs)) :: sl) ->
  ok_obj (ONative CCurry nf rq (f :: xs)) ->
  f_bp (v_ctx s) = (v_cur s, b) -> f_sp (v_ctx s) = (v_cur s, e) -> b <= e <= 255 ->
  frame_rel (v_mem s) (v_ctx s) a -> Stk s b (s_pend S0) (s_k S0) ->
  e - b = nf ->
  exists s' c0 nf0 rq0 d0, f = ONative c0 nf0 rq0 d0 /\ callCurry s = Ok s' /\
    v_ctx s' = mkF (Some c0) 0 (v_cur s', b) (v_cur s', e) /\ v_cur s' = v_cur s /\
    frame_rel (v_mem s') (v_ctx s') (mkA c0 0 (map (@Some obj) (f :: xs) ++ firstn rq sl ++ repeat None (nf - (length (f :: xs) + rq)))) /\
    Stk s' b (s_pend S0) (s_k S0) /\ v_res s' = v_res s /\ v_nextk s' = v_nextk s.
Proof.
  intros s S0 a l nf rq f xs sl b e Ec -> O Eb Ee L F K Enf.
  apply ok_native in O as (N & Sh & Od). cbn [shape] in Sh.
  destruct f as [| | |c0 nf0 rq0 d0|]; try contradiction. destruct Sh as (-> & Hx).
  inversion Od as [|? ? Of Ox]; subst. apply ok_native in Of as (N0 & _).
  destruct F as (F1 & F2 & F3 & F4). cbn [a_slots a_code a_label length] in *. rewrite Eb, Ee in *. cbn [fst snd] in *.
  pose proof (Stk_live_cur _ _ _ _ K) as Lc.
  unfold callCurry. rewrite Eb. cbn [fst snd].
  assert (V0 : val (v_mem s) (v_cur s, b) = Some (ONative CCurry (e - b) rq (ONative c0 (e - b) (length xs + rq) d0 :: xs))).
  { pose proof (F4 0 _ eq_refl) as Q. cbn [fst snd] in Q. now rewrite Nat.add_0_r in Q. }
  rewrite (mread_val _ _ _ _ V0) by lia. cbn [obind mustNative].
  destruct (mreads_ok rq (v_mem s) (v_cur s) (b + 1) Lc) as (mv & E1 & Lm & Vm); [lia|]. rewrite E1. cbn [obind].
  set (dd := ONative c0 (e - b) (length xs + rq) d0 :: xs) in *.
  assert (Ld : length dd = S (length xs)) by reflexivity.
  destruct (mwrites_ok mv (v_mem s) (v_cur s) (b + length dd) Lc) as (m1 & E2 & L1 & W1 & O1); [lia|]. rewrite E2. cbn [obind].
  assert (Lc1 : live m1 (v_cur s)) by now apply L1.
  destruct (mwrites_ok dd m1 (v_cur s) b Lc1) as (m2 & E3 & L2 & W2 & O2); [lia|]. rewrite E3. cbn [obind].
  assert (V2 : val m2 (v_cur s, b) = Some (ONative c0 (e - b) (length xs + rq) d0)).
  { pose proof (W2 0 _ eq_refl) as Q. now rewrite Nat.add_0_r in Q. }
  rewrite (mread_val _ _ _ _ V2) by lia. cbn [obind mustNative].
  eexists. exists c0, (e - b), (length xs + rq), d0. split; [reflexivity|]. split; [reflexivity|].
  rewrite Ee. split; [reflexivity|]. split; [reflexivity|].
  cbn [set_ctx set_mem v_ctx v_mem v_res v_nextk].
  split; [|split; [|split; reflexivity]].
  - repeat split; cbn [f_fn f_label f_bp f_sp fst snd a_slots].
    + rewrite !app_length, map_length, repeat_length, firstn_length. fold dd. rewrite Nat.min_l by lia. lia.
    + intros i v Hi. fold dd in Hi. cbn [fst snd].
      destruct (le_lt_dec (length dd) i) as [Q|Q].
      * rewrite nth_error_app2 in Hi by (rewrite map_length; exact Q). rewrite map_length in Hi.
        destruct (le_lt_dec rq (i - length dd)) as [Q2|Q2].
        { rewrite nth_error_app2 in Hi by (rewrite firstn_length; lia). apply nth_error_In, repeat_spec in Hi. discriminate. }
        assert (Hs : nth_error sl (i - length dd) = Some (Some v)).
        { rewrite nth_error_app1 in Hi.
          - rewrite <- (firstn_skipn rq sl). rewrite nth_error_app1; [exact Hi|]. rewrite firstn_length. lia.
          - rewrite firstn_length. lia. }
        rewrite O2 by lia. replace (b + i) with ((b + length dd) + (i - length dd)) by lia. apply W1.
        rewrite Vm by lia. rewrite <- (F4 (S (i - length dd)) v Hs). cbn [fst snd]. do 2 f_equal. lia.
      * rewrite nth_error_app1 in Hi by (rewrite map_length; exact Q). rewrite nth_error_map in Hi.
        destruct (nth_error dd i) eqn:Z; [|discriminate]. cbn in Hi. injection Hi as ->. now apply W2.
  - apply Stk_ctx, Stk_mem; auto.
    + intros x. now rewrite L2, L1.
    + intros g o Q. rewrite O2, O1; auto; lia.
Qed.

Lemma holds_at : forall m f a i v b g, frame_rel m f a -> f_bp f = (g, b) ->
  nth_error (a_slots a) i = Some (Some v) -> val m (g, b + i) = Some v.
Proof. intros m f a i v b g (_ & _ & _ & H) E Hi. specialize (H i v Hi). now rewrite E in H. Qed.

Lemma throw_sim : forall s S0 l x v b e up h below S' sl,
  s_cur S0 = Some (mkA CThrow l sl) -> sl = [x; Some v] -> ok_sst S0 ->
  f_bp (v_ctx s) = (v_cur s, b) -> f_sp (v_ctx s) = (v_cur s, e) -> b <= e <= 255 ->
  frame_rel (v_mem s) (v_ctx s) (mkA CThrow l sl) -> Stk s b (s_pend S0) (s_k S0) ->
  v_res s = s_res S0 -> v_nextk s = s_nextk S0 ->
  cut (s_pend S0) = Some (up, h, below) -> args_of up = [] ->
  (forall s', builtinThrow s = Ok s' -> more_args S0 S' -> over_ok s') ->
  s_call (mkS (s_cur S0) below None (s_res S0)
           (fun k => if k =? s_nextk S0 then Some up else s_k S0 k) (1 + s_nextk S0))
         h [v; ONative CCont 2 1 [OCont (s_nextk S0)]] = Some S' ->
  exists s', builtinThrow s = Ok s' /\ Rel s' S'.
Proof.
  intros s S0 l x v b e up h below S' sl Ec -> O Eb Ee L F K RS NK Hc Na OV E.
  destruct O as [O1 O2 O3 O4 O5]. rewrite Ec in O1. destruct O1 as (Os & _).
  destruct (cut_Forall _ _ _ _ _ O2 Hc) as (Fo1 & Fo2 & hx & hy & Hin).
  assert (Oh : ok_obj h). { rewrite Forall_forall in Fo1. destruct (Fo1 _ Hin) as (Z & _). apply (Z 2). reflexivity. }
  destruct (cut_spec _ _ _ _ Hc) as (Ep & up0 & px & py & Eu & Fu).
  pose proof K as [K1 K2 K3 K4 K5 K6 K7 K8 K9].
  destruct K4 as (fs & ex & Ecs & Ff). rewrite Ep, Eu, <- app_assoc in Ff. cbn [app] in Ff.
  apply Forall2_app_inv_r in Ff as (u0 & r1 & F0 & F1 & Efs). inversion F1 as [|f ? r0 ? Hf Fb Er]; subst r1.
  clear F1. assert (P : prompt f) by (destruct Hf as (Q1 & Q2 & _); now split).
  assert (Fn : Forall (fun z => f_fn z <> None /\ ~ prompt z) u0).
  { rewrite Eu, args_of_app in Na. cbn [args_of] in Na. rewrite app_nil_r in Na. apply args_of_nil in Na.
    clear - F0 Fu Na. induction F0 as [|z i u0 up0 Hz F0 IH]; [constructor|].
    pose proof (Forall_inv Fu) as Hu. destruct (Forall_inv Na) as ([c l sl] & ->).
    apply Forall_inv_tail in Fu, Na. constructor; [|now apply IH].
    destruct Hz as (Q1 & Q2 & _). cbn in Q1, Q2. split; [congruence|]. intros (P1 & P2).
    assert (Z1 : c = CTry) by congruence. assert (Z2 : l = 1) by congruence. rewrite Z1, Z2 in Hu. discriminate Hu. }
  assert (Ecs' : v_callstack s = u0 ++ f :: (r0 ++ [ex])) by (rewrite Ecs, Efs, <- app_assoc; reflexivity).
  destruct (chain_split _ _ _ _ K3 u0 f (r0 ++ [ex]) Ecs' P Fn) as (segs1 & g2 & gs & ms & T & Sg & Hh & Cr & Pt).
  unfold builtinThrow. rewrite Eb, T. cbn [fst snd].
  assert (Vv : val (v_mem s) (v_cur s, b + 1) = Some v) by (apply (holds_at _ _ _ 1 v b (v_cur s) F Eb); reflexivity).
  assert (Le : e - b = 2). { destruct F as (_ & _ & Q & _). rewrite Eb, Ee in Q. cbn in Q. lia. }
  rewrite (mread_val _ _ _ _ Vv) by lia. cbn [obind].
  assert (Hl : length (v_callstack s) - length (r0 ++ [ex]) = length (u0 ++ [f])).
  { rewrite Ecs', !app_length. cbn [length]. rewrite app_length. cbn [length]. lia. }
  assert (Hs : length (v_segs s) - length (g2 :: gs) = length segs1).
  { rewrite Sg, app_length. lia. }
  rewrite Hl, Hs.
  assert (E1 : firstn (length (u0 ++ [f])) (v_callstack s) = u0 ++ [f]).
  { rewrite Ecs'. change (u0 ++ f :: r0 ++ [ex]) with (u0 ++ [f] ++ (r0 ++ [ex])). rewrite app_assoc.
    rewrite <- (Nat.add_0_r (length (u0 ++ [f]))). rewrite firstn_app_2. cbn. apply app_nil_r. }
  assert (E2 : skipn (length (u0 ++ [f])) (v_callstack s) = r0 ++ [ex]).
  { rewrite Ecs'. change (u0 ++ f :: r0 ++ [ex]) with (u0 ++ [f] ++ (r0 ++ [ex])). rewrite app_assoc.
    rewrite skipn_app, skipn_all, Nat.sub_diag. reflexivity. }
  assert (E3 : firstn (length segs1) (v_segs s) = segs1).
  { rewrite Sg. rewrite <- (Nat.add_0_r (length segs1)). rewrite firstn_app_2. cbn. apply app_nil_r. }
  assert (E4 : skipn (length segs1) (v_segs s) = g2 :: gs).
  { rewrite Sg. rewrite skipn_app, skipn_all, Nat.sub_diag. reflexivity. }
  assert (E5 : last (map (@Some frame) (u0 ++ [f])) None = Some f).
  { rewrite map_app. cbn. apply last_last. }
  unfold builtinThrow in OV. rewrite Eb, T in OV. cbn [fst snd] in OV. rewrite (mread_val _ _ _ _ Vv) in OV by lia. cbn [obind] in OV.
  rewrite Hl, Hs, E1, E2, E3, E4, E5 in OV. rewrite E1, E2, E3, E4, E5.
  destruct (r0 ++ [ex]) as [|bt rr] eqn:Er0; [now destruct r0|].
  assert (Vh : val (v_mem s) (fst (f_bp f), snd (f_bp f) + 2) = Some h).
  { destruct Hf as (_ & _ & _ & Q). apply (Q 2). reflexivity. }
  assert (Bf : snd (f_bp f) + 2 <= 255).
  { destruct (part_regions _ _ _ Pt f) as (q1 & q2 & q3 & Q1 & Q2 & Q3 & _). { apply in_or_app. right. now left. }
    destruct Hf as (_ & _ & Q4 & _). rewrite Q1, Q2 in *. cbn in *. lia. }
  rewrite (mread_val _ _ _ _ Vh Bf) in *. cbn [obind] in *.
  cbn in Hh. destruct (chain_at_sp _ _ _ _ _ Cr Hh) as (Bs & Cs).
  assert (NDs : NoDup segs1 /\ NoDup (g2 :: gs) /\ forall g, In g segs1 -> ~ In g (g2 :: gs)).
  { rewrite Sg in K2. clear - K2. revert K2. generalize (g2 :: gs) as l2. induction segs1 as [|y s1 IH]; intros l2 N.
    - cbn in N. repeat split; auto. constructor.
    - cbn in N. inversion N; subst. destruct (IH _ H2) as (A & B & C). repeat split; auto.
      + constructor; [|exact A]. intros Q. apply H1, in_or_app. now left.
      + intros g [<-|Hg]; [|now apply C]. intros Q. apply H1, in_or_app. now right. }
  destruct NDs as (N1 & N2 & N3).
  rewrite NK in OV |- *.
  assert (MA : args_of (s_pend S0) = args_of below) by (rewrite Ep, args_of_app, Na; reflexivity).
  unfold more_args in OV. rewrite MA in OV.
  eapply call_ok with (lim := snd (f_sp bt)) (S0 := mkS (s_cur S0) below None (s_res S0)
           (fun k => if k =? s_nextk S0 then Some up else s_k S0 k) (1 + s_nextk S0)); [ | | exact Bs | | | exact Oh | | exact OV | exact E ].
  - cbn [s_pend s_k].
    constructor; cbn [v_segs v_cur v_callstack v_try v_mem v_next v_cst v_conts v_nextk]; auto.
    + eauto.
    + exists r0, ex. rewrite Er0. split; [reflexivity|exact Fb].
    + intros g Hg. apply K5. rewrite Sg. apply in_or_app. now right.
    + rewrite K6, Ep, args_of_app, Na. reflexivity.
    + intros id up'. destruct (Nat.eqb_spec id (s_nextk S0)) as [->|Q].
      * intros HH. injection HH as <-. exists (u0 ++ [f]), segs1, b.
        split; [reflexivity|]. split; [exact Pt|]. split; [|split; [exact N1|]].
        { rewrite Eu. apply Forall2_app; [exact F0|]. constructor; [exact Hf|constructor]. }
        intros g Hg. destruct (K5 g) as (Q1 & Q2). { rewrite Sg. apply in_or_app. now left. } repeat split; auto.
      * intros HH.
        destruct (K7 id up' HH) as (fs' & sg & lq & A1 & A2 & A3 & A4 & A5).
        exists fs', sg, lq. split; [exact A1|]. split; [exact A2|]. split; [exact A3|]. split; [exact A4|].
        intros g Hg. destruct (A5 g Hg) as (B1 & B2 & B3). split; [exact B1|]. split; [exact B2|].
        intros Hg2. apply B3. rewrite Sg. apply in_or_app. now right.
    + intros i j fa sa fb sb Hij Hi Hj.
      destruct (Nat.eqb_spec i (s_nextk S0)) as [->|Qi]; destruct (Nat.eqb_spec j (s_nextk S0)) as [->|Qj].
      * now elim Hij.
      * intros H1 H2 g Hg Hg2. injection H1 as <- <-.
        destruct (s_k S0 j) as [upj|] eqn:Ej; [|now elim Hj].
        destruct (K7 j upj Ej) as (fs' & sg & lq & A1 & A2 & A3 & A4 & A5). rewrite A1 in H2. injection H2 as <- <-.
        apply (A5 g Hg2). rewrite Sg. apply in_or_app. now left.
      * intros H1 H2 g Hg Hg2. injection H2 as <- <-.
        destruct (s_k S0 i) as [upj|] eqn:Ej; [|now elim Hi].
        destruct (K7 i upj Ej) as (fs' & sg & lq & A1 & A2 & A3 & A4 & A5). rewrite A1 in H1. injection H1 as <- <-.
        apply (A5 g Hg). rewrite Sg. apply in_or_app. now left.
      * intros H1 H2. eapply (K8 i j); eauto.
    + intros id Hid. destruct (Nat.eqb_spec id (s_nextk S0)) as [->|Q]; [lia|]. apply K9. lia.
  - cbn. rewrite <- Hh. now destruct (f_sp bt).
  - exact RS.
  - reflexivity.
  - constructor; [apply (Os 1); reflexivity|]. constructor; [|constructor]. apply ok_native.
    split; [lia|]. split; [cbn; eauto|]. constructor; [exact I|constructor].
Qed.

Lemma resume_sim : forall s S0 l nf rq id v b e up sl,
  s_cur S0 = Some (mkA CCont l sl) -> sl = [Some (ONative CCont nf rq [OCont id]); Some v] ->
  f_bp (v_ctx s) = (v_cur s, b) -> f_sp (v_ctx s) = (v_cur s, e) -> b <= e <= 255 ->
  frame_rel (v_mem s) (v_ctx s) (mkA CCont l sl) -> Stk s b (s_pend S0) (s_k S0) ->
  v_nextk s = s_nextk S0 -> s_k S0 id = Some up -> top_here s ->
  exists s' S', continuationAsClosure s = Ok s' /\
    s_return (mkS (s_cur S0) (up ++ s_pend S0) None (s_res S0)
                  (fun k => if k =? id then None else s_k S0 k) (s_nextk S0)) v = Some S' /\ Rel s' S'.
Proof.
  intros s S0 l nf rq id v b e up sl Ec -> Eb Ee L F K NK Hk TH.
  assert (Le : e - b = 2). { destruct F as (_ & _ & Q & _). rewrite Eb, Ee in Q. cbn in Q. lia. }
  unfold continuationAsClosure. rewrite Eb. cbn [fst snd].
  assert (V0 : val (v_mem s) (v_cur s, b) = Some (ONative CCont nf rq [OCont id])).
  { rewrite <- (Nat.add_0_r b). apply (holds_at _ _ _ 0 _ b (v_cur s) F Eb). reflexivity. }
  assert (V1 : val (v_mem s) (v_cur s, b + 1) = Some v).
  { apply (holds_at _ _ _ 1 _ b (v_cur s) F Eb). reflexivity. }
  rewrite (mread_val _ _ _ _ V0) by lia. cbn [obind mustNative].
  pose proof K as [K1 K2 K3 K4 K5 K6 K7 K8 K9].
  destruct (K7 id up Hk) as (fs & sg & lq & A1 & A2 & A3 & A4 & A5). rewrite A1.
  destruct sg as [|g sg]; [inversion A2|]. cbn [app].
  cbn [set_segs set_callstack set_try v_mem]. rewrite (mread_val _ _ _ _ V1) by lia. cbn [obind].
  eapply return_ok with (lim := lq); [|exact NK]. cbn [s_pend s_k].
  destruct K1 as (gs & Eg). 
  constructor; cbn [set_segs set_callstack set_try v_segs v_cur v_callstack v_try v_mem v_next v_cst v_conts v_nextk].
  - eauto.
  - change (NoDup ((g :: sg) ++ v_segs s)).
    assert (D : forall x, In x (g :: sg) -> ~ In x (v_segs s)) by (intros x Hx; apply (A5 x Hx)).
    clear - A4 D K2. induction (g :: sg) as [|y q IH]; [exact K2|]. cbn. inversion A4; subst. constructor.
    + intros Q. apply in_app_or in Q as [Q|Q]; [tauto|]. apply (D y); [now left|exact Q].
    + apply IH; [assumption|]. intros x Hx. apply D. now right.
  - change (chain ((g :: sg) ++ v_segs s) lq (fs ++ v_callstack s) ((length (v_callstack s), length (v_segs s)) :: v_try s)).
    rewrite Eg in *. apply part_join; [exact A2|exact TH|]. eapply chain_lift; eauto. lia.
  - destruct K4 as (us & ex & Eu & Fu). exists (fs ++ us), ex. rewrite Eu, app_assoc. split; [reflexivity|].
    now apply Forall2_app.
  - intros x Hx. change (In x ((g :: sg) ++ v_segs s)) in Hx. apply in_app_or in Hx as [Hx|Hx]; [|now apply K5].
    destruct (A5 x Hx) as (B1 & B2 & _). now split.
  - rewrite args_of_app, (acts_no_args _ _ _ A3 (part_act _ _ _ A2)). exact K6.
  - intros j upj. destruct (Nat.eqb_spec j id) as [->|Q]; [discriminate|]. intros Hj.
    destruct (K7 j upj Hj) as (fs' & sg' & lq' & C1 & C2 & C3 & C4 & C5).
    exists fs', sg', lq'. split; [exact C1|]. split; [exact C2|]. split; [exact C3|]. split; [exact C4|].
    intros x Hx. destruct (C5 x Hx) as (B1 & B2 & B3). split; [exact B1|]. split; [exact B2|].
    change (~ In x ((g :: sg) ++ v_segs s)). intros Z. apply in_app_or in Z as [Z|Z]; [|tauto].
    apply (K8 j id fs' sg' fs (g :: sg)) with (g := x); auto; congruence.
  - intros i j fa sa fb sb Hij. destruct (Nat.eqb_spec i id); [congruence|]. destruct (Nat.eqb_spec j id); [congruence|].
    intros. eapply (K8 i j); eauto.
  - intros j Hj. destruct (j =? id); auto.
Qed.

Lemma try_sim : forall s S0 x y z b e S' sl,
  s_cur S0 = Some (mkA CTry 0 sl) -> sl = [Some x; Some y; Some z] -> s_wait S0 = None -> ok_sst S0 ->
  f_bp (v_ctx s) = (v_cur s, b) -> f_sp (v_ctx s) = (v_cur s, e) -> b <= e <= 255 ->
  frame_rel (v_mem s) (v_ctx s) (mkA CTry 0 sl) -> Stk s b (s_pend S0) (s_k S0) ->
  v_res s = s_res S0 -> v_nextk s = s_nextk S0 -> top_here s ->
  (forall s', builtinTryCatch s = Ok s' -> more_args S0 S' -> over_ok s') ->
  s_call (with_pend S0 (IAct (mkA CTry 1 sl) :: s_pend S0)) y [] = Some S' ->
  exists s', builtinTryCatch s = Ok s' /\ Rel s' S'.
Proof.
  intros s S0 x y z b e S' sl Ec -> W O Eb Ee L F K RS NK TH OV E.
  destruct O as [O1 O2 O3 O4 O5]. rewrite Ec in O1. destruct O1 as (Os & _).
  assert (Le : e - b = 3). { destruct F as (_ & _ & Q & _). rewrite Eb, Ee in Q. cbn in Q. lia. }
  assert (Lb : f_label (v_ctx s) = 0) by apply F.
  destruct (slow_ok s b _ _ 3 K) as (s1 & E1 & K1 & C & Cu & Sg & A1 & A2 & A3 & A4 & A5 & A6 & A7); [lia|lia|exact TH|].
  assert (Nc : v_cur s <> v_next s).
  { destruct (k_segs _ _ _ _ K) as (gs & Eg). assert (v_cur s < v_next s); [|lia]. apply (k_live _ _ _ _ K). rewrite Eg. now left. }
  assert (V0 : val (v_mem s1) (v_cur s, b) = Some x).
  { rewrite A7 by exact Nc. rewrite <- (Nat.add_0_r b). apply (holds_at _ _ _ 0 _ b (v_cur s) F Eb). reflexivity. }
  assert (V1 : val (v_mem s1) (v_cur s, b + 1) = Some y).
  { rewrite A7 by exact Nc. apply (holds_at _ _ _ 1 _ b (v_cur s) F Eb). reflexivity. }
  assert (V2 : val (v_mem s1) (v_cur s, b + 2) = Some z).
  { rewrite A7 by exact Nc. apply (holds_at _ _ _ 2 _ b (v_cur s) F Eb). reflexivity. }
  destruct (mwrites_ok [x; y; z] (v_mem s1) (v_next s) 0) as (m & Em & Lv & Vn & Vo).
  { rewrite <- Cu. eapply Stk_live_cur; eauto. } { cbn; lia. }
  assert (Vc : mread m (v_next s, 0 + 1) = Ok y).
  { apply mread_val; [|lia]. now apply (Vn 1). }
  unfold builtinTryCatch in *. rewrite Eb, Lb, E1 in *. cbn [obind fst snd] in *.
  rewrite (mread_val _ _ _ _ V0), (mread_val _ _ _ _ V1), (mread_val _ _ _ _ V2) in * by lia. cbn [obind] in *.
  rewrite C in *. cbn [f_bp f_sp] in *. rewrite Em in *.
  cbn [obind set_mem set_try set_callstack v_ctx v_callstack v_segs v_try v_mem] in *. rewrite C in *. cbn [f_bp f_sp fst snd] in *.
  rewrite Vc in *. cbn [obind] in *.
  assert (Km : Stk (set_mem s1 m) 0 (s_pend S0) (s_k S0)).
  { apply Stk_mem; auto. intros g o Q. apply Vo. rewrite Cu in Q. cbn. lia. }
  rewrite W in *.
  eapply call_ok with (lim := 3) (S0 := with_pend S0 (IAct (mkA CTry 1 [Some x; Some y; Some z]) :: s_pend S0)); [ | | lia | | | | | exact OV | exact E ].
  - cbn [with_pend s_pend s_k]. pose proof Km as [J1 J2 J3 J4 J5 J6 J7 J8 J9].
    constructor; cbn [set_mem set_try set_callstack v_segs v_cur v_callstack v_try v_mem v_next v_cst v_conts v_nextk] in *; auto.
    + rewrite A1, A2, Sg. destruct (k_segs _ _ _ _ K) as (gs & Eg). rewrite Eg.
      replace (length (v_next s :: v_cur s :: gs) - 1) with (length (v_cur s :: gs)) by (cbn; lia).
      apply ch_try; cbn [f_bp f_sp f_fn f_label]; auto; try lia.
      * split; reflexivity.
      * pose proof (k_chain _ _ _ _ K) as Q. rewrite Eg in Q. eapply chain_lift; eauto.
        { pose proof (k_nd _ _ _ _ K) as Q2. now rewrite Eg in Q2. } lia.
    + destruct J4 as (fs & ex & Ef & Ff). rewrite Ef.
      exists (mkF (Some CTry) 1 (v_next s, 0) (v_next s, 3) :: fs), ex. split; [reflexivity|].
      constructor; [|exact Ff]. cbn. repeat split; cbn [f_bp f_sp a_slots length fst snd].
      intros i v Hi. cbn [fst snd]. apply Vn.
      destruct i as [|[|[|i]]]; cbn in *; try congruence. destruct i; discriminate.
  - cbn. rewrite C, Cu. reflexivity.
  - cbn. congruence.
  - cbn. congruence.
  - apply (Os 1). reflexivity.
  - constructor.
Qed.

(** One step of the machine follows the specification. *)
Theorem step_sim : forall s S0 a S',
  Rel s S0 -> ok_sst S0 -> ok_action a -> permitted s S0 a ->
  s_step S0 a = Some S' -> exists s', step s a = Ok s' /\ Rel s' S'.
Proof.
  intros s S0 a S' R O Oa [PH PO' PT] E. pose proof O as [O1 O2 O3 O4 O5].
  assert (PO : forall s', step s a = Ok s' -> more_args S0 S' -> over_ok s') by (intros; eapply PO'; eauto).
  clear PO'.
  destruct R as [[c l sl] b e Ec Ew NP Eb Ee L F K RS NK|[c l sl] b e Ec Ew NP Eb Ee L F K RS NK|ar e Ec Ew Ef Ee L TH Cs K RS NK|Ec Ew Ef Cs RS].
  - unfold s_step in E. rewrite Ec in *. destruct O1 as (Os & Osh). cbn [a_slots a_code a_label] in Os, Osh.
    assert (Fc : f_fn (v_ctx s) = Some c) by apply F.
    assert (Fl : f_label (v_ctx s) = l) by apply F.
    assert (Fs : length sl = e - b). { destruct F as (_ & _ & Q & _). rewrite Eb, Ee in Q. exact Q. }
    unfold step in *. rewrite Fc in *. destruct c.
    + destruct a as [i v|l' fn args|fn args|v]; unfold user_step in *; cbn in Oa.
      * destruct (Nat.ltb_spec i (length sl)) as [Hi|]; [|discriminate]. injection E as <-.
        rewrite Eb in *. cbn [fst snd] in *.
        destruct (mwrite_ok (v_mem s) (v_cur s) (b + i) v) as (m & Em & Lv & Vn & Vo).
        { eapply Stk_live_cur; eauto. } { lia. }
        rewrite Em in *. cbn [obind] in *. eexists. split; [reflexivity|].
        eapply R_run with (b := b) (e := e); cbn [s_cur s_wait s_pend s_k s_res s_nextk]; try reflexivity; auto.
        { cbn [set_mem v_ctx v_mem]. destruct F as (F1 & F2 & F3 & F4). repeat split; auto.
          - cbn [a_slots]. rewrite upd_length. exact F3.
          - intros j w Hj. cbn [a_slots] in Hj. rewrite nth_upd in Hj by exact Hi. rewrite Eb. cbn [fst snd].
            destruct (Nat.eqb_spec j i) as [->|Q]; [injection Hj as ->; exact Vn|].
            rewrite Vo by lia. specialize (F4 j w Hj). now rewrite Eb in F4. }
        { apply Stk_mem; auto. intros g o Q. apply Vo. lia. }
      * destruct Oa as (Of & Oar). rewrite Eb, Ee in *.
        eapply call_ok with (lim := e) (S0 := with_pend S0 (IAct (mkA (CUser n) l' sl) :: s_pend S0)); [ | | lia | | | exact Of | exact Oar | exact PO | exact E ]; auto.
        cbn [with_pend s_pend s_k]. eapply Stk_push; eauto.
        { intros (Q & _). discriminate. }
        destruct F as (F1 & F2 & F3 & F4). rewrite Eb in F4.
        split; [reflexivity|]. split; [reflexivity|]. split; [exact Fs|exact F4].
      * destruct Oa as (Of & Oar). rewrite Eb in *.
        eapply call_ok with (lim := b); [ | | lia | | | exact Of | exact Oar | exact PO | exact E ]; auto.
        now apply Stk_ctx.
      * destruct (return_ok s S0 v b K NK) as (s' & S1 & E1 & E2 & R). rewrite E in E2. injection E2 as <-. eauto.
    + destruct Osh as (nf & rq & d & ys & Ly & N & Esl). 
      assert (Oc : ok_obj (ONative CCurry nf rq d)) by (apply (Os 0); rewrite Esl; reflexivity).
      destruct d as [|f xs]. { apply ok_native in Oc as (_ & Q & _). elim Q. }
      pose proof (fresh_length (ONative CCurry nf rq (f :: xs)) ys nf ltac:(lia)) as Lsl. rewrite <- Esl in Lsl.
      set (tl := map (@Some obj) ys ++ repeat None (nf - S (length ys))).
      assert (Esl' : sl = Some (ONative CCurry nf rq (f :: xs)) :: tl) by exact Esl.
      destruct (curry_ok s S0 (mkA CCurry l sl) l nf rq f xs tl b e Ec) as (s' & c0 & nf0 & rq0 & d0 & Ef & E1 & C1 & Cu & F' & K' & R1 & R2); auto.
      { now rewrite Esl'. } { lia. }
      exists s'. split; [exact E1|]. rewrite Esl' in E. rewrite Ef in E. injection E as <-. rewrite <- Ef.
      eapply R_run with (b := b) (e := e); cbn [s_cur s_wait s_pend s_k s_res s_nextk]; try reflexivity; auto; try congruence;
        try (rewrite C1; reflexivity).
      { intros (_ & Q). discriminate. }
    + destruct Osh as (x & f & arr & ->).
      assert (TH : top_here s) by (eapply PH; eauto).
      assert (Of : ok_obj f) by (apply (Os 1); reflexivity).
      destruct f as [| | |c0 nf0 rq0 d0|]; try discriminate.
      destruct (elems arr) as [l'|] eqn:El; [|discriminate]. 
      destruct (Nat.eqb_spec rq0 (length l')) as [Hr|]; [|discriminate].
      unfold builtinApply in *. rewrite Eb in *. cbn [fst snd] in *.
      cbn [length] in Fs.
      assert (V1 : val (v_mem s) (v_cur s, b + 1) = Some (ONative c0 nf0 rq0 d0)) by (apply (holds_at _ _ _ 1 _ b (v_cur s) F Eb); reflexivity).
      assert (V2 : val (v_mem s) (v_cur s, b + 2) = Some arr) by (apply (holds_at _ _ _ 2 _ b (v_cur s) F Eb); reflexivity).
      rewrite (mread_val _ _ _ _ V1), (mread_val _ _ _ _ V2) in * by lia. cbn [obind] in *.
      rewrite (elems_ok _ _ El) in *. cbn [obind mustNative] in *. unfold assertT in *.
      rewrite (proj2 (Nat.eqb_eq rq0 (length l')) Hr) in *.
      pose proof Of as Of'. apply ok_native in Of' as (N0 & _ & _).
      assert (EQ : coraCallN s (ONative c0 nf0 rq0 d0) l' = enter s (ONative c0 nf0 rq0 d0) c0 nf0 l').
      { rewrite coraCallN_eq by lia. rewrite <- Hr, Nat.ltb_irrefl, Nat.eqb_refl. reflexivity. }
      rewrite <- EQ in *.
      eapply call_ok with (lim := e); [ | exact Ee | lia | exact RS | exact NK | exact Of | | exact PO | exact E ].
      { eapply Stk_lift; eauto. lia. }
      { eapply elems_ok_obj; [|exact El]. apply (Os 2). reflexivity. }
    + destruct Osh as (Lb & x & y & z & Esl). destruct Lb as [-> | ->]; [|exfalso; apply NP; now split].
      eapply try_sim with (x := x) (y := y) (z := z); eauto. rewrite Esl in E |- *. exact E.
    + destruct Osh as (x & v & Esl). rewrite Esl in E.
      destruct (cut (s_pend S0)) as [[[up h] below]|] eqn:Hc; [|discriminate].
      eapply throw_sim with (x := x) (v := v) (up := up) (h := h); eauto.
    + destruct Osh as (nf & rq & id & v & Esl). rewrite Esl in E.
      destruct (s_k S0 id) as [up|] eqn:Hk; [|discriminate].
      destruct (resume_sim s S0 l nf rq id v b e up sl Ec Esl Eb Ee L F K NK Hk) as (s' & S1 & E1 & E2 & R).
      { eapply PH; eauto. }
      exists s'. split; [exact E1|]. rewrite Ec, Esl in E2. rewrite E in E2. now injection E2 as <-.
  - destruct NP as (P1 & P2). cbn in P1, P2. subst c l.
    unfold s_step in E. rewrite Ec in E.
    assert (Fc : f_fn (v_ctx s) = Some CTry) by apply F.
    assert (Fl : f_label (v_ctx s) = 1) by apply F.
    unfold step, builtinTryCatch in *. rewrite Fc, Fl in *.
    destruct (return_ok (set_try s (tl (v_try s))) S0 (v_res s) b K NK) as (s' & S1 & E1 & E2 & R).
    rewrite E1. exists s'. split; [reflexivity|]. rewrite <- RS in E.
    assert (Q : Some S1 = Some S') by (rewrite <- E2; exact E). now injection Q as ->.
  - unfold s_step in E. rewrite Ec, Ew in E. rewrite Ew in O3. destruct O3 as (Oar & Nar & _).
    unfold step in *. rewrite Ef, Cs in *.
    assert (Or : ok_obj (v_res s)) by now rewrite RS.
    rewrite coraCall_N in * by assumption. rewrite <- RS in E.
    eapply (call_ok _ (mkS None (s_pend S0) None (v_res s) (s_k S0) (s_nextk S0)) _ _ e); [exact K | exact Ee | exact L | | exact NK | exact Or | exact Oar | exact PO | exact E ].
    reflexivity.
  - unfold s_step in E. rewrite Ec, Ew in E. injection E as <-.
    unfold step. rewrite Ef, Cs. exists s. split; [reflexivity|]. now apply R_done.
Qed.
