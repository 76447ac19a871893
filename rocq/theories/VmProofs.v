(** The machine of VmModel.v implements the activations of VmSpec.v. *)
From Coq Require Import List Arith Bool ZArith Lia.
From Verif Require Import Base VmModel VmSpec.
Import ListNotations.
Local Open Scope nat_scope.

(** ** memory *)

Definition val (m : memory) (a : addr) : option obj :=
  match m (fst a) with Some sg => Some (sg (snd a)) | None => None end.

Definition live (m : memory) (g : nat) : Prop := m g <> None.

Lemma mread_val : forall m g o v, val m (g, o) = Some v -> o <= 255 -> mread m (g, o) = Ok v.
Proof.
  unfold val, mread. cbn [fst snd]. intros m g o v H L. destruct (m g); [|discriminate].
  assert (X : (o <? INIT_STACK_SIZE) = true) by (apply Nat.ltb_lt; unfold INIT_STACK_SIZE; lia).
  rewrite X. congruence.
Qed.

Lemma mread_live : forall m g o, live m g -> o <= 255 -> exists v, mread m (g, o) = Ok v.
Proof.
  unfold live, mread. cbn [fst snd]. intros m g o H L. destruct (m g); [|now elim H].
  assert (X : (o <? INIT_STACK_SIZE) = true) by (apply Nat.ltb_lt; unfold INIT_STACK_SIZE; lia).
  rewrite X. eauto.
Qed.

Lemma mwrites_ok : forall vs m g o,
  live m g -> o + length vs <= 256 ->
  exists m', mwrites m (g, o) vs = Ok m' /\
    (forall x, live m' x <-> live m x) /\
    (forall i v, nth_error vs i = Some v -> val m' (g, o + i) = Some v) /\
    (forall x y, (x <> g \/ y < o \/ o + length vs <= y) -> val m' (x, y) = val m (x, y)).
Proof.
  induction vs as [|v vs IH]; intros m g o L B.
  - exists m. repeat split; auto. intros [|i] v H; discriminate.
  - cbn [mwrites length] in *. unfold mwrite. cbn [fst snd].
    unfold live in L. destruct (m g) as [sg|] eqn:Eg; [|now elim L].
    assert (X : (o <? INIT_STACK_SIZE) = true) by (apply Nat.ltb_lt; unfold INIT_STACK_SIZE; lia).
    rewrite X. cbn [obind].
    set (m1 := fun g0 : nat => _).
    assert (L1 : live m1 g) by (unfold live, m1; rewrite Nat.eqb_refl; discriminate).
    destruct (IH m1 g (S o) L1) as (m' & E & Lv & Vn & Vo); [lia|].
    exists m'. rewrite E. split; [reflexivity|]. split; [|split].
    + intros x. rewrite Lv. unfold live, m1. destruct (Nat.eqb_spec x g); [subst; rewrite Eg; split; discriminate|tauto].
    + intros [|i] w H; cbn [nth_error] in H.
      * injection H as <-. rewrite Nat.add_0_r, Vo by lia. unfold val, m1. cbn [fst snd]. now rewrite !Nat.eqb_refl.
      * rewrite <- (Vn _ _ H). f_equal. f_equal. lia.
    + intros x y H. rewrite Vo by lia. unfold val, m1. cbn [fst snd].
      destruct (Nat.eqb_spec x g); [|reflexivity]. subst. rewrite Eg.
      destruct (Nat.eqb_spec y o); [lia|reflexivity].
Qed.

Lemma mreads_ok : forall n m g o, live m g -> o + n <= 256 ->
  exists vs, mreads m (g, o) n = Ok vs /\ length vs = n /\
    forall i, i < n -> nth_error vs i = val m (g, o + i).
Proof.
  induction n as [|n IH]; intros m g o L B; cbn [mreads].
  - exists []. repeat split. intros; lia.
  - destruct (mread_live m g o L) as (v & E); [lia|]. rewrite E. cbn [obind fst snd].
    destruct (IH m g (S o) L) as (vs & E2 & Hl & Hv); [lia|]. rewrite E2. cbn [obind].
    exists (v :: vs). split; [reflexivity|]. split; [cbn; lia|].
    intros [|i] Hi; cbn [nth_error].
    + rewrite Nat.add_0_r. unfold mread in E. cbn [fst snd] in E. unfold val. cbn [fst snd].
      destruct (m g); [|discriminate]. destruct (o <? INIT_STACK_SIZE); [|discriminate]. apply Ok_inj in E. congruence.
    + rewrite Hv by lia. f_equal. f_equal. lia.
Qed.

(** ** slots and pending items *)

Definition holds (m : memory) (bp : addr) (sl : list (option obj)) : Prop :=
  forall i v, nth_error sl i = Some (Some v) -> val m (fst bp, snd bp + i) = Some v.

Definition frame_rel (m : memory) (f : frame) (a : act) : Prop :=
  f_fn f = Some (a_code a) /\ f_label f = a_label a /\
  length (a_slots a) = snd (f_sp f) - snd (f_bp f) /\ holds m (f_bp f) (a_slots a).

Definition item_rel (m : memory) (f : frame) (i : item) : Prop :=
  match i with
  | IAct a => frame_rel m f a
  | IArgs _ => f_fn f = None
  end.

Fixpoint args_of (p : list item) : list (list obj) :=
  match p with
  | [] => []
  | IArgs l :: q => l :: args_of q
  | IAct _ :: q => args_of q
  end.

(** ** where pending frames lie *)

Definition prompt (f : frame) : Prop := f_fn f = Some CTry /\ f_label f = 1.

Definition hd_in (g : nat) (fs : list frame) : Prop :=
  match fs with f :: _ => fst (f_sp f) = g | [] => False end.

(** [chain segs lim fs marks]: the pending frames [fs] (innermost first) lie in
    the segments [segs], below offset [lim] in the first of them, one below the
    other; [marks] are the positions of the tries among them. *)
Inductive chain : list nat -> nat -> list frame -> list (nat * nat) -> Prop :=
| ch_exit : forall g lim f,
    f_fn f = None -> fst (f_bp f) = g -> fst (f_sp f) = g -> snd (f_sp f) <= 255 -> chain [g] lim [f] []
| ch_over : forall g gs lim f fs b e t,
    f_fn f = None -> f_bp f = (g, b) -> f_sp f = (g, e) -> b <= e <= 255 -> b <= lim ->
    hd_in g fs -> chain (g :: gs) b fs t -> chain (g :: gs) lim (f :: fs) t
| ch_same : forall g gs lim f fs b e t,
    f_fn f <> None -> ~ prompt f -> f_bp f = (g, b) -> f_sp f = (g, e) -> b <= e <= 255 -> e <= lim ->
    chain (g :: gs) b fs t -> chain (g :: gs) lim (f :: fs) t
| ch_try : forall g g2 gs lim f fs t,
    prompt f -> f_bp f = (g, 0) -> f_sp f = (g, 3) -> 3 <= lim -> hd_in g2 fs ->
    chain (g2 :: gs) 255 fs t ->
    chain (g :: g2 :: gs) lim (f :: fs) ((length fs, length (g2 :: gs)) :: t)
| ch_next : forall g g2 gs fs t,
    hd_in g2 fs -> chain (g2 :: gs) 255 fs t -> chain (g :: g2 :: gs) 0 fs t.

(** the frames and segments of a continuation *)
Inductive part : list nat -> nat -> list frame -> Prop :=
| pt_try : forall g lim f,
    prompt f -> f_bp f = (g, 0) -> f_sp f = (g, 3) -> 3 <= lim -> part [g] lim [f]
| pt_same : forall g gs lim f fs b e,
    f_fn f <> None -> ~ prompt f -> f_bp f = (g, b) -> f_sp f = (g, e) -> b <= e <= 255 -> e <= lim ->
    part (g :: gs) b fs -> part (g :: gs) lim (f :: fs)
| pt_next : forall g g2 gs fs,
    hd_in g2 fs -> part (g2 :: gs) 255 fs -> part (g :: g2 :: gs) 0 fs.

Lemma chain_lift : forall segs lim fs t, chain segs lim fs t ->
  forall g gs lim', segs = g :: gs -> NoDup segs -> hd_in g fs -> lim <= lim' ->
  chain segs lim' fs t.
Proof.
  intros segs lim fs t H; destruct H; intros g0 gs0 lim' E ND Hh L; injection E as <- <-.
  - now apply ch_exit.
  - eapply ch_over; eauto. lia.
  - eapply ch_same; eauto. lia.
  - eapply ch_try; eauto. lia.
  - exfalso. destruct fs as [|f fs]; [exact H|]. cbn in *. rewrite H in Hh. subst.
    inversion ND; subst. match goal with H : ~ In _ _ |- _ => apply H; now left end.
Qed.

(** Opening a new segment above. *)
Lemma chain_up : forall g gs lim fs t g',
  chain (g :: gs) lim fs t -> NoDup (g :: gs) -> lim <= 255 -> hd_in g fs ->
  chain (g' :: g :: gs) 0 fs t.
Proof.
  intros g gs lim fs t g' H ND B Hh. apply ch_next; [exact Hh|].
  eapply chain_lift; eauto.
Qed.

Lemma chain_hd : forall g gs lim fs t, chain (g :: gs) lim fs t -> 
  hd_in g fs \/ (lim = 0 /\ exists g2 gs2, gs = g2 :: gs2 /\ hd_in g2 fs /\ chain (g2 :: gs2) 255 fs t).
Proof.
  intros g gs lim fs t H. inversion H; subst; cbn.
  - now left.
  - left. now rewrite H4.
  - left. now rewrite H5.
  - left. now rewrite H4.
  - right. split; [reflexivity|]. eauto.
Qed.

Lemma chain_nonempty : forall segs lim fs t, chain segs lim fs t -> fs <> [].
Proof. intros segs lim fs t H. induction H; try discriminate; auto. Qed.

(** Every pending activation lies in one of the segments, and below the limit
    in the first. *)
Lemma chain_regions : forall segs lim fs t, chain segs lim fs t -> NoDup segs ->
  forall f, In f fs -> f_fn f <> None ->
  exists g b e, f_bp f = (g, b) /\ f_sp f = (g, e) /\ b <= e <= 255 /\ In g segs /\
    (hd_error segs = Some g -> e <= lim).
Proof.
  intros segs lim fs t H. induction H; intros ND x Hx Nx.
  - destruct Hx as [<-|[]]. congruence.
  - destruct Hx as [<-|Hx]; [congruence|].
    destruct (IHchain ND x Hx Nx) as (g0 & b0 & e0 & A1 & A2 & A3 & A4 & A5).
    exists g0, b0, e0. repeat split; auto; try lia. intros Q. specialize (A5 Q). lia.
  - destruct Hx as [<-|Hx].
    + exists g, b, e. repeat split; auto; try lia. now left.
    + destruct (IHchain ND x Hx Nx) as (g0 & b0 & e0 & A1 & A2 & A3 & A4 & A5).
      exists g0, b0, e0. repeat split; auto; try lia. intros Q. specialize (A5 Q). lia.
  - destruct Hx as [<-|Hx].
    + exists g, 0, 3. repeat split; auto; try lia. now left.
    + assert (ND2 : NoDup (g2 :: gs)) by now inversion ND.
      destruct (IHchain ND2 x Hx Nx) as (g0 & b0 & e0 & A1 & A2 & A3 & A4 & A5).
      exists g0, b0, e0. repeat split; auto; try lia. { now right. }
      intros Q. cbn in Q. injection Q as ->. inversion ND; subst. tauto.
  - assert (ND2 : NoDup (g2 :: gs)) by now inversion ND.
    destruct (IHchain ND2 x Hx Nx) as (g0 & b0 & e0 & A1 & A2 & A3 & A4 & A5).
    exists g0, b0, e0. repeat split; auto; try lia. { now right. }
    intros Q. cbn in Q. injection Q as ->. inversion ND; subst. tauto.
Qed.

Lemma part_regions : forall segs lim fs, part segs lim fs ->
  forall f, In f fs ->
  exists g b e, f_bp f = (g, b) /\ f_sp f = (g, e) /\ b <= e <= 255 /\ In g segs.
Proof.
  intros segs lim fs H. induction H; intros x Hx.
  - destruct Hx as [<-|[]]. exists g, 0, 3. repeat split; auto; try lia. now left.
  - destruct Hx as [<-|Hx].
    + exists g, b, e. repeat split; auto; try lia. now left.
    + exact (IHpart x Hx).
  - destruct (IHpart x Hx) as (g0 & b0 & e0 & A1 & A2 & A3 & A4).
    exists g0, b0, e0. repeat split; auto; try lia. now right.
Qed.

(** Cutting at the innermost try, and putting the piece back. *)
Lemma chain_split : forall segs lim fs t, chain segs lim fs t ->
  forall u0 f r, fs = u0 ++ f :: r -> prompt f ->
  Forall (fun x => f_fn x <> None /\ ~ prompt x) u0 ->
  exists segs1 g2 gs ms,
    t = (length r, length (g2 :: gs)) :: ms /\ segs = segs1 ++ g2 :: gs /\
    hd_in g2 r /\ chain (g2 :: gs) 255 r ms /\ part segs1 lim (u0 ++ [f]).
Proof.
  intros segs lim fs t H. induction H; intros u0 f0 r E P F.
  - exfalso. destruct u0 as [|x u0]; [injection E as <- _|injection E as <- _; inversion F; tauto].
    destruct P. congruence.
  - exfalso. destruct u0 as [|x u0]; [injection E as <- _|injection E as <- _; inversion F; tauto].
    destruct P. congruence.
  - destruct u0 as [|x u0]; [injection E as <- _; tauto|]. injection E as <- ->. inversion F; subst.
    destruct (IHchain u0 f0 r eq_refl P) as (s1 & g2 & gs2 & ms & A1 & A2 & A3 & A4 & A5); [assumption|].
    exists s1, g2, gs2, ms. repeat split; auto. cbn [app].
    destruct s1 as [|g0 s1]; [now inversion A5|]. injection A2 as <- ->. eapply pt_same; eauto.
  - destruct u0 as [|x u0]; [|injection E as <- _; inversion F; tauto].
    injection E as <- ->. exists [g], g2, gs, t. cbn [app]. repeat split; auto. now apply pt_try.
  - destruct (IHchain u0 f0 r E P F) as (s1 & g3 & gs3 & ms & A1 & A2 & A3 & A4 & A5).
    exists (g :: s1), g3, gs3, ms. rewrite A2. repeat split; auto. cbn [app].
    destruct s1 as [|g0 s1]; [now inversion A5|]. injection A2 as <- ->. apply pt_next; [|exact A5].
    subst fs. destruct u0; exact H.
Qed.

Lemma part_act : forall segs lim fs, part segs lim fs -> Forall (fun f => f_fn f <> None) fs.
Proof.
  intros segs lim fs H. induction H; auto. constructor; [|constructor]. destruct H. congruence.
Qed.

Lemma chain_at_sp : forall g gs f fs t, chain (g :: gs) 255 (f :: fs) t ->
  fst (f_sp f) = g -> snd (f_sp f) <= 255 /\ chain (g :: gs) (snd (f_sp f)) (f :: fs) t.
Proof.
  intros g gs [fn lb bp [sg so]] fs t H E. cbn [f_sp fst snd] in *. subst sg. inversion H; subst; cbn [f_sp f_bp f_fn] in *.
  - split; [assumption|]. now apply ch_exit.
  - match goal with H : (g, so) = (_, _) |- _ => injection H as H; subst end. split; [lia|]. eapply ch_over; cbn [f_sp f_bp f_fn]; try eassumption; try reflexivity; lia.
  - match goal with H : (g, so) = (_, _) |- _ => injection H as H; subst end. split; [lia|]. eapply ch_same; cbn [f_sp f_bp f_fn]; try eassumption; try reflexivity; lia.
  - match goal with H : (g, so) = (_, _) |- _ => injection H as H; subst end. split; [lia|]. eapply ch_try; cbn [f_sp f_bp f_fn]; try eassumption; try reflexivity; lia.
Qed.

Lemma part_join : forall segs1 lim up, part segs1 lim up ->
  forall g2 gs below ms, hd_in g2 below -> chain (g2 :: gs) 255 below ms ->
  chain (segs1 ++ g2 :: gs) lim (up ++ below) ((length below, length (g2 :: gs)) :: ms).
Proof.
  intros segs1 lim up H. induction H; intros g3 gs3 bl ms Hh C.
  - cbn [app]. now apply ch_try.
  - cbn [app]. eapply ch_same; eauto.
  - cbn [app]. apply ch_next.
    + destruct fs; [elim H|exact H].
    + now apply (IHpart g3 gs3).
Qed.

(** ** well-formed values *)

(** A closure's frame has room for itself and its arguments and fits a
    segment; the runtime's own closures have the shape given at their
    registration (src/runtime.c:1081, 1096-1097, 812) or by makeCurry. *)
Definition shape (c : code) (nf rq : nat) (d : list obj) : Prop :=
  match c with
  | CUser _ => True
  | CCurry => match d with
              | ONative _ nf0 rq0 _ :: xs => nf = nf0 /\ length xs + rq = rq0
              | _ => False
              end
  | CApply | CTry => nf = 3 /\ rq = 2
  | CThrow => nf = 2 /\ rq = 1
  | CCont => nf = 2 /\ rq = 1 /\ exists id, d = [OCont id]
  end.

Fixpoint ok_obj (o : obj) : Prop :=
  match o with
  | OImm _ | ONil | OCont _ => True
  | OCons a d => ok_obj a /\ ok_obj d
  | ONative c nf rq d =>
      S rq <= nf <= 255 /\ shape c nf rq d /\
      (fix all (l : list obj) : Prop := match l with [] => True | x :: r => ok_obj x /\ all r end) d
  end.

Lemma ok_native : forall c nf rq d,
  ok_obj (ONative c nf rq d) <-> S rq <= nf <= 255 /\ shape c nf rq d /\ Forall ok_obj d.
Proof.
  intros c nf rq d. cbn [ok_obj].
  assert (H : forall l, (fix all (l : list obj) : Prop := match l with [] => True | x :: r => ok_obj x /\ all r end) l
                <-> Forall ok_obj l).
  { induction l as [|x l IH]; [split; auto|]. rewrite IH. split; [intros [? ?]; auto|intros Q; inversion Q; auto]. }
  now rewrite H.
Qed.

Definition ok_slots (sl : list (option obj)) : Prop :=
  forall i v, nth_error sl i = Some (Some v) -> ok_obj v.

(** Activations of the runtime's own functions have their arguments in place. *)
Definition ok_act (a : act) : Prop :=
  ok_slots (a_slots a) /\
  match a_code a with
  | CUser _ => True
  | CCurry => exists nf rq d ys, length ys = rq /\ S rq <= nf /\
      a_slots a = fresh_slots (ONative CCurry nf rq d) ys nf
  | CApply => exists x f l, a_slots a = [x; Some f; Some l]
  | CTry => (a_label a = 0 \/ a_label a = 1) /\ exists x y z, a_slots a = [Some x; Some y; Some z]
  | CThrow => exists x v, a_slots a = [x; Some v]
  | CCont => exists nf rq id v, a_slots a = [Some (ONative CCont nf rq [OCont id]); Some v]
  end.

Definition ok_item (i : item) : Prop :=
  match i with IAct a => ok_act a | IArgs l => Forall ok_obj l /\ l <> [] end.

Record ok_sst (S : sst) : Prop := {
  ok_cur : match s_cur S with Some a => ok_act a | None => True end;
  ok_pend : Forall ok_item (s_pend S);
  ok_wait : match s_wait S with Some l => Forall ok_obj l /\ l <> [] /\ s_cur S = None | None => True end;
  ok_res : ok_obj (s_res S);
  ok_k : forall id up, s_k S id = Some up -> Forall ok_item up }.

Definition ok_action (a : action) : Prop :=
  match a with
  | AWrite _ v => ok_obj v
  | ACall _ f args => ok_obj f /\ Forall ok_obj args
  | ATail f args => ok_obj f /\ Forall ok_obj args
  | ARet v => ok_obj v
  end.

Lemma fresh_ok_slots : forall fn args nf, ok_obj fn -> Forall ok_obj args -> ok_slots (fresh_slots fn args nf).
Proof.
  intros fn args nf O F i v H. unfold fresh_slots in H. apply nth_error_In in H. apply in_app_or in H as [H|H].
  - apply in_map_iff in H as (x & E & H). injection E as <-. destruct H as [<-|H]; [exact O|].
    rewrite Forall_forall in F. now apply F.
  - apply repeat_spec in H. discriminate.
Qed.

Lemma ok_fresh : forall c nf rq d args,
  ok_obj (ONative c nf rq d) -> length args = rq -> Forall ok_obj args ->
  ok_act (mkA c 0 (fresh_slots (ONative c nf rq d) args nf)).
Proof.
  intros c nf rq d args O L F. split; [now apply fresh_ok_slots|].
  apply ok_native in O as (N & Sh & Od). cbn [a_code a_slots a_label].
  destruct c; cbn [shape] in Sh; auto.
  - exists nf, rq, d, args. repeat split; auto; lia.
  - destruct Sh as (-> & ->). destruct args as [|x [|y [|]]]; try discriminate. cbn. eauto.
  - destruct Sh as (-> & ->). destruct args as [|x [|y [|]]]; try discriminate. split; [now left|]. cbn. eauto.
  - destruct Sh as (-> & ->). destruct args as [|x [|]]; try discriminate. cbn. eauto.
  - destruct Sh as (-> & -> & id & ->). destruct args as [|x [|]]; try discriminate. cbn. eauto 6.
Qed.

(** ** the specification keeps values well-formed *)

Lemma s_return_ok : forall S0 v S', ok_sst S0 -> ok_obj v -> s_return S0 v = Some S' -> ok_sst S'.
Proof.
  intros S0 v S' [O1 O2 O3 O4 O5] Ov E. unfold s_return in E.
  destruct (s_pend S0) as [|[a|l] p] eqn:Ep; injection E as <-; inversion O2; subst;
  constructor; cbn; auto. cbn in *. tauto.
Qed.

Lemma Forall_firstn : forall A (P : A -> Prop) n l, Forall P l -> Forall P (firstn n l).
Proof. intros A P n l F. rewrite <- (firstn_skipn n l) in F. now apply Forall_app in F. Qed.
Lemma Forall_skipn : forall A (P : A -> Prop) n l, Forall P l -> Forall P (skipn n l).
Proof. intros A P n l F. rewrite <- (firstn_skipn n l) in F. now apply Forall_app in F. Qed.

Lemma curry_obj_ok : forall c nf rq d args, ok_obj (ONative c nf rq d) -> Forall ok_obj args ->
  length args < rq -> ok_obj (ONative CCurry nf (rq - length args) (ONative c nf rq d :: args)).
Proof.
  intros c nf rq d args O F L. pose proof O as O'. apply ok_native in O' as (N & _).
  apply ok_native. split; [lia|]. split; [|constructor; assumption]. cbn [shape]. split; [reflexivity|lia].
Qed.

Lemma s_call_ok : forall S0 fn args S', ok_sst S0 -> ok_obj fn -> Forall ok_obj args ->
  s_call S0 fn args = Some S' -> ok_sst S'.
Proof.
  intros S0 fn args S' O Of Oa E. destruct fn as [| | |c nf rq d|]; try discriminate. cbn [s_call] in E.
  destruct (Nat.ltb_spec (length args) rq) as [H|H].
  - eapply s_return_ok; [exact O| |exact E]. destruct args as [|x l]; [exact Of|]. now apply curry_obj_ok.
  - injection E as <-. destruct O as [O1 O2 O3 O4 O5]. constructor; cbn [s_cur s_pend s_wait s_res s_k]; auto.
    + apply ok_fresh; auto. { apply firstn_length_le. lia. } now apply Forall_firstn.
    + destruct (skipn rq args) eqn:Q; [exact O2|]. constructor; [|exact O2]. split; [|discriminate].
      rewrite <- Q. now apply Forall_skipn.
Qed.

Lemma upd_nth : forall A (l : list A) i x j y, nth_error (upd l i x) j = Some y -> y = x \/ nth_error l j = Some y.
Proof.
  induction l as [|z l IH]; intros [|i] x [|j] y H; cbn in *; try discriminate; auto.
  - left. congruence.
  - eauto.
Qed.

Lemma cut_Forall : forall (P : item -> Prop) p up h below, Forall P p -> cut p = Some (up, h, below) ->
  Forall P up /\ Forall P below /\ exists x y, In (IAct (mkA CTry 1 [x; y; Some h])) up.
Proof.
  induction p as [|i q IH]; intros up h below F E; [discriminate|]. cbn [cut] in E. inversion F; subst.
  destruct (is_try i) eqn:T.
  - destruct i as [[c l sl]|]; [|discriminate].
    destruct sl as [|x [|y [|[z|] [|]]]]; try discriminate. injection E as <- <- <-. repeat split; auto.
    cbn in T. destruct c; try discriminate. destruct l as [|[|l]]; try discriminate. exists x, y. now left.
  - destruct (cut q) as [[[u h'] b]|] eqn:Q; [|discriminate]. injection E as <- <- <-.
    destruct (IH _ _ _ H2 eq_refl) as (A & B & x & y & C). repeat split; auto. exists x, y. now right.
Qed.

(** A curried closure calls its function with the remembered and the new
    arguments. *)
Lemma curry_slots : forall f xs ys nf rq, length ys = rq ->
  map (@Some obj) (f :: xs) ++ firstn rq (map (@Some obj) ys ++ repeat None (nf - S rq)) ++
    repeat None (nf - (length (f :: xs) + rq)) = fresh_slots f (xs ++ ys) nf.
Proof.
  intros f xs ys nf rq L. unfold fresh_slots.
  replace rq with (length (map (@Some obj) ys) + 0) at 1 by (rewrite map_length; lia).
  rewrite firstn_app_2. cbn [firstn]. rewrite app_nil_r.
  cbn [map]. rewrite map_app, app_length. cbn [app length]. rewrite <- ?app_assoc. 
  do 4 f_equal. f_equal. lia.
Qed.

Lemma s_step_ok : forall S0 a S', ok_sst S0 -> ok_action a -> s_step S0 a = Some S' -> ok_sst S'.
Proof.
  intros S0 a S' O Oa E. pose proof O as [O1 O2 O3 O4 O5]. unfold s_step in E.
  destruct (s_cur S0) as [[c l sl]|] eqn:Ec.
  2:{ destruct (s_wait S0) as [ar|] eqn:Ew.
      - destruct O3 as (A & B & C). eapply s_call_ok; [|exact O4|exact A|exact E]. constructor; cbn; auto.
      - now injection E as <-. }
  destruct O1 as (Os & Osh). cbn [a_slots a_code a_label] in Os, Osh.
  assert (W : s_wait S0 = None). { destruct (s_wait S0) as [?|]; [destruct O3 as (_ & _ & Q); congruence|reflexivity]. }
  destruct c.
  - destruct a as [i v|l' fn args|fn args|v]; cbn in Oa.
    + destruct (i <? length sl); [|discriminate]. injection E as <-. constructor; cbn; auto.
      split; cbn; [|exact I]. intros j w Hj. apply upd_nth in Hj as [Q|Q]; [injection Q as ->; exact Oa|eapply Os; eauto].
    + destruct Oa as (Of & Oar). eapply s_call_ok; [|exact Of|exact Oar|exact E].
      constructor; cbn; rewrite ?Ec, ?W; cbn; auto; [split; auto|]. constructor; [|exact O2]. split; cbn; auto.
    + destruct Oa as (Of & Oar). eapply s_call_ok; [exact O|exact Of|exact Oar|exact E].
    + eapply s_return_ok; [exact O|exact Oa|exact E].
  - destruct Osh as (nf & rq & d & ys & Ly & N & ->). 
    change (fresh_slots (ONative CCurry nf rq d) ys nf)
      with (Some (ONative CCurry nf rq d) :: (map (@Some obj) ys ++ repeat None (nf - S (length ys)))) in E.
    destruct d as [|f xs]; [discriminate|].
    destruct f as [| | |c0 nf0 rq0 d0|]; try discriminate. rewrite Ly in E.
    rewrite curry_slots in E by exact Ly. injection E as <-.
    assert (Oc : ok_obj (ONative CCurry nf rq (ONative c0 nf0 rq0 d0 :: xs))) by (apply (Os 0); reflexivity).
    apply ok_native in Oc as (M1 & (-> & M3) & M2). inversion M2; subst.
    constructor; cbn [s_cur s_pend s_wait s_res s_k]; auto. apply ok_fresh; auto.
    + rewrite app_length. lia.
    + apply Forall_app. split; [assumption|]. rewrite Forall_forall. intros v Hv.
      apply In_nth_error in Hv as (n & Hn). apply (Os (S n)). unfold fresh_slots. cbn [map app nth_error].
      rewrite nth_error_app1; [now rewrite nth_error_map, Hn|]. rewrite map_length. apply nth_error_Some. congruence.
  - destruct Osh as (x & f & ar & ->). destruct f as [| | |c0 nf0 rq0 d0|]; try discriminate.
    destruct (elems ar) as [l'|] eqn:El; [|discriminate]. destruct (rq0 =? length l'); [|discriminate].
    assert (Q1 : ok_obj (ONative c0 nf0 rq0 d0)) by (apply (Os 1); reflexivity).
    eapply s_call_ok; [exact O|exact Q1| |exact E].
    assert (Ol : ok_obj ar) by (apply (Os 2); reflexivity). clear - Ol El. revert l' El.
    induction ar as [z| |a0 IHa d IHd|c nf rq dd|id]; intros l H; cbn in *; try discriminate.
    + now injection H as <-.
    + destruct (elems d) as [l'|]; [|discriminate]. injection H as <-. destruct Ol. constructor; auto.
  - destruct Osh as (Lb & x & y & z & ->). destruct Lb as [-> | ->].
    + assert (Oy : ok_obj y) by (apply (Os 1); reflexivity).
      eapply s_call_ok; [|exact Oy|constructor|exact E].
      constructor; cbn; rewrite ?Ec, ?W; cbn; auto; [split; cbn; eauto 6|]. constructor; [|exact O2]. split; cbn; eauto 6.
    + eapply s_return_ok; [exact O|exact O4|exact E].
  - destruct Osh as (x & v & ->). destruct (cut (s_pend S0)) as [[[up h] below]|] eqn:Q; [|discriminate].
    destruct (cut_Forall _ _ _ _ _ O2 Q) as (F1 & F2 & p & q & Hin).
    rewrite Forall_forall in F1. pose proof (F1 _ Hin) as (Oh & _).
    assert (Q2 : ok_obj h) by (apply (Oh 2); reflexivity).
    assert (Q3 : ok_obj v) by (apply (Os 1); reflexivity).
    eapply s_call_ok; [|exact Q2| |exact E].
    + constructor; cbn; rewrite ?Ec; cbn; auto; [split; cbn; eauto|].
      intros id up'. destruct (id =? s_nextk S0); [|apply O5]. intros H. injection H as <-. now apply Forall_forall.
    + constructor; [exact Q3|]. constructor; [|constructor]. apply ok_native. split; [lia|]. split; [cbn; eauto|]. constructor; [exact I|constructor].
  - destruct Osh as (nf & rq & id & v & ->). destruct (s_k S0 id) as [up|] eqn:Q; [|discriminate].
    assert (Q3 : ok_obj v) by (apply (Os 1); reflexivity).
    eapply s_return_ok; [|exact Q3|exact E].
    constructor; cbn; rewrite ?Ec; cbn; auto; [split; cbn; eauto 6| |].
    + apply Forall_app. split; [eapply O5; eauto|exact O2].
    + intros j up'. destruct (j =? id); [discriminate|apply O5].
Qed.
