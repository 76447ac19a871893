(** The list of connections and what the system is asked to report. *)
From Coq Require Import List ZArith Bool Arith Lia.
From Verif Require Import NetModel NetSpec NetProofs.
Import ListNotations.
Local Open Scope list_scope.
Local Open Scope nat_scope.

Lemma ptr_dec : forall a b : ptr, {a = b} + {a <> b}.
Proof. intros. decide equality. apply Nat.eq_dec. Defined.
Arguments ptr_dec : simpl never.

Lemma linked_ext : forall st st' l q p,
  (forall c, In c l -> nxt (conns st' c) = nxt (conns st c) /\ prv (conns st' c) = prv (conns st c)) ->
  linked st q p l -> linked st' q p l.
Proof.
  intros st st' l. induction l as [|c l IH]; intros q p H L; cbn in *; [exact L|].
  destruct L as (L1 & L2 & L3). destruct (H c (or_introl eq_refl)) as (E1 & E2). rewrite E1, E2.
  do 2 (split; [auto|]). apply IH; [|exact L3]. intros d Hd. apply H. right. exact Hd.
Qed.
Lemma holds_ext : forall st st' l, hnext st' = hnext st ->
  (forall c, nxt (conns st' c) = nxt (conns st c) /\ prv (conns st' c) = prv (conns st c)) -> holds st l -> holds st' l.
Proof.
  intros st st' l E H (N & L & O). split; [exact N|]. split.
  - rewrite E. eapply linked_ext; eauto.
  - intros c Hc. destruct (H c) as (-> & ->). auto.
Qed.

Lemma linked_prv : forall st l q p c, linked st q p l -> NoDup l -> In c l ->
  (p = PConn c /\ prv (conns st c) = q) \/ (p <> PConn c /\ exists y, prv (conns st c) = PConn y /\ In y l).
Proof.
  intros st l. induction l as [|x l IH]; intros q p c L N I; [destruct I|].
  cbn in L. destruct L as (-> & L2 & L3). inversion N; subst. destruct (Nat.eq_dec x c) as [->|Hx]; [left; auto|].
  destruct I as [I|I]; [contradiction|]. right. split; [congruence|].
  destruct (IH _ _ _ L3 H2 I) as [(E & E')|(E & y & E' & Iy)].
  - exists x. split; [exact E'|left; reflexivity].
  - exists y. split; [exact E'|right; exact Iy].
Qed.
Lemma linked_nxt : forall st l q p c, linked st q p l -> In c l -> nxt (conns st c) = PNil \/ exists y, nxt (conns st c) = PConn y /\ In y l.
Proof.
  intros st l. induction l as [|x l IH]; intros q p c L I; [destruct I|].
  cbn in L. destruct L as (-> & L2 & L3). destruct I as [->|I].
  - destruct l as [|y l]; cbn in L3; [auto|]. right. exists y. split; [apply L3|right; left; reflexivity].
  - destruct (IH _ _ _ L3 I) as [E|(y & E & Iy)]; [auto|]. right. exists y. split; [exact E|right; exact Iy].
Qed.

Lemma holds_prv : forall st l c, holds st l -> In c l -> prv (conns st c) = PHead \/ exists y, prv (conns st c) = PConn y /\ In y l.
Proof.
  intros st l c (N & L & _) I. destruct (linked_prv _ _ _ _ _ L N I) as [(_ & E)|(_ & E)]; auto.
Qed.
Lemma holds_outside : forall st l c, holds st l -> outside (conns st c) = true <-> ~ In c l.
Proof.
  intros st l c H. split.
  - intros O I. unfold outside in O. destruct (holds_prv _ _ _ H I) as [E|(y & E & _)]; rewrite E in O; destruct (nxt (conns st c)); discriminate.
  - intros I. destruct H as (_ & _ & O). destruct (O c I) as (E1 & E2). unfold outside. rewrite E1, E2. reflexivity.
Qed.

(** ** Adding *)
Lemma add_conn_holds : forall st l c, holds st l -> ~ In c l -> exists st', add_conn c st = Some st' /\ holds st' (c :: l).
Proof.
  intros st l c (N & L & O) I. unfold add_conn. cbn [hnext set_conn].
  destruct l as [|x l].
  - cbn in L. rewrite L. eexists. split; [reflexivity|]. split; [constructor; auto; constructor|]. split.
    + cbn. rewrite Nat.eqb_refl. cbn. auto.
    + intros d Hd. cbn. destruct (Nat.eqb_spec d c); [subst; exfalso; apply Hd; left; reflexivity|]. apply O. auto.
  - cbn in L. destruct L as (L1 & L2 & L3). rewrite L1. cbn [set_prev]. eexists. split; [reflexivity|].
    assert (x <> c) by (intros ->; apply I; left; reflexivity).
    split; [constructor; auto|]. inversion N as [|? ? N1 N2]; subst. split.
    + cbn. rewrite Nat.eqb_refl.
      destruct (Nat.eqb_spec c x); [congruence|]. destruct (Nat.eqb_spec x c); [contradiction|]. rewrite Nat.eqb_refl. cbn.
      do 4 (split; [reflexivity|]).
      eapply linked_ext; [|exact L3]. intros d Hd. cbn.
      destruct (Nat.eqb_spec d c); [subst; exfalso; apply I; right; exact Hd|].
      destruct (Nat.eqb_spec d x); [subst; contradiction|]. auto.
    + intros d Hd. cbn. destruct (Nat.eqb_spec d c); [subst; exfalso; apply Hd; left; reflexivity|].
      destruct (Nat.eqb_spec d x); [subst; exfalso; apply Hd; right; left; reflexivity|].
      apply O. intros Hd'. apply Hd. right. exact Hd'.
Qed.

(** ** Removing *)
Section Unlink.
  Variables (st st' : state) (c : id).
  Hypothesis HN : forall d, d <> c -> nxt (conns st' d) = if ptr_dec (PConn d) (prv (conns st c)) then nxt (conns st c) else nxt (conns st d).
  Hypothesis HP : forall d, d <> c -> prv (conns st' d) = if ptr_dec (PConn d) (nxt (conns st c)) then prv (conns st c) else prv (conns st d).

  Lemma drop_out : forall l, ~ In c l -> drop c l = l.
  Proof.
    induction l as [|x l IH]; intros H; cbn; [reflexivity|]. destruct (Nat.eqb_spec x c); [subst; exfalso; apply H; left; reflexivity|].
    cbn. f_equal. apply IH. intros I. apply H. right. exact I.
  Qed.

  Lemma unlink : forall l q p, linked st q p l -> NoDup l -> In c l -> (forall d, q = PConn d -> ~ In d l) ->
    linked st' q (if ptr_dec p (PConn c) then nxt (conns st c) else p) (drop c l).
  Proof.
    induction l as [|x r IH]; intros q p L N I Q; [destruct I|].
    cbn in L. destruct L as (-> & L2 & L3). inversion N as [|? ? N1 N2]; subst x0 l. cbn [drop filter].
    destruct (Nat.eqb_spec x c) as [->|Hx]; cbn [negb].
    - fold (drop c r). rewrite drop_out by exact N1. destruct (ptr_dec (PConn c) (PConn c)); [|congruence].
      destruct r as [|y r]; [exact L3|]. cbn in L3. destruct L3 as (L4 & L5 & L6). cbn.
      assert (y <> c) by (intros ->; apply N1; left; reflexivity). inversion N2; subst.
      assert (Qn : forall d, In d (y :: r) -> PConn d <> prv (conns st c)).
      { intros d Hd E. apply (Q d); [symmetry; exact E|right; exact Hd]. }
      split; [exact L4|]. split.
      + rewrite HP by assumption. destruct (ptr_dec (PConn y) (nxt (conns st c))); [reflexivity|congruence].
      + rewrite HN by assumption. destruct (ptr_dec (PConn y) (prv (conns st c))); [exfalso; eapply Qn; [left; reflexivity|eassumption]|].
        eapply linked_ext; [|exact L6]. intros d Hd. assert (d <> c) by (intros ->; apply N1; right; exact Hd).
        rewrite HN, HP by assumption.
        destruct (ptr_dec (PConn d) (prv (conns st c))); [exfalso; eapply (Qn d); [right; exact Hd|assumption]|].
        destruct (ptr_dec (PConn d) (nxt (conns st c))); [|auto]. exfalso. assert (d = y) by congruence. subst. contradiction.
    - destruct I as [I|I]; [contradiction|].
      destruct (ptr_dec (PConn x) (PConn c)); [congruence|]. cbn. split; [reflexivity|]. rewrite HN, HP by exact Hx. split.
      + destruct (ptr_dec (PConn x) (nxt (conns st c))) as [E|E]; [|exact L2]. exfalso.
        destruct (linked_nxt _ _ _ _ _ L3 I) as [E'|(y & E' & Iy)]; rewrite E' in E; [discriminate|]. inversion E; subst. contradiction.
      + assert (D : forall d, PConn x = PConn d -> ~ In d r) by (intros d E; inversion E; subst; exact N1).
        specialize (IH _ _ L3 N2 I D). fold (drop c r).
        destruct (linked_prv _ _ _ _ _ L3 N2 I) as [(E & E')|(E & y & E' & Iy)].
        * rewrite E' in *. destruct (ptr_dec (PConn x) (PConn x)); [|congruence]. rewrite E in IH.
          destruct (ptr_dec (PConn c) (PConn c)); [exact IH|congruence].
        * rewrite E'. destruct (ptr_dec (PConn x) (PConn y)) as [Exy|Exy]; [inversion Exy; subst; contradiction|].
          destruct (ptr_dec (nxt (conns st x)) (PConn c)); [contradiction|exact IH].
  Qed.
End Unlink.

Lemma drop_in : forall c d l, In d (drop c l) <-> In d l /\ d <> c.
Proof.
  intros c d l. unfold drop. rewrite filter_In. destruct (Nat.eqb_spec d c); cbn; intuition congruence.
Qed.

Lemma del_conn_holds : forall st l c, holds st l -> In c l -> exists st', del_conn c st = Some st' /\ holds st' (drop c l).
Proof.
  intros st l c H I. pose proof (holds_prv _ _ _ H I) as Pv. destruct H as (N & L & O). unfold del_conn.
  destruct (linked_nxt _ _ _ _ _ L I) as [Nx|(z & Nx & Iz)].
  all: assert (S1 : exists s1, set_next (prv (conns st c)) (nxt (conns st c)) st = Some s1 /\
      (forall d, nxt (conns s1 d) = if ptr_dec (PConn d) (prv (conns st c)) then nxt (conns st c) else nxt (conns st d)) /\
      (forall d, prv (conns s1 d) = prv (conns st d)) /\
      hnext s1 = if ptr_dec (prv (conns st c)) PHead then nxt (conns st c) else hnext st)
    by (destruct Pv as [-> |(y & -> & Iy)]; cbn [set_next]; eexists; (split; [reflexivity|]);
        [split; [intros d; destruct (ptr_dec (PConn d) PHead); [discriminate|reflexivity]|split; [reflexivity|reflexivity]]
        |split; [intros d; cbn; destruct (Nat.eqb_spec d y), (ptr_dec (PConn d) (PConn y)); try congruence; reflexivity
                |split; [intros d; cbn; destruct (d =? y); reflexivity|reflexivity]]]).
  all: destruct S1 as (s1 & E1 & A1 & A2 & A3); rewrite E1.
  all: assert (Nc : nxt (conns s1 c) = nxt (conns st c)) by (rewrite A1; destruct (ptr_dec (PConn c) (prv (conns st c))); reflexivity).
  all: rewrite Nc.
  all: assert (S2 : exists s2, match nxt (conns st c) with PNil => Some s1 | p => set_prev p (prv (conns st c)) s1 end = Some s2 /\
      (forall d, nxt (conns s2 d) = nxt (conns s1 d)) /\
      (forall d, prv (conns s2 d) = if ptr_dec (PConn d) (nxt (conns st c)) then prv (conns st c) else prv (conns st d)) /\
      hnext s2 = hnext s1)
    by (rewrite Nx; cbn [set_prev]; eexists; (split; [reflexivity|]);
        first [ split; [reflexivity|split; [intros d; destruct (ptr_dec (PConn d) PNil); [discriminate|apply A2]|reflexivity]]
              | split; [intros d; cbn; destruct (d =? z); reflexivity
                       |split; [intros d; cbn; destruct (Nat.eqb_spec d z), (ptr_dec (PConn d) (PConn z)); try congruence; cbn; auto
                               |reflexivity]] ]).
  all: destruct S2 as (s2 & E2 & B1 & B2 & B3); rewrite E2; eexists; split; [reflexivity|].
  all: set (s3 := set_conn c (fun x => with_prv PNil (with_nxt PNil x)) s2).
  all: assert (HN : forall d, d <> c -> nxt (conns s3 d) = if ptr_dec (PConn d) (prv (conns st c)) then nxt (conns st c) else nxt (conns st d))
    by (intros d Hd; cbn; destruct (Nat.eqb_spec d c); [contradiction|]; rewrite B1; apply A1).
  all: assert (HP : forall d, d <> c -> prv (conns s3 d) = if ptr_dec (PConn d) (nxt (conns st c)) then prv (conns st c) else prv (conns st d))
    by (intros d Hd; cbn; destruct (Nat.eqb_spec d c); [contradiction|]; apply B2).
  all: pose proof (unlink st s3 c HN HP l PHead (hnext st) L N I (fun d E => ltac:(discriminate))) as U.
  all: (split; [apply NoDup_filter; exact N|]; split;
    [assert (Hh : hnext s3 = if ptr_dec (hnext st) (PConn c) then nxt (conns st c) else hnext st);
      [cbn; rewrite B3, A3; destruct (linked_prv _ _ _ _ _ L N I) as [(-> & ->)|(Q1 & y & -> & _)];
        [destruct (ptr_dec PHead PHead), (ptr_dec (PConn c) (PConn c)); congruence
        |destruct (ptr_dec (PConn y) PHead), (ptr_dec (hnext st) (PConn c)); congruence]
      |rewrite Hh; exact U]
    |intros d Hd; destruct (Nat.eq_dec d c) as [->|Hdc];
      [cbn; rewrite Nat.eqb_refl; auto|];
      assert (Hd' : ~ In d l) by (intros Hi; apply Hd; apply drop_in; auto);
      rewrite HN, HP by exact Hdc; destruct (O d Hd') as (O1 & O2); rewrite O1, O2;
      split;
      [destruct (ptr_dec (PConn d) (prv (conns st c))) as [E|E]; [|reflexivity]; destruct Pv as [Pv|(y & Pv & Iy)]; rewrite Pv in E; [discriminate|inversion E; subst; contradiction]
      |destruct (ptr_dec (PConn d) (nxt (conns st c))) as [E|E]; [|reflexivity]; rewrite Nx in E; first [discriminate|inversion E; subst; contradiction]]]).
Qed.

Lemma put_in : forall c d l, In d (put c l) <-> d = c \/ In d l.
Proof.
  intros c d l. unfold put. destruct (existsb (Nat.eqb c) l) eqn:E.
  - apply existsb_exists in E. destruct E as (x & I & E). apply Nat.eqb_eq in E. subst x. split; [auto|intros [->|J]; auto].
  - cbn. intuition congruence.
Qed.
Lemma put_old : forall c l, In c l -> put c l = l.
Proof.
  intros c l I. unfold put. replace (existsb (Nat.eqb c) l) with true; [reflexivity|]. symmetry. apply existsb_exists. exists c.
  split; [exact I|apply Nat.eqb_refl].
Qed.
Lemma put_new : forall c l, ~ In c l -> put c l = c :: l.
Proof.
  intros c l I. unfold put. destruct (existsb (Nat.eqb c) l) eqn:E; [|reflexivity]. apply existsb_exists in E.
  destruct E as (x & I' & E). apply Nat.eqb_eq in E. subst. contradiction.
Qed.

Lemma mem_md : forall m l, existsb (mode_eqb m) l = true <-> In m l.
Proof.
  intros. rewrite existsb_exists. split.
  - intros (x & I & E). destruct (mode_eqb_spec m x); [subst; exact I|discriminate].
  - intros I. exists m. split; [exact I|]. destruct m; reflexivity.
Qed.

(** What registering does to the list, the modes and the system. *)
Lemma event_loop_add_loop : forall c m f st l, holds st l -> exists st', event_loop_add c m f st = Some st' /\ holds st' (put c l) /\
  ((~ In c l /\ md (conns st' c) = [m] /\ poll st' c = match poll st c with None => Some (mode_bits [m]) | p => p end) \/
   (In c l /\ In m (md (conns st c)) /\ md (conns st' c) = md (conns st c) /\ poll st' c = poll st c) \/
   (In c l /\ ~ In m (md (conns st c)) /\ md (conns st' c) = m :: md (conns st c) /\
    poll st' c = match poll st c with Some _ => Some (mode_bits (m :: md (conns st c))) | None => None end)).
Proof.
  intros c m f st l H. unfold event_loop_add.
  set (s0 := set_conn c (match m with Rd => with_rcb (Some f) | Wr => with_wcb (Some f) end) st).
  assert (H0 : holds s0 l).
  { eapply holds_ext; [| |exact H]; [reflexivity|]. intros d. cbn. destruct (d =? c); [|auto]. destruct m; auto. }
  assert (M0 : md (conns s0 c) = md (conns st c)) by (cbn; rewrite Nat.eqb_refl; destruct m; reflexivity).
  assert (P0 : poll s0 = poll st) by reflexivity. clearbody s0.
  destruct (outside (conns s0 c)) eqn:Eo.
  - assert (I : ~ In c l) by (eapply holds_outside; eauto).
    destruct (add_conn_holds _ _ _ H0 I) as (s1 & E1 & H1). rewrite E1. eexists. split; [reflexivity|].
    pose proof (s_poll _ _ (add_conn_same _ _ _ E1) c) as P1. rewrite P0 in P1.
    assert (Q : hnext (poll_add c m s1) = hnext s1 /\ conns (poll_add c m s1) = conns s1) by (unfold poll_add; destruct (poll s1 c); auto).
    destruct Q as (Q1 & Q2). split.
    + rewrite put_new by exact I. eapply holds_ext; [| |exact H1]; [cbn; exact Q1|]. intros d. cbn. rewrite Q2. destruct (d =? c); auto.
    + left. split; [exact I|]. cbn. rewrite Nat.eqb_refl. split; [reflexivity|]. unfold poll_add. rewrite P1. destruct (poll st c); cbn; rewrite ?Nat.eqb_refl; auto.
  - assert (I : In c l).
    { destruct (in_dec Nat.eq_dec c l) as [I|I]; [exact I|]. apply (holds_outside _ _ _ H0) in I. congruence. }
    rewrite (put_old _ _ I). rewrite M0. destruct (existsb (mode_eqb m) (md (conns st c))) eqn:Em.
    + eexists. split; [reflexivity|]. split; [exact H0|]. right. left. rewrite P0. apply mem_md in Em. auto.
    + assert (Nm : ~ In m (md (conns st c))) by (intros Hm; apply mem_md in Hm; congruence).
      eexists. split; [reflexivity|].
      assert (Q : hnext (poll_mod c (m :: md (conns st c)) s0) = hnext s0 /\ conns (poll_mod c (m :: md (conns st c)) s0) = conns s0)
        by (unfold poll_mod; destruct (poll s0 c); auto).
      destruct Q as (Q1 & Q2). split.
      * eapply holds_ext; [| |exact H0]; [cbn; exact Q1|]. intros d. cbn. rewrite Q2. destruct (d =? c); auto.
      * right. right. do 2 (split; [assumption|]). cbn. rewrite Nat.eqb_refl. split; [reflexivity|]. unfold poll_mod. rewrite P0.
        destruct (poll st c) eqn:Ep; cbn; rewrite ?Nat.eqb_refl; [reflexivity|congruence].
Qed.

Lemma conn_close_loop : forall c st l, holds st l -> exists st', conn_close c st = Some st' /\ holds st' (drop c l) /\
  (In c l -> poll st' c = None) /\ (~ In c l -> st' = st).
Proof.
  intros c st l H. unfold conn_close. destruct (outside (conns st c)) eqn:Eo.
  - assert (I : ~ In c l) by (eapply holds_outside; eauto). exists st. rewrite drop_out by exact I. intuition.
  - assert (I : In c l).
    { destruct (in_dec Nat.eq_dec c l) as [I|I]; [exact I|]. apply (holds_outside _ _ _ H) in I. congruence. }
    assert (H0 : holds (poll_del c st) l) by (eapply holds_ext; [| |exact H]; [reflexivity|auto]).
    destruct (del_conn_holds _ _ _ H0 I) as (st' & E & H'). exists st'. split; [exact E|]. split; [exact H'|]. split; [|contradiction].
    intros _. rewrite (s_poll _ _ (del_conn_same _ _ _ E)). cbn. rewrite Nat.eqb_refl. reflexivity.
Qed.

(** * Histories *)
Record loop_inv (S : id -> Prop) (h : list op) (st : state) (l : list id) : Prop := {
  l_holds : holds st l;
  l_out : forall c, ~ In c l -> poll st c = None;
  l_in : forall c, In c l -> exists w, poll st c = Some (existsb (mode_eqb Rd) (md (conns st c)), w) /\
                                        (w = true -> In Wr (md (conns st c))) /\
                                        (S c -> w = existsb (mode_eqb Wr) (md (conns st c)));
  l_cb : used_well h -> forall c m, ~ In (OClose c) h -> cb_at m st c <> None -> In c l /\ In m (md (conns st c)) }.

Lemma used_well_snoc : forall h o, used_well (h ++ [o]) -> used_well h /\ ~ In (OClose (about o)) h.
Proof.
  induction h as [|x h IH]; intros o U; cbn in *; [auto|]. destruct U as (U1 & U2). destruct (IH _ U2) as (A & B).
  assert (T : forall c (F : Forall (fun o0 => about o0 <> c) (h ++ [o])), about o <> c /\ Forall (fun o0 => about o0 <> c) h).
  { intros c F. apply Forall_app in F. destruct F as (F1 & F2). inversion F2; auto. }
  split; [split; [|exact A]|].
  - destruct x; auto. apply T. exact U1.
  - intros [E|I]; [|contradiction]. subst x. destruct (T _ U1). congruence.
Qed.

(** steps that only log, resume or drop a callback *)
Lemma loop_neutral : forall S h st st' l, loop_inv S h st l ->
  hnext st' = hnext st -> (forall c, nxt (conns st' c) = nxt (conns st c) /\ prv (conns st' c) = prv (conns st c)) ->
  (forall c, md (conns st' c) = md (conns st c)) -> (forall c, poll st' c = poll st c) ->
  (forall m c, cb_at m st' c <> None -> cb_at m st c <> None) -> loop_inv S h st' l.
Proof.
  intros S h st st' l [A B C D] E1 E2 E3 E4 E5. constructor.
  - eapply holds_ext; eauto.
  - intros c I. rewrite E4. auto.
  - intros c I. rewrite E4, E3. auto.
  - intros U c m I H. rewrite E3. auto.
Qed.
Lemma loop_more : forall S h o st l, loop_inv S h st l -> loop_inv S (h ++ [o]) st l.
Proof.
  intros S h o st l [A B C D]. constructor; auto. intros U c m I H. apply used_well_snoc in U. destruct U as (U & _).
  apply D; auto. intros J. apply I. apply in_or_app; auto.
Qed.


Lemma loop_add : forall S h o st l c m f, loop_inv S h st l -> about o = c ->
  exists st', event_loop_add c m f st = Some st' /\ loop_inv S (h ++ [o]) st' (put c l).
Proof.
  intros S h o st l c m f [A B C D] Ho. destruct (event_loop_add_loop c m f st l A) as (st' & E & H & K).
  pose proof (event_loop_add_reg _ _ _ _ _ E) as R. exists st'. split; [exact E|]. constructor; [exact H|..].
  - intros d I. rewrite put_in in I. rewrite (r_poll _ _ _ _ _ R) by tauto. apply B. tauto.
  - intros d I. rewrite put_in in I. destruct (Nat.eq_dec d c) as [->|Hd].
    2:{ rewrite (r_poll _ _ _ _ _ R), (r_md _ _ _ _ _ R) by exact Hd. apply C. tauto. }
    destruct K as [(K1 & K2 & K3)|[(K1 & K2 & K3 & K4)|(K1 & K2 & K3 & K4)]].
    + rewrite K3, (B c K1), K2. exists (existsb (mode_eqb Wr) [m]). destruct m; cbn; (split; [reflexivity|split; [intros W; first [discriminate|auto]|auto]]).
    + rewrite K3, K4. apply C. exact K1.
    + destruct (C c K1) as (w & C1 & C2 & C3). rewrite K3, K4, C1. exists (existsb (mode_eqb Wr) (m :: md (conns st c))). split; [reflexivity|].
      split; [|auto]. intros W. apply mem_md in W. exact W.
  - intros U d m' I G. apply used_well_snoc in U. destruct U as (U & Uc). rewrite Ho in Uc.
    assert (I' : ~ In (OClose d) h) by (intros J; apply I; apply in_or_app; auto).
    rewrite put_in. destruct (mode_id_dec (m', d) (m, c)) as [W|W].
    + inversion W; subst m' d. split; [auto|apply (r_md_in _ _ _ _ _ R)].
    + rewrite (r_other _ _ _ _ _ R) in G by exact W. destruct (D U d m' I' G) as (D1 & D2). split; [auto|].
      destruct (Nat.eq_dec d c) as [->|Hd]; [|rewrite (r_md _ _ _ _ _ R) by exact Hd; exact D2].
      destruct K as [(K1 & K2 & K3)|[(K1 & K2 & K3 & K4)|(K1 & K2 & K3 & K4)]]; [contradiction|rewrite K3; exact D2|rewrite K3; right; exact D2].
Qed.

Lemma step_loop : forall S h o st st' l, loop_inv S h st l -> step o st = Some st' ->
  match o with OWrite c _ => S c -> resumed st' = resumed st | _ => True end ->
  exists l', loop_inv S (h ++ [o]) st' l'.
Proof.
  intros S h o st st' l I H Hw.
  assert (Ladd : forall s1 c m f, loop_inv S h s1 l -> about o = c -> event_loop_add c m f s1 = Some st' -> exists l', loop_inv S (h ++ [o]) st' l').
  { intros s1 c m f I1 Ho E. destruct (loop_add S h o s1 l c m f I1 Ho) as (s2 & E2 & I2). rewrite E in E2. inversion E2; subst. eauto. }
  destruct o as [c buf k s|c buf k|c k|c s|c s|c]; cbn [step] in H.
  - unfold start_send in H. destruct (net_send buf 0 s) as [[r out]|]; [|discriminate]. destruct (two r) as [p|].
    + eapply Ladd; [|reflexivity|exact H]. eapply loop_neutral; [exact I|..]; cbn; auto.
      * intros d. destruct (d =? c); auto.
      * intros d. destruct (d =? c); auto.
      * intros [] d; cbn; destruct (d =? c); auto.
    + injection H as <-. exists l. apply loop_more. eapply loop_neutral; [exact I|..]; cbn; auto; intros []; auto.
  - eapply Ladd; [exact I|reflexivity|exact H].
  - eapply Ladd; [exact I|reflexivity|exact H].
  - unfold write_event in H. destruct (wcb (conns st c)) as [[buf pos k|buf pos k|k]|] eqn:W; try (injection H as <-; exists l; apply loop_more; exact I).
    destruct (net_send buf pos s) as [[r out]|]; [|discriminate]. destruct (two r) as [p|].
    + eapply Ladd; [|reflexivity|exact H]. eapply loop_neutral; [exact I|..]; cbn; auto; intros []; auto.
    + injection H as <-. exists l. apply loop_more. destruct I as [A B C D].
      assert (Ns : ~ S c).
      { intros Sc. apply Hw in Sc. cbn in Sc.
        assert (X : forall st0 l0, resumed (poll_mod c l0 st0) = resumed st0) by (intros st0 l0; unfold poll_mod; destruct (poll st0 c); reflexivity).
        rewrite X in Sc. cbn in Sc. apply (f_equal (@length _)) in Sc. cbn in Sc. lia. }
      cbn. rewrite Nat.eqb_refl. cbn. set (s0 := set_conn c (with_wcb None) (log_sent k out st)).
      assert (Hh : holds s0 l) by (eapply holds_ext; [| |exact A]; [reflexivity|]; intros d; cbn; destruct (d =? c); auto).
      assert (M0 : forall d, md (conns s0 d) = md (conns st d)) by (intros d; cbn; destruct (d =? c); reflexivity).
      assert (G0 : forall m d, cb_at m s0 d <> None -> cb_at m st d <> None) by (intros [] d; cbn; destruct (d =? c); cbn; auto; congruence).
      assert (P0 : poll s0 = poll st) by reflexivity. clearbody s0. unfold poll_mod. rewrite P0.
      destruct (poll st c) as [[r0 w0]|] eqn:Ep; (constructor; cbn;
        [eapply holds_ext; [| |exact Hh]; [reflexivity|auto]|..]).
      * intros d Id. destruct (Nat.eqb_spec d c) as [->|]; [rewrite (B c Id) in Ep; discriminate|rewrite P0; auto].
      * intros d Id. rewrite M0. destruct (Nat.eqb_spec d c) as [->|]; [|rewrite P0; apply C; exact Id].
        exists false. split; [|split; [discriminate|contradiction]]. f_equal. unfold mode_bits. f_equal.
        -- clear. induction (md (conns st c)) as [|[] x IH]; cbn; auto.
        -- clear. induction (md (conns st c)) as [|[] x IH]; cbn; auto.
      * intros U d m Id G. rewrite M0. apply D; auto; apply G0; destruct m; exact G.
      * intros d Id. rewrite P0. auto.
      * intros d Id. rewrite M0, P0. auto.
      * intros U d m Id G. rewrite M0. apply D; auto; apply G0; destruct m; exact G.
  - unfold read_event in H. destruct (rcb (conns st c)) as [[buf pos k|buf pos k|k]|] eqn:W; try (injection H as <-; exists l; apply loop_more; exact I).
    + destruct (net_recv buf pos s) as [[[r buf'] g]|]; [|discriminate]. destruct (two r) as [p|].
      * eapply Ladd; [|reflexivity|exact H]. eapply loop_neutral; [exact I|..]; cbn; auto; intros []; auto.
      * injection H as <-. exists l. apply loop_more. eapply loop_neutral; [exact I|..]; cbn; auto.
        -- intros d. destruct (d =? c); auto.
        -- intros d. destruct (d =? c); auto.
        -- intros [] d; cbn; destruct (d =? c); cbn; auto; congruence.
    + injection H as <-. exists l. apply loop_more. eapply loop_neutral; [exact I|..]; cbn; auto.
      * intros d. destruct (d =? c); auto.
      * intros d. destruct (d =? c); auto.
      * intros [] d; cbn; destruct (d =? c); cbn; auto; congruence.
  - destruct I as [A B C D]. destruct (conn_close_loop c st l A) as (s1 & E & Hh & P1 & P2). rewrite H in E. inversion E; subst s1. clear E.
    exists (drop c l). destruct (in_dec Nat.eq_dec c l) as [Ic|Ic].
    2:{ rewrite (P2 Ic). rewrite drop_out by exact Ic. apply loop_more. constructor; auto. }
    unfold conn_close in H. destruct (outside (conns st c)) eqn:Eo; [apply (holds_outside _ _ _ A) in Eo; contradiction|].
    apply del_conn_same in H. destruct H as [S1 S2 S3 S4 S5 S6 S7].
    assert (S4' : forall d, d <> c -> poll st' d = poll st d) by (intros d Hd; rewrite S4; cbn; destruct (Nat.eqb_spec d c); [contradiction|reflexivity]).
    constructor; [exact Hh|..].
    + intros d Id. rewrite drop_in in Id. destruct (Nat.eq_dec d c) as [->|Hd]; [auto|]. rewrite S4' by exact Hd. apply B. tauto.
    + intros d Id. rewrite drop_in in Id. destruct Id as (Id & Hd). rewrite S4' by exact Hd. rewrite S3. apply C. exact Id.
    + intros U d m Id G. apply used_well_snoc in U. destruct U as (U & _).
      assert (d <> c) by (intros ->; apply Id; apply in_or_app; right; left; reflexivity).
      assert (~ In (OClose d) h) by (intros J; apply Id; apply in_or_app; auto).
      assert (G' : cb_at m st d <> None) by (destruct m; cbn in G |- *; rewrite ?S1, ?S2 in G; exact G).
      rewrite drop_in, S3. destruct (D U d m) as (D1 & D2); auto.
Qed.

Lemma run_loop : forall (S : id -> Prop) l h st st' cs, loop_inv S h st cs -> run l st = Some st' ->
  (forall c, S c -> no_late_send c l st) -> exists cs', loop_inv S (h ++ l) st' cs'.
Proof.
  intros S l. induction l as [|o l IH]; intros h st st' cs I H Hl; cbn in H.
  - injection H as <-. exists cs. rewrite app_nil_r. exact I.
  - destruct (step o st) as [s1|] eqn:E; [|discriminate].
    destruct (step_loop S h o st s1 cs I E) as (cs1 & I1).
    + destruct o; auto. intros Sc. specialize (Hl _ Sc). cbn [no_late_send] in Hl. rewrite E in Hl. apply Hl. reflexivity.
    + destruct (IH _ _ _ _ I1 H) as (cs2 & I2).
      * intros c Sc. specialize (Hl _ Sc). cbn [no_late_send] in Hl. rewrite E in Hl. apply Hl.
      * exists cs2. rewrite <- app_assoc in I2. exact I2.
Qed.

Lemma start_loop : forall S, loop_inv S [] start [].
Proof.
  intros S. constructor; cbn; auto; try tauto.
  - split; [constructor|]. split; [reflexivity|auto].
  - intros _ c []; cbn; congruence.
Qed.

(** ** The scan *)
Lemma idle_exact : forall st l q p n, linked st q p l -> length l < n ->
  exists b, idle n p st = Some b /\ (b = true <-> forall c, In c l -> ~ waiting st c).
Proof.
  intros st l. induction l as [|c l IH]; intros q p n L Hn; (destruct n as [|n]; [lia|]); cbn in L |- *.
  - subst p. exists true. split; [reflexivity|]. split; [intros _ c []|reflexivity].
  - destruct L as (-> & _ & L). cbn in Hn.
    destruct (IH _ _ n L ltac:(lia)) as (b & E & Hb).
    destruct (rcb (conns st c)) as [f|] eqn:E1; [|destruct (wcb (conns st c)) as [f|] eqn:E2].
    + exists false. split; [reflexivity|]. split; [discriminate|]. intros H. exfalso. apply (H c (or_introl eq_refl)). left. congruence.
    + exists false. split; [reflexivity|]. split; [discriminate|]. intros H. exfalso. apply (H c (or_introl eq_refl)). right. congruence.
    + exists b. split; [exact E|]. rewrite Hb. split.
      * intros H d [<-|I]; [|auto]. intros [W|W]; congruence.
      * intros H d I. apply H. right. exact I.
Qed.

(** * A task whose callback has gone *)
Definition gone (k : nat) (st : state) : Prop :=
  (forall m c f, cb_at m st c = Some f -> cb_task f <> k) /\ ~ In k (map fst (resumed st)).

Lemma gone_add : forall k c m f st st', gone k st -> cb_task f <> k -> event_loop_add c m f st = Some st' -> gone k st'.
Proof.
  intros k c m f st st' (G1 & G2) Hf H. apply event_loop_add_reg in H. split; [|rewrite (r_res _ _ _ _ _ H); exact G2].
  intros m' d g Hg. destruct (mode_id_dec (m', d) (m, c)) as [W|W].
  - inversion W; subst m' d. rewrite (r_cb _ _ _ _ _ H) in Hg. inversion Hg; subst. exact Hf.
  - rewrite (r_other _ _ _ _ _ H) in Hg by exact W. eauto.
Qed.

Lemma gone_step : forall k o st st', gone k st -> ~ In k (tasks [o]) -> step o st = Some st' -> gone k st'.
Proof.
  intros k o st st' G Ht H. pose proof G as (G1 & G2). destruct o as [c buf j s|c buf j|c j|c s|c s|c]; cbn [step] in H; cbn in Ht.
  - unfold start_send in H. destruct (net_send buf 0 s) as [[r out]|]; [|discriminate]. destruct (two r) as [p|].
    + eapply gone_add; [| |exact H]; [|cbn; tauto]. split; [|exact G2]. intros m d f Hf. apply (G1 m d).
      rewrite <- Hf. destruct m; cbn; destruct (d =? c); reflexivity.
    + injection H as <-. split; cbn; [intros m d f Hf; apply (G1 m d); destruct m; exact Hf|]. tauto.
  - eapply gone_add; [exact G| |exact H]. cbn. tauto.
  - eapply gone_add; [exact G| |exact H]. cbn. tauto.
  - unfold write_event in H. destruct (wcb (conns st c)) as [[buf pos j|buf pos j|j]|] eqn:W; try (injection H as <-; exact G).
    assert (Hj : j <> k) by (apply (G1 Wr c _ W)).
    destruct (net_send buf pos s) as [[r out]|]; [|discriminate]. destruct (two r) as [p|].
    + eapply gone_add; [| |exact H]; [|exact Hj]. split; [|exact G2]. intros m d f Hf. apply (G1 m d). destruct m; exact Hf.
    + injection H as <-. match goal with |- gone k (resume j _ (poll_mod _ ?x ?y)) => set (l0 := x); set (s0 := y) end.
      assert (Q : conns (poll_mod c l0 s0) = conns s0 /\ resumed (poll_mod c l0 s0) = resumed s0) by (unfold poll_mod; destruct (poll s0 c); auto).
      destruct Q as (Q1 & Q2). split; cbn.
      * intros m d f Hf. apply (G1 m d). destruct m; cbn in Hf |- *; rewrite Q1 in Hf; cbn in Hf; destruct (d =? c); cbn in Hf; congruence.
      * rewrite Q2. cbn. tauto.
  - unfold read_event in H. destruct (rcb (conns st c)) as [[buf pos j|buf pos j|j]|] eqn:W; try (injection H as <-; exact G).
    + assert (Hj : j <> k) by (apply (G1 Rd c _ W)).
      destruct (net_recv buf pos s) as [[[r buf'] g]|]; [|discriminate]. destruct (two r) as [p|].
      * eapply gone_add; [| |exact H]; [|exact Hj]. split; [|exact G2]. intros m d f Hf. apply (G1 m d). destruct m; exact Hf.
      * injection H as <-. split; cbn; [|tauto].
        intros m d f Hf. apply (G1 m d). destruct m; cbn in Hf |- *; destruct (d =? c); cbn in Hf; congruence.
    + assert (Hj : j <> k) by (apply (G1 Rd c _ W)). injection H as <-. split; cbn; [|tauto].
      intros m d f Hf. apply (G1 m d). destruct m; cbn in Hf |- *; destruct (d =? c); cbn in Hf; congruence.
  - unfold conn_close in H. destruct (outside (conns st c)); [injection H as <-; exact G|].
    apply del_conn_same in H. destruct H as [S1 S2 S3 S4 S5 S6 S7]. split; [|rewrite S5; exact G2].
    intros m d f Hf. apply (G1 m d). destruct m; cbn in *; rewrite ?S1, ?S2 in Hf; exact Hf.
Qed.

Lemma gone_run : forall k l st st', gone k st -> ~ In k (tasks l) -> run l st = Some st' -> gone k st'.
Proof.
  intros k l. induction l as [|o l IH]; intros st st' G Ht H; cbn in H; [injection H as <-; exact G|].
  destruct (step o st) as [s1|] eqn:E; [|discriminate].
  assert (T : ~ In k (tasks [o]) /\ ~ In k (tasks l)).
  { change (o :: l) with ([o] ++ l) in Ht. rewrite tasks_app in Ht. split; intros I; apply Ht; apply in_or_app; auto. }
  destruct T as (T1 & T2). eapply IH; [eapply gone_step; eauto|exact T2|exact H].
Qed.
