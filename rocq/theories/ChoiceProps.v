(** What a choice among operations promises (C62): the random order loses and
    repeats no alternative; it commits when some alternative is ready, to one
    that is; otherwise it waits for all of them. *)
From Coq Require Import List ZArith Bool Permutation Lia.
From Verif Require Import Base NumModel NumProofs NumProps LibModel ChanModel ChoiceModel.
Import ListNotations.
Local Open Scope list_scope.
Local Open Scope nat_scope.

(** * The order *)

(** Lists are shorter than the numbers of the language. *)
Definition small {A} (l : list A) : Prop := (Z.of_nat (List.length l) < 2 ^ 53)%Z.

Lemma random_split_perm : forall A coin (l to1 to2 : list A) k,
  Permutation (l ++ to1 ++ to2) (fst (fst (random_split coin l to1 to2 k)) ++ snd (fst (random_split coin l to1 to2 k))).
Proof.
  intros A coin. induction l as [|x r IH]; intros to1 to2 k; cbn [random_split]; [reflexivity|].
  destruct (coin k); rewrite <- IH; cbn.
  - apply Permutation_middle.
  - rewrite !app_assoc. apply Permutation_middle.
Qed.
Lemma random_merge_perm : forall A coin (l1 l2 to : list A) k,
  Permutation (l1 ++ l2 ++ to) (fst (random_merge coin l1 l2 to k)).
Proof.
  intros A coin. induction l1 as [|x1 r1 IH1]; [intros [|x2 r2] to k; cbn; reflexivity|].
  induction l2 as [|x2 r2 IH2]; intros to k; cbn -[app]; [reflexivity|]. destruct (coin k).
  - rewrite <- IH1. rewrite (app_assoc r1 (x2 :: r2) (x1 :: to)). rewrite <- (Permutation_middle (r1 ++ x2 :: r2) to x1). rewrite <- app_assoc. reflexivity.
  - etransitivity; [|apply IH2]. cbn [app]. apply Permutation_cons; [reflexivity|]. apply Permutation_app_head. apply Permutation_middle.
Qed.
Lemma shuffle_h_perm : forall A coin n (l : list A) k, Permutation l (fst (shuffle_h coin l n k)).
Proof.
  intros A coin. induction n as [|n IH]; intros l k; cbn [shuffle_h]; [reflexivity|].
  pose proof (random_split_perm A coin l [] [] k) as S. destruct (random_split coin l [] [] k) as [[l1 l2] k1]. cbn in S. rewrite app_nil_r in S.
  pose proof (random_merge_perm A coin l1 l2 [] k1) as M. destruct (random_merge coin l1 l2 [] k1) as [l' k2]. cbn in M. rewrite app_nil_r in M.
  rewrite S, M. apply IH.
Qed.

(** The division makes the number of rounds 1, whatever the number of
    operations (0 for none). *)
Theorem shuffle_rounds : forall len, (Z.of_nat len < 2 ^ 53)%Z ->
  rounds len = Ok (match len with O => 0 | S _ => 1 end)%Z.
Proof.
  intros len H. unfold rounds. rewrite !makeNumber_ok by lia. cbn [obind].
  rewrite (division_on_positive_integers (1 + Z.of_nat len) 2 _ _); [|lia|lia|apply makeNumber_ok; lia|apply makeNumber_ok; lia].
  destruct len as [|len].
  - vm_compute. reflexivity.
  - destruct (Z.leb_spec 2 (1 + Z.of_nat (S len))); [|lia]. rewrite makeNumber_ok by lia. cbn [obind]. apply fixnum_i2d. lia.
Qed.

(** Whatever the coins, the shuffled list has the same elements. *)
Theorem shuffle_permutation : forall A coin (l : list A) k, small l ->
  exists l' k', shuffle coin l k = Some (l', k') /\ Permutation l l'.
Proof.
  intros A coin l k S. unfold shuffle. rewrite shuffle_rounds by exact S.
  destruct (match List.length l with O => 0 | S _ => 1 end <? 0)%Z eqn:E; [exfalso; destruct (List.length l); cbn in E; discriminate|].
  pose proof (shuffle_h_perm A coin (Z.to_nat match List.length l with O => 0 | S _ => 1 end) l k) as P.
  destruct (shuffle_h coin l _ k) as [l' k']. exists l', k'. split; [reflexivity|exact P].
Qed.

(** Every alternative can come first. *)
Lemma split_only : forall A (x : A) a b to coin k, (forall i, coin (k + i) = negb (i =? List.length a)) ->
  fst (random_split coin (a ++ x :: b) to [] k) = (rev b ++ rev a ++ to, [x]).
Proof.
  intros A x. assert (B : forall b to to2 coin k, (forall i, coin (k + i) = true) -> fst (random_split (A := A) coin b to to2 k) = (rev b ++ to, to2)).
  { induction b as [|y b IH]; intros to to2 coin k H; cbn [random_split]; [reflexivity|]. rewrite <- (Nat.add_0_r k) at 1. rewrite H.
    rewrite IH; [cbn; rewrite <- app_assoc; reflexivity|]. intros i. rewrite <- (H (S i)). f_equal. lia. }
  induction a as [|y a IH]; intros b to coin k H; cbn [app random_split].
  - rewrite <- (Nat.add_0_r k) at 1. rewrite H. cbn. rewrite B; [reflexivity|]. intros i. replace (S k + i) with (k + S i) by lia. rewrite H. reflexivity.
  - rewrite <- (Nat.add_0_r k) at 1. rewrite H. change (negb (0 =? List.length (y :: a))) with true. cbv iota. rewrite IH; [cbn; rewrite <- !app_assoc; reflexivity|].
    intros i. replace (S k + i) with (k + S i) by lia. rewrite H. reflexivity.
Qed.
Lemma merge_only : forall A (x : A) l to coin k, (forall i, coin (k + i) = true) -> fst (random_merge coin l [x] to k) = x :: rev l ++ to.
Proof.
  intros A x. induction l as [|y r IH]; intros to coin k H; [reflexivity|]. cbn [random_merge]. rewrite <- (Nat.add_0_r k) at 1. rewrite H.
  rewrite IH; [cbn; rewrite <- app_assoc; reflexivity|]. intros i. rewrite <- (H (S i)). f_equal. lia.
Qed.
Lemma split_count : forall A coin (l to1 to2 : list A) k, snd (random_split coin l to1 to2 k) = k + List.length l.
Proof. intros A coin. induction l as [|x r IH]; intros to1 to2 k; cbn; [lia|]. destruct (coin k); rewrite IH; lia. Qed.
Theorem shuffle_any_first : forall A (l : list A) i x, small l -> nth_error l i = Some x ->
  exists coin l' k', shuffle coin l 0 = Some (x :: l', k').
Proof.
  intros A l i x S H. destruct (nth_error_split l i H) as (a & b & -> & L).
  exists (fun j => negb (j =? List.length a)). unfold shuffle. rewrite shuffle_rounds by exact S.
  assert (E : exists m, List.length (a ++ x :: b) = Datatypes.S m) by (exists (List.length a + List.length b); rewrite app_length; cbn; lia).
  destruct E as [m ->]. change (1 <? 0)%Z with false. change (Z.to_nat 1) with 1. cbn [shuffle_h].
  pose proof (split_only A x a b [] (fun j => negb (j =? List.length a)) 0 (fun i => eq_refl)) as SP.
  pose proof (split_count A (fun j => negb (j =? List.length a)) (a ++ x :: b) [] [] 0) as SC.
  destruct (random_split _ (a ++ x :: b) [] [] 0) as [[l1 l2] k1]. cbn in SP, SC. inversion SP; subst l1 l2.
  pose proof (merge_only A x (rev b ++ rev a ++ []) [] (fun j => negb (j =? List.length a)) k1) as M.
  destruct (random_merge _ _ [x] [] k1) as [l' k2]. cbn in M. rewrite M.
  - eauto.
  - intros i0. destruct (Nat.eqb_spec (k1 + i0) (List.length a)); [|reflexivity]. exfalso. rewrite app_length in SC. cbn in SC. lia.
Qed.

(** But not every order can come out: of three operations, never the second,
    the third, the first. *)
Theorem shuffle_all_orders_refuted : exists l l' : list nat, Permutation l l' /\ forall coin k k', shuffle coin l k <> Some (l', k').
Proof.
  exists [0; 1; 2], [1; 2; 0]. split; [etransitivity; [apply perm_swap|apply perm_skip, perm_swap]|].
  intros coin k k'. unfold shuffle. rewrite shuffle_rounds by (cbn; lia). cbn [List.length]. change (1 <? 0)%Z with false. change (Z.to_nat 1) with 1.
  cbn. destruct (coin k), (coin (S k)), (coin (S (S k))); cbn; try discriminate;
    destruct (coin (S (S (S k)))); cbn; try discriminate; destruct (coin (S (S (S (S k))))); cbn; discriminate.
Qed.

(** * Committing *)

(** What an operation finds when it is tried: the value it gives, and the
    waiting coroutine that goes on, with what. *)
Fixpoint first_live (s : cstate) (l : list sitem) : option sitem :=
  match l with [] => None | it :: r => if c_done s (s_state it) then first_live s r else Some it end.
Definition offers (s : cstate) (o : op) : option (val * (nat * val)) :=
  match o with
  | ORecv ch _ => match first_live s (c_sendq s ch) with Some it => Some (s_val it, (s_k it, s_wrap it VNil)) | None => None end
  | OSend ch v _ => match c_recvq s ch with [] => None | it :: _ => Some (VNil, (r_k it, r_wrap it v)) end
  | OChoice _ _ => None
  end.
(** The alternatives are sends and receives, and their wrappers do not give false. *)
Definition basic (o : op) : Prop :=
  match o with OChoice _ _ => False | _ => forall v, op_wrap o v <> VFalse end.
(** Nobody waits to send false, and no waiting receiver has been served already. *)
Definition clean (s : cstate) : Prop :=
  (forall ch it, In it (c_sendq s ch) -> s_val it <> VFalse) /\
  (forall ch it, In it (c_recvq s ch) -> c_done s (r_state it) = false).

(** The coroutines waiting on a channel, to send or to receive. *)
Definition waits (s : cstate) (o : op) (k : nat) : Prop :=
  match o with
  | OSend ch _ _ => In k (List.map s_k (c_sendq s ch))
  | ORecv ch _ => In k (List.map r_k (c_recvq s ch))
  | OChoice _ _ => False
  end.

Definition tries := fix tries (l : list op) (s : cstate) : val * cstate :=
  match l with
  | [] => (VFalse, s)
  | o1 :: r => let '(v, s1) := op_try o1 s in
               if veqb v VFalse then tries r s1 else (op_wrap o1 v, s1)
  end.
Definition blocks k w := fix blocks (l : list op) (s : cstate) : cstate :=
  match l with
  | [] => s
  | o1 :: r => blocks r (op_block o1 k (fun v => w (op_wrap o1 v)) s)
  end.

Lemma first_live_in : forall s l it, first_live s l = Some it -> In it l.
Proof. induction l as [|x r IH]; intros it H; [discriminate|]. cbn in H. destruct (c_done s (s_state x)); [right; auto|inversion H; left; reflexivity]. Qed.
Lemma recv_try_spec : forall s ch l,
  match first_live s l with
  | None => recv_try s ch l = (VFalse, mkC (upd1 (c_sendq s) ch []) (c_recvq s) (c_done s) (c_gensym s) (c_events s))
  | Some it => exists r, incl r l /\ recv_try s ch l =
      (s_val it, resume_task (mkC (upd1 (c_sendq s) ch r) (c_recvq s) (c_done s) (c_gensym s) (c_events s)) (s_k it) (s_wrap it VNil) (s_state it))
  end.
Proof.
  intros s ch. induction l as [|x r IH]; [reflexivity|]. cbn [first_live recv_try]. destruct (c_done s (s_state x)).
  - destruct (first_live s r); [|exact IH]. destruct IH as (q & I & E). exists q. split; [|exact E]. intros y Y. right. apply I. exact Y.
  - exists r. split; [intros y Y; right; exact Y|reflexivity].
Qed.

(** Only stale senders have been dropped. *)
Definition pruned (s s' : cstate) : Prop :=
  c_recvq s' = c_recvq s /\ c_done s' = c_done s /\ c_events s' = c_events s /\
  forall ch, c_sendq s' ch = c_sendq s ch \/ (c_sendq s' ch = [] /\ first_live s (c_sendq s ch) = None).
Lemma pruned_refl : forall s, pruned s s.
Proof. intros s. unfold pruned. auto. Qed.
Lemma first_live_done : forall s s' l, c_done s' = c_done s -> first_live s' l = first_live s l.
Proof. intros s s' l H. induction l as [|x r IH]; cbn; [reflexivity|]. rewrite H, IH. reflexivity. Qed.
Lemma pruned_trans : forall a b c, pruned a b -> pruned b c -> pruned a c.
Proof.
  intros a b c (R1 & D1 & E1 & S1) (R2 & D2 & E2 & S2). unfold pruned. rewrite R2, D2, E2. split; [exact R1|]. split; [exact D1|]. split; [exact E1|].
  intros ch. destruct (S2 ch) as [->|[-> F]]; [apply S1|]. rewrite (first_live_done a b _ D1) in F. destruct (S1 ch) as [Q|[Q G]].
  - right. rewrite Q in F. auto.
  - right. auto.
Qed.
Lemma pruned_offers : forall s s' o, pruned s s' -> offers s' o = offers s o.
Proof.
  intros s s' o (R & D & E & S). destruct o; cbn [offers].
  - rewrite R. reflexivity.
  - rewrite (first_live_done s s' _ D). destruct (S ch) as [->|[-> F]]; [reflexivity|]. rewrite F. reflexivity.
  - reflexivity.
Qed.
Lemma pruned_clean : forall s s', pruned s s' -> clean s -> clean s'.
Proof.
  intros s s' (R & D & E & S) [C1 C2]. split; intros ch it I.
  - destruct (S ch) as [Q|[Q _]]; rewrite Q in I; [exact (C1 ch it I)|contradiction].
  - rewrite R in I. rewrite D. exact (C2 ch it I).
Qed.

Lemma try_none : forall s o, basic o -> offers s o = None -> exists s', op_try o s = (VFalse, s') /\ pruned s s'.
Proof.
  intros s o B N. destruct o; cbn [op_try offers] in *; [| |contradiction].
  - unfold send_try. destruct (c_recvq s ch); [|discriminate]. exists s. split; [reflexivity|apply pruned_refl].
  - pose proof (recv_try_spec s ch (c_sendq s ch)) as P. destruct (first_live s (c_sendq s ch)) eqn:F; [discriminate|].
    eexists. split; [exact P|]. unfold pruned. cbn. split; [reflexivity|]. split; [reflexivity|]. split; [reflexivity|].
    intros c. unfold upd1. destruct (Nat.eqb_spec c ch); [subst; auto|auto].
Qed.
Lemma try_some : forall s o v e, basic o -> clean s -> offers s o = Some (v, e) -> exists s', op_try o s = (v, s') /\
  v <> VFalse /\ c_events s' = c_events s ++ [e] /\
  forall ch, incl (c_sendq s' ch) (c_sendq s ch) /\ incl (c_recvq s' ch) (c_recvq s ch).
Proof.
  intros s o v e B [C1 C2] N. destruct o; cbn [op_try offers] in *; [| |contradiction].
  - unfold send_try. destruct (c_recvq s ch) as [|it r] eqn:Q; [discriminate|]. inversion N; subst v e.
    rewrite (C2 ch it) by (rewrite Q; left; reflexivity). eexists. split; [reflexivity|]. split; [discriminate|]. split; [reflexivity|].
    intros c. cbn. split; [intros y; auto|]. unfold upd1. destruct (Nat.eqb_spec c ch); [subst; rewrite Q; intros y Y; right; exact Y|intros y; auto].
  - pose proof (recv_try_spec s ch (c_sendq s ch)) as P. destruct (first_live s (c_sendq s ch)) as [it|] eqn:F; [|discriminate].
    inversion N; subst v e. destruct P as (r & I & E). eexists. split; [exact E|].
    split; [apply (C1 ch), (first_live_in s), F|]. split; [reflexivity|]. intros c. cbn. split; [|intros y; auto].
    unfold upd1. destruct (Nat.eqb_spec c ch); [subst; exact I|intros y; auto].
Qed.

Lemma veqb_false : forall v, v <> VFalse -> veqb v VFalse = false.
Proof. intros v H. destruct v; try reflexivity. contradiction. Qed.

Lemma tries_some : forall l s, Forall basic l -> clean s -> (exists o, In o l /\ offers s o <> None) ->
  exists o v e s', In o l /\ offers s o = Some (v, e) /\ tries l s = (op_wrap o v, s') /\ c_events s' = c_events s ++ [e] /\
    forall ch, incl (c_sendq s' ch) (c_sendq s ch) /\ incl (c_recvq s' ch) (c_recvq s ch).
Proof.
  induction l as [|o r IH]; intros s B C (o' & I & N); [contradiction|]. inversion B; subst. cbn [tries].
  destruct (offers s o) as [[v e]|] eqn:F.
  - destruct (try_some s o v e H1 C F) as (s' & E & NF & EV & Q). exists o, v, e, s'. rewrite E, (veqb_false v NF).
    split; [left; reflexivity|]. auto.
  - destruct (try_none s o H1 F) as (s1 & E & P). rewrite E. cbn [veqb].
    destruct (IH s1 H2 (pruned_clean _ _ P C)) as (o2 & v & e & s' & I2 & O2 & T & EV & Q).
    { exists o'. destruct I as [<-|I]; [congruence|]. rewrite (pruned_offers s s1 o' P). auto. }
    exists o2, v, e, s'. rewrite (pruned_offers s s1 o2 P) in O2. split; [right; exact I2|]. split; [exact O2|]. split; [exact T|].
    destruct P as (PR & PD & PE & PS). rewrite PE in EV. split; [exact EV|]. intros ch. destruct (Q ch) as [Q1 Q2]. rewrite PR in Q2. split; [|exact Q2].
    destruct (PS ch) as [W|[W _]]; rewrite W in Q1; [exact Q1|]. intros y Y. destruct (Q1 y Y).
Qed.
Lemma tries_none : forall l s, Forall basic l -> (forall o, In o l -> offers s o = None) ->
  exists s', tries l s = (VFalse, s') /\ pruned s s'.
Proof.
  induction l as [|o r IH]; intros s B N; [exists s; split; [reflexivity|apply pruned_refl]|]. inversion B; subst. cbn [tries].
  destruct (try_none s o H1 (N o (or_introl eq_refl))) as (s1 & E & P). rewrite E. cbn [veqb].
  destruct (IH s1 H2) as (s' & T & P'). { intros o' I. rewrite (pruned_offers s s1 o' P). apply N. right. exact I. }
  exists s'. split; [exact T|exact (pruned_trans _ _ _ P P')].
Qed.

(** A choice with an alternative that is ready goes on at once, with the value
    of an alternative that is ready, and its partner goes on too; it leaves
    nobody waiting who did not wait before. *)
Theorem choice_commits : forall coin k0 ops w k s, small ops -> Forall basic ops -> (forall v, w v <> VFalse) -> clean s ->
  (exists o, In o ops /\ offers s o <> None) ->
  exists ops' k' o v e, shuffle coin ops k0 = Some (ops', k') /\ In o ops /\ offers s o = Some (v, e) /\
    c_events (perform k (OChoice ops' w) s) = c_events s ++ [e; (k, w (op_wrap o v))] /\
    forall o' j, waits (perform k (OChoice ops' w) s) o' j -> waits s o' j.
Proof.
  intros coin k0 ops w k s SM B W C (o & I & N). destruct (shuffle_permutation op coin ops k0 SM) as (ops' & k' & E & P).
  assert (B' : Forall basic ops') by (rewrite <- P; exact B).
  destruct (tries_some ops' s B' C) as (o2 & v & e & s' & I2 & O2 & T & EV & Q).
  { exists o. split; [apply (Permutation_in _ P I)|exact N]. }
  exists ops', k', o2, v, e. split; [exact E|]. split; [apply (Permutation_in _ (Permutation_sym P) I2)|]. split; [exact O2|].
  assert (NF : op_wrap o2 v <> VFalse). { rewrite Forall_forall in B'. specialize (B' o2 I2). destruct o2; [apply B'|apply B'|contradiction]. }
  unfold perform. change (op_try (OChoice ops' w) s) with (tries ops' s). rewrite T, (veqb_false _ NF). cbn [op_wrap c_events].
  split; [rewrite EV, <- app_assoc; reflexivity|].
  intros o' j WW. destruct o'; cbn [waits c_sendq c_recvq] in *; [| |contradiction];
    apply in_map_iff in WW; destruct WW as (it & <- & II); apply in_map; apply (Q ch); exact II.
Qed.

Lemma block_waits : forall o k w s o' j, basic o -> waits s o' j -> waits (op_block o k w s) o' j.
Proof.
  intros o k w s o' j B H. destruct o; [| |contradiction]; cbn [op_block]; destruct o'; cbn in *; try contradiction; try exact H;
    unfold upd1; destruct (Nat.eqb_spec ch0 ch); try exact H; subst; rewrite map_app; apply in_or_app; auto.
Qed.
Lemma block_self : forall o k w s, basic o -> waits (op_block o k w s) o k.
Proof.
  intros o k w s B. destruct o; [| |contradiction]; cbn; unfold upd1; rewrite Nat.eqb_refl, map_app; apply in_or_app; right; left; reflexivity.
Qed.
Lemma blocks_waits : forall l k w s, Forall basic l -> (forall o j, waits s o j -> waits (blocks k w l s) o j) /\
  (forall o, In o l -> waits (blocks k w l s) o k) /\ c_events (blocks k w l s) = c_events s.
Proof.
  induction l as [|o r IH]; intros k w s B; [split; [auto|split; [intros o []|reflexivity]]|]. inversion B; subst. cbn [blocks].
  destruct (IH k w (op_block o k (fun v => w (op_wrap o v)) s) H2) as (K1 & K2 & K3). split; [|split].
  - intros o' j H. apply K1. apply block_waits; assumption.
  - intros o' [<-|I]; [apply K1, block_self; exact H1|apply K2; exact I].
  - rewrite K3. destruct o; [reflexivity|reflexivity|contradiction].
Qed.
(** When no alternative is ready, nothing happens and the coroutine waits for
    each of them; nobody whose turn can still come is dropped. *)
Theorem choice_waits : forall coin k0 ops w k s, small ops -> Forall basic ops -> clean s ->
  (forall o, In o ops -> offers s o = None) ->
  exists ops' k', shuffle coin ops k0 = Some (ops', k') /\
    c_events (perform k (OChoice ops' w) s) = c_events s /\
    (forall o, In o ops -> waits (perform k (OChoice ops' w) s) o k) /\
    (forall ch it, In it (c_recvq s ch) -> In (r_k it) (List.map r_k (c_recvq (perform k (OChoice ops' w) s) ch))) /\
    (forall ch it, In it (c_sendq s ch) -> c_done s (s_state it) = false -> In (s_k it) (List.map s_k (c_sendq (perform k (OChoice ops' w) s) ch))).
Proof.
  intros coin k0 ops w k s SM B C N. destruct (shuffle_permutation op coin ops k0 SM) as (ops' & k' & E & P).
  assert (B' : Forall basic ops') by (rewrite <- P; exact B).
  destruct (tries_none ops' s B') as (s' & T & PR). { intros o I. apply N. apply (Permutation_in _ (Permutation_sym P) I). }
  exists ops', k'. split; [exact E|]. unfold perform. change (op_try (OChoice ops' w) s) with (tries ops' s). rewrite T. cbn [veqb].
  change (op_block (OChoice ops' w) k (op_wrap (OChoice ops' w)) s') with (blocks k w ops' s').
  destruct (blocks_waits ops' k w s' B') as (K1 & K2 & K3). destruct PR as (PR & PD & PE & PS).
  split; [rewrite K3; exact PE|]. split; [intros o I; apply K2, (Permutation_in _ P I)|]. split.
  - intros ch it I. apply (K1 (ORecv ch (fun v => v))). cbn. rewrite PR. apply in_map. exact I.
  - intros ch it I D. apply (K1 (OSend ch VNil (fun v => v))). cbn. destruct (PS ch) as [Q|[_ F]]; [rewrite Q; apply in_map; exact I|].
    exfalso. revert F. clear -I D. induction (c_sendq s ch) as [|x r IH]; [contradiction|]. cbn. destruct I as [<-|I]; [rewrite D; discriminate|].
    destruct (c_done s (s_state x)); [exact (IH I)|discriminate].
Qed.

(** * No queue ever holds somebody who has been served *)
Record fresh (s : cstate) (home : nat -> nat * bool) : Prop := mkFresh {
  f_s : forall ch it, In it (c_sendq s ch) -> c_done s (s_state it) = false /\ s_state it < c_gensym s /\ home (s_state it) = (ch, true);
  f_r : forall ch it, In it (c_recvq s ch) -> c_done s (r_state it) = false /\ r_state it < c_gensym s /\ home (r_state it) = (ch, false);
  f_ns : forall ch, NoDup (List.map s_state (c_sendq s ch));
  f_nr : forall ch, NoDup (List.map r_state (c_recvq s ch)) }.

Lemma fresh_events : forall s home ev, fresh s home -> fresh (mkC (c_sendq s) (c_recvq s) (c_done s) (c_gensym s) ev) home.
Proof. intros s home ev [A B C D]. constructor; assumption. Qed.
Lemma nodup_snoc' : forall A (l : list A) x, NoDup l -> ~ In x l -> NoDup (l ++ [x]).
Proof.
  intros A l x N I. apply NoDup_rev in N. rewrite <- (rev_involutive (l ++ [x])). apply NoDup_rev. rewrite rev_app_distr. cbn.
  constructor; [rewrite <- in_rev; exact I|exact N].
Qed.
Lemma upd1_eq : forall A (f : nat -> A) i x j, upd1 f i x j = if Nat.eqb j i then x else f j.
Proof. reflexivity. Qed.

(** A new item gets a state nobody has. *)
Definition leaf (o : op) : Prop := match o with OChoice _ _ => False | _ => True end.
Lemma fresh_block : forall o k w s home, leaf o -> fresh s home -> exists home', fresh (op_block o k w s) home'.
Proof.
  intros o k w s home B [A C D E]. destruct o; [| |contradiction]; cbn [op_block]; unfold send_block, recv_block.
  - exists (upd1 home (c_gensym s) (ch, true)). constructor; cbn [c_sendq c_recvq c_done c_gensym].
    + intros c it I. rewrite !upd1_eq in *. destruct (Nat.eqb_spec c ch).
      * subst. apply in_app_or in I. destruct I as [I|[<-|[]]].
        -- destruct (A ch it I) as (I1 & I2 & I3). destruct (Nat.eqb_spec (s_state it) (c_gensym s)); [lia|]. auto.
        -- cbn. rewrite Nat.eqb_refl. auto.
      * destruct (A c it I) as (I1 & I2 & I3). destruct (Nat.eqb_spec (s_state it) (c_gensym s)); [lia|]. auto.
    + intros c it I. destruct (C c it I) as (I1 & I2 & I3). rewrite !upd1_eq. destruct (Nat.eqb_spec (r_state it) (c_gensym s)); [lia|]. auto.
    + intros c. rewrite upd1_eq. destruct (Nat.eqb_spec c ch); [|apply D]. subst. rewrite map_app. apply nodup_snoc'; [apply D|].
      intro I. apply in_map_iff in I. destruct I as (it & Q & I). cbn in Q. destruct (A ch it I) as (_ & I2 & _). lia.
    + exact E.
  - exists (upd1 home (c_gensym s) (ch, false)). constructor; cbn [c_sendq c_recvq c_done c_gensym].
    + intros c it I. destruct (A c it I) as (I1 & I2 & I3). rewrite !upd1_eq. destruct (Nat.eqb_spec (s_state it) (c_gensym s)); [lia|]. auto.
    + intros c it I. rewrite !upd1_eq in *. destruct (Nat.eqb_spec c ch).
      * subst. apply in_app_or in I. destruct I as [I|[<-|[]]].
        -- destruct (C ch it I) as (I1 & I2 & I3). destruct (Nat.eqb_spec (r_state it) (c_gensym s)); [lia|]. auto.
        -- cbn. rewrite Nat.eqb_refl. auto.
      * destruct (C c it I) as (I1 & I2 & I3). destruct (Nat.eqb_spec (r_state it) (c_gensym s)); [lia|]. auto.
    + exact D.
    + intros c. rewrite upd1_eq. destruct (Nat.eqb_spec c ch); [|apply E]. subst. rewrite map_app. apply nodup_snoc'; [apply E|].
      intro I. apply in_map_iff in I. destruct I as (it & Q & I). cbn in Q. destruct (C ch it I) as (_ & I2 & _). lia.
Qed.
(** Who is served leaves the queue. *)
Lemma fresh_try : forall o s home, leaf o -> fresh s home -> fresh (snd (op_try o s)) home.
Proof.
  intros o s home B [A C D E]. destruct o; [| |contradiction]; cbn [op_try].
  - unfold send_try. destruct (c_recvq s ch) as [|it r] eqn:Q; [constructor; assumption|].
    destruct (C ch it) as (I1 & I2 & I3); [rewrite Q; left; reflexivity|]. rewrite I1.
    pose proof (E ch) as N. rewrite Q in N. cbn in N. inversion N; subst. cbn [snd resume_task].
    constructor; cbn [c_sendq c_recvq c_done c_gensym resume_task].
    + intros c i I. destruct (A c i I) as (K1 & K2 & K3). rewrite upd1_eq. destruct (Nat.eqb_spec (s_state i) (r_state it)); [congruence|auto].
    + intros c i I. rewrite upd1_eq in I. rewrite upd1_eq. destruct (Nat.eqb_spec c ch).
      * subst. destruct (C ch i) as (K1 & K2 & K3); [rewrite Q; right; exact I|]. destruct (Nat.eqb_spec (r_state i) (r_state it)); [|auto].
        exfalso. apply H1. rewrite <- e. apply in_map. exact I.
      * destruct (C c i I) as (K1 & K2 & K3). destruct (Nat.eqb_spec (r_state i) (r_state it)); [congruence|auto].
    + exact D.
    + intros c. rewrite upd1_eq. destruct (Nat.eqb_spec c ch); [exact H2|apply E].
  - destruct (c_sendq s ch) as [|it r] eqn:Q; cbn [recv_try snd].
    + constructor; cbn; try assumption.
      * intros c i I. rewrite upd1_eq in I. destruct (Nat.eqb_spec c ch); [contradiction|auto].
      * intros c. rewrite upd1_eq. destruct (Nat.eqb_spec c ch); [constructor|apply D].
    + destruct (A ch it) as (I1 & I2 & I3); [rewrite Q; left; reflexivity|]. rewrite I1. cbn [snd].
      pose proof (D ch) as N. rewrite Q in N. cbn in N. inversion N; subst.
      constructor; cbn [c_sendq c_recvq c_done c_gensym resume_task].
      * intros c i I. rewrite upd1_eq in I. rewrite upd1_eq. destruct (Nat.eqb_spec c ch).
        -- subst. destruct (A ch i) as (K1 & K2 & K3); [rewrite Q; right; exact I|]. destruct (Nat.eqb_spec (s_state i) (s_state it)); [|auto].
           exfalso. apply H1. rewrite <- e. apply in_map. exact I.
        -- destruct (A c i I) as (K1 & K2 & K3). destruct (Nat.eqb_spec (s_state i) (s_state it)); [congruence|auto].
      * intros c i I. destruct (C c i I) as (K1 & K2 & K3). rewrite upd1_eq. destruct (Nat.eqb_spec (r_state i) (s_state it)); [congruence|auto].
      * intros c. rewrite upd1_eq. destruct (Nat.eqb_spec c ch); [exact H2|apply D].
      * exact E.
Qed.
Section OpInd.
  Variable P : op -> Prop.
  Hypothesis HL : forall o, leaf o -> P o.
  Hypothesis HC : forall l w, Forall P l -> P (OChoice l w).
  Fixpoint op_nested (o : op) : P o :=
    match o with
    | OChoice l w => HC l w ((fix go (l : list op) : Forall P l :=
        match l with [] => Forall_nil _ | o :: r => Forall_cons _ (op_nested o) (go r) end) l)
    | OSend ch v w => HL (OSend ch v w) I
    | ORecv ch w => HL (ORecv ch w) I
    end.
End OpInd.

Lemma fresh_try_all : forall o s home, fresh s home -> fresh (snd (op_try o s)) home.
Proof.
  apply (op_nested (fun o => forall s home, fresh s home -> fresh (snd (op_try o s)) home)).
  - intros o L s home F. apply fresh_try; assumption.
  - intros l w F s home. change (op_try (OChoice l w) s) with (tries l s). revert s.
    induction F as [|o r Ho Hr IH]; intros s H; [exact H|]. cbn [tries]. specialize (Ho s home H). destruct (op_try o s) as [v s1].
    destruct (veqb v VFalse); [apply IH; exact Ho|exact Ho].
Qed.
Lemma fresh_block_all : forall o k w s home, fresh s home -> exists home', fresh (op_block o k w s) home'.
Proof.
  apply (op_nested (fun o => forall k w s home, fresh s home -> exists home', fresh (op_block o k w s) home')).
  - intros o L k w s home F. eapply fresh_block; eassumption.
  - intros l w0 F k w s home. change (op_block (OChoice l w0) k w s) with (blocks k w l s). revert s home.
    induction F as [|o r Ho Hr IH]; intros s home H; [exists home; exact H|]. cbn [blocks].
    destruct (Ho k (fun v => w (op_wrap o v)) s home H) as [h1 H1]. exact (IH _ _ H1).
Qed.
Lemma fresh_perform : forall k o s home, fresh s home -> exists home', fresh (perform k o s) home'.
Proof.
  intros k o s home F. unfold perform. pose proof (fresh_try_all o s home F) as T. destruct (op_try o s) as [v s1]. cbn in T.
  destruct (veqb v VFalse); [eapply fresh_block_all; exact T|]. exists home. exact (fresh_events s1 home _ T).
Qed.
(** Whatever was performed before, choices included, no queue holds a sender or
    receiver that has been served: the path of send-try and recv-try for such
    items, which is wrong in send-try, is never taken. *)
Theorem queues_never_stale : forall h ch,
  (forall it, In it (c_sendq (perform_all 0 h chan_init) ch) -> c_done (perform_all 0 h chan_init) (s_state it) = false) /\
  (forall it, In it (c_recvq (perform_all 0 h chan_init) ch) -> c_done (perform_all 0 h chan_init) (r_state it) = false).
Proof.
  intros h ch. assert (G : forall h k s home, fresh s home -> exists home', fresh (perform_all k h s) home').
  { induction h0 as [|o r IH]; intros k s home F; [exists home; exact F|]. cbn. destruct (fresh_perform k o s home F) as [h1 F1]. exact (IH _ _ _ F1). }
  destruct (G h 0 chan_init (fun _ => (0, true))) as [home [A B _ _]]; [constructor; cbn; intros; try contradiction; constructor|].
  split; intros it I; [apply (A ch it I)|apply (B ch it I)].
Qed.

(** The values sent. *)
Fixpoint sends_false (o : op) : Prop :=
  match o with
  | OSend _ v _ => v = VFalse
  | ORecv _ _ => False
  | OChoice l _ => (fix any (l : list op) : Prop := match l with [] => False | o :: r => sends_false o \/ any r end) l
  end.
Definition queued_true (s : cstate) : Prop := forall ch it, In it (c_sendq s ch) -> s_val it <> VFalse.
Lemma queued_try : forall o s, queued_true s -> queued_true (snd (op_try o s)).
Proof.
  apply (op_nested (fun o => forall s, queued_true s -> queued_true (snd (op_try o s)))).
  - intros o L s Q. destruct o; [| |contradiction]; cbn [op_try].
    + unfold send_try. destruct (c_recvq s ch) as [|it r]; [exact Q|]. destruct (c_done s (r_state it)); exact Q.
    + pose proof (recv_try_spec s ch (c_sendq s ch)) as P. destruct (first_live s (c_sendq s ch)).
      * destruct P as (r & I & ->). intros c it. cbn. rewrite upd1_eq. destruct (Nat.eqb_spec c ch); [subst; intros J; apply (Q ch), I, J|apply Q].
      * rewrite P. intros c it. cbn. rewrite upd1_eq. destruct (Nat.eqb_spec c ch); [intros []|apply Q].
  - intros l w F s. change (op_try (OChoice l w) s) with (tries l s). revert s.
    induction F as [|o r Ho Hr IH]; intros s H; [exact H|]. cbn [tries]. specialize (Ho s H). destruct (op_try o s) as [v s1].
    destruct (veqb v VFalse); [apply IH; exact Ho|exact Ho].
Qed.
Lemma queued_block : forall o k w s, ~ sends_false o -> queued_true s -> queued_true (op_block o k w s).
Proof.
  apply (op_nested (fun o => forall k w s, ~ sends_false o -> queued_true s -> queued_true (op_block o k w s))).
  - intros o L k w s N Q. destruct o; [| |contradiction]; [|exact Q]. intros c it. cbn. rewrite upd1_eq.
    destruct (Nat.eqb_spec c ch); [|apply Q]. subst. intros J. apply in_app_or in J. destruct J as [J|[<-|[]]]; [apply (Q ch it J)|exact N].
  - intros l w0 F k w s. change (op_block (OChoice l w0) k w s) with (blocks k w l s). revert s.
    induction F as [|o r Ho Hr IH]; intros s N Q; [exact Q|]. cbn [blocks]. apply IH; [intro X; apply N; right; exact X|].
    apply Ho; [intro X; apply N; left; exact X|exact Q].
Qed.
(** So the states in which the theorems about choice apply are all those that
    a program reaches in which nobody sends false. *)
Theorem reached_clean : forall h, (forall o, In o h -> ~ sends_false o) -> clean (perform_all 0 h chan_init).
Proof.
  intros h N. split; [|intros ch it I; apply (queues_never_stale h ch), I].
  assert (G : forall h k s, (forall o, In o h -> ~ sends_false o) -> queued_true s -> queued_true (perform_all k h s)).
  { induction h0 as [|o r IH]; intros k s N0 Q; [exact Q|]. cbn. apply IH; [intros; apply N0; right; assumption|].
    unfold perform. pose proof (queued_try o s Q) as T. destruct (op_try o s) as [v s1]. cbn in T. destruct (veqb v VFalse); [|exact T].
    apply queued_block; [apply N0; left; reflexivity|exact T]. }
  apply G; [exact N|]. intros ch it [].
Qed.

Example choice_state : cstate := perform_all 0 [OSend 0 (VNum 6) (fun v => v); ORecv 1 (fun v => VCons v VNil)] chan_init.
Example choice_ops : list op := [ORecv 2 (fun v => VCons v VNil); ORecv 0 (fun v => VCons v v); OSend 1 (VNum 3) (fun _ => VNum 9)].
Example choice_used : Forall basic choice_ops /\ clean choice_state /\ small choice_ops /\
  List.map (offers choice_state) choice_ops = [None; Some (VNum 6, (0, VNil)); Some (VNil, (1, VCons (VNum 3) VNil))] /\
  (forall o, In o [ORecv 2 (fun v : val => v); OSend 0 VNil (fun v => v)] -> offers choice_state o = None).
Proof.
  split; [repeat constructor; discriminate|]. split.
  - split; intros ch it I; destruct ch as [|[|ch]]; cbn in I; try contradiction; destruct I as [<-|[]]; first [discriminate|reflexivity].
  - split; [vm_compute; reflexivity|]. split; [reflexivity|]. intros o [<-|[<-|[]]]; reflexivity.
Qed.
Example shuffle_used : shuffle (fun k => Nat.even k) [1; 2; 3; 4; 5] 0 = Some ([3; 1; 2; 5; 4], 8).
Proof. vm_compute. reflexivity. Qed.

Print Assumptions shuffle_rounds.
Print Assumptions shuffle_permutation.
Print Assumptions shuffle_any_first.
Print Assumptions shuffle_all_orders_refuted.
Print Assumptions choice_commits.
Print Assumptions choice_waits.
Print Assumptions queues_never_stale.
Print Assumptions reached_clean.
