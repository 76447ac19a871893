(** Lemmas for the list, queue and hash library. *)
From Coq Require Import List ZArith NArith Bool Lia.
From Verif Require Import Base ListLib LibModel.
Import ListNotations.
Local Open Scope Z_scope.
Local Open Scope out_scope.

(** ** specification vocabulary *)

(** The proper list with the given elements. *)
Definition of_list (xs : list val) : val := fold_right VCons VNil xs.

Lemma bytes_eqb_eq : forall a b, bytes_eqb a b = true <-> a = b.
Proof. intros. unfold bytes_eqb. destruct (list_eq_dec N.eq_dec a b); intuition congruence. Qed.

Lemma veqb_eq : forall a b, veqb a b = true <-> a = b.
Proof.
  induction a; destruct b; cbn; try (split; congruence); try (split; auto; fail).
  - rewrite Z.eqb_eq. split; congruence.
  - rewrite bytes_eqb_eq. split; congruence.
  - rewrite bytes_eqb_eq. split; congruence.
  - rewrite andb_true_iff, IHa1, IHa2. split; [intros [? ?]|intro E; inversion E]; subst; auto.
  - rewrite Nat.eqb_eq. split; congruence.
Qed.

Lemma veqb_refl : forall a, veqb a a = true.
Proof. intro. now apply veqb_eq. Qed.

Lemma veqb_neq : forall a b, a <> b -> veqb a b = false.
Proof. intros a b H. destruct (veqb a b) eqn:E; auto. apply veqb_eq in E. congruence. Qed.

Definition val_eq_dec : forall a b : val, {a = b} + {a <> b}.
Proof. intros a b. destruct (veqb a b) eqn:E; [left|right]; [now apply veqb_eq|intros ->; now rewrite veqb_refl in E]. Defined.

Lemma of_list_inj : forall xs ys, of_list xs = of_list ys -> xs = ys.
Proof. induction xs; destruct ys; cbn; intro H; inversion H; auto. f_equal; auto. Qed.

Lemma reverse_h_spec : forall xs res, reverse_h (of_list xs) (of_list res) = of_list (rev xs ++ res).
Proof.
  induction xs as [|x xs IH]; intros; cbn; auto.
  change (VCons x (of_list res)) with (of_list (x :: res)). rewrite IH, <- app_assoc. reflexivity.
Qed.

Lemma reverse_spec : forall xs, reverse (of_list xs) = of_list (rev xs).
Proof. intros. unfold reverse. change VNil with (of_list []). now rewrite reverse_h_spec, app_nil_r. Qed.

(** Calling an effectful function on each element, first to last. *)
Inductive calls {St} (f : fn St) : list val -> St -> list val -> St -> Prop :=
| calls_nil : forall s, calls f [] s [] s
| calls_cons : forall x xs s v s1 vs s2,
    f x s = Ok (v, s1) -> calls f xs s1 vs s2 -> calls f (x :: xs) s (v :: vs) s2.

Lemma map_h_spec : forall St (f : fn St) xs s ys s' res,
  calls f xs s ys s' -> map_h f (of_list xs) (of_list res) s = Ok (of_list (rev res ++ ys), s').
Proof.
  intros St f xs s ys s' res H. revert res. induction H; intros.
  - cbn. now rewrite reverse_spec, app_nil_r.
  - cbn [of_list fold_right map_h]. rewrite H. cbn [obind].
    change (VCons v (of_list res)) with (of_list (v :: res)).
    fold (of_list xs). rewrite IHcalls. cbn [rev]. now rewrite <- app_assoc.
Qed.

Lemma map_h_conv : forall St (f : fn St) xs s r s' res,
  map_h f (of_list xs) (of_list res) s = Ok (r, s') ->
  exists ys, calls f xs s ys s' /\ r = of_list (rev res ++ ys).
Proof.
  intros St f. induction xs as [|x xs IH]; intros s r s' res H.
  - cbn in H. apply Ok_inj in H. injection H as <- <-. exists []. split; [constructor|].
    now rewrite reverse_spec, app_nil_r.
  - cbn [of_list fold_right map_h] in H. destruct (f x s) as [[v s1]| |] eqn:E; try discriminate.
    cbn [obind] in H. change (VCons v (of_list res)) with (of_list (v :: res)) in H.
    fold (of_list xs) in H. apply IH in H as (ys & C & ->). exists (v :: ys). split.
    + econstructor; eauto.
    + cbn [rev]. now rewrite <- app_assoc.
Qed.

Fixpoint select (xs vs : list val) : list val :=
  match xs, vs with
  | x :: xs', VTrue :: vs' => x :: select xs' vs'
  | _ :: xs', _ :: vs' => select xs' vs'
  | _, _ => []
  end.

Lemma filter_h_spec : forall St (f : fn St) xs s vs s' res,
  calls f xs s vs s' -> filter_h f (of_list xs) (of_list res) s = Ok (of_list (rev res ++ select xs vs), s').
Proof.
  intros St f xs s vs s' res H. revert res. induction H; intros.
  - cbn. now rewrite reverse_spec, app_nil_r.
  - cbn [of_list fold_right filter_h]. rewrite H. cbn [obind].
    change (VCons x (of_list res)) with (of_list (x :: res)).
    fold (of_list xs). destruct v; cbn [is_true]; rewrite IHcalls; cbn [select]; auto.
    cbn [rev]. now rewrite <- app_assoc.
Qed.

Lemma length_h_spec : forall xs i, length_h i (of_list xs) = Ok (i + Z.of_nat (List.length xs)).
Proof.
  induction xs as [|x xs IH]; intros.
  - cbn. f_equal. lia.
  - cbn [of_list fold_right length_h List.length]. fold (of_list xs). rewrite IH. f_equal. lia.
Qed.

Lemma append_spec : forall xs l, append (of_list xs) l = Ok (fold_right VCons l xs).
Proof.
  induction xs as [|x xs IH]; intros; auto.
  cbn [of_list fold_right append]. fold (of_list xs). now rewrite IH.
Qed.

Lemma elem_spec : forall x xs, elem x (of_list xs) = true <-> In x xs.
Proof.
  intros x. induction xs as [|y xs IH]; [cbn; intuition congruence|].
  cbn [of_list fold_right elem]. fold (of_list xs). destruct (veqb y x) eqn:E.
  - apply veqb_eq in E. cbn. tauto.
  - rewrite IH. cbn. split; auto. intros [->|H]; auto. rewrite veqb_refl in E. discriminate.
Qed.

(** ** association lists *)
Definition pair_val (p : val * val) : val := VCons (fst p) (snd p).
Definition of_alist (al : list (val * val)) : val := of_list (List.map pair_val al).

Fixpoint lookup (k : val) (al : list (val * val)) : option val :=
  match al with
  | [] => None
  | (k', v) :: r => if val_eq_dec k k' then Some v else lookup k r
  end.

Definition entry (k : val) (o : option val) : val :=
  match o with Some v => VCons k v | None => VNil end.

Lemma assq_spec : forall k al, assq k (of_alist al) = Ok (entry k (lookup k al)).
Proof.
  intros k. unfold of_alist. induction al as [|[k' v] al IH]; auto.
  cbn [List.map of_list fold_right pair_val fst snd assq lookup]. fold (of_list (List.map pair_val al)).
  destruct (val_eq_dec k k') as [->|Hn]; [now rewrite veqb_refl|rewrite veqb_neq by auto]. exact IH.
Qed.

Lemma assoc_spec : forall k al, assoc k (of_alist al) = Ok (entry k (lookup k al)).
Proof.
  intros k. unfold of_alist. induction al as [|[k' v] al IH]; auto.
  cbn [List.map of_list fold_right pair_val fst snd assoc lookup]. fold (of_list (List.map pair_val al)).
  destruct (val_eq_dec k k') as [->|Hn]; [now rewrite veqb_refl|rewrite veqb_neq by auto]. exact IH.
Qed.

Fixpoint aset (k v : val) (al : list (val * val)) : list (val * val) :=
  match al with
  | [] => [(k, v)]
  | (k', w) :: r => if val_eq_dec k k' then (k, v) :: r else (k', w) :: aset k v r
  end.

Lemma assoc_set_spec : forall k v al, assoc_set k v (of_alist al) = Ok (of_alist (aset k v al)).
Proof.
  intros k v. unfold of_alist. induction al as [|[k' w] al IH]; auto.
  cbn [List.map of_list fold_right pair_val fst snd assoc_set aset]. fold (of_list (List.map pair_val al)).
  destruct (val_eq_dec k k') as [->|Hn]; [now rewrite veqb_refl|rewrite veqb_neq by auto].
  rewrite IH. reflexivity.
Qed.

Lemma lookup_aset : forall k v al k',
  lookup k' (aset k v al) = if val_eq_dec k' k then Some v else lookup k' al.
Proof.
  intros k v. induction al as [|[k1 w] al IH]; intro k'; cbn.
  - destruct (val_eq_dec k' k); auto.
  - destruct (val_eq_dec k k1) as [<-|]; cbn.
    + destruct (val_eq_dec k' k); auto.
    + rewrite IH. destruct (val_eq_dec k' k1), (val_eq_dec k' k); auto. congruence.
Qed.

Lemma lookup_in : forall k al, lookup k al <> None <-> In k (List.map fst al).
Proof.
  intros k. induction al as [|[k' v] al IH]; cbn; [tauto|].
  destruct (val_eq_dec k k') as [->|]; [intuition congruence|]. rewrite IH. intuition congruence.
Qed.

Lemma keys_aset : forall k v al,
  List.map fst (aset k v al) =
  if in_dec val_eq_dec k (List.map fst al) then List.map fst al else List.map fst al ++ [k].
Proof.
  intros k v. induction al as [|[k1 w] al IH]; auto. cbn [aset].
  destruct (val_eq_dec k k1) as [<-|Hn].
  - cbn [List.map fst]. destruct (in_dec val_eq_dec k (k :: List.map fst al)) as [|H]; auto. elim H. now left.
  - cbn [List.map fst]. rewrite IH.
    destruct (in_dec val_eq_dec k (List.map fst al)) as [Hi|Hi];
      destruct (in_dec val_eq_dec k (k1 :: List.map fst al)) as [Hj|Hj]; cbn; auto.
    + elim Hj. now right.
    + destruct Hj; congruence.
Qed.

(** ** vectors *)
Lemma vref_nth : forall v i x, nth_error v i = Some x -> vref v (Z.of_nat i) = Ok x.
Proof.
  intros v i x H. unfold vref.
  assert (i < List.length v)%nat by (apply nth_error_Some; congruence).
  destruct (Z.leb_spec 0 (Z.of_nat i)), (Z.ltb_spec (Z.of_nat i) (Z.of_nat (List.length v))); try lia. cbn.
  rewrite Nat2Z.id. f_equal. erewrite nth_error_nth; eauto.
Qed.

Lemma vset_ok : forall v i x, (i < List.length v)%nat -> vset v (Z.of_nat i) x = Ok (upd v i x).
Proof.
  intros v i x H. unfold vset.
  destruct (Z.leb_spec 0 (Z.of_nat i)), (Z.ltb_spec (Z.of_nat i) (Z.of_nat (List.length v))); try lia. cbn.
  now rewrite Nat2Z.id.
Qed.

Lemma upd_length : forall v i x, List.length (upd v i x) = List.length v.
Proof. induction v; destruct i; cbn; auto. Qed.

Lemma nth_upd : forall v i x j, (i < List.length v)%nat ->
  nth_error (upd v i x) j = if Nat.eqb i j then Some x else nth_error v j.
Proof.
  induction v as [|y v IH]; intros [|i] x [|j] H; cbn in *; try lia; auto.
  apply IH. lia.
Qed.

(** ** queue *)
Definition queue_rep (q : list val) (xs : list val) : Prop :=
  exists front back, q = [of_list front; of_list back; VNum (Z.of_nat (List.length xs))]
    /\ xs = back ++ rev front.

Lemma queue_make_rep : queue_rep queue_make [].
Proof. now exists [], []. Qed.

Lemma enqueue_rep : forall q xs x, queue_rep q xs ->
  exists q', enqueue q x = Ok q' /\ queue_rep q' (xs ++ [x]).
Proof.
  intros q xs x (front & back & -> & E). eexists. split; [reflexivity|].
  exists (x :: front), back. split.
  - rewrite app_length. cbn [List.length]. rewrite Nat2Z.inj_add. reflexivity.
  - subst. cbn. now rewrite app_assoc.
Qed.

Lemma dequeue_rep : forall q x xs, queue_rep q (x :: xs) ->
  exists q', dequeue q = Ok (x, q') /\ queue_rep q' xs.
Proof.
  intros q x xs (front & back & -> & E).
  unfold dequeue.
  change (vref [of_list front; of_list back; VNum (Z.of_nat (List.length (x :: xs)))] 2) with (Ok (VNum (Z.of_nat (List.length (x :: xs))))). cbn [obind num].
  set (n := Z.of_nat (List.length (x :: xs))).
  assert (Hn : n - 1 = Z.of_nat (List.length xs)) by (subst n; cbn [List.length]; lia).
  destruct (Z.ltb_spec 0 n) as [_|]; [|lia].
  change (vset [of_list front; of_list back; VNum n] 2 (VNum (n - 1)))
    with (Ok [of_list front; of_list back; VNum (n - 1)]). cbn [obind].
  change (vref [of_list front; of_list back; VNum (n - 1)] 1) with (Ok (of_list back)). cbn [obind].
  destruct back as [|b back].
  - cbn [of_list fold_right veqb].
    change (vref [of_list front; VNil; VNum (n - 1)] 0) with (Ok (of_list front)). cbn [obind].
    rewrite reverse_spec. change (rev front) with ([] ++ rev front). rewrite <- E.
    eexists. split; [reflexivity|]. exists [], xs. split.
    + rewrite <- Hn. reflexivity.
    + cbn. now rewrite app_nil_r.
  - cbn [app] in E. injection E as -> E.
    change (veqb (of_list (b :: back)) VNil) with false. cbn [obind].
    eexists. split; [reflexivity|]. exists front, back. split; auto.
    rewrite <- Hn. reflexivity.
Qed.

Lemma dequeue_empty : forall q, queue_rep q [] -> dequeue q = UB.
Proof.
  intros q (front & back & -> & E). destruct back; [|discriminate]. destruct front; [|].
  - reflexivity.
  - cbn in E. destruct (rev front); discriminate.
Qed.

Lemma queue_empty_rep : forall q xs, queue_rep q xs ->
  queue_empty q = Ok (match xs with [] => true | _ => false end).
Proof.
  intros q xs (front & back & -> & ->). unfold queue_empty.
  change (vref _ 0) with (Ok (of_list front)). change (vref _ 1) with (Ok (of_list back)). cbn [obind].
  destruct back; [|cbn; now rewrite andb_false_r].
  destruct front; auto. cbn. destruct (rev front); auto.
Qed.

Lemma queue_len_rep : forall q xs, queue_rep q xs -> queue_len q = Ok (VNum (Z.of_nat (List.length xs))).
Proof. intros q xs (front & back & -> & ->). reflexivity. Qed.

(** ** hash *)

(** A bucket slot holding the given entries. *)
Definition slot_rep (s : val) (al : list (val * val)) : Prop :=
  s = of_alist al \/ (s = VUndef /\ al = []).

Lemma slot_rep_bucket : forall s al, slot_rep s al ->
  match s with VNil | VCons _ _ => s | _ => VNil end = of_alist al.
Proof. intros s al [->|[-> ->]]; auto. destruct al; auto. Qed.

(** [key_hash k z]: the hash of the key is the non-negative number z. *)
Definition key_hash (k : val) (z : Z) : Prop := hash_to_number k = Ok z /\ 0 <= z.

Record hash_rep (h : list val) (n : nat) (als : list (list (val * val))) : Prop := {
  hr_tag : exists t, nth_error h 0 = Some t;
  hr_cnt : nth_error h 1 = Some (VNum (Z.of_nat (List.length (concat als))));
  hr_cap : nth_error h 2 = Some (VNum (Z.of_nat n));
  hr_len : List.length h = (3 + n)%nat;
  hr_als : List.length als = n;
  hr_slot : forall i al, nth_error als i = Some al ->
    exists s, nth_error h (3 + i) = Some s /\ slot_rep s al;
  hr_keys : forall i al k, nth_error als i = Some al -> In k (List.map fst al) ->
    exists z, key_hash k z /\ z mod Z.of_nat n = Z.of_nat i;
  hr_nodup : forall i al, nth_error als i = Some al -> NoDup (List.map fst al) }.

Definition alup (als : list (list (val * val))) (i : nat) (a : list (val * val)) :=
  firstn i als ++ a :: skipn (S i) als.

Lemma alup_nth : forall als i a j, (i < List.length als)%nat ->
  nth_error (alup als i a) j = if Nat.eqb i j then Some a else nth_error als j.
Proof.
  unfold alup. induction als as [|b als IH]; intros [|i] a [|j] H; cbn [List.length] in H; try lia; auto.
  assert (Hi : (i < List.length als)%nat) by lia. exact (IH i a j Hi).
Qed.

Lemma alup_length : forall als i a, (i < List.length als)%nat -> List.length (alup als i a) = List.length als.
Proof.
  unfold alup. induction als as [|b als IH]; intros [|i] a H; cbn [List.length] in H; try lia; auto.
  assert (Hi : (i < List.length als)%nat) by lia. cbn [List.length]. rewrite <- (IH i a Hi). reflexivity.
Qed.

Lemma alup_concat : forall als i a b, nth_error als i = Some b ->
  (List.length (concat (alup als i a)) + List.length b = List.length (concat als) + List.length a)%nat.
Proof.
  unfold alup. induction als as [|c als IH]; intros [|i] a b H; try discriminate.
  - injection H as ->. cbn. rewrite !app_length. lia.
  - specialize (IH i a b H).
    change (firstn (S i) (c :: als) ++ a :: skipn (S (S i)) (c :: als))
      with (c :: (firstn i als ++ a :: skipn (S i) als)).
    cbn [concat]. rewrite !app_length. lia.
Qed.

Lemma hash_make_rep : forall n, hash_rep (hash_make n) n (repeat [] n).
Proof.
  intro n. unfold hash_make. split.
  - eexists; reflexivity.
  - cbn [app nth_error]. replace (List.length (concat (repeat (@nil (val * val)) n))) with 0%nat; auto.
    induction n; auto.
  - reflexivity.
  - cbn. now rewrite repeat_length.
  - apply repeat_length.
  - intros i al H. exists VUndef. cbn [app nth_error Nat.add].
    assert (i < List.length (repeat (@nil (val * val)) n))%nat by (apply nth_error_Some; congruence).
    rewrite repeat_length in *. split.
    + rewrite nth_error_repeat'. destruct (Nat.ltb_spec i n); auto; lia.
    + right. split; auto. apply nth_error_In, repeat_spec in H. auto.
  - intros i al k H Hin. apply nth_error_In, repeat_spec in H. subst. elim Hin.
  - intros i al H. apply nth_error_In, repeat_spec in H. subst. constructor.
Qed.

Section Hash.
  Variables (h : list val) (n : nat) (als : list (list (val * val))).
  Hypothesis HR : hash_rep h n als.
  Hypothesis Hn : (0 < n)%nat.

  Lemma key_slot : forall k z, key_hash k z ->
    exists i al s, z mod Z.of_nat n = Z.of_nat i /\ (i < n)%nat /\ nth_error als i = Some al /\
      nth_error h (3 + i) = Some s /\ slot_rep s al /\
      Z.rem z (Z.of_nat n) = Z.of_nat i /\ Z.of_nat i + 3 = Z.of_nat (3 + i).
  Proof.
    intros k z [_ Hz]. assert (B := Z.mod_pos_bound z (Z.of_nat n)).
    exists (Z.to_nat (z mod Z.of_nat n)).
    assert (Hi : (Z.to_nat (z mod Z.of_nat n) < n)%nat) by lia.
    rewrite <- (hr_als _ _ _ HR) in Hi at 2. apply nth_error_Some in Hi.
    destruct (nth_error als _) as [al|] eqn:E; [|congruence].
    destruct (hr_slot _ _ _ HR _ _ E) as (s & Hs & Rs).
    exists al, s. repeat split; auto; try lia.
    rewrite Z.rem_mod_nonneg by lia. lia.
  Qed.

  Definition holds (k : val) : option val :=
    match hash_to_number k with
    | Ok z => match nth_error als (Z.to_nat (z mod Z.of_nat n)) with Some al => lookup k al | None => None end
    | _ => None
    end.

  Lemma capacity_ok : capacity h = Ok (Z.of_nat n).
  Proof. unfold capacity. change 2 with (Z.of_nat 2). rewrite (vref_nth h 2 _ (hr_cap _ _ _ HR)). reflexivity. Qed.

  Lemma cmod_ok : forall z, cmod z (Z.of_nat n) = Ok (Z.rem z (Z.of_nat n)).
  Proof. intro z. unfold cmod. destruct (Z.eqb_spec (Z.of_nat n) 0); [lia|auto]. Qed.

  Lemma hash_get_rep : forall k z, key_hash k z -> hash_get h k = Ok (entry k (holds k)).
  Proof.
    intros k z Hk. destruct (key_slot k z Hk) as (i & al & s & Em & Hi & Ea & Es & Rs & Er & E3).
    unfold hash_get, holds. rewrite (proj1 Hk). cbn [obind]. rewrite capacity_ok. cbn [obind].
    rewrite cmod_ok. cbn [obind]. rewrite Er. unfold bucket_get. rewrite E3, (vref_nth _ _ _ Es). cbn [obind].
    rewrite (slot_rep_bucket _ _ Rs), assoc_spec, Em, Nat2Z.id, Ea. reflexivity.
  Qed.

  Lemma count_rep : hash_count h = Ok (Z.of_nat (List.length (concat als))).
  Proof. unfold hash_count. change 1 with (Z.of_nat 1). rewrite (vref_nth h 1 _ (hr_cnt _ _ _ HR)). reflexivity. Qed.
End Hash.

Lemma lookup_entry_nil : forall k al,
  veqb (entry k (lookup k al)) VNil = if in_dec val_eq_dec k (List.map fst al) then false else true.
Proof.
  intros. assert (L := lookup_in k al). destruct (in_dec val_eq_dec k (List.map fst al)) as [H|H].
  - apply L in H. destruct (lookup k al); cbn; congruence.
  - destruct (lookup k al); cbn; auto. elim H. apply L. discriminate.
Qed.

Lemma hash_set_rep : forall h n als k z v, hash_rep h n als -> (0 < n)%nat -> key_hash k z ->
  exists i al h', z mod Z.of_nat n = Z.of_nat i /\ nth_error als i = Some al /\
    hash_set h k v = Ok h' /\ hash_rep h' n (alup als i (aset k v al)).
Proof.
  intros h n als k z v HR Hn Hk.
  destruct (key_slot h n als HR Hn k z Hk) as (i & al & s & Em & Hi & Ea & Es & Rs & Er & E3).
  assert (Hla : (i < List.length als)%nat) by (rewrite (hr_als _ _ _ HR); auto).
  set (present := in_dec val_eq_dec k (List.map fst al)).
  set (h1 := if present then h else upd h 1 (VNum (Z.of_nat (List.length (concat als)) + 1))).
  assert (Hl1 : List.length h1 = (3 + n)%nat).
  { subst h1. destruct present; rewrite ?upd_length; apply (hr_len _ _ _ HR). }
  exists i, al, (upd h1 (3 + i) (of_alist (aset k v al))).
  split; [auto|split; [auto|split]].
  - unfold hash_set. rewrite (proj1 Hk). cbn [obind]. rewrite (capacity_ok h n als HR). cbn [obind].
    rewrite (cmod_ok n Hn). cbn [obind]. rewrite Er. unfold bucket_get. rewrite E3, (vref_nth _ _ _ Es). cbn [obind].
    rewrite (slot_rep_bucket _ _ Rs), assoc_spec. cbn [obind]. rewrite lookup_entry_nil.
    fold present. rewrite assoc_set_spec. cbn [obind].
    assert (E1 : (if if present then false else true
                  then do! n0 <- hash_count h; vset h 1 (VNum (n0 + 1)) else Ok h) = Ok h1).
    { subst h1. destruct present; auto. rewrite (count_rep h n als HR). cbn [obind].
      change 1 with (Z.of_nat 1) at 1. rewrite vset_ok by (rewrite (hr_len _ _ _ HR); lia). reflexivity. }
    rewrite E1. cbn [obind]. apply vset_ok. lia.
  - assert (Hn1 : forall j, j <> 1%nat -> nth_error h1 j = nth_error h j).
    { intros j Hj. subst h1. destruct present; auto. rewrite nth_upd by (rewrite (hr_len _ _ _ HR); lia).
      destruct (Nat.eqb_spec 1 j); congruence. }
    assert (Hk' : List.map fst (aset k v al) = if present then List.map fst al else List.map fst al ++ [k])
      by apply keys_aset.
    assert (Hlen : List.length (aset k v al) = if present then List.length al else S (List.length al)).
    { rewrite <- (map_length fst), Hk'. destruct present; rewrite ?app_length, ?map_length; cbn; lia. }
    assert (Hc := alup_concat als i (aset k v al) al Ea).
    split.
    + destruct (hr_tag _ _ _ HR) as (t & Ht). exists t. rewrite nth_upd by lia. cbn [Nat.eqb Nat.add]. rewrite Hn1; auto.
    + rewrite nth_upd by lia. cbn [Nat.eqb Nat.add]. subst h1. destruct present as [Hp|Hp].
      * rewrite (hr_cnt _ _ _ HR). do 3 f_equal. lia.
      * rewrite nth_upd by (rewrite (hr_len _ _ _ HR); lia). cbn [Nat.eqb]. do 2 f_equal. lia.
    + rewrite nth_upd by lia. cbn [Nat.eqb Nat.add]. rewrite Hn1 by auto. apply (hr_cap _ _ _ HR).
    + rewrite upd_length. auto.
    + rewrite alup_length by auto. apply (hr_als _ _ _ HR).
    + intros j al' E. rewrite alup_nth in E by auto. rewrite nth_upd by lia.
      cbn [Nat.add Nat.eqb]. destruct (Nat.eqb_spec i j) as [->|Hij].
      * injection E as <-. eexists. split; eauto. now left.
      * change (S (S (S j))) with (3 + j)%nat. rewrite Hn1 by lia. apply (hr_slot _ _ _ HR _ _ E).
    + intros j al' k' E Hin. rewrite alup_nth in E by auto.
      destruct (Nat.eqb_spec i j) as [->|Hij].
      * injection E as <-. rewrite Hk' in Hin. destruct present as [Hp|Hp].
        -- apply (hr_keys _ _ _ HR _ _ _ Ea Hin).
        -- apply in_app_or in Hin as [Hin|[<-|[]]].
           ++ apply (hr_keys _ _ _ HR _ _ _ Ea Hin).
           ++ exists z. auto.
      * apply (hr_keys _ _ _ HR _ _ _ E Hin).
    + intros j al' E. rewrite alup_nth in E by auto.
      destruct (Nat.eqb_spec i j) as [->|Hij].
      * injection E as <-. rewrite Hk'. assert (ND := hr_nodup _ _ _ HR _ _ Ea).
        destruct present as [Hp|Hp]; auto.
        apply NoDup_rev in ND. rewrite <- (rev_involutive (_ ++ [k])). apply NoDup_rev.
        rewrite rev_app_distr. cbn. constructor; auto. now rewrite <- in_rev.
      * apply (hr_nodup _ _ _ HR _ _ E).
Qed.

(** Deleting a key that is the first entry of its bucket, or absent. *)
Lemma hash_del_absent : forall h n als k z, hash_rep h n als -> (0 < n)%nat -> key_hash k z ->
  holds n als k = None -> hash_del h k = Ok h.
Proof.
  intros h n als k z HR Hn Hk Hh.
  destruct (key_slot h n als HR Hn k z Hk) as (i & al & s & Em & Hi & Ea & Es & Rs & Er & E3).
  unfold holds in Hh. rewrite (proj1 Hk), Em, Nat2Z.id, Ea in Hh.
  unfold hash_del. rewrite (proj1 Hk). cbn [obind]. rewrite (capacity_ok h n als HR). cbn [obind].
  rewrite (cmod_ok n Hn). cbn [obind]. rewrite Er. unfold bucket_get. rewrite E3, (vref_nth _ _ _ Es). cbn [obind].
  rewrite (slot_rep_bucket _ _ Rs), assoc_spec, Hh. reflexivity.
Qed.

Lemma hash_del_first : forall h n als k z i v al,
  hash_rep h n als -> (0 < n)%nat -> key_hash k z -> z mod Z.of_nat n = Z.of_nat i ->
  nth_error als i = Some ((k, v) :: al) ->
  exists h', hash_del h k = Ok h' /\ hash_rep h' n (alup als i al).
Proof.
  intros h n als k z i0 v al HR Hn Hk Hm Ea0.
  destruct (key_slot h n als HR Hn k z Hk) as (i & al' & s & Em & Hi & Ea & Es & Rs & Er & E3).
  assert (i0 = i) by lia. subst i0. rewrite Ea in Ea0. injection Ea0 as ->.
  assert (Hla : (i < List.length als)%nat) by (rewrite (hr_als _ _ _ HR); auto).
  assert (Hl := hr_len _ _ _ HR).
  assert (Hc := alup_concat als i al _ Ea). cbn [List.length] in Hc.
  exists (upd (upd h (3 + i) (of_alist al)) 1 (VNum (Z.of_nat (List.length (concat als)) - 1))). split.
  - unfold hash_del. rewrite (proj1 Hk). cbn [obind]. rewrite (capacity_ok h n als HR). cbn [obind].
    rewrite (cmod_ok n Hn). cbn [obind]. rewrite Er. unfold bucket_get. rewrite E3, (vref_nth _ _ _ Es). cbn [obind].
    rewrite (slot_rep_bucket _ _ Rs), assoc_spec. cbn [obind lookup].
    destruct (val_eq_dec k k) as [_|]; [|congruence]. cbn [entry veqb].
    unfold of_alist at 1. cbn [List.map of_list fold_right pair_val fst snd assoc_rm obind].
    change (fold_right VCons VNil (List.map pair_val al)) with (of_alist al).
    rewrite vset_ok by lia. cbn [obind]. unfold hash_count.
    change 1 with (Z.of_nat 1) at 1. erewrite vref_nth.
    2:{ rewrite nth_upd by lia. cbn [Nat.eqb Nat.add]. apply (hr_cnt _ _ _ HR). }
    cbn [obind num]. change 1 with (Z.of_nat 1) at 1. apply vset_ok. rewrite upd_length. lia.
  - split.
    + destruct (hr_tag _ _ _ HR) as (t & Ht). exists t. rewrite nth_upd by (rewrite upd_length; lia).
      rewrite nth_upd by lia. cbn [Nat.eqb Nat.add]. auto.
    + rewrite nth_upd by (rewrite upd_length; lia). cbn [Nat.eqb]. do 2 f_equal. lia.
    + rewrite nth_upd by (rewrite upd_length; lia). rewrite nth_upd by lia. cbn [Nat.eqb Nat.add]. apply (hr_cap _ _ _ HR).
    + rewrite !upd_length. auto.
    + rewrite alup_length by auto. apply (hr_als _ _ _ HR).
    + intros j a E. rewrite alup_nth in E by auto. rewrite nth_upd by (rewrite upd_length; lia).
      rewrite nth_upd by lia. cbn [Nat.add Nat.eqb]. destruct (Nat.eqb_spec i j) as [->|Hij].
      * injection E as <-. eexists. split; eauto. now left.
      * apply (hr_slot _ _ _ HR _ _ E).
    + intros j a k' E Hin. rewrite alup_nth in E by auto. destruct (Nat.eqb_spec i j) as [->|Hij].
      * injection E as <-. apply (hr_keys _ _ _ HR _ _ _ Ea). now right.
      * apply (hr_keys _ _ _ HR _ _ _ E Hin).
    + intros j a E. rewrite alup_nth in E by auto. destruct (Nat.eqb_spec i j) as [->|Hij].
      * injection E as <-. assert (ND := hr_nodup _ _ _ HR _ _ Ea). now inversion ND.
      * apply (hr_nodup _ _ _ HR _ _ E).
Qed.

(** The keys of the table, each once. *)
Lemma keys_nodup : forall h n als, hash_rep h n als -> NoDup (List.map fst (concat als)).
Proof.
  intros h n als HR.
  assert (K := hr_keys _ _ _ HR). assert (D := hr_nodup _ _ _ HR).
  assert (G : forall base, (forall i al k, nth_error als i = Some al -> In k (List.map fst al) ->
      exists z, key_hash k z /\ z mod Z.of_nat n = Z.of_nat (base + i)) -> NoDup (List.map fst (concat als))).
  { clear K HR. induction als as [|a als' IH]; intros base K; cbn; [constructor|].
    rewrite map_app.
    assert (N1 := D 0%nat a eq_refl).
    assert (N2 : NoDup (List.map fst (concat als'))).
    { apply (IH (fun i al => D (S i) al) (S base)). intros i al k E Hin.
      destruct (K (S i) al k E Hin) as (z & Hz & Em). exists z. split; auto. rewrite Em. f_equal. lia. }
    assert (Dis : forall k, In k (List.map fst a) -> ~ In k (List.map fst (concat als'))).
    { intros k Hin Hin2. destruct (K 0%nat a k eq_refl Hin) as (z & Hz & Em).
      rewrite in_map_iff in Hin2. destruct Hin2 as ([k' v] & <- & Hc). cbn [fst] in *.
      apply in_concat in Hc as (b & Hb & Hkb). apply In_nth_error in Hb as (i & Ei).
      destruct (K (S i) b k' Ei) as (z' & Hz' & Em'). { apply in_map_iff. exists (k', v). auto. }
      destruct Hz as [Hz _], Hz' as [Hz' _]. rewrite Hz in Hz'. injection Hz' as <-. lia. }
    clear - N1 N2 Dis. induction (List.map fst a) as [|x l IHl]; auto. cbn. inversion N1; subst. constructor.
    - intro H. apply in_app_or in H as [H|H]; auto. apply (Dis x); auto. now left.
    - apply IHl; auto. intros k Hk. apply Dis. now right. }
  apply (G 0%nat). exact K.
Qed.

Lemma holds_in : forall h n als k, hash_rep h n als -> (0 < n)%nat ->
  holds n als k <> None <-> In k (List.map fst (concat als)).
Proof.
  intros h n als k HR Hn. unfold holds. split.
  - destruct (hash_to_number k) as [z| |]; try congruence.
    destruct (nth_error als _) as [al|] eqn:E; [|congruence]. intro H. apply lookup_in in H.
    apply in_map_iff in H as (p & <- & Hp). apply in_map_iff. exists p. split; auto.
    apply in_concat. exists al. split; auto. apply nth_error_In in E. auto.
  - intro H. apply in_map_iff in H as (p & <- & Hp). apply in_concat in Hp as (al & Hal & Hp).
    apply In_nth_error in Hal as (i & Ei).
    assert (Hin : In (fst p) (List.map fst al)) by (apply in_map; auto).
    destruct (hr_keys _ _ _ HR _ _ _ Ei Hin) as (z & [Hz _] & Em). rewrite Hz, Em, Nat2Z.id, Ei.
    now apply lookup_in.
Qed.
