(** Theorems of record for the list functions (C43), the queue (C44) and the
    hash table (C45). *)
From Coq Require Import List ZArith NArith Bool Lia.
From Verif Require Import Base LibModel LibProofs.
Import ListNotations.
Local Open Scope Z_scope.
Local Open Scope out_scope.

(** * C43 lists

    A cora list is [of_list xs]; the specification is the usual function on
    [xs].  Lists have any length and any elements. *)

Theorem reverse_reverses : forall xs, reverse (of_list xs) = of_list (rev xs).
Proof. exact reverse_spec. Qed.

(** [map] returns normally exactly when calling the function on every element,
    first to last, each once, does; it returns the results in that order and
    leaves the state the calls left. *)
Theorem map_calls_each_once_in_order : forall St (f : fn St) xs s r s',
  map f (of_list xs) s = Ok (r, s') <-> exists ys, calls f xs s ys s' /\ r = of_list ys.
Proof.
  intros St f xs s r s'. unfold map. change VNil with (of_list []). split.
  - intro H. apply map_h_conv in H. exact H.
  - intros (ys & C & ->). rewrite (map_h_spec _ _ _ _ _ _ [] C). reflexivity.
Qed.

Theorem map_pure : forall St (f : fn St) g xs s,
  (forall x s, f x s = Ok (g x, s)) -> map f (of_list xs) s = Ok (of_list (List.map g xs), s).
Proof.
  intros St f g xs s H. apply map_calls_each_once_in_order. exists (List.map g xs). split; auto.
  induction xs; cbn; econstructor; eauto.
Qed.

(** [filter] keeps, in order, the elements for which the call gave true. *)
Theorem filter_keeps_true : forall St (f : fn St) xs s vs s',
  calls f xs s vs s' ->
  filter f (of_list xs) s =
    Ok (of_list (List.map fst (List.filter (fun p => is_true (snd p)) (combine xs vs))), s').
Proof.
  intros St f xs s vs s' H. unfold filter. change VNil with (of_list []).
  rewrite (filter_h_spec _ _ _ _ _ _ [] H). cbn [rev app]. do 3 f_equal.
  clear H. revert vs. induction xs as [|x xs IH]; intros [|v vs]; auto.
  cbn [combine List.filter snd]. destruct v; cbn [select is_true List.map fst]; rewrite IH; reflexivity.
Qed.

Theorem filter_pure : forall St (f : fn St) p xs s,
  (forall x s, f x s = Ok (of_bool (p x), s)) ->
  filter f (of_list xs) s = Ok (of_list (List.filter p xs), s).
Proof.
  intros St f p xs s H.
  assert (C : calls f xs s (List.map (fun x => of_bool (p x)) xs) s) by (induction xs; cbn; econstructor; eauto).
  rewrite (filter_keeps_true _ _ _ _ _ _ C). do 3 f_equal. clear.
  induction xs as [|x xs IH]; auto. cbn. destruct (p x); cbn; now rewrite IH.
Qed.

Theorem length_counts : forall xs, length (of_list xs) = Ok (Z.of_nat (List.length xs)).
Proof. intro. unfold length. rewrite length_h_spec. f_equal. Qed.

Theorem append_appends : forall xs ys, append (of_list xs) (of_list ys) = Ok (of_list (xs ++ ys)).
Proof.
  intros. rewrite append_spec. unfold of_list. now rewrite fold_right_app.
Qed.

Theorem elem_iff_in : forall x xs, elem x (of_list xs) = true <-> In x xs.
Proof. exact elem_spec. Qed.

Theorem member_iff_in : forall x xs,
  exists b, member x (of_list xs) = Ok (of_bool b) /\ (b = true <-> In x xs).
Proof.
  intros x xs. induction xs as [|y xs (b & E & IH)].
  - exists false. split; auto. cbn. intuition congruence.
  - cbn [of_list fold_right member]. fold (of_list xs). destruct (veqb x y) eqn:Ev.
    + apply veqb_eq in Ev. exists true. split; auto. cbn. intuition.
    + exists b. rewrite E. split; [destruct b; reflexivity|]. rewrite IH. cbn. split; auto.
      intros [->|H]; auto. rewrite veqb_refl in Ev. discriminate.
Qed.

(** [assq] gives the first pair with the key, or the empty list. *)
Theorem assq_first_pair : forall k al1 v al2,
  (forall w, ~ In (k, w) al1) ->
  assq k (of_alist (al1 ++ (k, v) :: al2)) = Ok (VCons k v).
Proof.
  intros k al1 v al2 H. rewrite assq_spec. f_equal.
  induction al1 as [|[k' w] al1 IH]; cbn.
  - destruct (val_eq_dec k k); cbn; congruence.
  - destruct (val_eq_dec k k') as [->|]; [elim (H w); now left|]. apply IH. intros w' Hin. apply (H w'). now right.
Qed.

Theorem assq_absent : forall k al, (forall w, ~ In (k, w) al) -> assq k (of_alist al) = Ok VNil.
Proof.
  intros k al H. rewrite assq_spec. f_equal.
  induction al as [|[k' w] al IH]; auto. cbn.
  destruct (val_eq_dec k k') as [->|]; [elim (H w); now left|]. apply IH. intros w' Hin. apply (H w'). now right.
Qed.

(** [foldl] combines from the left. *)
Inductive folds {St} (f : fn2 St) : val -> list val -> St -> val -> St -> Prop :=
| folds_nil : forall acc s, folds f acc [] s acc s
| folds_cons : forall acc x xs s acc1 s1 r s2,
    f acc x s = Ok (acc1, s1) -> folds f acc1 xs s1 r s2 -> folds f acc (x :: xs) s r s2.

Theorem foldl_folds : forall St (f : fn2 St) xs acc s r s',
  foldl f acc (of_list xs) s = Ok (r, s') <-> folds f acc xs s r s'.
Proof.
  intros St f xs. induction xs as [|x xs IH]; intros acc s r s'.
  - cbn. split; intro H; [apply Ok_inj in H; injection H as <- <-; constructor|inversion H; subst; auto].
  - cbn [of_list fold_right foldl]. fold (of_list xs). split; intro H.
    + destruct (f acc x s) as [[v s1]| |] eqn:E; try discriminate. cbn [obind] in H.
      apply IH in H. econstructor; eauto.
    + inversion H; subst. match goal with E : f _ _ _ = _ |- _ => rewrite E end. cbn [obind]. now apply IH.
Qed.

Theorem for_each_calls : forall St (f : fn St) xs s r s',
  for_each f (of_list xs) s = Ok (r, s') <-> r = VNil /\ exists ys, calls f xs s ys s'.
Proof.
  intros St f xs. induction xs as [|x xs IH]; intros s r s'.
  - cbn. split.
    + intro H. apply Ok_inj in H. injection H as <- <-. split; auto. exists []. constructor.
    + intros (-> & ys & C). inversion C; subst; auto.
  - cbn [of_list fold_right for_each]. fold (of_list xs). split.
    + intro H. destruct (f x s) as [[v s1]| |] eqn:E; try discriminate. cbn [obind] in H.
      apply IH in H as (-> & ys & C). split; auto. exists (v :: ys). econstructor; eauto.
    + intros (-> & ys & C). inversion C; subst. match goal with E : f _ _ = _ |- _ => rewrite E end.
      cbn [obind]. apply IH. split; eauto.
Qed.

(** [index]: the position of the first occurrence, -1 when absent. *)
Theorem index_first_position : forall x xs1 xs2, ~ In x xs1 ->
  index x (of_list (xs1 ++ x :: xs2)) = Ok (Z.of_nat (List.length xs1)).
Proof.
  intros x xs1 xs2 H. unfold index.
  assert (G : forall p, pos_in_list0 p x (of_list (xs1 ++ x :: xs2)) = Ok (p + Z.of_nat (List.length xs1))).
  { induction xs1 as [|y xs1 IH]; intro p.
    - cbn. rewrite veqb_refl. f_equal. lia.
    - cbn [app of_list fold_right pos_in_list0]. fold (of_list (xs1 ++ x :: xs2)).
      rewrite veqb_neq by (intros ->; apply H; now left). rewrite IH by (intro; apply H; now right).
      f_equal. cbn [List.length]. lia. }
  rewrite G. f_equal.
Qed.

Theorem index_absent : forall x xs, ~ In x xs -> index x (of_list xs) = Ok (-1).
Proof.
  intros x xs H. unfold index. generalize 0. induction xs as [|y xs IH]; intro p; auto.
  cbn [of_list fold_right pos_in_list0]. fold (of_list xs).
  rewrite veqb_neq by (intros ->; apply H; now left). apply IH. intro; apply H; now right.
Qed.

(** The set operations of the compiler. *)
Theorem union_in : forall xs ys, exists zs,
  union (of_list xs) (of_list ys) = Ok (of_list zs) /\ (forall x, In x zs <-> In x xs \/ In x ys) /\
  (NoDup ys -> NoDup xs -> NoDup zs).
Proof.
  intros xs ys. induction xs as [|x xs (zs & E & I & D)].
  - exists ys. split; [reflexivity|]. split; [|auto]. intro x. cbn. tauto.
  - cbn [of_list fold_right union]. fold (of_list xs). destruct (elem x (of_list ys)) eqn:Ev.
    + apply elem_spec in Ev. exists zs. split; auto. split.
      * intro y. rewrite I. cbn. split; [tauto|]. intros [[->|H]|H]; auto.
      * intros Hy Hx. inversion Hx; subst. auto.
    + exists (x :: zs). rewrite E. split; auto. split.
      * intro y. cbn. rewrite I. tauto.
      * intros Hy Hx. inversion Hx; subst. constructor; auto. rewrite I. intros [H|H]; auto.
        apply elem_spec in H. congruence.
Qed.

Theorem diff_in : forall xs ys, exists zs,
  diff (of_list xs) (of_list ys) = Ok (of_list zs) /\ (forall x, In x zs <-> In x xs /\ ~ In x ys) /\
  (NoDup xs -> NoDup zs).
Proof.
  intros xs ys. induction xs as [|x xs (zs & E & I & D)].
  - exists []. split; [reflexivity|]. split; [|auto]. intro x. cbn. tauto.
  - cbn [of_list fold_right diff]. fold (of_list xs). destruct (elem x (of_list ys)) eqn:Ev.
    + apply elem_spec in Ev. exists zs. split; auto. split.
      * intro y. rewrite I. cbn. split; [tauto|]. intros [[->|H] H2]; tauto.
      * intro Hx. inversion Hx; subst. auto.
    + assert (Hn : ~ In x ys) by (rewrite <- elem_spec; congruence).
      exists (x :: zs). rewrite E. split; auto. split.
      * intro y. cbn. rewrite I. split; [intros [->|H]; tauto|tauto].
      * intro Hx. inversion Hx; subst. constructor; auto. rewrite I. tauto.
Qed.

(** thread-local-get after thread-local-set *)
Theorem tls_get_set : forall k v al, exists al',
  tls_set k v (of_alist al) = Ok (of_alist al') /\
  tls_get k (of_alist al') = Ok v /\
  (forall k' w, k' <> k -> tls_get k' (of_alist al) = Ok w -> tls_get k' (of_alist al') = Ok w).
Proof.
  intros k v al. exists ((k, v) :: List.filter (fun p => negb (veqb k (fst p))) al).
  assert (C : forall s : unit, calls (fun x (_ : unit) => do! k0 <- car x; Ok (of_bool (negb (veqb k k0)), tt))
            (List.map pair_val al) s (List.map (fun p => of_bool (negb (veqb k (fst p)))) al) tt).
  { clear. induction al as [|[a b] al IH]; intros []; cbn; econstructor; eauto. reflexivity. }
  unfold tls_set, of_alist at 1. rewrite (filter_keeps_true _ _ _ _ _ _ (C tt)). cbn [obind].
  split; [|split].
  - do 1 f_equal. unfold of_alist. cbn [List.map of_list fold_right pair_val fst snd]. f_equal.
    clear C. induction al as [|[a b] al IH]; auto. cbn [List.map combine List.filter snd fst].
    destruct (veqb k a); cbn [negb of_bool is_true List.map fst of_list fold_right] in *; rewrite <- IH; reflexivity.
  - unfold tls_get. rewrite assq_spec. cbn [lookup]. destruct (val_eq_dec k k); [|congruence]. reflexivity.
  - intros k' w Hk. unfold tls_get. rewrite !assq_spec. cbn [lookup obind].
    destruct (val_eq_dec k' k); [congruence|].
    replace (lookup k' (List.filter (fun p => negb (veqb k (fst p))) al)) with (lookup k' al); auto.
    clear C. induction al as [|[a b] al IH]; auto. cbn [lookup List.filter fst].
    destruct (val_eq_dec k' a) as [->|].
    + rewrite veqb_neq by auto. cbn [negb lookup]. destruct (val_eq_dec a a); congruence.
    + destruct (veqb k a); cbn [negb]; auto. cbn [lookup]. destruct (val_eq_dec k' a); [congruence|auto].
Qed.

Example list_example :
  let l := of_list [VNum 3; VNum 1; VNum 2] in
  let f : fn (list val) := fun x s => Ok (VCons x VNil, x :: s) in
  map f l [] = Ok (of_list [of_list [VNum 3]; of_list [VNum 1]; of_list [VNum 2]], [VNum 2; VNum 1; VNum 3])
  /\ filter (fun x (s : unit) => Ok (of_bool (veqb x (VNum 1)), s)) l tt = Ok (of_list [VNum 1], tt)
  /\ index (VNum 2) l = Ok 2 /\ append l (of_list [VNil]) = Ok (of_list [VNum 3; VNum 1; VNum 2; VNil]).
Proof. vm_compute. repeat split. Qed.

(** thread-local-get of a key that was never set is an error. *)
Theorem tls_get_unset : forall k al, (forall w, ~ In (k, w) al) -> tls_get k (of_alist al) = Trap.
Proof. intros k al H. unfold tls_get. rewrite (assq_absent k al H). reflexivity. Qed.

(** Lists that do not end with (): the functions written with cons? stop at
    the end without a word, those written with clauses raise an error, and
    those that test for () take the cdr of what is not a pair. *)
Definition onto (xs : list val) (t : val) : val := fold_right VCons t xs.
Definition no_list (t : val) : Prop := t <> VNil /\ forall a d, t <> VCons a d.

Ltac end_case := match goal with T1 : ?t <> VNil, T2 : forall a d, ?t <> VCons a d |- _ =>
  destruct t; try reflexivity; try (split; reflexivity); solve [elim T1; reflexivity | eapply False_ind, T2; reflexivity] end.

Theorem improper_lists : forall xs t, no_list t ->
  (reverse (onto xs t) = of_list (rev xs) /\
   (forall St (f : fn St) s ys s', calls f xs s ys s' -> LibModel.map f (onto xs t) s = Ok (of_list ys, s')) /\
   (forall St (f : fn St) s, LibModel.filter f (onto xs t) s = LibModel.filter f (of_list xs) s) /\
   (forall x, elem x (onto xs t) = elem x (of_list xs))) /\
  ((forall x, ~ In x xs -> member x (onto xs t) = Trap /\ index x (onto xs t) = Trap) /\
   (forall x, (forall v, ~ In (VCons x v) xs) -> assq x (onto xs t) = Trap) /\
   (forall St (f : fn St) s ys s', calls f xs s ys s' -> for_each f (onto xs t) s = Trap) /\
   (forall St (f : fn2 St), (forall a x s, exists r, f a x s = Ok r) -> forall acc s, foldl f acc (onto xs t) s = Trap) /\
   (forall l, union (onto xs t) l = Trap /\ diff (onto xs t) l = Trap)) /\
  (length (onto xs t) = UB /\ forall l, append (onto xs t) l = UB).
Proof.
  intros xs t [T1 T2].
  split; [|split].
  - split; [|split; [|split]].
    + unfold reverse. replace (of_list (rev xs)) with (reverse_h (onto xs t) (of_list [])); [reflexivity|].
      rewrite <- (app_nil_r (rev xs)). generalize (@nil val) as acc.
      induction xs as [|x xs IH]; intros acc; cbn [onto fold_right reverse_h rev app]; [end_case|].
      change (VCons x (of_list acc)) with (of_list (x :: acc)). rewrite <- app_assoc. exact (IH (x :: acc)).
    + intros St f s ys s' C. rewrite <- (app_nil_l ys). change (@nil val) with (rev (@nil val)) at 1. unfold LibModel.map. change VNil with (of_list []).
      generalize (@nil val) as acc. induction C; intros acc; cbn [onto fold_right map_h].
      * rewrite app_nil_r. pose proof (reverse_reverses acc) as R. rewrite <- R; end_case.
      * rewrite H. cbn [obind]. change (VCons v (of_list acc)) with (of_list (v :: acc)). etransitivity; [exact (IHC (v :: acc))|]. cbn [rev]. now rewrite <- app_assoc.
    + intros St f. unfold LibModel.filter. generalize VNil as acc. induction xs as [|x xs IH]; intros acc s; cbn [onto fold_right filter_h of_list].
      * end_case.
      * destruct (f x s) as [[v s1]| |]; cbn [obind]; [|reflexivity|reflexivity]. destruct (is_true v); apply IH.
    + intros y. induction xs as [|x xs IH]; cbn [onto fold_right elem of_list]; [end_case|]. destruct (veqb x y); [reflexivity|exact IH].
  - split; [|split; [|split; [|split]]].
    + intros y. unfold index. generalize 0 as p. induction xs as [|x xs IH]; intros p N; cbn [onto fold_right member pos_in_list0].
      * end_case.
      * destruct (IH (p + 1)) as [I1 I2]; [intro; apply N; now right|]. fold (onto xs t).
        rewrite veqb_neq by (intros ->; apply N; now left). rewrite I1, I2. split; reflexivity.
    + intros y N. induction xs as [|x xs IH]; cbn [onto fold_right assq]; [end_case|]. fold (onto xs t).
      rewrite IH by (intros v I; apply (N v); now right). destruct x as [| | | | | | |k v|]; try reflexivity.
      rewrite veqb_neq; [reflexivity|]. intros ->. apply (N v). now left.
    + intros St f s ys s' C. induction C; cbn [onto fold_right for_each]; [end_case|]. rewrite H. exact IHC.
    + intros St f F. induction xs as [|x xs IH]; intros acc s; cbn [onto fold_right foldl]; [end_case|].
      destruct (F acc x s) as [[v s1] ->]. apply IH.
    + intros l. induction xs as [|x xs [I1 I2]]; cbn [onto fold_right union diff]; [end_case|].
      fold (onto xs t). rewrite I1, I2. destruct (elem x l); auto.
  - split.
    + unfold length. generalize 0 as p. induction xs as [|x xs IH]; intros p; cbn [onto fold_right length_h]; [end_case|]. apply IH.
    + intros l. induction xs as [|x xs IH]; cbn [onto fold_right append]; [end_case|]. fold (onto xs t). now rewrite IH.
Qed.
Print Assumptions improper_lists.
Example improper_lists_example : let l := onto [VNum 1; VNum 2] (VNum 3) in
  no_list (VNum 3) /\ reverse l = of_list [VNum 2; VNum 1] /\ member (VNum 3) l = Trap /\ member (VNum 2) l = Ok VTrue /\ length l = UB.
Proof. repeat split; try discriminate; reflexivity. Qed.

(** [length] of an improper list follows a cdr that is not there. *)
Theorem length_improper_refuted : exists l, length l = UB.
Proof. exists (VCons VNil (VNum 1)). reflexivity. Qed.

(** * C44 queue *)

Inductive qop := Enq (x : val) | Deq.

(** The specification: a plain list, first in at the head.  [None]: dequeue
    of an empty queue. *)
Fixpoint fifo (ops : list qop) (xs : list val) : option (list val * list val) :=
  match ops with
  | [] => Some ([], xs)
  | Enq x :: r => fifo r (xs ++ [x])
  | Deq :: r => match xs with
                | [] => None
                | x :: xs' => match fifo r xs' with Some (out, q) => Some (x :: out, q) | None => None end
                end
  end.

Fixpoint run_queue (ops : list qop) (q : list val) : outcome (list val * list val) :=
  match ops with
  | [] => Ok ([], q)
  | Enq x :: r => do! q1 <- enqueue q x; run_queue r q1
  | Deq :: r => do! '(x, q1) <- dequeue q; do! '(out, q2) <- run_queue r q1; Ok (x :: out, q2)
  end.

(** Every history that never dequeues an empty queue: the values come out in
    the order they went in, and length and emptiness are those of the
    contents. *)
Theorem queue_is_fifo : forall ops out xs, fifo ops [] = Some (out, xs) ->
  exists q, run_queue ops queue_make = Ok (out, q) /\
    queue_len q = Ok (VNum (Z.of_nat (List.length xs))) /\
    queue_empty q = Ok (match xs with [] => true | _ => false end).
Proof.
  intros ops out xs H.
  assert (G : forall ops q ys out xs, queue_rep q ys -> fifo ops ys = Some (out, xs) ->
    exists q', run_queue ops q = Ok (out, q') /\ queue_rep q' xs).
  { clear. induction ops as [|[x|] ops IH]; intros q ys out xs R H; cbn in H.
    - injection H as <- <-. exists q. auto.
    - destruct (enqueue_rep q ys x R) as (q1 & E & R1). destruct (IH _ _ _ _ R1 H) as (q2 & E2 & R2).
      exists q2. cbn. rewrite E. auto.
    - destruct ys as [|y ys]; try discriminate. destruct (fifo ops ys) as [[o z]|] eqn:F; try discriminate.
      injection H as <- <-. destruct (dequeue_rep q y ys R) as (q1 & E & R1).
      destruct (IH _ _ _ _ R1 F) as (q2 & E2 & R2). exists q2. cbn. rewrite E. cbn. rewrite E2. auto. }
  destruct (G ops queue_make [] out xs queue_make_rep H) as (q & E & R).
  exists q. split; auto. split; [now apply queue_len_rep|now apply queue_empty_rep].
Qed.

(** What comes out is a prefix of what went in, and the rest is inside. *)
Theorem fifo_order : forall ops out xs, fifo ops [] = Some (out, xs) ->
  out ++ xs = flat_map (fun o => match o with Enq x => [x] | Deq => [] end) ops.
Proof.
  intros ops out xs H.
  assert (G : forall ops ys out xs, fifo ops ys = Some (out, xs) ->
    out ++ xs = ys ++ flat_map (fun o => match o with Enq x => [x] | Deq => [] end) ops).
  { clear. induction ops as [|[x|] ops IH]; intros ys out xs H; cbn in *.
    - injection H as <- <-. now rewrite app_nil_r.
    - apply IH in H. now rewrite H, <- app_assoc.
    - destruct ys as [|y ys]; try discriminate. destruct (fifo ops ys) as [[o z]|] eqn:F; try discriminate.
      injection H as <- <-. apply IH in F. cbn. now rewrite F. }
  apply (G ops [] out xs H).
Qed.

Example queue_example :
  let ops := [Enq (VNum 1); Enq (VNum 2); Deq; Enq (VNum 3); Deq; Deq; Enq VNil] in
  fifo ops [] = Some ([VNum 1; VNum 2; VNum 3], [VNil]) /\
  omap fst (run_queue ops queue_make) = Ok [VNum 1; VNum 2; VNum 3].
Proof. vm_compute. auto. Qed.

(** dequeue of an empty queue takes the car of the empty list. *)
Theorem dequeue_empty_refuted : exists q, run_queue [] queue_make = Ok ([], q) /\ dequeue q = UB.
Proof. eexists. split; reflexivity. Qed.

(** * C45 hash table *)

Inductive hop := HSet (k v : val) | HDel (k : val).

(** The specification: a map. *)
Definition hstep (m : val -> option val) (o : hop) : val -> option val :=
  fun k' => match o with
            | HSet k v => if val_eq_dec k' k then Some v else m k'
            | HDel k => if val_eq_dec k' k then None else m k'
            end.
Definition contents (ops : list hop) : val -> option val := fold_left hstep ops (fun _ => None).

Fixpoint run_hash (ops : list hop) (h : list val) : outcome (list val) :=
  match ops with
  | [] => Ok h
  | HSet k v :: r => do! h1 <- hash_set h k v; run_hash r h1
  | HDel k :: r => do! h1 <- hash_del h k; run_hash r h1
  end.

(** Two keys share a bucket of a table of capacity n. *)
Definition collide (n : nat) (k k' : val) : Prop :=
  exists z z', key_hash k z /\ key_hash k' z' /\ z mod Z.of_nat n = z' mod Z.of_nat n.

(** Keys have a non-negative hash, and a key that is present is deleted only
    while no other key of its bucket is present. *)
Fixpoint history_ok (n : nat) (m : val -> option val) (ops : list hop) : Prop :=
  match ops with
  | [] => True
  | HSet k v :: r => (exists z, key_hash k z) /\ history_ok n (hstep m (HSet k v)) r
  | HDel k :: r => (exists z, key_hash k z) /\
      (m k <> None -> forall k', k' <> k -> m k' <> None -> ~ collide n k k') /\
      history_ok n (hstep m (HDel k)) r
  end.

Definition table_is (h : list val) (n : nat) (m : val -> option val) : Prop :=
  exists als, hash_rep h n als /\ forall k, holds n als k = m k.

Lemma holds_alup : forall h n als i a k z v', hash_rep h n als -> (0 < n)%nat ->
  key_hash k z -> z mod Z.of_nat n = Z.of_nat i ->
  (exists al, nth_error als i = Some al) ->
  (forall k', lookup k' a = if val_eq_dec k' k then v' else
     match nth_error als i with Some al => lookup k' al | None => None end) ->
  forall k', holds n (alup als i a) k' = if val_eq_dec k' k then v' else holds n als k'.
Proof.
  intros h n als i a k z v' HR Hn Hk Em (al & Ea) Hl k'.
  assert (Hla : (i < List.length als)%nat) by (apply nth_error_Some; congruence).
  unfold holds. destruct (val_eq_dec k' k) as [->|Hne].
  - rewrite (proj1 Hk), Em, Nat2Z.id, alup_nth, Nat.eqb_refl by auto.
    rewrite Hl. destruct (val_eq_dec k k); congruence.
  - destruct (hash_to_number k') as [z'| |]; auto. rewrite alup_nth by auto.
    destruct (Nat.eqb_spec i (Z.to_nat (z' mod Z.of_nat n))) as [<-|]; auto.
    rewrite Hl, Ea. destruct (val_eq_dec k' k); congruence.
Qed.

Lemma run_hash_ok : forall n ops h m, (0 < n)%nat -> table_is h n m -> history_ok n m ops ->
  exists h', run_hash ops h = Ok h' /\ table_is h' n (fold_left hstep ops m).
Proof.
  intros n ops. induction ops as [|[k v|k] ops IH]; intros h m Hn (als & HR & Hm) OK; cbn [history_ok] in OK.
  - exists h. split; auto. exists als. auto.
  - destruct OK as ((z & Hz) & OK).
    destruct (hash_set_rep h n als k z v HR Hn Hz) as (i & al & h1 & Em & Ea & E & R1).
    cbn [run_hash fold_left]. rewrite E. cbn [obind]. apply IH; auto. eexists. split; [exact R1|].
    intro k'. rewrite (holds_alup h n als i _ k z (Some v) HR Hn Hz Em (ex_intro _ al Ea)).
    + unfold hstep. rewrite Hm. reflexivity.
    + intro k1. rewrite Ea. apply lookup_aset.
  - destruct OK as ((z & Hz) & Hd & OK). cbn [run_hash fold_left].
    destruct (m k) as [v|] eqn:Ek.
    + specialize (Hd ltac:(discriminate)).
      assert (Hk := Hm k). rewrite Ek in Hk.
      destruct (key_slot h n als HR Hn k z Hz) as (i & al & s & Em & Hi & Ea & Es & Rs & Er & E3).
      unfold holds in Hk. rewrite (proj1 Hz), Em, Nat2Z.id, Ea in Hk.
      assert (Hal : al = [(k, v)]).
      { assert (ND := hr_nodup _ _ _ HR _ _ Ea).
        assert (All : forall k', In k' (List.map fst al) -> k' = k).
        { intros k' Hin. destruct (val_eq_dec k' k) as [|Hne]; auto. exfalso.
          destruct (hr_keys _ _ _ HR _ _ _ Ea Hin) as (z' & Hz' & Em').
          apply (Hd k' Hne).
          - rewrite <- Hm. unfold holds. rewrite (proj1 Hz'), Em', Nat2Z.id, Ea. now apply lookup_in.
          - exists z, z'. split; auto. split; auto. congruence. }
        destruct al as [|[k1 v1] [|[k2 v2] al]].
        - discriminate.
        - cbn in Hk. destruct (val_eq_dec k k1) as [->|]; congruence.
        - exfalso. cbn [List.map fst] in *. inversion ND; subst.
          rewrite (All k1), (All k2) in * by (cbn; auto). match goal with H : ~ In _ _ |- _ => apply H end. now left. }
      subst al. destruct (hash_del_first h n als k z i v [] HR Hn Hz Em Ea) as (h1 & E & R1).
      rewrite E. cbn [obind]. apply IH; auto. eexists. split; [exact R1|].
      intro k'. rewrite (holds_alup h n als i _ k z None HR Hn Hz Em (ex_intro _ _ Ea)).
      * unfold hstep. rewrite Hm. reflexivity.
      * intro k1. rewrite Ea. cbn. destruct (val_eq_dec k1 k); auto.
    + rewrite (hash_del_absent h n als k z HR Hn Hz) by (rewrite Hm; auto). cbn [obind].
      apply IH; auto. exists als. split; auto. intro k'. unfold hstep.
      destruct (val_eq_dec k' k) as [->|]; rewrite Hm; auto.
Qed.

(** For every such history on a table of any positive capacity: every
    operation returns, [hash-get] gives the pair of the key and the value last
    stored (the empty list when absent), and [hash-count] is the number of
    keys present. *)
Theorem hash_table_is_map_partial : forall n ops, (0 < n)%nat ->
  history_ok n (fun _ => None) ops ->
  exists h, run_hash ops (hash_make n) = Ok h /\
    (forall k z, key_hash k z ->
       hash_get h k = Ok (match contents ops k with Some v => VCons k v | None => VNil end)) /\
    (exists ks, NoDup ks /\ (forall k, In k ks <-> contents ops k <> None) /\
       hash_count h = Ok (Z.of_nat (List.length ks))).
Proof.
  intros n ops Hn OK.
  assert (T0 : table_is (hash_make n) n (fun _ => None)).
  { exists (repeat [] n). split; [apply hash_make_rep|]. intro k. unfold holds.
    destruct (hash_to_number k); auto. destruct (nth_error _ _) eqn:E; auto.
    apply nth_error_In, repeat_spec in E. now subst. }
  destruct (run_hash_ok n ops _ _ Hn T0 OK) as (h & E & als & HR & Hm).
  exists h. split; auto. split.
  - intros k z Hk. rewrite (hash_get_rep h n als HR Hn k z Hk), Hm. reflexivity.
  - exists (List.map fst (concat als)). split; [eapply keys_nodup; eauto|]. split.
    + intro k. rewrite <- (holds_in h n als k HR Hn), Hm. reflexivity.
    + rewrite map_length. apply (count_rep h n als HR).
Qed.

(** The hypotheses on keys hold for non-negative numbers, and for symbols and
    strings of ASCII characters. *)
Lemma ascii_hash : forall s, Forall (fun b => (b < 128)%N) s -> 0 <= hashForString s.
Proof.
  induction s as [|b s IH]; intro H; cbn; [lia|]. inversion H; subst.
  destruct (b =? 0)%N; [lia|]. specialize (IH ltac:(auto)). unfold schar.
  destruct (N.ltb_spec b 128); lia.
Qed.

Theorem ascii_keys_ok : forall s, Forall (fun b => (b < 128)%N) s ->
  (exists z, key_hash (VStr s) z) /\ ((List.length s < 255)%nat -> exists z, key_hash (VSym s) z).
Proof.
  intros s H. apply ascii_hash in H. split.
  - eexists. split; [reflexivity|]. lia.
  - intro L. eexists. split; [unfold hash_to_number; apply Nat.ltb_lt in L; rewrite L; reflexivity|]. auto.
Qed.

Example hash_example :
  let a := VSym [97]%N in let b := VSym [98]%N in let c := VStr [99]%N in
  let ops := [HSet a (VNum 1); HSet b (VNum 2); HSet a (VNum 3); HSet c VNil; HDel c; HDel b] in
  history_ok 2 (fun _ => None) [HSet a (VNum 1); HSet b (VNum 2); HSet a (VNum 3); HDel b] /\
  match run_hash ops (hash_make 5) with
  | Ok h => (hash_get h a, hash_get h b, hash_get h c, hash_count h) = (Ok (VCons a (VNum 3)), Ok VNil, Ok VNil, Ok 1)
  | _ => False
  end.
Proof.
  cbv zeta. split; [|vm_compute; reflexivity].
  cbn [history_ok].
  assert (A : key_hash (VSym [97]%N) 97) by (split; [reflexivity|lia]).
  assert (B : key_hash (VSym [98]%N) 98) by (split; [reflexivity|lia]).
  split; [eauto|]. split; [eauto|]. split; [eauto|]. split; [eauto|]. split; [|exact I].
  intros _ k' Hne Hp (z & z' & [Hz _] & [Hz' _] & Em).
  unfold hstep in Hp. destruct (val_eq_dec k' (VSym [97]%N)) as [->|]; [|destruct (val_eq_dec k' (VSym [98]%N)); congruence].
  injection Hz as <-. injection Hz' as <-. vm_compute in Em. discriminate.
Qed.

(** The full statement, without the restriction on deletion, is false:
    [hash-del!] removes the first entry of the bucket, whatever its key. *)
Theorem hash_delete_refuted : exists n k1 v1 k2 v2,
  k1 <> k2 /\
  match run_hash [HSet k1 v1; HSet k2 v2; HDel k2] (hash_make n) with
  | Ok h => hash_get h k1 = Ok VNil /\ hash_get h k2 = Ok (VCons k2 v2)
  | _ => False
  end.
Proof.
  exists 4%nat, (VNum 1), (VSym [97]%N), (VNum 5), (VSym [98]%N). split; [discriminate|]. vm_compute. auto.
Qed.

Lemma hash_no_ub : forall k, hash_to_number k <> UB.
Proof.
  induction k; cbn [hash_to_number]; try discriminate.
  - destruct (List.length s <? 255)%nat; discriminate.
  - destruct (hash_to_number k1), (hash_to_number k2); cbn; congruence.
Qed.

(** ... and without the restriction on keys: storing under -1 overwrites the
    capacity, and the table is unusable. *)
Theorem hash_negative_key_refuted : exists n v h,
  hash_set (hash_make n) (VNum (-1)) v = Ok h /\
  (forall k, hash_get h k = Trap) /\ (forall k w, hash_set h k w = Trap).
Proof.
  exists 4%nat, (VNum 7). eexists. split; [vm_compute; reflexivity|]. split.
  - intro k. unfold hash_get. assert (D : hash_to_number k = UB \/ (exists z, hash_to_number k = Ok z) \/ hash_to_number k = Trap)
      by (destruct (hash_to_number k); eauto).
    assert (NU := hash_no_ub k).
    destruct D as [D|[(z & D)|D]]; [congruence| |]; rewrite D; reflexivity.
  - intros k w. unfold hash_set.
    assert (NU := hash_no_ub k).
    destruct (hash_to_number k); auto. congruence.
Qed.

(** A string of one non-ASCII character can be such a key. *)
Theorem hash_utf8_key_refuted : exists n s v h,
  hash_set (hash_make n) (VSym s) v = Ok h /\ capacity h = Trap.
Proof. exists 3%nat, [195; 190]%N, (VNum 7). eexists. split; vm_compute; reflexivity. Qed.

Theorem hash_capacity_zero_refuted : exists k, hash_get (hash_make 0) k = UB.
Proof. exists VNil. reflexivity. Qed.

Print Assumptions map_calls_each_once_in_order.
Print Assumptions filter_keeps_true.
Print Assumptions tls_get_set.
Print Assumptions queue_is_fifo.
Print Assumptions hash_table_is_map_partial.
Print Assumptions hash_delete_refuted.
Print Assumptions hash_negative_key_refuted.
