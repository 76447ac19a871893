(** define-record: what a program may rely on when it uses the functions of a
    record type (C61). *)
From Coq Require Import List ZArith Bool String Arith Lia.
From Verif Require Import CoreSpec TocModel CoreProofs RecSpec RecModel RecProofs.
Import ListNotations.
Local Open Scope list_scope.
Local Open Scope nat_scope.

(** The functions that (define-record . t) defines when [n] symbols have been
    made before. *)
Definition record_defs (n : nat) (t : rtype) : option defs :=
  match rewrite_define_record (record_sexp t) n with
  | Some (e, _) => define e []
  | None => None
  end.

(** Every sensible record type is accepted, and defines the functions it
    names and no others. *)
Theorem record_expands : forall n t, sensible n t ->
  exists d, record_defs n t = Some d /\ forall x, In x (map fst d) <-> In x (defined t).
Proof.
  intros n t S. destruct (expansion n t S) as (e & k & d & E & D & N & _). exists d. unfold record_defs. rewrite E.
  split; [exact D|]. intros x. rewrite N, <- in_rev. tauto.
Qed.

Lemma record_defs_spec : forall n t d, sensible n t -> record_defs n t = Some d ->
  clean (map fst d) /\
  lookup (con t) d = Some (inits t, con_body n t) /\
  (forall p, pred t = Some p -> lookup p d = Some ([NG (S n)], pred_body (NG (S n)) t)) /\
  (forall f i, In f (fields t) -> index_of (fname f) (fields t) = Some i ->
     (forall g, getter f = Some g -> exists j, lookup g d = Some (snd (get_def j i g))) /\
     (forall s, setter f = Some s -> exists j, lookup s d = Some (snd (set_def j i s)))).
Proof.
  intros n t d S R. destruct (expansion n t S) as (e & k & d' & E & D & N & H). unfold record_defs in R. rewrite E, D in R.
  inversion R; subst d'. split; [exact (clean_defined n t d S N)|exact H].
Qed.

Lemma call_get : forall n t d f g i a l v h, sensible n t -> record_defs n t = Some d ->
  In f (fields t) -> getter f = Some g -> index_of (fname f) (fields t) = Some i ->
  nth_error h a = Some (RSym (tname t) :: l) -> nth_error l i = Some v -> call d g [RRef a] h = Some (v, h).
Proof.
  intros n t d f g i a l v h S R I G X H V. destruct (record_defs_spec n t d S R) as (C & _ & _ & F).
  destruct (F f i I X) as [GG _]. destruct (GG g G) as [j J]. unfold call. rewrite J. cbn [snd get_def List.length Nat.eqb combine].
  apply eval_get with (l := RSym (tname t) :: l); assumption.
Qed.

(** The constructor makes a new record, and leaves everything else alone; a
    getter gives the argument the constructor was given for its field. *)
Theorem record_make : forall n t d args h, sensible n t -> record_defs n t = Some d ->
  List.length args = List.length (inits t) ->
  exists h', call d (con t) args h = Some (RRef (List.length h), h') /\
    List.length h' = S (List.length h) /\ (forall a, a < List.length h -> nth_error h' a = nth_error h a) /\
    is_record t (RRef (List.length h)) h' /\
    forall f g i v, In f (fields t) -> getter f = Some g -> nth_error (inits t) i = Some (fname f) -> nth_error args i = Some v ->
      call d g [RRef (List.length h)] h' = Some (v, h').
Proof.
  intros n t d args h S R L. pose proof (record_defs_spec n t d S R) as (C & K & _ & _).
  destruct (eval_con n t (map fst d) args h S C L) as (l & E & LL & V & _).
  exists (h ++ [RSym (tname t) :: l]). split.
  { unfold call. rewrite K, L, Nat.eqb_refl. exact E. }
  split; [rewrite app_length; cbn; lia|]. split; [intros a A; apply nth_error_app1; exact A|].
  split. { exists (List.length h), l. split; [reflexivity|]. split; [apply nth_app_last|exact LL]. }
  intros f g i v I G X A. destruct (index_some_in (fname f) (fields t) (in_map fname _ _ I)) as [j J].
  eapply call_get; try eassumption; [apply nth_app_last|]. eapply V; eassumption.
Qed.

(** A setter stores what it is given: the getter of the field gives it back.
    No other field of the record changes, and no other vector. *)
Theorem record_set : forall n t d a h f s v, sensible n t -> record_defs n t = Some d -> is_record t (RRef a) h ->
  In f (fields t) -> setter f = Some s ->
  exists h', call d s [RRef a; v] h = Some (v, h') /\ is_record t (RRef a) h' /\
    (forall g, getter f = Some g -> call d g [RRef a] h' = Some (v, h')) /\
    (forall f' g', In f' (fields t) -> fname f' <> fname f -> getter f' = Some g' ->
       exists w, call d g' [RRef a] h = Some (w, h) /\ call d g' [RRef a] h' = Some (w, h')) /\
    List.length h' = List.length h /\ (forall b, b <> a -> nth_error h' b = nth_error h b).
Proof.
  intros n t d a h f s v S R (a0 & l & E & H & L) I ST. inversion E; subst a0. clear E.
  pose proof (record_defs_spec n t d S R) as (C & _ & _ & F).
  destruct (index_some_in (fname f) (fields t) (in_map fname _ _ I)) as [j J]. pose proof (index_lt _ _ _ J) as JL.
  destruct (F f j I J) as [_ SS]. destruct (SS s ST) as [k K].
  assert (AL : a < List.length h) by (apply nth_error_Some; congruence).
  assert (H' : nth_error (replace h a (RSym (tname t) :: replace l j v)) a = Some (RSym (tname t) :: replace l j v)) by (apply nth_replace_same; exact AL).
  exists (replace h a (RSym (tname t) :: replace l j v)). split.
  { unfold call. rewrite K. cbn [snd set_def List.length Nat.eqb combine].
    rewrite (eval_set _ _ _ _ _ _ _ C H); [reflexivity|cbn; lia]. }
  split. { exists a, (replace l j v). split; [reflexivity|]. split; [exact H'|rewrite replace_length; exact L]. }
  split. { intros g G. eapply call_get; try eassumption. apply nth_replace_same. lia. }
  split.
  { intros f' g' I' D G'. destruct (index_some_in (fname f') (fields t) (in_map fname _ _ I')) as [j' J']. pose proof (index_lt _ _ _ J') as JL'.
    destruct (nth_error l j') as [w|] eqn:W; [|apply nth_error_None in W; lia]. exists w. split; [eapply call_get; eassumption|].
    eapply call_get; try eassumption. rewrite nth_replace_other; [exact W|]. intro Q. apply D. exact (idx_inj _ _ _ _ _ J' J (eq_sym Q)). }
  split; [apply replace_length|]. intros b B. apply nth_replace_other. congruence.
Qed.

(** The predicate answers for every value: true exactly for the records of the
    type.  A value is settled when it is not an uninitialised slot, nor a vector
    whose first slot is. *)
Definition settled (v : rv) (h : vheap) : Prop :=
  v <> RUndef /\ forall a, v = RRef a -> exists l, nth_error h a = Some l /\ nth_error l 0 <> Some RUndef.
Theorem record_pred : forall n t d p v h, sensible n t -> record_defs n t = Some d -> pred t = Some p -> settled v h ->
  exists b, call d p [v] h = Some (rbool b, h) /\ (b = true <-> is_record t v h).
Proof.
  intros n t d p v h S R P [U W]. pose proof (record_defs_spec n t d S R) as (C & _ & K & _).
  unfold call. rewrite (K p P). cbn [List.length Nat.eqb combine]. rewrite eval_pred by exact C.
  destruct v; try (exists false; split; [reflexivity|]; split; [discriminate|intros (a0 & l & E & _); discriminate]).
  - destruct (W a eq_refl) as (l & L & T). cbn [pred_val]. rewrite L.
    destruct (Nat.eqb_spec (List.length l) (Datatypes.S (List.length (fields t)))) as [E|E].
    + destruct l as [|x l]; [discriminate|]. cbn in T, E.
      assert (Q : exists b, req x (RSym (tname t)) = Some b /\ (b = true <-> x = RSym (tname t))).
      { destruct x; try (exists false; split; [reflexivity|]; split; discriminate).
        - exists (name_eqb x (tname t)). split; [reflexivity|]. destruct (name_eqb_spec x (tname t)); split; congruence.
        - exfalso. apply T. reflexivity. }
      destruct Q as (b & -> & B). exists b. split; [reflexivity|]. rewrite B. split.
      * intros ->. exists a, l. split; [reflexivity|]. split; [exact L|lia].
      * intros (a0 & l0 & A0 & H0 & _). inversion A0; subst a0. congruence.
    + exists false. split; [reflexivity|]. split; [discriminate|]. intros (a0 & l0 & A0 & H0 & L0). inversion A0; subst a0.
      rewrite L in H0. inversion H0; subst l. cbn in E. lia.
  - contradiction.
Qed.

(** Record types with different names are told apart, whatever their fields. *)
Theorem record_types_apart : forall n t d p t' v h, sensible n t -> record_defs n t = Some d -> pred t = Some p ->
  is_record t' v h -> tname t' <> tname t -> call d p [v] h = Some (RFalse, h).
Proof.
  intros n t d p t' v h S R P (a & l & -> & H & L) D. destruct (record_pred n t d p (RRef a) h S R P) as (b & E & B).
  - split; [discriminate|]. intros a0 A. inversion A; subst a0. exists (RSym (tname t') :: l). split; [exact H|discriminate].
  - destruct b; [|exact E]. exfalso. destruct (proj1 B eq_refl) as (a0 & l0 & A0 & H0 & _). inversion A0; subst a0.
    rewrite H in H0. inversion H0. auto.
Qed.

(** * What does not hold *)
Local Open Scope string_scope.
Definition person : rtype := mkRtype (NS "<person>") (NS "make-person") [NS "name"; NS "age"] (Some (NS "person?"))
  [mkField (NS "name") (Some (NS "get-name")) (Some (NS "set-name!")); mkField (NS "age") (Some (NS "get-age")) (Some (NS "set-age!"))].
(** another package's type of the same name, with as many fields *)
Definition person2 : rtype := mkRtype (NS "<person>") (NS "new") [NS "id"] (Some (NS "is?"))
  [mkField (NS "id") (Some (NS "get-id")) None; mkField (NS "nick") (Some (NS "nick")) None].

Ltac solve_in := cbn; intuition (try discriminate; try congruence).
Ltac nodup := repeat (constructor; [solve_in|]); constructor.
Ltac sens := constructor; [cbn; nodup|cbn; nodup|cbn; nodup| | | | |]; cbn; intros x H; repeat (destruct H as [<-|H]); try contradiction; cbn; try tauto; intuition congruence.
Example person_sensible : sensible 3 person.
Proof. sens. Qed.
Example person2_sensible : sensible 3 person2.
Proof. sens. Qed.

(** The predicate of a type accepts a record of another type that happens to
    have the same name and number of fields; the name is quoted, so packages do
    not tell them apart. *)
Theorem record_same_name_refuted : exists t t' d d' p r h, sensible 3 t /\ sensible 3 t' /\ fields t <> fields t' /\
  record_defs 3 t = Some d /\ record_defs 3 t' = Some d' /\ pred t = Some p /\
  call d' (con t') [RNum 7] [] = Some (r, h) /\ call d p [r] h = Some (RTrue, h).
Proof.
  exists person, person2. do 2 eexists. exists (NS "person?"), (RRef 0). eexists.
  split; [exact person_sensible|]. split; [exact person2_sensible|]. split; [discriminate|].
  split; [vm_compute; reflexivity|]. split; [vm_compute; reflexivity|]. split; [reflexivity|]. split; vm_compute; reflexivity.
Qed.
(** A getter gives garbage for a field the constructor does not set. *)
Theorem record_unset_refuted : exists t d f g r h, sensible 3 t /\ record_defs 3 t = Some d /\ In f (fields t) /\ getter f = Some g /\
  call d (con t) [RNum 7] [] = Some (r, h) /\ call d g [r] h = Some (RUndef, h).
Proof.
  exists person2. eexists. exists (mkField (NS "nick") (Some (NS "nick")) None), (NS "nick"), (RRef 0). eexists.
  split; [exact person2_sensible|]. split; [vm_compute; reflexivity|]. split; [cbn; auto|]. split; [reflexivity|]. split; vm_compute; reflexivity.
Qed.
(** A getter does not check the type: it reads a record of any other. *)
Definition animal : rtype := mkRtype (NS "<animal>") (NS "make-animal") [NS "legs"] (Some (NS "animal?")) [mkField (NS "legs") (Some (NS "legs")) None].
Theorem record_getter_unchecked_refuted : exists t t' d d' p g r h, sensible 3 t /\ record_defs 3 t = Some d /\ record_defs 3 t' = Some d' /\
  pred t = Some p /\ In g (defined t) /\ call d' (con t') [RNum 4] [] = Some (r, h) /\ call d p [r] h = Some (RFalse, h) /\ call d g [r] h = Some (RNum 4, h).
Proof.
  exists person, animal. do 2 eexists. exists (NS "person?"), (NS "get-name"), (RRef 0). eexists.
  split; [exact person_sensible|]. split; [vm_compute; reflexivity|]. split; [vm_compute; reflexivity|]. split; [reflexivity|].
  split; [cbn; auto|]. split; [vm_compute; reflexivity|]. split; vm_compute; reflexivity.
Qed.
(** A field called vector breaks the constructor: the generated call of the
    primitive calls the argument. *)
Theorem record_capture_refuted : exists t d, record_defs 3 t = Some d /\ lookup (con t) d <> None /\
  List.length (inits t) = 1 /\ forall v h, call d (con t) [v] h = None.
Proof.
  exists (mkRtype (NS "<t>") (NS "make-t") [NS "vector"] None [mkField (NS "vector") (Some (NS "get-t")) None]). eexists.
  split; [vm_compute; reflexivity|]. split; [vm_compute; discriminate|]. split; [reflexivity|]. intros v h. reflexivity.
Qed.
(** A constructor parameter that is not a field stops the expansion. *)
Theorem record_unknown_init_refuted : exists t, NoDup (inits t) /\ rewrite_define_record (record_sexp t) 3 = None.
Proof.
  exists (mkRtype (NS "<t>") (NS "make-t") [NS "x"] None [mkField (NS "y") (Some (NS "get-y")) None]). split; [nodup|vm_compute; reflexivity].
Qed.

(** test/define-record-test.cora *)
Example person_used : exists d, record_defs 3 person = Some d /\
  call d (NS "make-person") [RStr "sdf"; RNum 32] [[]] = Some (RRef 1, [[]; [RSym (NS "<person>"); RStr "sdf"; RNum 32]]) /\
  call d (NS "set-age!") [RRef 1; RNum 33] [[]; [RSym (NS "<person>"); RStr "sdf"; RNum 32]] =
    Some (RNum 33, [[]; [RSym (NS "<person>"); RStr "sdf"; RNum 33]]) /\
  call d (NS "person?") [RRef 0] [[]] = Some (RFalse, [[]]).
Proof. eexists. split; [vm_compute; reflexivity|]. repeat split; vm_compute; reflexivity. Qed.
Example person_settled : settled (RRef 1) [[]; [RSym (NS "<person>"); RStr "sdf"; RNum 32]] /\
  is_record person (RRef 1) [[]; [RSym (NS "<person>"); RStr "sdf"; RNum 32]].
Proof.
  split.
  - split; [discriminate|]. intros a A. inversion A. eexists. split; [reflexivity|discriminate].
  - exists 1, [RStr "sdf"; RNum 32]. repeat split.
Qed.

Print Assumptions record_expands.
Print Assumptions record_make.
Print Assumptions record_set.
Print Assumptions record_pred.
Print Assumptions record_types_apart.
Print Assumptions record_same_name_refuted.
Print Assumptions record_unset_refuted.
Print Assumptions record_getter_unchecked_refuted.
Print Assumptions record_capture_refuted.
Print Assumptions record_unknown_init_refuted.
