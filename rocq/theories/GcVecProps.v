(** C73: appending to vectors and the collector. *)
From Coq Require Import ZArith Bool List Lia Arith.
From Verif Require Import Base ListLib GcModel GcProofs GcInv GcLive GcProps GcVecModel.
Import ListNotations.
Open Scope Z_scope.

Lemma nth_list_set_same : forall (l : list value) i x, (i < length l)%nat -> nth i (list_set l i x) Imm = x.
Proof. intros l i x H. apply nth_error_nth. apply nth_error_list_set_eq. exact H. Qed.
Lemma nth_list_set_other : forall (l : list value) i j x, j <> i -> nth j (list_set l i x) Imm = nth j l Imm.
Proof. induction l as [|y l IH]; intros [|i] [|j] x N; cbn; try reflexivity; [contradiction|]. apply IH. auto. Qed.
Lemma exec_app : forall s ops s1, exec s ops (Ok s1) -> forall ops' r, exec s1 ops' r -> exec s (ops ++ ops') r.
Proof.
  intros s ops s1 H. remember (Ok s1) as x eqn:X. induction H as [s|s o ops s2 r P E H IH|s o ops P E|s o ops P E]; intros ops2 r2 K; try discriminate.
  - injection X as ->. exact K.
  - cbn [app]. econstructor; [exact P|exact E|]. apply IH; [exact X|exact K].
Qed.

Definition with_mut (s : st) (m : list value) : st := mkSt (g s) (ph s) (heap s) (queue s) (rset s) m.
Lemma gcMark_mut : forall s v n m, gcMark (with_mut s m) v n = with_mut (gcMark s v n) m.
Proof.
  intros s [|a] n m; [reflexivity|]. unfold gcMark, markObject. cbn [g heap with_mut]. destruct (is_inuse (g s) (heap s a)); [|reflexivity].
  destruct (is_odd (o_ver (heap s a))).
  - destruct (_ && _); reflexivity.
  - destruct (_ || _); reflexivity.
Qed.

(** reading all fields of an object the program holds *)
Lemma read_all : forall a n s, In (Ptr a) (mut s) -> exists ops m, exec s ops (Ok (with_mut s (m ++ mut s))) /\
  forall i, (i < n)%nat -> In (nth i (o_fields (heap s a)) Imm) m.
Proof.
  intros a n s H. induction n as [|n (ops & m & E & R)].
  - exists [], []. split; [|intros i L; lia]. cbn [app]. destruct s; constructor.
  - exists (ops ++ [ORead a n]), (nth n (o_fields (heap s a)) Imm :: m). split.
    + eapply exec_app; [exact E|]. econstructor; [cbn; apply in_or_app; now right|reflexivity|]. constructor.
    + intros i L. destruct (Nat.eq_dec i n) as [->|N]; [now left|right; apply R; lia].
Qed.

(** growing is a sequence of the operations the collector's theorems are about *)
Lemma grow_is_ops : forall s a b large i v, vpermitted s (VAppend a b large i v) -> (length (o_fields (heap s a)) <= i)%nat ->
  exists ops, exec s ops (Ok (vectorAppend s a b large i v)).
Proof.
  intros s a b large i v (Ha & Hv & _ & _ & _ & _ & Hb) L. unfold vectorAppend. apply Nat.leb_le in L. rewrite L. clear L.
  set (old := o_fields (heap s a)). set (cap := new_cap (length old)). unfold append_grow. fold old.
  set (fields := list_set (old ++ repeat Imm (cap - length old)) i v).
  destruct (read_all a (length old) s Ha) as (ops & m & E & R).
  assert (F : forall c, In (Ptr c) fields -> In (Ptr c) (m ++ mut s)).
  { intros c I. apply In_nth with (d := Imm) in I as (j & J & I). unfold fields in *. rewrite list_set_length in J.
    destruct (Nat.eq_dec j i) as [->|N].
    - rewrite nth_list_set_same in I by exact J. apply in_or_app. right. rewrite <- I. apply (Hv c). exact I.
    - rewrite nth_list_set_other in I by auto. destruct (Nat.lt_ge_cases j (length old)) as [Q|Q].
      + rewrite app_nth1 in I by exact Q. apply in_or_app. left. rewrite <- I. apply R. exact Q.
      + rewrite app_nth2 in I by exact Q. rewrite nth_repeat in I. discriminate. }
  assert (B : exec s (ops ++ [OAlloc b true large fields]) (Ok (with_mut (alloc s b true large fields) (Ptr b :: m ++ mut s)))).
  { eapply exec_app; [exact E|]. econstructor; [cbn; split; [exact Hb|exact F]|reflexivity|]. constructor. }
  assert (Q : forall s' m', exec (with_mut s' (Ptr b :: m' ++ mut s)) [ORoots (Ptr b :: mut s)] (Ok (with_mut s' (Ptr b :: mut s)))).
  { intros s' m'. econstructor; [|reflexivity|constructor]. cbn. intros w [W|W]; [now left|right; apply in_or_app; now right]. }
  destruct (ph s) eqn:P.
  - exists ((ops ++ [OAlloc b true large fields]) ++ [ORoots (Ptr b :: mut s)]). eapply exec_app; [exact B|]. apply Q.
  - exists ((ops ++ [OAlloc b true large fields]) ++ [OMarkOld (Ptr a); ORoots (Ptr b :: mut s)]). eapply exec_app; [exact B|].
    econstructor; [cbn; split; [exact P|]|cbn [step]; rewrite gcMark_mut; reflexivity|].
    + intros c I. right. apply in_or_app. now right.
    + assert (M : mut (gcMark (alloc s b true large fields) (Ptr a) 0) = Ptr b :: mut s).
      { unfold gcMark, markObject. repeat match goal with |- context [if ?x then _ else _] => destruct x end; reflexivity. }
      assert (W : forall x m, mut x = m -> with_mut x m = x) by (intros [] ? <-; reflexivity).
      rewrite <- (W _ _ M) at 2. apply Q.
  - exists ((ops ++ [OAlloc b true large fields]) ++ [ORoots (Ptr b :: mut s)]). eapply exec_app; [exact B|]. apply Q.
Qed.

(** the vector is no younger generation's elder: the barrier that is missing
    would do nothing *)
Definition ordered (s : st) (o : vop) : Prop :=
  match o with
  | VAppend a b large i (Ptr c) => (length (o_fields (heap s a)) <= i)%nat \/
      versionCmp (o_ver (heap s a) mod 64) (o_ver (heap s c) mod 64) <= 0
  | _ => True
  end.
Lemma room_is_op : forall s a b large i v, vpermitted s (VAppend a b large i v) -> (i < length (o_fields (heap s a)))%nat ->
  ordered s (VAppend a b large i v) -> exists ops, exec s ops (Ok (vectorAppend s a b large i v)).
Proof.
  intros s a b large i v (Ha & Hv & Hm & _ & _ & Hi & _) L O. exists [OWrite a i v]. econstructor; [cbn; auto| |constructor].
  cbn [step]. unfold vectorAppend. destruct (Nat.leb_spec (length (o_fields (heap s a))) i); [lia|]. f_equal.
  assert (E : writeBarrierForIncremental s a i v = append_room s a i v).
  { unfold writeBarrierForIncremental, append_room. rewrite Hi. destruct (ph s); reflexivity. }
  unfold store. rewrite E. unfold writeBarrierForGeneration. destruct v as [|c]; [reflexivity|].
  assert (V : forall x, o_ver (heap (append_room s a i (Ptr c)) x) = o_ver (heap s x)).
  { intros x. unfold append_room. cbn [with_obj heap]. unfold upd. destruct (Nat.eqb_spec x a); subst; reflexivity. }
  rewrite !V. cbn in O. destruct O as [O|O]; [lia|]. apply Z.leb_le in O. rewrite O. reflexivity.
Qed.

Lemma vexec_exec : forall s ops r, vexec ordered s ops r -> exists ops', exec s ops' r.
Proof.
  intros s ops r H. induction H as [s|s o ops s1 r P A E H (ops' & IH)|s o ops P A E|s o ops P A E].
  - exists []. constructor.
  - destruct o as [o|a b large i v].
    + exists (o :: ops'). econstructor; eassumption.
    + assert (X : exists ops0, exec s ops0 (Ok (vectorAppend s a b large i v))).
      { destruct (Nat.lt_ge_cases i (length (o_fields (heap s a)))); [apply room_is_op|apply grow_is_ops]; assumption. }
      destruct X as (ops0 & X). exists (ops0 ++ ops'). cbn [vstep] in E. injection E as <-. eapply exec_app; eassumption.
  - destruct o as [o|]; [|discriminate]. exists [o]. apply exec_trap; assumption.
  - destruct o as [o|]; [|discriminate]. exists [o]. apply exec_ub; assumption.
Qed.

(** Histories with appends are as safe as those without, as long as no vector
    that has been aged by a collection is given a younger object in place. *)
Theorem append_safety_partial : forall ops r, vexec ordered init ops r ->
  exists s, r = Ok s /\
  forall a, reach s (mut s) a ->
    o_used (heap s a) = true /\ is_inuse (g s) (heap s a) = true /\
    (forall m l f, ~ permitted s (OAlloc a m l f)) /\ sweep_obj (g s) (heap s a) = heap s a.
Proof. intros ops r H. apply vexec_exec in H as (ops' & H). exact (gc_safety ops' r H). Qed.
Print Assumptions append_safety_partial.
(** Growing needs no condition. *)
Theorem append_grow_safe : forall s a b large i v, vpermitted s (VAppend a b large i v) ->
  (length (o_fields (heap s a)) <= i)%nat -> exists ops, exec s ops (Ok (vectorAppend s a b large i v)).
Proof. exact grow_is_ops. Qed.
Print Assumptions append_grow_safe.

(** What the program reads afterwards: the old elements, the new one after
    them, and nothing else has changed. *)
Theorem append_contents : forall s a b large i v, vpermitted s (VAppend a b large i v) ->
  let r := if Nat.leb (length (o_fields (heap s a))) i then b else a in
  let s' := vectorAppend s a b large i v in
  (forall j, (j < i)%nat -> nth j (o_fields (heap s' r)) Imm = nth j (o_fields (heap s a)) Imm) /\
  nth i (o_fields (heap s' r)) Imm = v /\ (forall x, x <> r -> o_fields (heap s' x) = o_fields (heap s x)) /\ In (Ptr r) (mut s').
Proof.
  intros s a b large i v (Ha & _ & _ & Hl & Hn & _ & _). cbv zeta. unfold vectorAppend. set (old := o_fields (heap s a)) in *.
  destruct (Nat.leb_spec (length old) i) as [L|L].
  - assert (i = length old) by lia. subst i.
    assert (C : (length old < new_cap (length old))%nat).
    { destruct old as [|x r]; [contradiction|]. unfold new_cap. destruct (Nat.ltb_spec (length (x :: r)) 1024); [cbn [length]; lia|].
      pose proof (Nat.div_str_pos (length (x :: r)) 4). lia. }
    set (s1 := alloc s b true large (list_set (old ++ repeat Imm (new_cap (length old) - length old)) (length old) v)).
    assert (F : forall x, o_fields (heap (append_grow s a b large (new_cap (length old)) (length old) v) x) = o_fields (heap s1 x)).
    { intros x. unfold append_grow. fold old. destruct (ph s); try reflexivity. apply fields_gcMark. }
    assert (LEN : length (old ++ repeat Imm (new_cap (length old) - length old)) = new_cap (length old)) by (rewrite app_length, repeat_length; lia).
    assert (FB : o_fields (heap s1 b) = list_set (old ++ repeat Imm (new_cap (length old) - length old)) (length old) v).
    { unfold s1. cbn [alloc heap]. unfold upd. rewrite Nat.eqb_refl. reflexivity. }
    split; [intros j J; rewrite F, FB, nth_list_set_other by lia; apply app_nth1; exact J|].
    split; [rewrite F, FB; apply nth_list_set_same; lia|]. split.
    + intros x X. rewrite F. unfold s1. cbn [alloc heap]. unfold upd. destruct (Nat.eqb_spec x b); [contradiction|reflexivity].
    + unfold append_grow. destruct (ph s); try (now left). unfold gcMark, markObject.
      repeat match goal with |- context [if ?x then _ else _] => destruct x end; now left.
  - unfold append_room. cbn [with_obj heap mut]. unfold upd. rewrite Nat.eqb_refl. cbn [set_fields o_fields]. fold old.
    split; [intros j J; apply nth_list_set_other; lia|]. split; [apply nth_list_set_same; exact L|]. split; [|exact Ha].
    intros x X. destruct (Nat.eqb_spec x a); [contradiction|reflexivity].
Qed.
Print Assumptions append_contents.

(** * Running histories *)
Definition vpermb (s : st) (o : vop) : bool :=
  match o with
  | VOp o => permb s o
  | VAppend a b large i v =>
      let f := o_fields (heap s a) in
      memb (Ptr a) (mut s) && match v with Imm => true | _ => memb v (mut s) end && o_mut (heap s a) && Nat.leb i (length f) &&
      negb (Nat.eqb (length f) 0) && match nth i f Imm with Imm => true | _ => false end && negb (is_inuse (g s) (heap s b))
  end.
Lemma vpermb_ok : forall s o, vpermb s o = true -> vpermitted s o.
Proof.
  intros s [o|a b large i v] H; [apply permb_ok; exact H|]. cbn in H. repeat (apply andb_prop in H as [H ?]).
  cbn. split; [apply memb_In; assumption|]. split; [intros c ->; apply memb_In; assumption|]. split; [assumption|].
  split; [apply Nat.leb_le; assumption|]. split; [intros E; rewrite E in *; discriminate|].
  split; [destruct (nth i (o_fields (heap s a)) Imm); [reflexivity|discriminate]|]. apply negb_true_iff. assumption.
Qed.
Definition orderedb (s : st) (o : vop) : bool :=
  match o with
  | VAppend a b large i (Ptr c) => Nat.leb (length (o_fields (heap s a))) i || (versionCmp (o_ver (heap s a) mod 64) (o_ver (heap s c) mod 64) <=? 0)
  | _ => true
  end.
Lemma orderedb_ok : forall s o, orderedb s o = true -> ordered s o.
Proof.
  intros s [o|a b large i [|c]] H; cbn in *; try exact I. apply orb_prop in H as [H|H]; [left; apply Nat.leb_le; exact H|right; apply Z.leb_le; exact H].
Qed.
Fixpoint vrun (need : bool) (s : st) (ops : list vop) : option st :=
  match ops with
  | [] => Some s
  | o :: ops' => if vpermb s o && (negb need || orderedb s o) then match vstep s o with Ok s' => vrun need s' ops' | _ => None end else None
  end.
Lemma vrun_ordered : forall ops s s', vrun true s ops = Some s' -> vexec ordered s ops (Ok s').
Proof.
  induction ops as [|o ops IH]; intros s s' H; cbn [vrun] in H.
  - injection H as <-. constructor.
  - destruct (vpermb s o) eqn:P; [|discriminate]. destruct (orderedb s o) eqn:O; [|discriminate]. cbn [andb negb orb] in H.
    destruct (vstep s o) as [s1| |] eqn:E; try discriminate. econstructor; [apply vpermb_ok; exact P|apply orderedb_ok; exact O|exact E|apply IH; exact H].
Qed.
Lemma vrun_any : forall ops s s', vrun false s ops = Some s' -> vexec (fun _ _ => True) s ops (Ok s').
Proof.
  induction ops as [|o ops IH]; intros s s' H; cbn [vrun] in H.
  - injection H as <-. constructor.
  - destruct (vpermb s o) eqn:P; [|discriminate]. cbn [andb negb orb] in H.
    destruct (vstep s o) as [s1| |] eqn:E; try discriminate. econstructor; [apply vpermb_ok; exact P|exact I|exact E|apply IH; exact H].
Qed.

(** The missing barrier: a vector survives two collections, an object is made and
    appended to it, the program keeps only the vector, and the next collection
    ends: the object is reachable, not in use, and its slot may be handed out
    again. *)
Definition lost : list vop :=
  [VOp (OAlloc 0 true false [Imm; Imm]); VOp (OMarkRoot []); VOp OStep; VOp OStep; VOp (OMarkRoot []); VOp OStep; VOp OStep;
   VOp (OAlloc 1 false false [Imm]); VAppend 0 2 false 0 (Ptr 1); VOp (ORoots [Ptr 0%nat]); VOp (OMarkRoot []); VOp OStep].
Theorem append_in_place_refuted : exists ops s a, vexec (fun _ _ => True) init ops (Ok s) /\ reach s (mut s) a /\
  is_inuse (g s) (heap s a) = false /\ permitted s (OAlloc a false false []).
Proof.
  destruct (vrun false init lost) as [s|] eqn:E; [|vm_compute in E; discriminate]. exists lost, s, 1%nat.
  split; [apply vrun_any; exact E|].
  assert (E' : s = match vrun false init lost with Some t => t | None => init end) by (rewrite E; reflexivity).
  assert (U : is_inuse (g s) (heap s 1%nat) = false) by (rewrite E'; vm_compute; reflexivity).
  split; [|split; [exact U|split; [exact U|intros b []]]].
  apply reach_field with (b := 0%nat); [apply reach_root|]; rewrite E'; vm_compute; auto.
Qed.
Print Assumptions append_in_place_refuted.

(** Example: a vector is made, filled and grown, in the middle of a collection
    too, and the history meets the condition. *)
Definition fine_history : list vop :=
  [VOp (OAlloc 0 true false [Imm; Imm]); VOp (OAlloc 1 false false [Imm]); VAppend 0 9 false 0 (Ptr 1); VOp (OMarkRoot []);
   VOp (OAlloc 2 false false [Ptr 1%nat]); VAppend 0 9 false 1 (Ptr 1); VAppend 0 3 false 2 (Ptr 2); VOp OStep; VAppend 3 9 false 3 (Ptr 2);
   VOp (ORoots [Ptr 3%nat]); VOp OStep; VOp OStep].
Example append_safety_example : exists s, vexec ordered init fine_history (Ok s) /\ reach s (mut s) 1%nat /\ reach s (mut s) 2%nat /\
  o_fields (heap s 3%nat) = [Ptr 1%nat; Ptr 1%nat; Ptr 2%nat; Ptr 2%nat].
Proof.
  destruct (vrun true init fine_history) as [s|] eqn:E; [|vm_compute in E; discriminate]. exists s.
  split; [apply vrun_ordered; exact E|].
  assert (E' : s = match vrun true init fine_history with Some t => t | None => init end) by (rewrite E; reflexivity).
  assert (R : In (Ptr 3%nat) (mut s)) by (rewrite E'; vm_compute; auto).
  split; [apply reach_field with (b := 3%nat); [apply reach_root; exact R|rewrite E'; vm_compute; auto]|].
  split; [apply reach_field with (b := 3%nat); [apply reach_root; exact R|rewrite E'; vm_compute; auto]|]. rewrite E'. vm_compute. reflexivity.
Qed.
