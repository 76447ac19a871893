(** C77: reading of JSON documents. *)
From Coq Require Import ZArith Bool List Lia.
From Verif Require Import Base NumModel NumProofs HeapModel HeapProps JsonModel JsonSpec.
Import ListNotations.
Local Open Scope Z_scope.
Local Open Scope out_scope.

Lemma word_eq : forall a, word a = OBJ_MASK + TAG_COBJ * 2^48 + a.
Proof. intros a. unfold word, OBJ_MASK, TAG_COBJ. lia. Qed.

Lemma word_iscobj : forall a, address a -> iscobj (word a) = true.
Proof.
  intros a [A _]. rewrite word_eq. unfold iscobj. rewrite boxed_masked; [reflexivity|lia| |]; unfold TAG_COBJ; lia.
Qed.
Lemma word_must : forall a, address a -> mustCObj (word a) = Ok a.
Proof.
  intros a [A _]. rewrite word_eq. unfold mustCObj.
  rewrite boxed_tag, boxed_ptr by (unfold TAG_COBJ; lia). reflexivity.
Qed.
Lemma land7 : forall a, Z.land a 7 = a mod 8.
Proof. intros a. exact (Z.land_ones a 3 ltac:(lia)). Qed.
Lemma word_make : forall a, address a -> makeCObj a = Ok (word a).
Proof.
  intros a [A B]. unfold makeCObj. rewrite land7, B. cbn [assertT Z.eqb].
  rewrite makeNaNPtr_ok by (unfold TAG_COBJ; lia). f_equal.
Qed.

Definition node_of (h : store) (a : Z) (j : json) (n : node) : Prop :=
  match j, n with
  | JObject m, NObject l => Forall2 (fun x y => fst x = fst y /\ denotes h (snd x) (snd y)) l m
  | JArray m, NArray l => 8 * Z.of_nat (length l) < 2^64 /\ Forall2 (denotes h) l m
  | JString s, NString t => s = t
  | JInteger z, NInteger y => z = y
  | JReal p, NReal q => p = q
  | JTrue, NTrue | JFalse, NFalse | JNull, NNull => True
  | _, _ => False
  end.
Lemma denotes_inv : forall h a j, denotes h a j ->
  address a /\ exists n, h a = Some n /\ node_of h a j n /\ typeof n = kind_of j.
Proof.
  intros h a j D. inversion D; subst; (split; [assumption|]); eexists; (split; [eassumption|]);
    cbn; auto.
Qed.

(** * Kinds *)
(** json-typeof names the kind of the document, and of the eight predicates exactly the one
    of that kind answers true. *)
Theorem kinds_right : forall h w j, stands h w j ->
  jsonTypeOf h w = Ok (ASymbol (kind_of j)) /\
  (forall k, jsonIs k h w = Ok True_ <-> k = kind_of j) /\
  (forall k, jsonIs k h w = Ok False_ <-> k <> kind_of j).
Proof.
  intros h w j (a & -> & D). apply denotes_inv in D. destruct D as (A & n & Hn & _ & T).
  unfold jsonTypeOf, jsonIs, load. rewrite (word_iscobj a A), (word_must a A). cbn [obind negb].
  rewrite Hn. cbn [obind]. rewrite T. split; [reflexivity|].
  assert (E : forall k, kind_eqb (kind_of j) k = true <-> k = kind_of j).
  { intros k. destruct (kind_of j), k; cbn; split; intro H; try reflexivity; discriminate. }
  assert (TF : True_ <> False_) by (vm_compute; discriminate).
  split; intros k; specialize (E k); destruct (kind_eqb (kind_of j) k); split; intro H.
  - now apply E.
  - reflexivity.
  - exfalso. apply TF. apply Ok_inj in H. now rewrite H.
  - exfalso. apply E in H. discriminate.
  - exfalso. apply TF. now apply Ok_inj in H.
  - exfalso. apply H. now apply E.
  - intro K. apply E in K. discriminate.
  - reflexivity.
Qed.

(** What is no C object is no document. *)
Theorem others_right : forall h w, iscobj w = false ->
  jsonTypeOf h w = Ok ANil /\ (forall k, jsonIs k h w = Ok False_) /\
  jsonStringValue h w = Ok [] /\ (exists n, jsonIntegerValue h w = Ok n /\ fixnum n = Ok 0).
Proof.
  intros h w H. unfold jsonTypeOf, jsonIs, jsonStringValue, jsonIntegerValue. rewrite H. cbn [negb].
  repeat split. exists 0. split; vm_compute; reflexivity.
Qed.

(** * Values *)
(** Integers up to 2^53 and strings come out as they are in the document. *)
Theorem values_right_partial : forall h w,
  (forall z, stands h w (JInteger z) -> Z.abs z <= 2^53 ->
     exists n, jsonIntegerValue h w = Ok n /\ fixnum n = Ok z) /\
  (forall s, stands h w (JString s) -> Z.of_nat (length s) < 2^31 - 33 ->
     jsonStringValue h w = Ok s).
Proof.
  intros h w. split.
  - intros z (a & -> & D) B. apply denotes_inv in D. destruct D as (A & n & Hn & N & T).
    unfold jsonIntegerValue, load. rewrite (word_iscobj a A), (word_must a A). cbn [obind negb].
    rewrite Hn. cbn [obind]. destruct n; try contradiction. cbn in N. subst z0.
    exists (i2d z). cbn [integer_value]. split; [apply makeNumber_ok; lia|now apply fixnum_i2d].
  - intros s (a & -> & D) B. apply denotes_inv in D. destruct D as (A & n & Hn & N & T).
    unfold jsonStringValue, load. rewrite (word_iscobj a A), (word_must a A). cbn [obind negb].
    rewrite Hn. cbn [obind]. destruct n; try contradiction. cbn in N. subst s0.
    cbn [string_value string_length]. unfold makeString. rewrite to_int_id by lia.
    destruct (Z.ltb_spec (Z.of_nat (length s) + 33) (2^31)); [|lia].
    destruct (Z.leb_spec 0 (Z.of_nat (length s))); [|lia].
    now rewrite Nat2Z.id, firstn_all.
Qed.

(** A document that is no integer has the integer value 0. *)
Theorem integer_of_other : forall h w j, stands h w j -> (forall z, j <> JInteger z) ->
  exists n, jsonIntegerValue h w = Ok n /\ fixnum n = Ok 0.
Proof.
  intros h w j (a & -> & D) N. apply denotes_inv in D. destruct D as (A & n & Hn & E & T).
  unfold jsonIntegerValue, load. rewrite (word_iscobj a A), (word_must a A). cbn [obind negb]. rewrite Hn. cbn [obind].
  assert (integer_value n = 0) as ->. { destruct n; try reflexivity. destruct j; try contradiction. now elim (N z0). }
  exists 0. split; vm_compute; reflexivity.
Qed.

Lemma Forall2_len : forall A B (R : A -> B -> Prop) l m, Forall2 R l m -> length l = length m.
Proof. intros A B R l m H. induction H; cbn; congruence. Qed.

(** The sizes are the numbers of elements and members, and 0 for other kinds. *)
Theorem sizes_right : forall h w j, stands h w j ->
  (forall m, j = JArray m -> Z.of_nat (length m) <= 2^53) ->
  (forall m, j = JObject m -> Z.of_nat (length m) <= 2^53) ->
  (exists n, jsonArraySize h w = Ok n /\
     fixnum n = Ok (match j with JArray m => Z.of_nat (length m) | _ => 0 end)) /\
  (exists n, jsonObjectSize h w = Ok n /\
     fixnum n = Ok (match j with JObject m => Z.of_nat (length m) | _ => 0 end)).
Proof.
  intros h w j (a & -> & D) B1 B2. apply denotes_inv in D. destruct D as (A & n & Hn & N & T).
  unfold jsonArraySize, jsonObjectSize, load. rewrite (word_must a A). cbn [obind].
  rewrite Hn. cbn [obind].
  destruct j; destruct n; try contradiction; cbn [array_size object_size]; cbn in N;
    try (specialize (B1 _ eq_refl)); try (specialize (B2 _ eq_refl));
    try (match type of N with _ /\ _ => destruct N as [_ N] end); try (pose proof (Forall2_len _ _ _ _ _ N) as L; rewrite L);
    split; eexists; (split; [apply makeNumber_ok; lia|apply fixnum_i2d; lia]).
Qed.

(** * Paths *)
Definition step_ok (s : step) (t : jstep) : Prop :=
  match s, t with
  | Index w, At i => fixnum w = Ok i /\ - 2^31 <= i < 2^31
  | Key k, Named k' => k = k' /\ ~ In 0 k
  | _, _ => False
  end.

Lemma cstr_id : forall k, ~ In 0 k -> cstr k = k.
Proof.
  induction k as [|c k IH]; intros N; [reflexivity|]. cbn [cstr].
  destruct (Z.eqb_spec c 0) as [->|_]; [exfalso; apply N; now left|].
  f_equal. apply IH. intro I. apply N. now right.
Qed.
Lemma bytes_eqb_spec : forall s t, bytes_eqb s t = true <-> s = t.
Proof.
  induction s as [|c s IH]; destruct t as [|d t]; cbn; split; intro H; try reflexivity; try discriminate.
  - apply andb_true_iff in H. destruct H as [H1 H2]. apply Z.eqb_eq in H1. apply IH in H2. congruence.
  - injection H as -> ->. rewrite Z.eqb_refl. cbn. now apply IH.
Qed.
Lemma member_lookup : forall h l m k,
  Forall2 (fun x y => fst x = fst y /\ denotes h (snd x) (snd y)) l m ->
  match lookup m k with
  | Some j => exists a, member l k = Some a /\ denotes h a j
  | None => member l k = None
  end.
Proof.
  intros h l m k F. induction F as [|[x a] [y j] l m [E D] F IH]; cbn [member lookup]; [reflexivity|].
  cbn in E, D. subst y. destruct (list_eq_dec Z.eq_dec x k) as [->|N].
  - assert (H : bytes_eqb k k = true) by now apply bytes_eqb_spec. rewrite H. eauto.
  - destruct (bytes_eqb x k) eqn:H; [apply bytes_eqb_spec in H; contradiction|exact IH].
Qed.
Lemma Forall2_nth : forall A B (R : A -> B -> Prop) l m i, Forall2 R l m ->
  match nth_error m i with
  | Some y => exists x, nth_error l i = Some x /\ R x y
  | None => nth_error l i = None
  end.
Proof.
  intros A B R l m i F. revert i. induction F; intros [|i]; cbn; eauto. apply IHF.
Qed.

Lemma step_right : forall h w j s t, stands h w j -> step_ok s t ->
  match child j t with
  | Some j' => exists w', follow1 h w s = Ok w' /\ stands h w' j'
  | None => follow1 h w s = Ok Nil
  end.
Proof.
  intros h w j s t (a & -> & D) O. apply denotes_inv in D. destruct D as (A & n & Hn & N & T).
  destruct s as [i|k], t as [i'|k']; try contradiction; cbn [follow1].
  - destruct O as [Fx B]. unfold jsonArrayGet, load. rewrite (word_must a A). cbn [obind].
    rewrite Fx. cbn [obind]. rewrite Hn. cbn [obind]. rewrite to_int_id by lia.
    destruct j; destruct n; try contradiction; cbn [child array_get]; try reflexivity.
    cbn [node_of] in N. destruct N as [Big N]. pose proof (Forall2_len _ _ _ _ _ N) as L.
    destruct (Z.ltb_spec i' 0) as [Neg|Pos].
    + assert (Em : i' mod 2^64 = i' + 2^64) by (symmetry; apply Z.mod_unique with (-1); [left; lia|ring]). rewrite Em.
      destruct (Z.ltb_spec (i' + 2^64) (Z.of_nat (length elements0))) as [Lt|_]; [|reflexivity].
      exfalso. lia.
    + rewrite Z.mod_small by lia. pose proof (Forall2_nth _ _ _ _ _ (Z.to_nat i') N) as X.
      destruct (nth_error elements (Z.to_nat i')) as [j'|] eqn:E.
      * destruct X as (v & Hv & Dv). destruct (Z.ltb_spec i' (Z.of_nat (length elements0))) as [_|Ge].
        -- rewrite Hv. exists (word v). split; [apply word_make|exists v; auto].
           now apply denotes_inv in Dv.
        -- exfalso. assert (nth_error elements0 (Z.to_nat i') <> None) by congruence.
           apply nth_error_Some in H. lia.
      * rewrite X. now destruct (i' <? _).
  - destruct O as [<- NN]. unfold jsonObjectGet, load. rewrite (word_must a A). cbn [obind].
    rewrite Hn. cbn [obind].
    destruct j; destruct n; try contradiction; cbn [child object_get]; try reflexivity.
    cbn in N. rewrite (cstr_id k NN). pose proof (member_lookup _ _ _ k N) as X.
    destruct (lookup members k) as [j'|].
    + destruct X as (v & -> & Dv). exists (word v). split; [apply word_make|exists v; auto].
      now apply denotes_inv in Dv.
    + now rewrite X.
Qed.

(** Following a path that the document has leads to what it leads to there; a last step that
    the document does not have gives (). *)
Theorem path_right_partial : forall h w j p q j', stands h w j -> Forall2 step_ok p q ->
  find j q = Some j' ->
  (exists w', follow h w p = Ok w' /\ stands h w' j') /\
  (forall s t, step_ok s t -> child j' t = None -> follow h w (p ++ [s]) = Ok Nil).
Proof.
  intros h w j p q j' St F. revert w j St. induction F as [|s t p q O F IH]; intros w j St E.
  - cbn in E. injection E as <-. split; [exists w; auto|].
    intros s t O C. cbn [app follow]. pose proof (step_right h w j s t St O) as X. rewrite C in X.
    rewrite X. reflexivity.
  - cbn [find] in E. pose proof (step_right h w j s t St O) as X.
    destruct (child j t) as [j1|]; [|discriminate]. destruct X as (w1 & X & St1).
    cbn [follow app]. rewrite X. cbn [obind]. now apply IH with (j := j1).
Qed.

(** Going on after a step that the document does not have stops the program. *)
Theorem path_missing : forall h w j p q j' s t r p', stands h w j -> Forall2 step_ok p q ->
  find j q = Some j' -> step_ok s t -> child j' t = None ->
  follow h w (p ++ s :: r :: p') = Trap.
Proof.
  intros h w j p q j' s t r p' St F E O C.
  destruct (path_right_partial h w j p q j' St F E) as [_ M]. specialize (M s t O C).
  assert (A : forall p w x y, follow h w (p ++ [x]) = Ok y ->
                follow h w (p ++ x :: r :: p') = follow h y (r :: p')).
  { clear. induction p as [|z p IH]; intros w x y H; cbn [app follow] in *.
    - destruct (follow1 h w x) as [v| |]; cbn [obind] in *; try discriminate.
      injection H as ->. reflexivity.
    - destruct (follow1 h w z) as [v| |]; cbn [obind] in *; try discriminate. now apply IH. }
  rewrite (A _ _ _ _ M). cbn [follow]. destruct r as [i|k]; cbn [follow1]; reflexivity.
Qed.

(** * Loops *)
(** The loop from 0 to the size visits the elements of an array, each once and in order. *)
Theorem elements_right : forall h w m, stands h w (JArray m) -> Z.of_nat (length m) <= 2^31 ->
  exists l, elements h w = Ok l /\ Forall2 (stands h) l m.
Proof.
  intros h w m St B. unfold elements.
  destruct (sizes_right h w (JArray m) St) as [(n & S1 & S2) _].
  { intros m' E. injection E as <-. lia. }
  { discriminate. }
  rewrite S1. cbn [obind]. rewrite S2. cbn [obind]. rewrite Nat2Z.id.
  assert (G : forall k pre suf, m = pre ++ suf -> k = Z.of_nat (length pre) ->
    exists l, elements_from h w k (length suf) = Ok l /\ Forall2 (stands h) l suf).
  { intros k pre suf. revert k pre. induction suf as [|x suf IH]; intros k pre E K.
    - exists []. split; [reflexivity|constructor].
    - cbn [length elements_from].
      assert (L : length m = (length pre + S (length suf))%nat) by now rewrite E, app_length.
      rewrite makeNumber_ok by lia. cbn [obind].
      assert (O : step_ok (Index (i2d k)) (At k)).
      { split; [apply fixnum_i2d; lia|lia]. }
      pose proof (step_right h w (JArray m) _ _ St O) as X. cbn [child follow1] in X.
      destruct (Z.ltb_spec k 0); [lia|]. assert (Y : nth_error m (Z.to_nat k) = Some x).
      { rewrite K, Nat2Z.id, E, nth_error_app2, Nat.sub_diag by lia. reflexivity. }
      rewrite Y in X.
      destruct X as (v & X & Sv). rewrite X. cbn [obind].
      destruct (IH (k + 1) (pre ++ [x])) as (l & El & Fl).
      { now rewrite <- app_assoc. }
      { rewrite app_length. cbn. lia. }
      rewrite El. cbn [obind]. exists (v :: l). split; [reflexivity|now constructor]. }
  apply (G 0 [] m); reflexivity.
Qed.

(** A document that loads stands for what jansson has read; one that does not gives (). *)
Theorem load_right : forall h files path, ~ In 0 path ->
  (forall a j, files path = Some a -> denotes h a j ->
     exists w, jsonLoadFile files path = Ok w /\ stands h w j) /\
  (files path = None -> jsonLoadFile files path = Ok Nil).
Proof.
  intros h files path N. unfold jsonLoadFile. rewrite (cstr_id path N). split.
  - intros a j -> D. exists (word a). split; [|exists a; auto].
    apply word_make. now apply denotes_inv in D.
  - now intros ->.
Qed.

(** * A document to look at: {"a":[1,"x",null],"b":true} *)
Definition ex : store := fun a =>
  if a =? 4096 then Some (NObject [([97], 4104); ([98], 4112)]) else
  if a =? 4104 then Some (NArray [4120; 4128; 4136]) else
  if a =? 4112 then Some NTrue else
  if a =? 4120 then Some (NInteger 1) else
  if a =? 4128 then Some (NString [120]) else
  if a =? 4136 then Some NNull else None.
Definition exj : json :=
  JObject [([97], JArray [JInteger 1; JString [120]; JNull]); ([98], JTrue)].
Example ex_stands : stands ex (word 4096) exj.
Proof.
  exists 4096. split; [reflexivity|].
  assert (A : forall a, (0 <=? a) && (a <? 2^48) && (a mod 8 =? 0) = true -> address a).
  { intros a H. apply andb_true_iff in H. destruct H as [H K]. apply andb_true_iff in H.
    destruct H as [H1 H2]. apply Z.leb_le in H1. apply Z.ltb_lt in H2. apply Z.eqb_eq in K.
    split; lia. }
  eapply DObject; [apply A; reflexivity|reflexivity|].
  constructor; [split; [reflexivity|]|constructor; [split; [reflexivity|]|constructor]].
  - eapply DArray; [apply A; reflexivity|reflexivity|cbn; lia|].
    constructor; [|constructor; [|constructor; [|constructor]]].
    + apply DInteger; [apply A; reflexivity|reflexivity].
    + apply DString; [apply A; reflexivity|reflexivity].
    + apply DNull; [apply A; reflexivity|reflexivity].
  - apply DTrue; [apply A; reflexivity|reflexivity].
Qed.
Example ex_path :
  find exj [Named [97]; At 1] = Some (JString [120]) /\
  follow ex (word 4096) [Key [97]; Index (i2d 1)] = Ok (word 4128) /\
  follow ex (word 4096) [Key [97]; Index (i2d 3)] = Ok Nil /\
  follow ex (word 4096) [Key [99]; Index (i2d 3)] = Trap.
Proof. vm_compute. auto. Qed.
Example ex_step : step_ok (Index (i2d 1)) (At 1) /\ step_ok (Key [97]) (Named [97]).
Proof.
  split; split; try (vm_compute; reflexivity); try lia. intros [H|H]; [discriminate|contradiction].
Qed.
Example ex_elements : exists w, follow ex (word 4096) [Key [97]] = Ok w /\
  elements ex w = Ok [word 4120; word 4128; word 4136].
Proof. exists (word 4104). split; vm_compute; reflexivity. Qed.

Example ex_other : jsonIntegerValue ex (word 4096) = Ok 0 /\ (forall z, exj <> JInteger z).
Proof. split; [vm_compute; reflexivity|discriminate]. Qed.

(** * Findings *)
(** The index is cut to an int: 2^32 is element 0. *)
Theorem index_cut_refuted : exists h w m i n, stands h w (JArray m) /\ fixnum i = Ok n /\
  child (JArray m) (At n) = None /\ jsonArrayGet h w i <> Ok Nil.
Proof.
  exists ex, (word 4104), [JInteger 1; JString [120]; JNull], (i2d (2^32)), (2^32).
  destruct ex_stands as (a & E & D). assert (a = 4096) by (unfold word in E; lia). subst a.
  inversion D as [? l m A H F| | | | | | |]; subst. vm_compute in H. injection H as <-.
  inversion F as [|? ? ? ? [_ D1]]; subst. cbn [snd] in D1.
  split; [exists 4104; split; [reflexivity|exact D1]|].
  split; [vm_compute; reflexivity|]. split; [|vm_compute; discriminate].
  cbn [child]. destruct (Z.ltb_spec (2^32) 0); [lia|]. apply nth_error_None. cbn [length]. lia.
Qed.

(** A key is cut at its first NUL: another member is found. *)
Theorem key_cut_refuted : exists h w j k, stands h w j /\
  child j (Named k) = None /\ jsonObjectGet h w k <> Ok Nil.
Proof.
  exists ex, (word 4096), exj, [97; 0; 99]. split; [exact ex_stands|].
  split; [reflexivity|vm_compute; discriminate].
Qed.

(** Integers above 2^53 come out rounded. *)
Theorem integer_refuted : exists h w z n, stands h w (JInteger z) /\ int64_ok z = true /\
  jsonIntegerValue h w = Ok n /\ fixnum n <> Ok z.
Proof.
  exists (fun _ => Some (NInteger (2^53 + 1))), (word 4096), (2^53 + 1), (i2d (2^53 + 1)).
  split; [exists 4096; split; [reflexivity|apply DInteger; [split; [lia|reflexivity]|reflexivity]]|].
  split; [reflexivity|]. split; [vm_compute; reflexivity|vm_compute; discriminate].
Qed.

(** json-string-value of a document that is no string copies from NULL. *)
Theorem string_of_other_refuted : exists h w j, stands h w j /\ jsonStringValue h w = UB.
Proof. exists ex, (word 4096), exj. split; [exact ex_stands|vm_compute; reflexivity]. Qed.

(** The guards do not tell a document from another C object (an open file, a thread), and
    json-array-size takes even some numbers for one. *)
Theorem foreign_refuted :
  (exists h w, iscobj w = true /\ jsonTypeOf h w = UB /\ jsonIs KArray h w = UB) /\
  (exists h w z, fixnum w = Ok z /\ jsonArraySize h w = UB).
Proof.
  split.
  - exists ex, (word 8192). repeat split; vm_compute; reflexivity.
  - exists ex, (i2d 9), 9. split; vm_compute; reflexivity.
Qed.

Print Assumptions kinds_right.
Print Assumptions others_right.
Print Assumptions values_right_partial.
Print Assumptions integer_of_other.
Print Assumptions sizes_right.
Print Assumptions path_right_partial.
Print Assumptions path_missing.
Print Assumptions elements_right.
Print Assumptions load_right.
Print Assumptions index_cut_refuted.
Print Assumptions key_cut_refuted.
Print Assumptions integer_refuted.
Print Assumptions string_of_other_refuted.
Print Assumptions foreign_refuted.
