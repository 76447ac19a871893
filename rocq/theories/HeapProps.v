(** Theorems of record for C05 (=), C16, C17 (vectors), C52 (car/cdr of non-pairs). *)
From Coq Require Import ZArith Bool List Ascii String Lia Arith.
From Verif Require Import Base ListLib StrModel StrProofs NumModel NumProofs HeapModel.
Import ListNotations.
Open Scope Z_scope.

Local Definition by_ (s : string) : bytes := list_ascii_of_string s.

(** ** C05 *)
(** What a word means: finite trees of conses, strings, and atoms (numbers,
    immediates, symbols, functions, vectors: compared by identity). *)
Inductive val := VAtom (bits : Z) | VStr (s : bytes) | VCons (a d : val).

Inductive denotes (h : heap) : Z -> val -> Prop :=
| DCons : forall x a d va vd, iscons x = true -> h (ptr x) = Some (HCons a d) ->
    denotes h a va -> denotes h d vd -> denotes h x (VCons va vd)
| DStr : forall x s, isBytes x = true -> h (ptr x) = Some (HBytes s) -> denotes h x (VStr s)
| DAtom : forall x, iscons x = false -> isBytes x = false -> denotes h x (VAtom x).

Lemma bool_iff_eq : forall (b c : bool) (P Q : Prop),
  (b = true <-> P) -> (c = true <-> Q) -> (P <-> Q) -> b = c.
Proof. intros [|] [|] P Q H1 H2 H3; auto; intuition congruence. Qed.

Fixpoint vdepth (v : val) : nat :=
  match v with VCons a d => S (Nat.max (vdepth a) (vdepth d)) | _ => 1%nat end.

Lemma cons_not_bytes : forall x, iscons x = true -> isBytes x = false.
Proof.
  intros x H. unfold iscons, isBytes in *. apply masked_tag_iff in H; [|unfold TAG_CONS; lia].
  apply not_true_is_false. intro H'. apply masked_tag_iff in H'; [|unfold TAG_BYTES; lia].
  unfold TAG_CONS, TAG_BYTES in *. lia.
Qed.

Lemma denotes_fun : forall h x v, denotes h x v -> forall v', denotes h x v' -> v = v'.
Proof.
  intros h x v H; induction H as [x a d va vd Hc Hh Ha IHa Hd IHd|x s Hb Hh|x Hc Hb]; intros v' H'.
  - inversion H' as [? a' d' ? ? Hc' Hh' Ha' Hd'|? ? Hb' Hh'|? Hc' Hb']; subst; try congruence.
    + rewrite Hh in Hh'. injection Hh' as <- <-. f_equal; auto.
  - inversion H' as [? a' d' ? ? Hc' Hh' Ha' Hd'|? ? Hb' Hh'|? Hc' Hb']; subst; try congruence.
  - inversion H'; subst; try congruence.
Qed.

Lemma eqF_denotes : forall h n x y vx vy, denotes h x vx -> denotes h y vy -> (vdepth vx <= n)%nat ->
  exists b, eqF n h x y = Some (Ok b) /\ (b = true <-> vx = vy).
Proof.
  intros h n; induction n as [|n IH]; intros x y vx vy Hx Hy Hn.
  - destruct vx; cbn in Hn; lia.
  - cbn [eqF]. destruct (Z.eqb_spec x y) as [<-|Hne].
    { exists true. split; [reflexivity|]. split; auto. intros _. eapply denotes_fun; eassumption. }
    inversion Hx as [? a d va vd Hc Hh Ha Hd|? s Hb Hh|? Hc Hb]; subst;
    inversion Hy as [? a' d' va' vd' Hc' Hh' Ha' Hd'|? s' Hb' Hh'|? Hc' Hb']; subst.
    + rewrite Hc, Hc'. cbn [andb]. unfold car, cdr. rewrite Hh, Hh'. cbn [vdepth] in Hn.
      destruct (IH a a' va va' Ha Ha') as (b1 & -> & H1); [lia|].
      destruct b1.
      * destruct (IH d d' vd vd' Hd Hd') as (b2 & -> & H2); [lia|].
        exists b2. split; [reflexivity|]. rewrite H2. destruct H1 as [H1 _]. rewrite (H1 eq_refl).
        split; congruence.
      * exists false. split; [reflexivity|]. split; [discriminate|].
        intro E. injection E as E1 E2. apply H1 in E1. discriminate.
    + rewrite Hc, (cons_not_bytes x) by assumption.
      assert (iscons y = false) as ->.
      { apply not_true_is_false. intro Q. apply cons_not_bytes in Q. congruence. }
      exists false. split; [reflexivity|]. split; discriminate.
    + rewrite Hc', Hb', !andb_false_r. exists false. split; [reflexivity|]. split; discriminate.
    + rewrite Hc', (cons_not_bytes y) by assumption.
      assert (iscons x = false) as ->.
      { apply not_true_is_false. intro Q. apply cons_not_bytes in Q. congruence. }
      rewrite !andb_false_r. exists false. split; [reflexivity|]. split; discriminate.
    + assert (iscons x = false) as ->.
      { apply not_true_is_false. intro Q. apply cons_not_bytes in Q. congruence. }
      cbn [andb]. rewrite Hb, Hb'. cbn [andb]. rewrite Hh, Hh'.
      eexists. split; [reflexivity|]. rewrite Z.eqb_eq, strCmp_zero. split; congruence.
    + rewrite Hc', Hb', !andb_false_r. exists false. split; [reflexivity|]. split; discriminate.
    + rewrite Hc, Hb. cbn [andb]. exists false. split; [reflexivity|]. split; discriminate.
    + rewrite Hc, Hb. cbn [andb]. exists false. split; [reflexivity|]. split; discriminate.
    + rewrite Hc, Hb. cbn [andb]. exists false. split; [reflexivity|].
      split; [discriminate|congruence].
Qed.

(** [=] terminates on all finite values, never traps, and decides equality of what
    the two words mean. *)
Theorem eq_is_structural : forall h x y vx vy, denotes h x vx -> denotes h y vy ->
  exists b, (b = true <-> vx = vy) /\
    forall n, (vdepth vx <= n)%nat -> eqF n h x y = Some (Ok b).
Proof.
  intros h x y vx vy Hx Hy.
  destruct (eqF_denotes h (vdepth vx) x y vx vy Hx Hy (le_n _)) as (b & E & Hb).
  exists b. split; [exact Hb|]. intros n Hn.
  destruct (eqF_denotes h n x y vx vy Hx Hy Hn) as (b' & E' & Hb'). rewrite E'. do 2 f_equal.
  eapply bool_iff_eq; [exact Hb'|exact Hb|tauto].
Qed.
Print Assumptions eq_is_structural.

(** Hence it is an equivalence on finite values. *)
Theorem eq_is_equivalence : forall h x y z vx vy vz,
  denotes h x vx -> denotes h y vy -> denotes h z vz ->
  exists n, eqF n h x x = Some (Ok true) /\ eqF n h x y = eqF n h y x /\
    (eqF n h x y = Some (Ok true) -> eqF n h y z = Some (Ok true) -> eqF n h x z = Some (Ok true)).
Proof.
  intros h x y z vx vy vz Hx Hy Hz. exists (Nat.max (vdepth vx) (vdepth vy)).
  set (n := Nat.max _ _).
  assert (Hnx : (vdepth vx <= n)%nat) by lia. assert (Hny : (vdepth vy <= n)%nat) by lia.
  destruct (eqF_denotes h n x x vx vx Hx Hx Hnx) as (b1 & -> & B1).
  destruct (eqF_denotes h n x y vx vy Hx Hy Hnx) as (b2 & -> & B2).
  destruct (eqF_denotes h n y x vy vx Hy Hx Hny) as (b3 & -> & B3).
  destruct (eqF_denotes h n y z vy vz Hy Hz Hny) as (b4 & -> & B4).
  destruct (eqF_denotes h n x z vx vz Hx Hz Hnx) as (b5 & -> & B5).
  split; [|split].
  - assert (b1 = true) as -> by (now apply B1). reflexivity.
  - do 2 f_equal. eapply bool_iff_eq; [exact B2|exact B3|split; congruence].
  - intros E E'. injection E as ->. injection E' as ->.
    assert (b5 = true) as ->; [|reflexivity]. apply B5. transitivity vy; intuition.
Qed.
Print Assumptions eq_is_equivalence.

(** Every finite tree of conses and strings can be built with the constructors, at
    any fresh addresses, and means what was built. *)
Fixpoint build (h : heap) (next : Z) (v : val) : outcome (heap * Z * Z) :=
  match v with
  | VAtom x => Ok (h, next, x)
  | VStr s => omap (fun r => (fst r, next + 16, snd r)) (makeString h next s)
  | VCons a d =>
      obind (build h next a) (fun ra =>
      obind (build (fst (fst ra)) (snd (fst ra)) d) (fun rd =>
      omap (fun r => (fst r, snd (fst rd) + 16, snd r))
           (makeCons (fst (fst rd)) (snd (fst rd)) (snd ra) (snd rd))))
  end.
Fixpoint vsize (v : val) : Z :=
  match v with VAtom _ => 0 | VStr _ => 1 | VCons a d => 1 + vsize a + vsize d end.
Fixpoint atoms_ok (v : val) : Prop :=
  match v with
  | VAtom x => iscons x = false /\ isBytes x = false
  | VStr _ => True
  | VCons a d => atoms_ok a /\ atoms_ok d
  end.
Definition below (h : heap) (n : Z) := forall a, n <= a -> h a = None.

Lemma vsize_nonneg : forall v, 0 <= vsize v.
Proof. induction v; cbn [vsize]; lia. Qed.

Lemma denotes_mono : forall h h' x v, (forall a o, h a = Some o -> h' a = Some o) ->
  denotes h x v -> denotes h' x v.
Proof.
  intros h h' x v Hm H; induction H.
  - eapply DCons; eauto.
  - eapply DStr; eauto.
  - now apply DAtom.
Qed.

Theorem build_denotes : forall v h next, atoms_ok v -> below h next -> 0 <= next ->
  next + 16 * vsize v < 2^48 ->
  exists h' next' x, build h next v = Ok (h', next', x) /\ denotes h' x v /\
    below h' next' /\ next <= next' <= next + 16 * vsize v /\
    (forall a o, h a = Some o -> h' a = Some o).
Proof.
  induction v as [x|s|a IHa d IHd]; intros h next Hat Hb Hn Hsz; cbn [build].
  - destruct Hat as [Hat1 Hat2]. exists h, next, x. split; [reflexivity|]. split; [now apply DAtom|].
    split; [exact Hb|]. cbn [vsize]. split; [lia|auto].
  - cbn [vsize] in *. unfold makeString. rewrite makeNaNPtr_ok by (unfold TAG_BYTES; lia).
    cbn [omap fst snd]. eexists _, _, _. split; [reflexivity|]. split; [|split; [|split; [lia|]]].
    + apply DStr.
      * unfold isBytes. rewrite boxed_masked by (unfold TAG_BYTES; lia). apply Z.eqb_refl.
      * rewrite boxed_ptr by (unfold TAG_BYTES; lia). unfold hupd. now rewrite Z.eqb_refl.
    + intros b Hb'. unfold hupd. destruct (Z.eqb_spec b next); [lia|]. apply Hb. lia.
    + intros b o Hbo. unfold hupd. destruct (Z.eqb_spec b next) as [->|]; [|exact Hbo].
      rewrite Hb in Hbo by lia. discriminate.
  - cbn [vsize atoms_ok] in *. destruct Hat as [Hata Hatd].
    pose proof (vsize_nonneg a). pose proof (vsize_nonneg d).
    destruct (IHa h next Hata Hb Hn ltac:(lia)) as (h1 & n1 & xa & -> & D1 & B1 & R1 & M1).
    cbn [obind fst snd].
    destruct (IHd h1 n1 Hatd B1 ltac:(lia) ltac:(lia)) as (h2 & n2 & xd & -> & D2 & B2 & R2 & M2).
    cbn [obind fst snd]. unfold makeCons. rewrite makeNaNPtr_ok by (unfold TAG_CONS; lia).
    cbn [omap fst snd]. eexists _, _, _. split; [reflexivity|].
    assert (M3 : forall b o, h2 b = Some o -> hupd h2 n2 (HCons xa xd) b = Some o).
    { intros b o Hbo. unfold hupd. destruct (Z.eqb_spec b n2) as [->|]; [|exact Hbo].
      rewrite B2 in Hbo by lia. discriminate. }
    split; [|split; [|split; [lia|]]].
    + eapply DCons with (a := xa) (d := xd).
      * unfold iscons. rewrite boxed_masked by (unfold TAG_CONS; lia). apply Z.eqb_refl.
      * rewrite boxed_ptr by (unfold TAG_CONS; lia). unfold hupd. now rewrite Z.eqb_refl.
      * eapply denotes_mono; [|exact D1]. auto.
      * eapply denotes_mono; [|exact D2]. auto.
    + intros b Hb'. unfold hupd. destruct (Z.eqb_spec b n2); [lia|]. apply B2. lia.
    + auto.
Qed.
Print Assumptions build_denotes.

(** (= (list "ab" 3) (list "ab" 3)) for two separately built lists; and a difference. *)
Example eq_is_structural_ex :
  match build hempty 4096 (VCons (VStr (by_ "ab")) (VCons (VAtom (i2d 3)) (VAtom Nil))) with
  | Ok (h1, n1, x) =>
      match build h1 n1 (VCons (VStr (by_ "ab")) (VCons (VAtom (i2d 3)) (VAtom Nil))) with
      | Ok (h2, n2, y) =>
          x <> y /\ eqF 10 h2 x y = Some (Ok true) /\
          match build h2 n2 (VCons (VStr (by_ "ac")) (VAtom Nil)) with
          | Ok (h3, _, z) => eqF 10 h3 x z = Some (Ok false)
          | _ => False
          end
      | _ => False
      end
  | _ => False
  end.
Proof. vm_compute. split; [discriminate|split; reflexivity]. Qed.

(** ** C52.  car and cdr of something that is not a pair *)
(** Called from C they abort on any heap object that is not a pair ... *)
Theorem c_car_checks_partial : forall h o x, h (ptr o) = Some x ->
  (forall a d, x <> HCons a d) -> car h o = Trap /\ cdr h o = Trap.
Proof.
  intros h o x Hx Hn. unfold car, cdr. rewrite Hx. destruct x; auto. exfalso. eapply Hn. reflexivity.
Qed.
Print Assumptions c_car_checks_partial.
Example c_car_checks_partial_ex :
  car (hupd hempty 4096 (HBytes (by_ "ab"))) 0x7FFC000000001000 = Trap.
Proof. reflexivity. Qed.

(** ... but the code emitted by the compiler for (car x) aborts on nothing: on a
    string it reads foreign bytes, on a number it dereferences the number. *)
Theorem car_of_non_pair_aborts_refuted :
  (exists h o, isBytes o = true /\ h (ptr o) = Some (HBytes (by_ "ab")) /\ PRIM_CAR h o = UB) /\
  (exists h o, isNumber o = true /\ PRIM_CAR h o = UB).
Proof.
  split.
  - exists (hupd hempty 4096 (HBytes (by_ "ab"))), 0x7FFC000000001000. vm_compute. auto.
  - exists hempty, (i2d 5). vm_compute. auto.
Qed.
Print Assumptions car_of_non_pair_aborts_refuted.

Theorem car_cdr_of_cons : forall h addr a d h' o, 0 <= addr < 2^48 ->
  makeCons h addr a d = Ok (h', o) ->
  PRIM_CAR h' o = Ok a /\ PRIM_CDR h' o = Ok d /\ car h' o = Ok a /\ cdr h' o = Ok d /\ iscons o = true.
Proof.
  intros h addr a d h' o Ha E. unfold makeCons in E.
  rewrite makeNaNPtr_ok in E by (unfold TAG_CONS; lia). cbn [omap] in E. apply Ok_inj in E.
  pose proof (f_equal snd E) as Eo. apply (f_equal fst) in E. cbn [fst snd] in E, Eo. subst h'.
  assert (Hp : ptr o = addr) by (rewrite <- Eo; apply boxed_ptr; unfold TAG_CONS; lia).
  unfold PRIM_CAR, PRIM_CDR, car, cdr. rewrite Hp. unfold hupd. rewrite Z.eqb_refl.
  repeat split. rewrite <- Eo. unfold iscons. rewrite boxed_masked by (unfold TAG_CONS; lia). apply Z.eqb_refl.
Qed.
Print Assumptions car_cdr_of_cons.
Example car_cdr_of_cons_ex : exists h' o, makeCons hempty 4096 (i2d 1) Nil = Ok (h', o) /\ car h' o = Ok (i2d 1).
Proof. eexists _, _. split; reflexivity. Qed.

(** ** C16 *)
Lemma to_int_id : forall k, - 2^31 <= k < 2^31 -> to_int k = k.
Proof. intros k H. unfold to_int. rewrite Z.mod_small by lia. lia. Qed.

(** Histories of vector operations; sizes and indices are integers, converted to
    numbers as the program's literals are.  [VNew] carries the address the allocator
    returns. *)
Inductive vop :=
| VNew (addr n : Z)             (** (vector n) *)
| VRef (v : Z) (idx : Z)        (** (vector-ref v idx) *)
| VSet (v : Z) (idx x : Z)      (** (vector-set! v idx x) *)
| VLen (v : Z).                 (** (vector-length v) *)

Definition vstep (h : heap) (op : vop) : outcome (heap * Z) :=
  match op with
  | VNew addr n => builtinVector h addr (i2d n)
  | VRef v i => omap (fun x => (h, x)) (builtinVectorRef h v (i2d i))
  | VSet v i x => omap (fun h' => (h', v)) (builtinVectorSet h v (i2d i) x)
  | VLen v => omap (fun x => (h, x)) (builtinVectorLength h v)
  end.
Fixpoint vexec (h : heap) (ops : list vop) : outcome (list Z) :=
  match ops with
  | [] => Ok []
  | op :: ops' => obind (vstep h op) (fun r => omap (cons (snd r)) (vexec (fst r) ops'))
  end.

(** Specification: a partial map from vector objects to arrays. *)
Definition varrays := Z -> option (list Z).
Definition boxvec (addr : Z) : Z := OBJ_MASK + TAG_PTR * 2^48 + addr.
Definition aupd (m : varrays) (v : Z) (a : list Z) : varrays := fun x => if x =? v then Some a else m x.
Fixpoint vspec (m : varrays) (ops : list vop) : outcome (list Z) :=
  match ops with
  | [] => Ok []
  | VNew addr n :: ops' =>
      omap (cons (boxvec addr)) (vspec (aupd m (boxvec addr) (repeat Undef (Z.to_nat n))) ops')
  | VRef v i :: ops' =>
      match m v with
      | Some a => if (0 <=? i) && (i <? Z.of_nat (List.length a))
                  then omap (cons (nth (Z.to_nat i) a Undef)) (vspec m ops') else Trap
      | None => Trap
      end
  | VSet v i x :: ops' =>
      match m v with
      | Some a => if (0 <=? i) && (i <? Z.of_nat (List.length a))
                  then omap (cons v) (vspec (aupd m v (firstn (Z.to_nat i) a ++ x :: skipn (S (Z.to_nat i)) a)) ops')
                  else Trap
      | None => Trap
      end
  | VLen v :: ops' =>
      match m v with
      | Some a => omap (cons (i2d (Z.of_nat (List.length a)))) (vspec m ops')
      | None => Trap
      end
  end.

(** Legal histories: the allocator returns unused 48-bit addresses, vector handles are
    ones returned before, sizes fit the allocator's [int], indices are [int]s. *)
Fixpoint vlegal (used : list Z) (ops : list vop) : Prop :=
  match ops with
  | [] => True
  | VNew addr n :: ops' => 0 <= addr < 2^48 /\ ~ In addr used /\ 0 <= n < 2^27 /\ vlegal (addr :: used) ops'
  | VRef v i :: ops' => (exists a, In a used /\ v = boxvec a) /\ - 2^31 <= i < 2^31 /\ vlegal used ops'
  | VSet v i x :: ops' => (exists a, In a used /\ v = boxvec a) /\ - 2^31 <= i < 2^31 /\ vlegal used ops'
  | VLen v :: ops' => (exists a, In a used /\ v = boxvec a) /\ vlegal used ops'
  end.

Definition vrel (h : heap) (m : varrays) (used : list Z) : Prop :=
  forall a, In a used -> 0 <= a < 2^48 /\
    exists arr cap, h a = Some (HVector arr cap) /\ m (boxvec a) = Some arr /\ Z.of_nat (List.length arr) < 2^27.

Lemma boxvec_ptr : forall a, 0 <= a < 2^48 -> ptr (boxvec a) = a.
Proof. intros. apply boxed_ptr; unfold TAG_PTR; lia. Qed.
Lemma boxvec_tag : forall a, 0 <= a < 2^48 -> tag (boxvec a) = TAG_PTR.
Proof. intros. apply boxed_tag; unfold TAG_PTR; lia. Qed.
Lemma boxvec_inj : forall a b, 0 <= a < 2^48 -> 0 <= b < 2^48 -> boxvec a = boxvec b -> a = b.
Proof. intros a b Ha Hb E. apply (f_equal ptr) in E. now rewrite !boxvec_ptr in E. Qed.
Lemma list_set_split : forall A (l : list A) i x, (i < List.length l)%nat ->
  list_set l i x = firstn i l ++ x :: skipn (S i) l.
Proof.
  intros A l; induction l as [|y l IH]; intros i x H; [cbn in H; lia|].
  destruct i as [|i]; [reflexivity|]. cbn. f_equal. apply IH. cbn in H. lia.
Qed.

Lemma vexec_spec : forall ops h m used, vrel h m used -> vlegal used ops ->
  vexec h ops = vspec m ops.
Proof.
  induction ops as [|op ops IH]; intros h m used Hr Hl; [reflexivity|].
  destruct op as [addr n|v i|v i x|v]; cbn [vexec vstep vspec vlegal] in *.
  - destruct Hl as (Ha & Hnin & Hn & Hl). unfold builtinVector.
    rewrite fixnum_i2d by lia. cbn [obind]. rewrite to_int_id by lia.
    unfold makeVector, assertT. destruct (Z.leb_spec n n); [|lia].
    rewrite to_int_id by lia.
    destruct (Z.leb_spec 32 (32 + 8 * n)); [|lia]. destruct (Z.leb_spec (32 + 8 * n) (32 + 8 * n)); [|lia].
    cbn [andb]. rewrite makeNaNPtr_ok by (unfold TAG_PTR; lia). cbn [omap obind fst snd].
    fold (boxvec addr). f_equal. eapply (IH _ _ (addr :: used)); [|exact Hl].
    intros b [<-|Hb].
    + split; [exact Ha|]. eexists _, _. unfold hupd, aupd. rewrite !Z.eqb_refl.
      split; [reflexivity|]. split; [reflexivity|]. rewrite repeat_length. lia.
    + destruct (Hr b Hb) as (Hb48 & arr & cap & E1 & E2 & E3). split; [exact Hb48|].
      exists arr, cap. unfold hupd, aupd.
      destruct (Z.eqb_spec b addr) as [->|Hne]; [contradiction|].
      destruct (Z.eqb_spec (boxvec b) (boxvec addr)) as [E|_]; [apply boxvec_inj in E; [contradiction|lia|lia]|].
      auto.
  - destruct Hl as ((a & Ha & ->) & Hi & Hl). destruct (Hr a Ha) as (Ha48 & arr & cap & E1 & E2 & E3).
    unfold builtinVectorRef. rewrite fixnum_i2d by lia. cbn [obind]. rewrite to_int_id by lia.
    unfold vectorRef. rewrite boxvec_ptr, E1, E2 by lia. unfold assertT.
    destruct ((0 <=? i) && (i <? Z.of_nat (List.length arr))) eqn:Eb; [|reflexivity].
    apply andb_true_iff in Eb. destruct Eb as [Eb1 Eb2]. apply Z.leb_le in Eb1. apply Z.ltb_lt in Eb2.
    rewrite (nth_error_nth' arr Undef) by lia. cbn [omap obind fst snd].
    f_equal. eapply IH; eassumption.
  - destruct Hl as ((a & Ha & ->) & Hi & Hl). destruct (Hr a Ha) as (Ha48 & arr & cap & E1 & E2 & E3).
    unfold builtinVectorSet. rewrite fixnum_i2d by lia. cbn [obind]. rewrite to_int_id by lia.
    unfold vectorSet. rewrite boxvec_ptr, E1, E2 by lia. unfold assertT.
    destruct ((0 <=? i) && (i <? Z.of_nat (List.length arr))) eqn:Eb; [|reflexivity].
    apply andb_true_iff in Eb. destruct Eb as [Eb1 Eb2]. apply Z.leb_le in Eb1. apply Z.ltb_lt in Eb2.
    cbn [omap obind fst snd]. f_equal. eapply (IH _ _ used); [|exact Hl].
    intros b Hb. destruct (Hr b Hb) as (Hb48 & arr' & cap' & E1' & E2' & E3'). split; [exact Hb48|].
    unfold hupd, aupd. destruct (Z.eqb_spec b a) as [->|Hne].
    + rewrite Z.eqb_refl. eexists _, _. split; [reflexivity|].
      rewrite list_set_split by lia. split; [reflexivity|].
      rewrite <- list_set_split, list_set_length by lia. exact E3.
    + destruct (Z.eqb_spec (boxvec b) (boxvec a)) as [E|_]; [apply boxvec_inj in E; [contradiction|lia|lia]|].
      eauto.
  - destruct Hl as ((a & Ha & ->) & Hl). destruct (Hr a Ha) as (Ha48 & arr & cap & E1 & E2 & E3).
    unfold builtinVectorLength, vectorLength, isvectorH.
    rewrite boxvec_tag, Z.eqb_refl, boxvec_ptr, E1, E2 by lia. cbn [obind]. unfold assertT.
    cbn [obind]. rewrite makeNumber_ok by lia. cbn [omap obind fst snd]. f_equal. eapply IH; eassumption.
Qed.

(** Any legal history behaves as on plain arrays: reads give the last write, initially
    undef; any index outside 0..length-1 aborts without touching memory; lengths never
    change. *)
Theorem vectors_are_arrays : forall ops, vlegal [] ops -> vexec hempty ops = vspec (fun _ => None) ops.
Proof. intros ops H. eapply vexec_spec; [|exact H]. intros a []. Qed.
Print Assumptions vectors_are_arrays.

Example vectors_are_arrays_ex :
  let v := boxvec 4096 in let w := boxvec 8192 in
  let ops := [VNew 4096 3; VNew 8192 1; VSet v 1 77; VSet w 0 5; VRef v 1; VRef v 0; VLen v] in
  vlegal [] ops /\ vexec hempty ops = Ok [v; w; v; w; 77; Undef; i2d 3] /\
  vexec hempty [VNew 4096 3; VRef v 3] = Trap /\ vexec hempty [VNew 4096 3; VRef v (-1)] = Trap.
Proof.
  cbv zeta. split.
  - cbn [vlegal In]. repeat split; try lia; try tauto; try (intros [H|[]]; lia);
      (eexists; split; [|reflexivity]; tauto).
  - vm_compute. repeat split; reflexivity.
Qed.

(** The index is truncated to 32 bits before the bounds check: index 2^32 of a one
    element vector is accepted and is element 0. *)
Theorem vector_index_checked_refuted : exists n idx x,
  n <= idx /\ vexec hempty [VNew 4096 n; VSet (boxvec 4096) 0 x; VRef (boxvec 4096) idx]
              = Ok [boxvec 4096; boxvec 4096; x].
Proof. exists 1, (2^32), 77. split; [lia|vm_compute; reflexivity]. Qed.
Print Assumptions vector_index_checked_refuted.

(** A negative size is not rejected: the header is written outside the allocation. *)
Theorem vector_size_checked_refuted : exists n, builtinVector hempty 4096 (i2d n) = UB.
Proof. exists (-1). vm_compute. reflexivity. Qed.
Print Assumptions vector_size_checked_refuted.

(** ** C17 *)
Fixpoint append_all (h : heap) (v : Z) (l : list (Z * Z)) : outcome (heap * Z) :=
  match l with
  | [] => Ok (h, v)
  | (addr, x) :: l' => obind (vectorAppend h addr v x) (fun r => append_all (fst r) (snd r) l')
  end.

Theorem append_preserves : forall l h a arr cap,
  0 <= a < 2^48 -> h a = Some (HVector arr cap) ->
  0 < cap -> Z.of_nat (List.length arr) <= cap ->
  Z.of_nat (List.length arr + List.length l) <= 2^27 ->
  (forall addr x, In (addr, x) l -> 0 <= addr < 2^48) ->
  exists h' a' cap', append_all h (boxvec a) l = Ok (h', boxvec a') /\ 0 <= a' < 2^48 /\
    h' a' = Some (HVector (arr ++ map snd l) cap') /\
    Z.of_nat (List.length arr + List.length l) <= cap'.
Proof.
  induction l as [|[addr x] l IH]; intros h a arr cap Ha Hh Hc Hle Hlen Hin; cbn [append_all map snd].
  - exists h, a, cap. rewrite app_nil_r. rewrite Nat.add_0_r. auto.
  - unfold vectorAppend, isvectorH. rewrite boxvec_tag, Z.eqb_refl, boxvec_ptr, Hh by assumption.
    cbn [obind]. unfold assertT at 1. cbn [List.length] in Hlen.
    assert (Hadd : 0 <= addr < 2^48) by (apply (Hin addr x); now left).
    destruct (Z.of_nat (List.length arr) >=? cap) eqn:Eg.
    + apply Z.geb_le in Eg. unfold assertT at 1. destruct (Z.ltb_spec 0 cap); [|lia].
      cbv zeta. set (nc := if cap <? 1024 then cap * 2 else cap + cap / 4).
      assert (Hnc : cap < nc <= 2^27 + 2^25).
      { unfold nc. destruct (Z.ltb_spec cap 1024); [lia|].
        assert (256 <= cap / 4) by (apply Z.div_le_lower_bound; lia).
        assert (cap / 4 <= 2^25) by (apply Z.div_le_upper_bound; lia). lia. }
      unfold makeVector, assertT. destruct (Z.leb_spec (Z.of_nat (List.length arr)) nc); [|lia].
      rewrite to_int_id by lia.
      destruct (Z.leb_spec 32 (32 + 8 * nc)); [|lia].
      destruct (Z.leb_spec (32 + 8 * Z.of_nat (List.length arr)) (32 + 8 * nc)); [|lia].
      cbn [andb]. rewrite makeNaNPtr_ok by (unfold TAG_PTR; lia). cbn [omap obind].
      destruct (Z.ltb_spec (Z.of_nat (List.length arr)) nc); [|lia].
      fold (boxvec addr). rewrite boxvec_ptr, makeNaNPtr_ok by (unfold TAG_PTR; lia).
      cbn [omap obind fst snd]. fold (boxvec addr).
      destruct (IH (hupd (hupd h addr (HVector (repeat Undef (Z.to_nat (Z.of_nat (List.length arr)))) nc)) addr
                      (HVector (arr ++ [x]) nc)) addr (arr ++ [x]) nc) as (h' & a' & c' & E & Ha' & Hh' & Hl').
      * exact Hadd.
      * unfold hupd. now rewrite Z.eqb_refl.
      * lia.
      * rewrite app_length. cbn. lia.
      * rewrite app_length. cbn. lia.
      * intros. apply (Hin addr0 x0). now right.
      * exists h', a', c'. split; [exact E|]. split; [exact Ha'|].
        rewrite <- app_assoc in Hh'. split; [exact Hh'|]. rewrite app_length in Hl'. cbn [List.length] in Hl' |- *. lia.
    + rewrite Z.geb_leb, Z.leb_gt in Eg.
      rewrite makeNaNPtr_ok by (unfold TAG_PTR; lia). cbn [omap obind fst snd]. fold (boxvec a).
      destruct (IH (hupd h a (HVector (arr ++ [x]) cap)) a (arr ++ [x]) cap) as (h' & a' & c' & E & Ha' & Hh' & Hl').
      * exact Ha.
      * unfold hupd. now rewrite Z.eqb_refl.
      * lia.
      * rewrite app_length. cbn. lia.
      * rewrite app_length. cbn. lia.
      * intros. apply (Hin addr0 x0). now right.
      * exists h', a', c'. split; [exact E|]. split; [exact Ha'|].
        rewrite <- app_assoc in Hh'. split; [exact Hh'|]. rewrite app_length in Hl'. cbn [List.length] in Hl' |- *. lia.
Qed.
Print Assumptions append_preserves.

Example append_preserves_ex :
  match append_all (hupd hempty 4096 (HVector [1; 2] 2)) (boxvec 4096) [(8192, 3); (12288, 4); (16384, 5)] with
  | Ok (h, v) => v = boxvec 16384 /\ h (ptr v) = Some (HVector [1; 2; 3; 4; 5] 8)
  | _ => False
  end.
Proof. vm_compute. split; reflexivity. Qed.

(** Stores and appends mixed in any order: the vector last returned holds what a plain
    list would hold. *)
Inductive vedit := EStore (i x : Z) | EAppend (addr x : Z).
Fixpoint edit_all (h : heap) (v : Z) (l : list vedit) : outcome (heap * Z) :=
  match l with
  | [] => Ok (h, v)
  | EStore i x :: l' => obind (vectorSet h v i x) (fun h' => edit_all h' v l')
  | EAppend addr x :: l' => obind (vectorAppend h addr v x) (fun r => edit_all (fst r) (snd r) l')
  end.
(** the list afterwards; [None] if some index was outside the list of that moment *)
Fixpoint edited (arr : list Z) (l : list vedit) : option (list Z) :=
  match l with
  | [] => Some arr
  | EStore i x :: l' =>
      if (0 <=? i) && (i <? Z.of_nat (List.length arr))
      then edited (firstn (Z.to_nat i) arr ++ x :: skipn (S (Z.to_nat i)) arr) l'
      else None
  | EAppend _ x :: l' => edited (arr ++ [x]) l'
  end.

Theorem edits_preserve : forall l h a arr cap,
  0 <= a < 2^48 -> h a = Some (HVector arr cap) ->
  0 < cap -> Z.of_nat (List.length arr) <= cap ->
  Z.of_nat (List.length arr + List.length l) <= 2^27 ->
  (forall addr x, In (EAppend addr x) l -> 0 <= addr < 2^48) ->
  match edited arr l with
  | Some arr' => exists h' a' cap', edit_all h (boxvec a) l = Ok (h', boxvec a') /\ 0 <= a' < 2^48 /\
      h' a' = Some (HVector arr' cap') /\ cap <= cap' /\ Z.of_nat (List.length arr') <= cap' /\
      ((forall addr x, ~ In (EAppend addr x) l) -> a' = a /\ cap' = cap)
  | None => edit_all h (boxvec a) l = Trap
  end.
Proof.
  induction l as [|e l IH]; intros h a arr cap Ha Hh Hc Hle Hlen Hin; cbn [edited edit_all].
  - exists h, a, cap. repeat split; auto; lia.
  - cbn [List.length] in Hlen. destruct e as [i x|addr x].
    + unfold vectorSet. rewrite boxvec_ptr, Hh by assumption. unfold assertT.
      destruct ((0 <=? i) && (i <? Z.of_nat (List.length arr))) eqn:Eb; [|reflexivity].
      apply andb_true_iff in Eb. destruct Eb as [Eb1 Eb2]. apply Z.leb_le in Eb1. apply Z.ltb_lt in Eb2.
      cbn [obind]. rewrite <- list_set_split by lia.
      specialize (IH (hupd h a (HVector (list_set arr (Z.to_nat i) x) cap)) a
                    (list_set arr (Z.to_nat i) x) cap Ha).
      rewrite list_set_length in IH.
      assert (Hu : hupd h a (HVector (list_set arr (Z.to_nat i) x) cap) a =
                   Some (HVector (list_set arr (Z.to_nat i) x) cap))
        by (unfold hupd; now rewrite Z.eqb_refl).
      specialize (IH Hu Hc Hle). assert (Hl' : Z.of_nat (List.length arr + List.length l) <= 2^27) by lia.
      specialize (IH Hl'). assert (Hin' : forall addr y, In (EAppend addr y) l -> 0 <= addr < 2^48)
        by (intros addr y Hy; apply (Hin addr y); now right).
      specialize (IH Hin'). destruct (edited _ l) as [arr'|]; [|exact IH].
      destruct IH as (h' & a' & c' & E & Ha' & Hh' & Hcc & Hlc & Hst).
      exists h', a', c'. repeat split; auto; try lia.
      all: destruct Hst as [S1 S2]; [intros addr y Hy; apply (H addr y); now right|]; assumption.
    + assert (Hadd : 0 <= addr < 2^48) by (apply (Hin addr x); now left).
      assert (Hs : exists h1 a1 c1, vectorAppend h addr (boxvec a) x = Ok (h1, boxvec a1) /\
                 0 <= a1 < 2^48 /\ h1 a1 = Some (HVector (arr ++ [x]) c1) /\ cap <= c1 /\
                 Z.of_nat (List.length (arr ++ [x])) <= c1).
      { unfold vectorAppend, isvectorH. rewrite boxvec_tag, Z.eqb_refl, boxvec_ptr, Hh by assumption.
        cbn [obind]. unfold assertT at 1.
        destruct (Z.of_nat (List.length arr) >=? cap) eqn:Eg.
        - apply Z.geb_le in Eg. unfold assertT at 1. destruct (Z.ltb_spec 0 cap); [|lia].
          cbv zeta. set (nc := if cap <? 1024 then cap * 2 else cap + cap / 4).
          assert (Hnc : cap < nc <= 2^27 + 2^25).
          { unfold nc. destruct (Z.ltb_spec cap 1024); [lia|].
            assert (256 <= cap / 4) by (apply Z.div_le_lower_bound; lia).
            assert (cap / 4 <= 2^25) by (apply Z.div_le_upper_bound; lia). lia. }
          unfold makeVector, assertT. destruct (Z.leb_spec (Z.of_nat (List.length arr)) nc); [|lia].
          rewrite to_int_id by lia.
          destruct (Z.leb_spec 32 (32 + 8 * nc)); [|lia].
          destruct (Z.leb_spec (32 + 8 * Z.of_nat (List.length arr)) (32 + 8 * nc)); [|lia].
          cbn [andb]. rewrite makeNaNPtr_ok by (unfold TAG_PTR; lia). cbn [omap obind].
          destruct (Z.ltb_spec (Z.of_nat (List.length arr)) nc); [|lia].
          fold (boxvec addr). rewrite boxvec_ptr, makeNaNPtr_ok by (unfold TAG_PTR; lia).
          cbn [omap obind]. fold (boxvec addr).
          eexists _, addr, nc. split; [reflexivity|]. split; [exact Hadd|].
          split; [unfold hupd; now rewrite Z.eqb_refl|]. split; [lia|].
          rewrite app_length. cbn. lia.
        - rewrite Z.geb_leb, Z.leb_gt in Eg.
          rewrite makeNaNPtr_ok by (unfold TAG_PTR; lia). cbn [omap obind]. fold (boxvec a).
          eexists _, a, cap. split; [reflexivity|]. split; [exact Ha|].
          split; [unfold hupd; now rewrite Z.eqb_refl|]. split; [lia|].
          rewrite app_length. cbn. lia. }
      destruct Hs as (h1 & a1 & c1 & E1 & Ha1 & Hh1 & Hc1 & Hl1). rewrite E1. cbn [obind fst snd].
      specialize (IH h1 a1 (arr ++ [x]) c1 Ha1 Hh1). rewrite app_length in IH, Hl1. cbn [List.length] in IH, Hl1.
      assert (Hin' : forall addr y, In (EAppend addr y) l -> 0 <= addr < 2^48)
        by (intros ad y Hy; apply (Hin ad y); now right).
      assert (G1 : 0 < c1) by lia. assert (G2 : Z.of_nat (List.length arr + 1 + List.length l) <= 2^27) by lia.
      specialize (IH G1 Hl1 G2 Hin'). destruct (edited _ l) as [arr'|]; [|exact IH].
      destruct IH as (h' & a' & c' & E & Ha' & Hh' & Hcc & Hlc & Hst).
      exists h', a', c'. repeat split; auto; try lia; exfalso; apply (H addr x); now left.
Qed.
Print Assumptions edits_preserve.
Example edits_ex :
  match edit_all (hupd hempty 4096 (HVector [1; 2] 3)) (boxvec 4096)
          [EStore 0 7; EAppend 8192 3; EStore 2 8; EAppend 8192 4; EStore 3 9] with
  | Ok (h, v) => v = boxvec 8192 /\ h (ptr v) = Some (HVector [7; 2; 8; 9] 6)
  | _ => False
  end /\
  edit_all (hupd hempty 4096 (HVector [1; 2] 3)) (boxvec 4096) [EStore 2 7] = Trap.
Proof. vm_compute. repeat split; reflexivity. Qed.

(** A vector created with capacity 0 cannot be appended to. *)
Theorem append_to_empty_refuted : exists h v, makeVector hempty 4096 0 0 = Ok (h, v) /\
  vectorAppend h 8192 v 1 = Trap.
Proof. eexists _, _. split; reflexivity. Qed.
Print Assumptions append_to_empty_refuted.

(** A vector is told from everything else, and what is no vector is not treated
    as one: its length and growing it abort, and so do reading and writing it when
    it is an object in memory.  (Numbers that look like pointers: see C01.) *)
Theorem vector_told : forall h o,
  (forall data cap, tag o = TAG_PTR -> h (ptr o) = Some (HVector data cap) -> isvectorH h o = Ok true) /\
  (tag o <> TAG_PTR \/ (exists x, h (ptr o) = Some x /\ forall data cap, x <> HVector data cap) ->
   isvectorH h o = Ok false /\ builtinVectorLength h o = Trap /\ forall addr x, vectorAppend h addr o x = Trap) /\
  (forall x, h (ptr o) = Some x -> (forall data cap, x <> HVector data cap) ->
   forall i n x, fixnum i = Ok n -> builtinVectorRef h o i = Trap /\ builtinVectorSet h o i x = Trap).
Proof.
  intros h o. split; [|split].
  - intros data cap T E. unfold isvectorH. now rewrite T, Z.eqb_refl, E.
  - intros H. assert (F : isvectorH h o = Ok false).
    { unfold isvectorH. destruct H as [T|(x & E & N)]; [destruct (Z.eqb_spec (tag o) TAG_PTR); [contradiction|reflexivity]|].
      destruct (tag o =? TAG_PTR); [|reflexivity]. rewrite E. destruct x as [| |data cap|]; try reflexivity. now elim (N data cap). }
    split; [exact F|]. unfold builtinVectorLength, vectorLength, vectorAppend. rewrite F. split; reflexivity.
  - intros x E N i n y F. unfold builtinVectorRef, builtinVectorSet, vectorRef, vectorSet. rewrite F. cbn [obind]. rewrite E.
    destruct x as [| |data cap|]; try (split; reflexivity). now elim (N data cap).
Qed.

Example vector_told_example :
  exists h c v, makeCons hempty 4096 Nil Nil = Ok (h, c) /\ makeVector h 8192 2 2 = Ok (hupd h 8192 (HVector [Undef; Undef] 2), v) /\
    let h' := hupd h 8192 (HVector [Undef; Undef] 2) in
    isvectorH h' v = Ok true /\ isvectorH h' c = Ok false /\ tag c <> TAG_PTR /\ builtinVectorLength h' c = Trap.
Proof. eexists _, _, _. split; [reflexivity|]. split; [reflexivity|]. repeat split; try reflexivity. discriminate. Qed.
Print Assumptions vector_told.
