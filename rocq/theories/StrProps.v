(** C06-C12: string buffers, searching, comparing, slicing, replacing, splitting. *)
From Coq Require Import ZArith Bool List Ascii String Arith Lia.
From Verif Require Import Base ListLib StrModel StrProofs.
Import ListNotations.
Local Notation length := List.length.
Local Notation "'b' s" := (list_ascii_of_string s%string) (at level 0, s at level 0, only parsing).

(** * C06: buffer histories *)
Inductive bufop :=
| OCpy (s : bytes) | OCat (s : bytes) | OAppend (c : ascii) | OShrink (n : Z) | OReserve (n : nat).
Definition run1 (o : bufop) (x : strBuf) : outcome strBuf :=
  match o with
  | OCpy s => strCpy x s | OCat s => strCat x s | OAppend c => strAppend x c
  | OShrink n => strShrink x n | OReserve n => strBufReserve x n
  end.
Fixpoint run (ops : list bufop) (x : strBuf) : outcome strBuf :=
  match ops with [] => Ok x | o :: ops' => obind (run1 o x) (run ops') end.

(** the specification: plain byte strings *)
Definition spec1 (o : bufop) (c : bytes) : bytes :=
  match o with
  | OCpy s => s | OCat s => c ++ s | OAppend x => c ++ [x]
  | OShrink n => firstn (length c - Z.to_nat n) c | OReserve _ => c
  end.
Definition spec (ops : list bufop) (c : bytes) : bytes := fold_left (fun c o => spec1 o c) ops c.
Definition op_ok (o : bufop) : Prop := match o with OShrink n => (0 <= n)%Z | _ => True end.

(** what a client sees of a buffer: its bytes through [toStr], and that a C reader of
    the data pointer finds the bytes followed by NUL *)
Definition shows (x : strBuf) (c : bytes) : Prop :=
  toStr x = Ok c /\ sb_len x = length c /\ length (sb_data x) = sb_cap x /\
  (forall i, i < length c -> nth_error (sb_data x) i = option_map Some (nth_error c i)) /\
  nth_error (sb_data x) (length c) = Some (Some NUL).

Lemma repr_shows : forall x c, buf_repr x c -> shows x c.
Proof.
  intros x c H. pose proof (toStr_repr x c H) as Ht. destruct H as (Hl & Hn & rest & Hd).
  split; [exact Ht|]. split; [exact Hn|]. split; [exact Hl|]. rewrite Hd. split.
  - intros i Hi. rewrite nth_error_app1 by (rewrite map_length; lia). apply nth_error_map'.
  - rewrite nth_error_app2 by (rewrite map_length; lia). now rewrite map_length, Nat.sub_diag.
Qed.

Lemma run_repr : forall ops x c, buf_repr x c -> Forall op_ok ops ->
  exists y, run ops x = Ok y /\ buf_repr y (spec ops c).
Proof.
  intros ops; induction ops as [|o ops IH]; intros x c Hx Hok.
  - exists x. auto.
  - inversion Hok as [|? ? Ho Hr]; subst.
    assert (exists y, run1 o x = Ok y /\ buf_repr y (spec1 o c)) as (y & E & Hy).
    { destruct o; cbn [run1 spec1].
      - destruct (strCpy_repr x s ltac:(apply Hx)) as (y & E & Hy & _). eauto.
      - now apply strCat_repr.
      - now apply strAppend_repr.
      - now apply strShrink_repr.
      - destruct (strBufReserve_repr x c n Hx) as (y & E & Hy & _). eauto. }
    cbn [run]. rewrite E. cbn [obind]. apply IH; assumption.
Qed.

Theorem buffer_histories : forall ops, Forall op_ok ops ->
  (forall cap, 0 < cap -> exists x y, strNew cap = Ok x /\ run ops x = Ok y /\ shows y (spec ops [])) /\
  (forall s, exists x y, fromBlk s = Ok x /\ run ops x = Ok y /\ shows y (spec ops s)).
Proof.
  intros ops Hok. split.
  - intros cap Hc. destruct (strNew_repr cap Hc) as (x & E & Hx & _).
    destruct (run_repr ops x [] Hx Hok) as (y & Ey & Hy). exists x, y. auto using repr_shows.
  - intro s. destruct (fromBlk_repr s) as (x & E & Hx).
    destruct (run_repr ops x s Hx Hok) as (y & Ey & Hy). exists x, y. auto using repr_shows.
Qed.
Print Assumptions buffer_histories.
Example buffer_histories_ex :
  obind (strNew 1) (fun x => obind (run [OCat b"ab"; OAppend "c"; OShrink 1; OCat b"xyz"] x) toStr)
  = Ok b"abxyz".
Proof. vm_compute. reflexivity. Qed.

(** the precondition on shrink is needed: a negative amount writes out of bounds *)
Theorem buffer_negative_shrink_refuted :
  exists s n, obind (fromBlk s) (fun x => strShrink x n) = UB.
Proof. exists b"abc", (-1)%Z. vm_compute. reflexivity. Qed.
Print Assumptions buffer_negative_shrink_refuted.

(** * C07: search *)
Theorem search_finds_first : forall h n,
  exists r, strStr h n = Some (Ok r) /\
    ((exists j, r = Z.of_nat j /\ occurs_at h n j /\ forall i, i < j -> ~ occurs_at h n i) \/
     (r = (-1)%Z /\ forall j, ~ occurs_at h n j)).
Proof. exact strStr_spec. Qed.
Print Assumptions search_finds_first.
Example search_ex : strStr b"aabaabb" b"aabb" = Some (Ok 3%Z).
Proof. vm_compute. reflexivity. Qed.

Theorem contain_iff : forall h n,
  exists r, stringContain h n = Ok r /\ (r = true <-> exists p q, h = p ++ n ++ q).
Proof.
  intros h n. unfold stringContain.
  destruct (strStrO_spec h n) as (r & -> & H). cbn [obind]. eexists. split; [reflexivity|].
  destruct H as [(j & -> & (p & q & E & _) & _)|[-> Hno]].
  - destruct (Z.ltb_spec (Z.of_nat j) 0); [lia|]. cbn. split; eauto.
  - cbn. split; [discriminate|]. intros (p & q & E). exfalso. apply (Hno (length p)).
    exists p, q. auto.
Qed.
Print Assumptions contain_iff.

Theorem strChr_first : forall s c,
  (exists j, strChr s c = Z.of_nat j /\ nth_error s j = Some c /\
     forall k, k < j -> nth_error s k <> Some c) \/
  (strChr s c = (-1)%Z /\ ~ In c s).
Proof. intros s c. exact (strChr_from_spec s c 0). Qed.
Print Assumptions strChr_first.

Theorem strRchr_last : forall s c,
  (exists j, strRchr s c = Ok (Z.of_nat j) /\ nth_error s j = Some c /\
     forall k, j < k < length s -> nth_error s k <> Some c) \/
  (strRchr s c = Ok (-1)%Z /\ ~ In c s).
Proof.
  intros s c. destruct (strRchr_down_spec s c (length s) (le_n _)) as [(j & E & _ & H)|[E H]].
  - left. exists j. auto.
  - right. split; [exact E|]. intro Hin. apply In_nth_error in Hin. destruct Hin as [k Hk].
    apply (H k); [|assumption]. apply nth_error_Some. congruence.
Qed.
Print Assumptions strRchr_last.

(** * C08: comparison *)
Theorem compare_zero_iff_equal : forall s t, strCmp s t = 0%Z <-> s = t.
Proof. exact strCmp_zero. Qed.
Theorem compare_sign : forall s t,
  ((strCmp s t < 0)%Z <-> slex s t) /\ ((strCmp s t > 0)%Z <-> slex t s).
Proof.
  intros s t. split; [apply strCmp_neg|]. rewrite <- strCmp_neg.
  pose proof (strCmp_antisym s t). lia.
Qed.
Theorem compare_total_order :
  (forall s t, Z.sgn (strCmp s t) = (- Z.sgn (strCmp t s))%Z) /\
  (forall s t u, (strCmp s t < 0)%Z -> (strCmp t u < 0)%Z -> (strCmp s u < 0)%Z) /\
  (forall s t, (strCmp s t < 0)%Z \/ s = t \/ (strCmp t s < 0)%Z).
Proof.
  split; [exact strCmp_antisym|]. split.
  - intros s t u. rewrite !strCmp_neg. apply slex_trans.
  - intros s t. pose proof (strCmp_antisym s t). pose proof (strCmp_zero s t).
    destruct (Z.eq_dec (strCmp s t) 0); [tauto|]. lia.
Qed.
Print Assumptions compare_zero_iff_equal.
Print Assumptions compare_sign.
Print Assumptions compare_total_order.
Example compare_ex : (strCmp b"abc" b"abd" < 0)%Z /\ (strCmp b"abd" b"b" < 0)%Z.
Proof. vm_compute. auto. Qed.

(** * C09: slicing *)
(** [norm len i] is the offset that index [i] denotes *)
Definition norm (len i : Z) : Z := if (i <? 0)%Z then (len + i)%Z else i.
Theorem slice_spec : forall s bg en, (- 2^31 <= bg < 2^31)%Z -> (- 2^31 <= en < 2^31)%Z ->
  exists r, stringSlice s bg en = Ok r /\
  let len := Z.of_nat (length s) in
  let i := norm len bg in let j := norm len en in
  if ((0 <=? i) && (i <=? j) && (j <=? len))%Z
  then exists p q, s = p ++ r ++ q /\ Z.of_nat (length p) = i /\ Z.of_nat (length r) = (j - i)%Z
  else r = [].
Proof.
  intros s bg en Hb He. unfold stringSlice. rewrite !to_int32_id by assumption.
  cbv zeta. fold (norm (Z.of_nat (length s)) bg). fold (norm (Z.of_nat (length s)) en).
  set (i := norm (Z.of_nat (length s)) bg). set (j := norm (Z.of_nat (length s)) en).
  destruct ((0 <=? i) && (i <=? j) && (j <=? Z.of_nat (length s)))%Z eqn:G.
  - apply andb_true_iff in G. destruct G as [G G3]. apply andb_true_iff in G. destruct G as [G1 G2].
    apply Z.leb_le in G1, G2, G3.
    destruct (Z.ltb_spec i 0); [lia|].
    destruct (Z.ltb_spec (Z.of_nat (length s)) j); [lia|].
    destruct (Z.ltb_spec j i); [lia|]. cbn [orb].
    unfold peek.
    destruct (Z.leb_spec 0 i); [|lia]. destruct (Z.leb_spec 0 (j - i)); [|lia].
    destruct (Z.leb_spec (i + (j - i)) (Z.of_nat (length s))); [|lia]. cbn [andb].
    eexists. split; [reflexivity|].
    exists (firstn (Z.to_nat i) s), (skipn (Z.to_nat j) s).
    repeat split.
    + rewrite <- (firstn_skipn (Z.to_nat i) s) at 1. f_equal.
      rewrite <- (firstn_skipn (Z.to_nat (j - i)) (skipn (Z.to_nat i) s)) at 1. f_equal.
      rewrite skipn_skipn. f_equal. lia.
    + rewrite firstn_length. lia.
    + rewrite firstn_length, skipn_length. lia.
  - exists []. split; [|reflexivity].
    destruct (Z.ltb_spec i 0); [reflexivity|].
    destruct (Z.ltb_spec (Z.of_nat (length s)) j); [reflexivity|].
    destruct (Z.ltb_spec j i); [reflexivity|].
    exfalso. destruct (Z.leb_spec 0 i); [|lia]. destruct (Z.leb_spec i j); [|lia].
    destruct (Z.leb_spec j (Z.of_nat (length s))); [|lia]. discriminate.
Qed.
Print Assumptions slice_spec.

(** The same for the C function behind replace and split, at every pair of indices. *)
Theorem sub_spec : forall s bg en,
  let r := strSub s bg en in
  let len := Z.of_nat (length s) in
  let i := norm len bg in let j := norm len en in
  if ((0 <=? i) && (i <=? j) && (j <=? len))%Z
  then exists p q, s = p ++ r ++ q /\ Z.of_nat (length p) = i /\ Z.of_nat (length r) = (j - i)%Z
  else r = [].
Proof.
  intros s bg en. cbv zeta. set (len := Z.of_nat (length s)).
  assert (P : forall k, ptrByIdx len k =
    if ((0 <=? norm len k) && (norm len k <=? len))%Z then Some (norm len k) else None).
  { intros k. unfold ptrByIdx, norm. destruct (Z.leb_spec 0 k) as [H|H].
    - destruct (Z.ltb_spec k 0); [lia|]. destruct (Z.leb_spec 0 k); [|lia]. reflexivity.
    - destruct (Z.ltb_spec k 0); [|lia]. rewrite Z.add_comm.
      destruct (Z.leb_spec 0 (len + k)); destruct (Z.leb_spec (len + k) len); try lia; reflexivity. }
  unfold strSub. fold len. rewrite !P.
  set (i := norm len bg). set (j := norm len en).
  destruct (Z.leb_spec 0 i); destruct (Z.leb_spec i len); cbn [andb];
    destruct (Z.leb_spec i j); destruct (Z.leb_spec 0 j); destruct (Z.leb_spec j len); cbn [andb];
    try lia; try reflexivity.
  - destruct (Z.leb_spec j i).
    + assert (j = i) by lia. rewrite H5. exists (firstn (Z.to_nat i) s), (skipn (Z.to_nat i) s).
      cbn [app length]. rewrite firstn_skipn. rewrite firstn_length. repeat split; lia.
    + exists (firstn (Z.to_nat i) s), (skipn (Z.to_nat j) s). repeat split.
      * rewrite <- (firstn_skipn (Z.to_nat i) s) at 1. f_equal.
        rewrite <- (firstn_skipn (Z.to_nat (j - i)) (skipn (Z.to_nat i) s)) at 1. f_equal.
        rewrite skipn_skipn. f_equal. lia.
      * rewrite firstn_length. lia.
      * rewrite firstn_length, skipn_length. lia.
  - destruct (Z.leb_spec j i); [reflexivity|lia].
Qed.
Print Assumptions sub_spec.
Example sub_ex : strSub b"hello" 1 (-1) = b"ell" /\ strSub b"hello" (-9) 3 = [] /\
  strSub b"hello" 2 9 = [] /\ strSub b"hello" 3 2 = [].
Proof. repeat split; vm_compute; reflexivity. Qed.

(** string->list gives one number for each byte, the byte read as a signed char; strings
    with the same list are the same. *)
Theorem string_list_right : forall s,
  length (stringToList s) = length s /\
  (forall n c, nth_error s n = Some c -> exists v, nth_error (stringToList s) n = Some v /\
     (-128 <= v < 128)%Z /\ exists k, (Z.of_nat (nat_of_ascii c) = v + 256 * k)%Z) /\
  (forall t, stringToList s = stringToList t -> s = t).
Proof.
  intros s. split; [apply map_length|]. split.
  - intros n c H. exists (schar c). split; [unfold stringToList; now apply map_nth_error|].
    unfold schar. pose proof (nat_ascii_bounded c).
    destruct (Z.ltb_spec (Z.of_nat (nat_of_ascii c)) 128).
    + split; [lia|]. exists 0%Z. lia.
    + split; [lia|]. exists 1%Z. lia.
  - unfold stringToList. induction s as [|x s IH]; intros [|y t] H; try discriminate; [reflexivity|].
    cbn [map] in H. injection H as H1 H2. f_equal; [|auto].
    rewrite <- (ascii_nat_embedding x), <- (ascii_nat_embedding y). f_equal.
    pose proof (nat_ascii_bounded x). pose proof (nat_ascii_bounded y).
    unfold schar in H1.
    destruct (Z.ltb_spec (Z.of_nat (nat_of_ascii x)) 128);
      destruct (Z.ltb_spec (Z.of_nat (nat_of_ascii y)) 128); lia.
Qed.
Print Assumptions string_list_right.
Example string_list_ex : stringToList b"az" = [97; 122]%Z.
Proof. vm_compute. reflexivity. Qed.
Example slice_ex : stringSlice b"hello" 1 (-1) = Ok b"ell".
Proof. vm_compute. reflexivity. Qed.

Theorem has_prefix_iff : forall s p,
  exists r, stringHasPrefix s p = Ok r /\ (r = true <-> exists q, s = p ++ q).
Proof.
  intros s p. unfold stringHasPrefix. destruct (Nat.ltb_spec (length s) (length p)).
  - exists false. split; [reflexivity|]. split; [discriminate|].
    intros (q & ->). rewrite app_length in *. lia.
  - destruct (hasPrefix_loop_spec s p (length p) 0) as (r & E & Hr); [reflexivity|lia|lia|].
    exists r. split; [exact E|]. rewrite Hr. split.
    + intros (a & q & -> & Ha). destruct a; [|discriminate]. exists q. reflexivity.
    + intros (q & ->). exists [], q. auto.
Qed.
Print Assumptions has_prefix_iff.
Example has_prefix_ex : stringHasPrefix b"sdfsdf" b"sdf" = Ok true.
Proof. vm_compute. reflexivity. Qed.

(** string-index has no bounds check *)
Theorem string_index_in_range_partial : forall s i c, (0 <= i < 2^31)%Z ->
  nth_error s (Z.to_nat i) = Some c -> stringIndex s i = Ok [c].
Proof.
  intros s i c Hi Hc. unfold stringIndex. rewrite to_int32_id by lia. unfold peek.
  assert (Hl : Z.to_nat i < length s) by (apply nth_error_Some; congruence).
  destruct (Z.leb_spec 0 i); [|lia]. cbn [Z.leb andb].
  rewrite app_length. cbn [length].
  destruct (Z.leb_spec (i + 1) (Z.of_nat (length s + 1))); [|lia]. change (0 <=? 1)%Z with true. cbn [andb]. f_equal.
  change (Z.to_nat 1) with 1.
  apply nth_error_ext. intro k. rewrite nth_error_firstn, nth_error_skipn.
  destruct k as [|k].
  - change (0 <? 1) with true. cbv iota. rewrite Nat.add_0_r, nth_error_app1 by assumption. exact Hc.
  - cbn. now destruct k.
Qed.
Print Assumptions string_index_in_range_partial.
Theorem string_index_in_range_refuted : forall s, exists i, stringIndex s i = UB.
Proof. intro s. exists (-1)%Z. reflexivity. Qed.
Print Assumptions string_index_in_range_refuted.

Theorem byte_ref_checked : forall s i, (- 2^63 <= i < 2^63)%Z -> (Z.of_nat (length s) < 2^31)%Z ->
  (forall c, (0 <= i)%Z -> nth_error s (Z.to_nat i) = Some c -> bytesRef s i = Ok (schar c)) /\
  ((i < 0)%Z \/ (Z.of_nat (length s) <= i)%Z -> bytesRef s i = Trap).
Proof.
  intros s i Hi Hl. unfold bytesRef, assertT. cbv zeta. split.
  - intros c Hi0 Hc. assert (Hlt : Z.to_nat i < length s) by (apply nth_error_Some; congruence).
    rewrite Z.mod_small by lia. destruct (Z.ltb_spec i (Z.of_nat (length s))); [|lia].
    unfold charAt. rewrite Hc. reflexivity.
  - intros [Hneg|Hbig].
    + rewrite <- (Z.mod_unique i (2^64) (-1) (i + 2^64)) by lia.
      destruct (Z.ltb_spec (i + 2^64) (Z.of_nat (length s))); [lia|reflexivity].
    + rewrite Z.mod_small by lia. destruct (Z.ltb_spec i (Z.of_nat (length s))); [lia|reflexivity].
Qed.
Print Assumptions byte_ref_checked.

(** * C10: replace *)
Theorem replace_first_occurrence : forall a from q to,
  (forall j, j < length a -> ~ occurs_at (a ++ from ++ q) from j) ->
  stringReplace (a ++ from ++ q) from to = Ok (a ++ to ++ q).
Proof. exact stringReplace_first. Qed.
Theorem replace_absent : forall s from to,
  (forall p q, s <> p ++ from ++ q) -> stringReplace s from to = Ok s.
Proof. intros s from to H. apply stringReplace_none. intros j (p & q & E & _). now apply (H p q). Qed.
Print Assumptions replace_first_occurrence.
Print Assumptions replace_absent.
Example replace_ex : stringReplace b"a-b-c" b"-" b"+++" = Ok b"a+++b-c".
Proof. vm_compute. reflexivity. Qed.

(** * C11: split *)
Theorem split_join : forall s sep,
  exists l, stringSplit s sep = Some (Ok l) /\ l <> [] /\ join sep l = s.
Proof. intros s sep. apply split_loop_spec. lia. Qed.
Print Assumptions split_join.
Example split_ex : stringSplit b"a,b,c" b"," = Some (Ok [b"a"; b"b"; b"c"]).
Proof. vm_compute. reflexivity. Qed.

(** what does hold about separators: all pieces but the last are free of them, the
    last one is too unless it begins with one *)
Theorem split_pieces_separator_free_partial : forall s sep l, sep <> [] ->
  stringSplit s sep = Some (Ok l) ->
  exists init lastp, l = init ++ [lastp] /\
    (forall p, In p init -> p <> [] /\ forall x y, p <> x ++ sep ++ y) /\
    ((forall x y, lastp <> x ++ sep ++ y) \/ exists y, lastp = sep ++ y).
Proof.
  intros s sep l Hs E.
  destruct (split_loop_pieces sep (S (length s)) s l Hs ltac:(lia) E) as (init & lastp & -> & H1 & H2 & H3).
  exists init, lastp. split; [reflexivity|]. split.
  - intros p Hp. split; [now apply H2|]. intros x y Ep. apply (H1 p (length x) Hp). exists x, y. auto.
  - destruct H3 as [H3|(a & y & -> & Ha)].
    + left. intros x y Ep. apply (H3 (length x)). exists x, y. auto.
    + right. destruct a; [|discriminate]. exists y. reflexivity.
Qed.
Print Assumptions split_pieces_separator_free_partial.

Theorem split_pieces_separator_free_refuted : exists s sep l p,
  sep <> [] /\ stringSplit s sep = Some (Ok l) /\ In p l /\ exists x y, p = x ++ sep ++ y.
Proof.
  exists b"a,,b,c", b",", [b"a"; b",b,c"], b",b,c".
  split; [discriminate|]. split; [vm_compute; reflexivity|]. split; [right; left; reflexivity|].
  exists [], b"b,c". reflexivity.
Qed.
Print Assumptions split_pieces_separator_free_refuted.

(** * C12: append *)
Theorem string_append_partial : forall x y, x <> [] \/ y <> [] ->
  builtinStringAppend x y = Ok (x ++ y).
Proof.
  intros x y H. unfold builtinStringAppend.
  destruct (strNew_repr (length x + length y)) as (b0 & -> & Hb0 & _).
  { destruct x, y; cbn; try lia. destruct H; contradiction. }
  cbn [obind].
  destruct (strCpy_repr b0 x ltac:(apply Hb0)) as (b1 & -> & Hb1 & _). cbn [obind].
  destruct (strCat_repr b1 x y Hb1) as (b2 & -> & Hb2). cbn [obind].
  now apply toStr_repr.
Qed.
Print Assumptions string_append_partial.
Example string_append_ex : builtinStringAppend b"foo" b"bar" = Ok b"foobar".
Proof. vm_compute. reflexivity. Qed.
Theorem string_append_refuted : exists x y, builtinStringAppend x y <> Ok (x ++ y).
Proof. exists [], []. vm_compute. discriminate. Qed.
Print Assumptions string_append_refuted.
