(** Proofs about src/str.c and lib/string.c. *)
From Coq Require Import ZArith Bool List Ascii Arith Lia.
From Verif Require Import Base ListLib StrModel.
Import ListNotations.

(** ** search *)

Definition occurs_at (h n : bytes) (j : nat) : Prop :=
  exists a b, h = a ++ n ++ b /\ length a = j.

Lemma occurs_at_nth : forall h n j,
  occurs_at h n j <-> (j + length n <= length h /\
    forall i, i < length n -> nth_error h (j + i) = nth_error n i).
Proof.
  intros h n j. split.
  - intros (a & b & -> & <-). rewrite !app_length. split; [lia|].
    intros i Hi. rewrite nth_error_app2 by lia.
    replace (length a + i - length a) with i by lia.
    now rewrite nth_error_app1 by lia.
  - intros [Hl Hn].
    exists (firstn j h), (skipn (j + length n) h). split.
    + rewrite <- (firstn_skipn j h) at 1. f_equal.
      rewrite <- (firstn_skipn (length n) (skipn j h)) at 1.
      rewrite skipn_skipn. f_equal.
      apply nth_error_ext. intro i. destruct (Nat.lt_ge_cases i (length n)).
      * rewrite <- Hn by assumption. rewrite nth_error_firstn.
        destruct (Nat.ltb_spec i (length n)); [|lia]. rewrite nth_error_skipn. reflexivity.
      * rewrite nth_error_firstn. destruct (Nat.ltb_spec i (length n)); [lia|].
        symmetry. now apply nth_error_None.
    + rewrite firstn_length. lia.
Qed.

Lemma charAt_ok : forall s i, i < length s -> exists c, charAt s i = Ok c /\ nth_error s i = Some c.
Proof.
  intros s i H. destruct (nth_error_ex _ s i H) as [c E]. exists c. unfold charAt. now rewrite E.
Qed.

Lemma strStr_inner_spec : forall h n pos k i,
  pos + length n <= length h -> i + k = length n ->
  (forall j, j < i -> nth_error h (pos + j) = nth_error n j) ->
  (strStr_inner h n pos i k = Ok IFull /\ occurs_at h n pos) \/
  (strStr_inner h n pos i k = Ok IMismatch /\ ~ occurs_at h n pos).
Proof.
  intros h n pos k; induction k as [|k IH]; intros i Hl Hi Hm.
  - left. split; [reflexivity|]. apply occurs_at_nth. split; [lia|].
    intros j Hj. apply Hm. lia.
  - cbn [strStr_inner]. destruct (Nat.leb_spec (length h) (pos + i)); [lia|].
    destruct (charAt_ok h (pos + i) ltac:(lia)) as (a & -> & Ea).
    destruct (charAt_ok n i ltac:(lia)) as (b & -> & Eb).
    cbn [obind]. destruct (Ascii.eqb_spec a b) as [->|Hne].
    + apply IH; [lia|lia|]. intros j Hj.
      destruct (Nat.eq_dec j i) as [->|]; [congruence|apply Hm; lia].
    + right. split; [reflexivity|]. rewrite occurs_at_nth. intros [_ H'].
      specialize (H' i ltac:(lia)). congruence.
Qed.

Lemma strStr_loop_spec : forall h n fuel pos,
  S (length h) < fuel + pos -> pos <= S (length h) ->
  (forall j, j < pos -> ~ occurs_at h n j) ->
  exists r, strStr_loop fuel h n pos = Some (Ok r) /\
    ((exists j, r = Z.of_nat j /\ occurs_at h n j /\ forall i, i < j -> ~ occurs_at h n i) \/
     (r = (-1)%Z /\ forall j, ~ occurs_at h n j)).
Proof.
  intros h n fuel; induction fuel as [|f IH]; intros pos Hf Hp Hn.
  - lia.
  - cbn [strStr_loop]. destruct (Nat.leb_spec (pos + length n) (length h)) as [Hle|Hgt].
    + destruct (strStr_inner_spec h n pos (length n) 0 Hle eq_refl) as [[-> Ho]|[-> Ho]]; [lia| |].
      * exists (Z.of_nat pos). split; [reflexivity|]. left. eauto.
      * apply IH; [lia|lia|]. intros j Hj. destruct (Nat.eq_dec j pos) as [->|]; [assumption|].
        apply Hn. lia.
    + exists (-1)%Z. split; [reflexivity|]. right. split; [reflexivity|].
      intros j Ho. destruct (Nat.lt_ge_cases j pos); [now apply (Hn j)|].
      apply occurs_at_nth in Ho. lia.
Qed.


Lemma strStr_spec : forall h n,
  exists r, strStr h n = Some (Ok r) /\
    ((exists j, r = Z.of_nat j /\ occurs_at h n j /\ forall i, i < j -> ~ occurs_at h n i) \/
     (r = (-1)%Z /\ forall j, ~ occurs_at h n j)).
Proof. intros h n. apply strStr_loop_spec; lia. Qed.

Lemma strStrO_spec : forall h n,
  exists r, strStrO h n = Ok r /\
    ((exists j, r = Z.of_nat j /\ occurs_at h n j /\ forall i, i < j -> ~ occurs_at h n i) \/
     (r = (-1)%Z /\ forall j, ~ occurs_at h n j)).
Proof.
  intros h n. destruct (strStr_spec h n) as (r & E & H). exists r. unfold strStrO. now rewrite E.
Qed.

(** ** strChr / strRchr *)
Lemma strChr_from_spec : forall s c i,
  (exists j, strChr_from s c i = Z.of_nat (i + j) /\ nth_error s j = Some c /\
     forall k, k < j -> nth_error s k <> Some c) \/
  (strChr_from s c i = (-1)%Z /\ ~ In c s).
Proof.
  intros s c; induction s as [|x s IH]; intro i.
  - right. split; [reflexivity|intros []].
  - cbn [strChr_from]. destruct (Ascii.eqb_spec x c) as [->|Hne].
    + left. exists 0. rewrite Nat.add_0_r. repeat split. intros k Hk. lia.
    + destruct (IH (S i)) as [(j & E & Hj & Hk)|[E Hn]].
      * left. exists (S j). rewrite E. split; [f_equal; lia|]. split; [exact Hj|].
        intros [|k] Hlt; cbn; [congruence|apply Hk; lia].
      * right. split; [exact E|]. intros [H|H]; [congruence|contradiction].
Qed.

Lemma strRchr_down_spec : forall s c p, p <= length s ->
  (exists j, strRchr_down s c p = Ok (Z.of_nat j) /\ j < p /\ nth_error s j = Some c /\
     forall k, j < k < p -> nth_error s k <> Some c) \/
  (strRchr_down s c p = Ok (-1)%Z /\ forall k, k < p -> nth_error s k <> Some c).
Proof.
  intros s c p; induction p as [|p IH]; intro Hp.
  - right. split; [reflexivity|]. lia.
  - cbn [strRchr_down]. destruct (charAt_ok s p ltac:(lia)) as (x & -> & Ex). cbn [obind].
    destruct (Ascii.eqb_spec x c) as [->|Hne].
    + left. exists p. repeat split; auto; lia.
    + destruct (IH ltac:(lia)) as [(j & E & Hj & Hx & Hk)|[E Hk]].
      * left. exists j. repeat split; auto.
        intros k Hlt. destruct (Nat.eq_dec k p) as [->|]; [congruence|apply Hk; lia].
      * right. split; [exact E|]. intros k Hlt.
        destruct (Nat.eq_dec k p) as [->|]; [congruence|apply Hk; lia].
Qed.

(** ** comparison *)
Lemma schar_inj : forall a b, schar a = schar b -> a = b.
Proof.
  intros a b. unfold schar. cbv zeta.
  assert (Ha : nat_of_ascii a < 256) by apply nat_ascii_bounded.
  assert (Hb : nat_of_ascii b < 256) by apply nat_ascii_bounded.
  intro H. rewrite <- (ascii_nat_embedding a), <- (ascii_nat_embedding b). f_equal.
  destruct (Z.ltb_spec (Z.of_nat (nat_of_ascii a)) 128),
           (Z.ltb_spec (Z.of_nat (nat_of_ascii b)) 128); lia.
Qed.

Lemma strCmp_zero : forall s t, strCmp s t = 0%Z <-> s = t.
Proof.
  intro s; induction s as [|a s IH]; intros [|b t]; cbn [strCmp]; try (split; [cbn; lia|discriminate]).
  - split; reflexivity.
  - destruct (Z.ltb_spec (schar b) (schar a)).
    { split; [discriminate|]. intro E. injection E as -> ->. lia. }
    destruct (Z.ltb_spec (schar a) (schar b)).
    { split; [discriminate|]. intro E. injection E as -> ->. lia. }
    rewrite IH. assert (a = b) by (apply schar_inj; lia). subst.
    split; congruence.
Qed.

(** the order strCmp decides, defined independently *)
Inductive slex : bytes -> bytes -> Prop :=
| slex_nil : forall b t, slex [] (b :: t)
| slex_head : forall a b s t, (schar a < schar b)%Z -> slex (a :: s) (b :: t)
| slex_tail : forall a s t, slex s t -> slex (a :: s) (a :: t).

Lemma strCmp_neg : forall s t, (strCmp s t < 0)%Z <-> slex s t.
Proof.
  intro s; induction s as [|a s IH]; intros [|b t]; cbn [strCmp].
  - split; [cbn; lia|intro H; inversion H].
  - split; [constructor|cbn [length]; lia].
  - split; [cbn [length]; lia|intro H; inversion H].
  - destruct (Z.ltb_spec (schar b) (schar a)).
    { split; [lia|]. intro E. inversion E; subst; lia. }
    destruct (Z.ltb_spec (schar a) (schar b)).
    { split; [now constructor|lia]. }
    assert (a = b) by (apply schar_inj; lia). subst. rewrite IH.
    split; [now constructor|]. intro E. inversion E; subst; [lia|assumption].
Qed.

Lemma strCmp_antisym : forall s t, Z.sgn (strCmp s t) = (- Z.sgn (strCmp t s))%Z.
Proof.
  intro s; induction s as [|a s IH]; intros [|b t]; cbn [strCmp length]; try lia.
  destruct (Z.ltb_spec (schar b) (schar a)), (Z.ltb_spec (schar a) (schar b)); try lia; try reflexivity.
  apply IH.
Qed.

Lemma slex_trans : forall s t u, slex s t -> slex t u -> slex s u.
Proof.
  intros s t u H; revert u; induction H; intros u Hu; inversion Hu; subst; try (constructor; lia);
    try (constructor; auto; fail).
Qed.

(** ** buffers *)
Definition buf_repr (b : strBuf) (c : bytes) : Prop :=
  length (sb_data b) = sb_cap b /\ sb_len b = length c /\
  exists rest, sb_data b = map Some c ++ Some NUL :: rest.

Lemma overwrite_app : forall a d src,
  overwrite (map Some a ++ d) (length a) src = map Some a ++ overwrite d 0 src.
Proof. intros a; induction a as [|x a IH]; intros d src; cbn; [reflexivity|]. f_equal. apply IH. Qed.

Lemma overwrite_0 : forall d src, overwrite d 0 src = map Some src ++ skipn (length src) d.
Proof. intros [|x d] src; reflexivity. Qed.

Lemma poke_0 : forall d src, length src <= length d ->
  poke d 0 src = Ok (map Some src ++ skipn (length src) d).
Proof.
  intros d src H. unfold poke. destruct (Nat.leb_spec (0 + length src) (length d)); [|lia].
  now rewrite overwrite_0.
Qed.

Lemma poke_app : forall a d src, length src <= length d ->
  poke (map Some a ++ d) (length a) src = Ok (map Some (a ++ src) ++ skipn (length src) d).
Proof.
  intros a d src H. unfold poke. rewrite app_length, map_length.
  destruct (Nat.leb_spec (length a + length src) (length a + length d)); [|lia].
  rewrite overwrite_app, overwrite_0, app_assoc, <- map_app. reflexivity.
Qed.

Lemma take_init_map : forall c d, take_init (map Some c ++ d) (length c) = Ok c.
Proof. intros c; induction c as [|x c IH]; intro d; cbn; [now destruct d|]. now rewrite IH. Qed.

Lemma toStr_repr : forall b c, buf_repr b c -> toStr b = Ok c.
Proof.
  intros b c (Hl & Hn & rest & Hd). unfold toStr. rewrite Hd, Hn. apply take_init_map.
Qed.

Lemma skipn_S_tl : forall A (l : list A) n, skipn n l <> [] -> exists x, skipn n l = x :: skipn (S n) l.
Proof.
  intros A l; induction l as [|y l IH]; intros n H.
  - rewrite skipn_nil in H. contradiction.
  - destruct n; [exists y; reflexivity|]. apply (IH n H).
Qed.

(** write [src] then a NUL after an initialised prefix *)
Lemma poke_poke : forall a d src cap, length src + 1 <= length d ->
  length a + length d = cap ->
  exists d', obind (poke (map Some a ++ d) (length a) src)
               (fun d1 => poke d1 (length a + length src) [NUL]) = Ok d' /\
    buf_repr (mkBuf cap (length a + length src) d') (a ++ src).
Proof.
  intros a d src cap H Hc.
  rewrite poke_app by lia. cbn [obind].
  rewrite <- (app_length a src). rewrite poke_app.
  2:{ rewrite skipn_length. cbn. lia. }
  eexists. split; [reflexivity|].
  unfold buf_repr. cbn [sb_data sb_cap sb_len].
  split; [|split; [reflexivity|]].
  - rewrite app_length, map_length, !skipn_length, !app_length. cbn [length]. lia.
  - exists (skipn (length [NUL]) (skipn (length src) d)).
    rewrite map_app. cbn [map]. rewrite <- app_assoc. reflexivity.
Qed.

Lemma strNew_repr : forall cap, 0 < cap -> exists b, strNew cap = Ok b /\ buf_repr b [] /\ sb_cap b = cap.
Proof.
  intros cap H. unfold strNew, assertT. destruct (Nat.ltb_spec 0 cap); [|lia].
  rewrite poke_0 by (rewrite repeat_length; cbn; lia). cbn [obind].
  eexists. split; [reflexivity|]. split; [|reflexivity].
  unfold buf_repr. cbn [sb_data sb_cap sb_len]. split; [|split; [reflexivity|]].
  - rewrite app_length, skipn_length, repeat_length. cbn. lia.
  - eexists. reflexivity.
Qed.

Lemma fromBlk_repr : forall s, exists b, fromBlk s = Ok b /\ buf_repr b s.
Proof.
  intro s. unfold fromBlk.
  destruct (poke_poke [] (repeat None (length s + 1)) s (length s + 1)) as (d' & E & H).
  { rewrite repeat_length. lia. } { rewrite repeat_length. cbn. lia. }
  cbn [map app length Nat.add] in E, H.
  destruct (poke (repeat None (length s + 1)) 0 s) eqn:E1; cbn [obind] in *; try discriminate.
  rewrite E. cbn [obind]. eexists. split; [reflexivity|exact H].
Qed.

Lemma strCpy_repr : forall to from, length (sb_data to) = sb_cap to ->
  exists b, strCpy to from = Ok b /\ buf_repr b from /\ length from + 1 <= sb_cap b.
Proof.
  intros to from Hc. unfold strCpy.
  assert (exists to', (if sb_cap to <? length from + 1 then strNew (length from + 1) else Ok to) = Ok to'
            /\ length (sb_data to') = sb_cap to' /\ length from + 1 <= sb_cap to') as (to' & -> & Hc' & Hle).
  { destruct (Nat.ltb_spec (sb_cap to) (length from + 1)).
    - destruct (strNew_repr (length from + 1) ltac:(lia)) as (b & E & Hb & Ec).
      exists b. split; [exact E|]. destruct Hb as (Hb & _). split; [exact Hb|lia].
    - exists to. split; [reflexivity|]. split; [exact Hc|lia]. }
  cbn [obind].
  destruct (poke_poke [] (sb_data to') from (sb_cap to')) as (d' & E & H); [lia|cbn; lia|].
  cbn [map app length Nat.add] in E, H.
  destruct (poke (sb_data to') 0 from) eqn:E1; cbn [obind] in *; try discriminate.
  rewrite E. cbn [obind]. eexists. split; [reflexivity|]. split; [exact H|]. cbn. lia.
Qed.

Lemma strBufReserve_repr : forall b c n, buf_repr b c ->
  exists b', strBufReserve b n = Ok b' /\ buf_repr b' c /\ (n <= sb_cap b').
Proof.
  intros b c n H. unfold strBufReserve. destruct (Nat.leb_spec n (sb_cap b)).
  - exists b. auto.
  - destruct (strNew_repr n ltac:(lia)) as (t & E & Ht & Ec). rewrite E. cbn [obind].
    rewrite (toStr_repr b c H). cbn [obind].
    assert (Hn : length c + 1 <= n).
    { destruct H as (Hl & _ & rest & Hd). rewrite Hd, app_length, map_length in Hl. cbn in Hl. lia. }
    unfold strCpy. destruct (Nat.ltb_spec (sb_cap t) (length c + 1)); [lia|]. cbn [obind].
    destruct Ht as (Ht & _).
    destruct (poke_poke [] (sb_data t) c (sb_cap t)) as (d' & E' & H'); [lia|cbn; lia|].
    cbn [map app length Nat.add] in E', H'.
    destruct (poke (sb_data t) 0 c) eqn:E1; cbn [obind] in *; try discriminate.
    rewrite E'. cbn [obind]. eexists. split; [reflexivity|]. split; [exact H'|]. cbn. lia.
Qed.

Lemma strCat_repr : forall b c s, buf_repr b c -> exists b', strCat b s = Ok b' /\ buf_repr b' (c ++ s).
Proof.
  intros b c s H. unfold strCat.
  destruct (strBufReserve_repr b c (sb_len b + length s + 1) H) as (b1 & -> & H1 & Hcap).
  cbn [obind]. destruct H as (_ & Hn & _). destruct H1 as (Hl1 & Hn1 & rest & Hd1).
  rewrite Hn1 in *. rewrite Hn in Hcap.
  destruct (poke_poke c (Some NUL :: rest) s (sb_cap b1)) as (d' & E & H').
  { rewrite Hd1, app_length, map_length in Hl1. lia. }
  { rewrite Hd1, app_length, map_length in Hl1. lia. }
  rewrite <- Hd1 in E.
  destruct (poke (sb_data b1) (length c) s) eqn:E1; cbn [obind] in *; try discriminate.
  rewrite E. cbn [obind]. eexists. split; [reflexivity|exact H'].
Qed.

Lemma growCap_ge : forall n, n + 2 <= growCap (n + 1).
Proof.
  intro n. unfold growCap. destruct (Nat.eqb_spec (n + 1) 0); [lia|].
  destruct (Nat.ltb_spec (n + 1) 1024); [lia|].
  apply Nat.div_le_lower_bound; lia.
Qed.

Lemma strAppend_repr : forall b c x, buf_repr b c ->
  exists b', strAppend b x = Ok b' /\ buf_repr b' (c ++ [x]).
Proof.
  intros b c x H. unfold strAppend.
  assert (exists b1, (if sb_cap b <? sb_len b + 2 then strBufReserve b (growCap (sb_len b + 1)) else Ok b) = Ok b1
           /\ buf_repr b1 c /\ length c + 2 <= sb_cap b1) as (b1 & -> & H1 & Hcap).
  { assert (Hn : sb_len b = length c) by apply H.
    destruct (Nat.ltb_spec (sb_cap b) (sb_len b + 2)).
    - destruct (strBufReserve_repr b c (growCap (sb_len b + 1)) H) as (b1 & E & H1 & Hc).
      exists b1. repeat split; auto; try apply H1. pose proof (growCap_ge (sb_len b)). lia.
    - exists b. repeat split; auto; try apply H. lia. }
  cbn [obind]. destruct H1 as (Hl1 & Hn1 & rest & Hd1). rewrite Hn1.
  destruct (poke_poke c (Some NUL :: rest) [x] (sb_cap b1)) as (d' & E & H').
  { rewrite Hd1, app_length, map_length in Hl1. cbn [length] in *. lia. }
  { rewrite Hd1, app_length, map_length in Hl1. lia. }
  rewrite <- Hd1 in E. cbn [length] in E, H'.
  destruct (poke (sb_data b1) (length c) [x]) eqn:E1; cbn [obind] in *; try discriminate.
  rewrite E. cbn [obind]. eexists. split; [reflexivity|exact H'].
Qed.

Lemma strShrink_repr : forall b c n, buf_repr b c -> (0 <= n)%Z ->
  exists b', strShrink b n = Ok b' /\ buf_repr b' (firstn (length c - Z.to_nat n) c).
Proof.
  intros b c n (Hl & Hn & rest & Hd) Hpos. unfold strShrink. rewrite Hn.
  assert (Hcap : length c + 1 <= length (sb_data b)).
  { rewrite Hd, app_length, map_length. cbn. lia. }
  set (k := length c - Z.to_nat n).
  assert (Hk : k <= length c) by (subst k; lia).
  assert (Hgen : exists d', poke (sb_data b) k [NUL] = Ok d' /\ buf_repr (mkBuf (sb_cap b) k d') (firstn k c)).
  { assert (Hlf : length (firstn k c) = k) by (rewrite firstn_length; lia).
    assert (Hd' : sb_data b = map Some (firstn k c) ++ (map Some (skipn k c) ++ Some NUL :: rest)).
    { rewrite Hd at 1. rewrite <- (firstn_skipn k c) at 1. rewrite map_app, <- app_assoc. reflexivity. }
    pose proof (poke_app (firstn k c) (map Some (skipn k c) ++ Some NUL :: rest) [NUL]) as Hp.
    rewrite Hlf in Hp. rewrite Hd', Hp by (rewrite app_length; cbn; lia).
    eexists. split; [reflexivity|]. unfold buf_repr. cbn [sb_data sb_cap sb_len].
    split; [|split; [now rewrite Hlf|]].
    - rewrite app_length, map_length, skipn_length, app_length, Hlf.
      rewrite Hd', app_length, map_length, Hlf in Hl, Hcap. cbn [length] in *.
      rewrite app_length in *. cbn [length] in *. lia.
    - rewrite map_app, <- app_assoc. eexists. reflexivity. }
  destruct (Z.leb_spec (Z.of_nat (length c)) n).
  - assert (k = 0) by (subst k; lia).
    destruct Hgen as (d' & E & Hr). rewrite H0 in *. rewrite E. cbn [obind]. eauto.
  - replace (Z.to_nat (Z.of_nat (length c) - n)) with k by (subst k; lia).
    destruct Hgen as (d' & -> & Hr). cbn [obind]. eauto.
Qed.

(** ** substrings *)
Lemma strSub_mid : forall s b e, (0 <= b)%Z -> (b <= e)%Z -> (e <= Z.of_nat (length s))%Z ->
  strSub s b e = firstn (Z.to_nat (e - b)) (skipn (Z.to_nat b) s).
Proof.
  intros s b e Hb He Hl. unfold strSub, ptrByIdx.
  destruct (Z.leb_spec 0 b); [|lia].
  destruct (Z.leb_spec b (Z.of_nat (length s))); [|lia].
  destruct (Z.leb_spec 0 e); [|lia].
  destruct (Z.leb_spec e (Z.of_nat (length s))); [|lia].
  destruct (Z.leb_spec e b); [|reflexivity].
  assert (e = b) by lia. subst. rewrite Z.sub_diag. reflexivity.
Qed.

Lemma strSub_prefix : forall a b, strSub (a ++ b) 0 (Z.of_nat (length a)) = a.
Proof.
  intros a b. rewrite strSub_mid; try lia.
  2:{ rewrite app_length. lia. }
  rewrite Z.sub_0_r, Nat2Z.id. cbn [Z.to_nat skipn]. apply firstn_app_exact.
Qed.

Lemma strSub_suffix : forall a b,
  strSub (a ++ b) (Z.of_nat (length a)) (Z.of_nat (length (a ++ b))) = b.
Proof.
  intros a b. rewrite strSub_mid; try lia.
  2:{ rewrite app_length. lia. }
  rewrite app_length, Nat2Z.id.
  replace (Z.to_nat (Z.of_nat (length a + length b) - Z.of_nat (length a))) with (length b) by lia.
  rewrite skipn_app_exact. apply firstn_all.
Qed.

Lemma hasPrefix_loop_spec : forall s p k i, i + k = length p -> length p <= length s ->
  (forall j, j < i -> nth_error s j = nth_error p j) ->
  exists r, hasPrefix_loop s p i k = Ok r /\ (r = true <-> occurs_at s p 0).
Proof.
  intros s p k; induction k as [|k IH]; intros i Hi Hl Hm.
  - exists true. split; [reflexivity|]. split; [|reflexivity]. intros _.
    apply occurs_at_nth. split; [lia|]. intros j Hj. cbn [Nat.add]. apply Hm. lia.
  - cbn [hasPrefix_loop].
    destruct (charAt_ok p i ltac:(lia)) as (a & -> & Ea).
    destruct (charAt_ok s i ltac:(lia)) as (b & -> & Eb). cbn [obind].
    destruct (Ascii.eqb_spec a b) as [->|Hne].
    + apply IH; [lia|lia|]. intros j Hj. destruct (Nat.eq_dec j i) as [->|]; [congruence|apply Hm; lia].
    + exists false. split; [reflexivity|]. split; [discriminate|].
      intro H. apply occurs_at_nth in H. destruct H as [_ H]. specialize (H i ltac:(lia)). cbn in H. congruence.
Qed.

Lemma to_int32_id : forall z, (- 2^31 <= z < 2^31)%Z -> to_int32 z = z.
Proof.
  intros z Hz. unfold to_int32. cbv zeta.
  destruct (Z.ltb_spec (z mod 2^32) (2^31)).
  - destruct (Z_lt_le_dec z 0); [|apply Z.mod_small; lia].
    exfalso. rewrite <- (Z.mod_unique z (2^32) (-1) (z + 2^32)) in H; lia.
  - destruct (Z_lt_le_dec z 0).
    + rewrite <- (Z.mod_unique z (2^32) (-1) (z + 2^32)); lia.
    + rewrite Z.mod_small in H; lia.
Qed.

(** ** split *)
Fixpoint join (sep : bytes) (l : list bytes) : bytes :=
  match l with
  | [] => []
  | [x] => x
  | x :: l' => x ++ sep ++ join sep l'
  end.

Lemma join_cons : forall sep x l, l <> [] -> join sep (x :: l) = x ++ sep ++ join sep l.
Proof. intros sep x [|y l] H; [contradiction|reflexivity]. Qed.

Lemma split_loop_spec : forall sep fuel s, length s < fuel ->
  exists l, stringSplit_loop fuel s sep = Some (Ok l) /\ l <> [] /\ join sep l = s.
Proof.
  intros sep fuel; induction fuel as [|f IH]; intros s Hf; [lia|].
  cbn [stringSplit_loop]. destruct (strStrO_spec s sep) as (r & -> & Hr).
  destruct (Z.ltb_spec 0 r) as [Hpos|Hneg].
  - destruct Hr as [(j & -> & (a & b & -> & Hj) & Hmin)|[-> _]]; [|lia].
    subst j.
    rewrite strSub_prefix.
    rewrite <- Nat2Z.inj_add, <- app_length.
    replace (a ++ sep ++ b) with ((a ++ sep) ++ b) by now rewrite app_assoc.
    rewrite strSub_suffix.
    destruct (IH b) as (l & -> & Hne & Hj).
    { rewrite !app_length in Hf. lia. }
    cbn [option_map omap]. exists (a :: l). split; [reflexivity|]. split; [discriminate|].
    rewrite join_cons by assumption. rewrite Hj. now rewrite app_assoc.
  - exists [s]. split; [reflexivity|]. split; [discriminate|reflexivity].
Qed.

(** pieces other than the last contain no separator; the last may only contain one
    at offset 0 *)
Lemma split_loop_pieces : forall sep fuel s l, sep <> [] -> length s < fuel ->
  stringSplit_loop fuel s sep = Some (Ok l) ->
  exists init lastp, l = init ++ [lastp] /\
    (forall p j, In p init -> ~ occurs_at p sep j) /\
    (forall p, In p init -> p <> []) /\
    ((forall j, ~ occurs_at lastp sep j) \/ occurs_at lastp sep 0).
Proof.
  intros sep fuel; induction fuel as [|f IH]; intros s l Hsep Hf; [lia|].
  cbn [stringSplit_loop]. destruct (strStrO_spec s sep) as (r & -> & Hr).
  destruct (Z.ltb_spec 0 r) as [Hpos|Hneg].
  - destruct Hr as [(j & -> & (a & b & -> & Hj) & Hmin)|[-> _]]; [|lia].
    subst j. rewrite strSub_prefix.
    rewrite <- Nat2Z.inj_add, <- app_length.
    rewrite (app_assoc a sep b). rewrite strSub_suffix.
    destruct (split_loop_spec sep f b) as (l' & E & Hne & Hj).
    { rewrite !app_length in Hf. lia. }
    rewrite E. cbn [option_map omap]. intro El. injection El as <-.
    destruct (IH b l' Hsep ltac:(rewrite !app_length in Hf; lia) E) as (init & lastp & -> & H1 & H2 & H3).
    exists (a :: init), lastp. split; [reflexivity|]. split; [|split; [|exact H3]].
    + intros p j [<-|Hin]; [|now apply H1].
      intros (a1 & b1 & Ea & Hj1). apply (Hmin j).
      * subst a j. rewrite !app_length. destruct sep; [contradiction|]. cbn. lia.
      * exists a1, (b1 ++ sep ++ b). split; [|assumption]. rewrite Ea, !app_assoc. reflexivity.
    + intros p [<-|Hin]; [|now apply H2]. destruct a; [cbn in Hpos; lia|discriminate].
  - intro El. injection El as <-. exists [], s. split; [reflexivity|].
    split; [intros p j []|]. split; [intros p []|].
    destruct Hr as [(j & -> & Ho & _)|[-> Hno]]; [|left; exact Hno].
    right. replace 0 with j by lia. exact Ho.
Qed.

Lemma stringReplace_none : forall s from to, (forall j, ~ occurs_at s from j) ->
  stringReplace s from to = Ok s.
Proof.
  intros s from to H. unfold stringReplace.
  destruct (strStrO_spec s from) as (r & -> & [(j & _ & Ho & _)|[-> _]]); [now apply H in Ho|reflexivity].
Qed.

Lemma stringReplace_first : forall a from b to,
  (forall j, j < length a -> ~ occurs_at (a ++ from ++ b) from j) ->
  stringReplace (a ++ from ++ b) from to = Ok (a ++ to ++ b).
Proof.
  intros a from b to H. unfold stringReplace.
  assert (Ho : occurs_at (a ++ from ++ b) from (length a)) by (exists a, b; auto).
  destruct (strStrO_spec (a ++ from ++ b) from) as (r & -> & [(j & -> & Hj & Hmin)|[-> Hno]]).
  2:{ now apply Hno in Ho. }
  assert (j = length a) as ->.
  { destruct (Nat.lt_trichotomy j (length a)) as [Hlt|[E|Hgt]]; [now apply H in Hlt|exact E|now apply Hmin in Hgt]. }
  cbn [obind]. destruct (Z.ltb_spec (Z.of_nat (length a)) 0); [lia|].
  rewrite strSub_prefix. rewrite <- Nat2Z.inj_add, <- (app_length a from).
  rewrite (app_assoc a from b). rewrite strSub_suffix.
  destruct (strNew_repr (length ((a ++ from) ++ b) + length to - length from + 1) ltac:(lia)) as (b0 & -> & Hb0 & _).
  cbn [obind].
  destruct (strCpy_repr b0 a ltac:(apply Hb0)) as (b1 & -> & Hb1 & _). cbn [obind].
  destruct (strCat_repr b1 a to Hb1) as (b2 & -> & Hb2). cbn [obind].
  destruct (strCat_repr b2 _ b Hb2) as (b3 & -> & Hb3). cbn [obind].
  rewrite (toStr_repr b3 _ Hb3). now rewrite app_assoc.
Qed.
