(** The arrays of src/vector.h refine lists. *)
From Coq Require Import ZArith Bool List Lia.
From Verif Require Import Base ListLib VecModel VecSpec.
Import ListNotations.
Local Open Scope Z_scope.
Local Open Scope out_scope.

Definition vec_step {A} (mem es : Z) (v : vec A) (o : vop A) : outcome (ans A * vec A) :=
  match o with
  | Append x => do! w <- vector_append mem es v x; Ok (Done, w)
  | Get i => do! x <- vecGet v i; Ok (Elem x, v)
  | Put i x => do! w <- vecSet v i x; Ok (Done, w)
  | Pop => do! wx <- vecPop v; Ok (Elem (snd wx), fst wx)
  | Drop => do! w <- vecDrop v; Ok (Done, w)
  | Len => do! n <- vecLen v; Ok (Count n, v)
  end.
Fixpoint vec_run {A} (mem es : Z) (v : vec A) (ops : list (vop A)) : outcome (list (ans A) * vec A) :=
  match ops with
  | [] => Ok ([], v)
  | o :: ops' => do! aw <- vec_step mem es v o;
                 do! r <- vec_run mem es (snd aw) ops';
                 Ok (fst aw :: fst r, snd r)
  end.

(** [v] holds [l], with room for [c] *)
Record holds {A} (v : vec A) (l : list A) (c : Z) : Prop := {
  h_len : v_len v = Some (Z.of_nat (length l));
  h_cap : v_cap v = Some c;
  h_room : Z.of_nat (length l) <= c < 2^31;
  h_data : (v_data v = Null /\ c = 0) \/
           exists cells, v_data v = Blk cells /\ Z.of_nat (length cells) = c /\ firstn (length l) cells = map Some l }.

Lemma int_ok : forall z, - 2^31 <= z < 2^31 -> int z = Ok z.
Proof.
  intros z H. unfold int. destruct (Z.leb_spec (- 2^31) z); [|lia].
  destruct (Z.ltb_spec z (2^31)); [|lia]. reflexivity.
Qed.
Lemma bytes_ok : forall n es, 0 <= n < 2^31 -> 0 < es < 2^31 -> bytes_for n es = n * es.
Proof.
  intros n es Hn He. unfold bytes_for, size_t. rewrite (Z.mod_small n) by lia. apply Z.mod_small. nia.
Qed.
Lemma elems_ok : forall n es, 0 <= n < 2^31 -> 0 < es < 2^31 -> elems n es = Z.to_nat n.
Proof. intros n es Hn He. unfold elems. rewrite bytes_ok, Z.div_mul by lia. reflexivity. Qed.

Lemma init_holds : forall A mem es cap, 0 < es < 2^31 -> 0 <= cap < 2^31 -> cap * es <= mem ->
  holds (A:=A) (vector_init mem es cap) [] cap.
Proof.
  intros A mem es cap He Hc Hm. constructor; cbn [vector_init v_len v_cap v_data length]; try reflexivity; [lia|].
  right. rewrite bytes_ok, elems_ok by assumption. destruct (Z.leb_spec (cap * es) mem); [|lia].
  eexists. split; [reflexivity|]. rewrite repeat_length. split; [lia|reflexivity].
Qed.
Lemma zeroed_holds : forall A, holds (A:=A) zeroed [] 0.
Proof. intros A. constructor; cbn; try reflexivity; [lia|]. left. auto. Qed.

Lemma firstn_all_app : forall B (a b : list B), firstn (length a) (a ++ b) = a.
Proof. intros. rewrite firstn_app, Nat.sub_diag, firstn_all, firstn_O. apply app_nil_r. Qed.
Lemma set_next : forall B (c : list (option B)) l x, (length l < length c)%nat -> firstn (length l) c = map Some l ->
  firstn (length (l ++ [x])) (list_set c (length l) (Some x)) = map Some (l ++ [x]).
Proof.
  intros B c l x L E. rewrite <- (firstn_skipn (length l) c), E.
  destruct (skipn (length l) c) as [|y t] eqn:Es.
  { apply (f_equal (@length _)) in Es. rewrite skipn_length in Es. cbn in Es. lia. }
  rewrite list_set_app, map_length. rewrite Nat.ltb_irrefl, Nat.sub_diag. cbn [list_set].
  rewrite map_app. cbn [map]. rewrite app_length. cbn [length].
  replace (map Some l ++ Some x :: t) with ((map Some l ++ [Some x]) ++ t) by (rewrite <- app_assoc; reflexivity).
  replace (length l + 1)%nat with (length (map Some l ++ [Some x])) by (rewrite app_length, map_length; reflexivity).
  apply firstn_all_app.
Qed.

(** ** appending *)
Lemma append_holds : forall A mem es (v : vec A) l c x, holds v l c -> 0 < es < 2^31 ->
  Z.of_nat (length l) < 2^30 ->
  (exists w c', vector_append mem es v x = Ok w /\ holds w (l ++ [x]) c' /\
     c' = (if c <=? Z.of_nat (length l) then if 0 <? c then 2 * c else 1 else c)) \/
  (vector_append mem es v x = Trap /\ c = Z.of_nat (length l) /\ mem < 2 * (c + 1) * es).
Proof.
  intros A mem es v l c x [Hl Hc Hr Hd] He Hb. unfold vector_append. rewrite Hl, Hc. cbn [rd obind].
  assert (Store : forall c0 cells, Z.of_nat (length cells) = c0 -> Z.of_nat (length l) < c0 < 2^31 ->
            firstn (length l) cells = map Some l ->
            exists w, (do! d <- cell_set (v_data (mkvec (Blk cells) (Some (Z.of_nat (length l))) (Some c0))) (Z.of_nat (length l)) x;
                       do! len' <- int (Z.of_nat (length l) + 1);
                       Ok (mkvec d (Some len') (Some c0))) = Ok w /\ holds w (l ++ [x]) c0).
  { intros c0 cells L1 L2 E. cbn [v_data cell_set]. rewrite L1.
    destruct (Z.leb_spec 0 (Z.of_nat (length l))); [|lia].
    destruct (Z.ltb_spec (Z.of_nat (length l)) c0); [|lia]. cbn [andb obind].
    rewrite int_ok by lia. cbn [obind]. eexists. split; [reflexivity|].
    constructor; cbn [v_len v_cap v_data]; [rewrite app_length; cbn [length]; f_equal; lia|reflexivity|rewrite app_length; cbn [length]; lia|].
    right. eexists. split; [reflexivity|]. rewrite list_set_length. split; [exact L1|].
    rewrite Nat2Z.id. apply set_next; [lia|exact E]. }
  destruct (Z.leb_spec c (Z.of_nat (length l))) as [Hf|Hf].
  - assert (Ec : c = Z.of_nat (length l)) by lia.
    set (nc := if 0 <? c then 2 * c else 1).
    assert (Hn : (if 0 <? c then int (c * 2) else Ok 1) = Ok nc).
    { unfold nc. destruct (Z.ltb_spec 0 c); [|reflexivity]. rewrite int_ok by lia. f_equal. lia. }
    rewrite Hn. cbn [obind].
    assert (Hnc : c < nc < 2^31 /\ nc <= 2 * (c + 1)).
    { unfold nc. destruct (Z.ltb_spec 0 c); lia. }
    assert (Hrl : vector_realloc mem es nc (v_data v) = Trap /\ mem < nc * es \/
                  exists cells, vector_realloc mem es nc (v_data v) = Ok (Blk cells) /\ Z.of_nat (length cells) = nc /\
                     firstn (length l) cells = map Some l).
    { destruct Hd as [[Hd Hz]|(cells & Hd & Lc & Ef)]; rewrite Hd; cbn [vector_realloc];
        rewrite bytes_ok, elems_ok by lia; destruct (Z.leb_spec (nc * es) mem).
      - right. eexists. split; [reflexivity|]. rewrite repeat_length. split; [lia|].
        destruct l; [reflexivity|cbn [length] in Ec; lia].
      - left. auto.
      - right. eexists. split; [reflexivity|]. rewrite app_length, firstn_length, repeat_length.
        split; [lia|]. rewrite firstn_app. rewrite firstn_firstn, firstn_length.
        rewrite Nat.min_l by lia. replace (length l - _)%nat with 0%nat by lia. rewrite firstn_O, app_nil_r. exact Ef.
      - left. auto. }
    destruct Hrl as [[E M]|(cells & E & Lc & Ef)]; rewrite E; cbn [obind].
    + right. split; [reflexivity|]. split; [exact Ec|]. nia.
    + left. destruct (Store nc cells Lc ltac:(lia) Ef) as (w & Ew & Hw). exists w, nc.
      split; [exact Ew|]. split; [exact Hw|]. reflexivity.
  - cbn [obind]. destruct Hd as [[Hd Hz]|(cells & Hd & Lc & Ef)]; [lia|].
    left. destruct (Store c cells Lc ltac:(lia) Ef) as (w & Ew & Hw). exists w, c.
    cbn [v_data] in Ew. rewrite Hd, Hc. split; [exact Ew|]. split; [exact Hw|]. reflexivity.
Qed.

(** ** the other operations *)
Lemma ref_holds : forall A (v : vec A) l c i n x, holds v l c -> place l i = Some n -> nth_error l n = Some x ->
  vecGet v i = Ok x.
Proof.
  intros A v l c i n x [Hl Hc Hr Hd] Hp Hx. unfold place in Hp.
  destruct (Z.leb_spec 0 i); [|discriminate]. destruct (Z.ltb_spec i (Z.of_nat (length l))); [|discriminate].
  injection Hp as <-. unfold vecGet. destruct Hd as [[Hd Hz]|(cells & Hd & Lc & Ef)]; [lia|].
  rewrite Hd. cbn [cell_ref]. destruct (Z.leb_spec 0 i); [|lia].
  assert (E : nth_error cells (Z.to_nat i) = Some (Some x)).
  { rewrite <- (firstn_skipn (length l) cells), Ef. rewrite nth_error_app1 by (rewrite map_length; lia).
    rewrite nth_error_map, Hx. reflexivity. }
  now rewrite E.
Qed.
Lemma place_some : forall A (l : list A) i, 0 <= i < Z.of_nat (length l) -> place l i = Some (Z.to_nat i).
Proof.
  intros A l i H. unfold place. destruct (Z.leb_spec 0 i); [|lia]. destruct (Z.ltb_spec i (Z.of_nat (length l))); [reflexivity|lia].
Qed.
Lemma place_inv : forall A (l : list A) i n, place l i = Some n -> 0 <= i < Z.of_nat (length l) /\ n = Z.to_nat i.
Proof.
  intros A l i n H. unfold place in H. destruct (Z.leb_spec 0 i); [|discriminate].
  destruct (Z.ltb_spec i (Z.of_nat (length l))); [|discriminate]. injection H as <-. lia.
Qed.
Lemma list_set_cut : forall A (l : list A) n x, (n < length l)%nat -> list_set l n x = firstn n l ++ x :: skipn (S n) l.
Proof.
  induction l as [|y l IH]; intros n x L; cbn [length] in L; [lia|].
  destruct n as [|n]; [reflexivity|]. cbn [list_set firstn skipn app]. f_equal. apply IH. lia.
Qed.
Lemma firstn_set : forall A (l : list A) k n x, (n < k)%nat -> firstn k (list_set l n x) = list_set (firstn k l) n x.
Proof.
  induction l as [|y l IH]; intros k n x L; destruct k; try lia; destruct n; try reflexivity.
  cbn [list_set firstn]. f_equal. apply IH. lia.
Qed.
Lemma map_set : forall A B (f : A -> B) l n x, list_set (map f l) n (f x) = map f (list_set l n x).
Proof. induction l as [|y l IH]; intros [|n] x; try reflexivity. cbn [map list_set]. f_equal. apply IH. Qed.
Lemma set_holds : forall A (v : vec A) l c i n x, holds v l c -> place l i = Some n ->
  exists w, vecSet v i x = Ok w /\ holds w (firstn n l ++ x :: skipn (S n) l) c.
Proof.
  intros A v l c i n x [Hl Hc Hr Hd] Hp. apply place_inv in Hp. destruct Hp as [Hi ->].
  rewrite <- list_set_cut by lia. unfold vecSet.
  destruct Hd as [[Hd Hz]|(cells & Hd & Lc & Ef)]; [lia|]. rewrite Hd. cbn [cell_set].
  destruct (Z.leb_spec 0 i); [|lia]. destruct (Z.ltb_spec i (Z.of_nat (length cells))); [|lia].
  cbn [andb obind]. eexists. split; [reflexivity|].
  constructor; cbn [v_len v_cap v_data]; rewrite ?list_set_length; auto.
  right. eexists. split; [reflexivity|]. rewrite list_set_length. split; [exact Lc|].
  rewrite firstn_set by lia. rewrite Ef. apply map_set.
Qed.
Lemma rev_last : forall A (l : list A) x r, rev l = x :: r -> l = rev r ++ [x].
Proof. intros A l x r H. apply (f_equal (@rev _)) in H. rewrite rev_involutive in H. exact H. Qed.
Lemma shorter_holds : forall A (v : vec A) l x c, holds v (l ++ [x]) c ->
  int (Z.of_nat (length (l ++ [x])) - 1) = Ok (Z.of_nat (length l)) /\
  holds (mkvec (v_data v) (Some (Z.of_nat (length l))) (v_cap v)) l c.
Proof.
  intros A v l x c [Hl Hc Hr Hd]. rewrite app_length in *. cbn [length] in *. split.
  - rewrite int_ok by lia. f_equal. lia.
  - constructor; cbn [v_len v_cap v_data]; auto; [lia|].
    destruct Hd as [Hd|(cells & Hd & Lc & Ef)]; [auto|right]. exists cells. split; [exact Hd|]. split; [exact Lc|].
    apply (f_equal (firstn (length l))) in Ef. rewrite firstn_firstn, Nat.min_l in Ef by lia.
    rewrite Ef, map_app. rewrite <- (map_length Some l) at 1. apply firstn_all_app.
Qed.

(** one operation *)
Lemma step_holds : forall A mem es (v : vec A) l c o a l1, holds v l c -> 0 < es < 2^31 ->
  Z.of_nat (length l1) <= 2^30 -> on_list l o = Some (a, l1) ->
  (exists w c', vec_step mem es v o = Ok (a, w) /\ holds w l1 c' /\
     c' = (match o with Append _ => if c <=? Z.of_nat (length l) then if 0 <? c then 2 * c else 1 else c | _ => c end)) \/
  (vec_step mem es v o = Trap /\ Z.of_nat (length l1) = c + 1 /\ mem < 2 * (c + 1) * es).
Proof.
  intros A mem es v l c o a l1 H He Hb Ho. destruct o as [x|i|i x| | |]; cbn [on_list vec_step] in *.
  - injection Ho as <- <-. rewrite app_length in Hb. cbn [length] in Hb.
    destruct (append_holds A mem es v l c x H He ltac:(lia)) as [(w & c' & E & Hw & Ec)|(E & Ec & M)]; rewrite E; cbn [obind].
    + left. eauto.
    + right. rewrite app_length. cbn [length]. repeat split; auto; lia.
  - destruct (place l i) as [n|] eqn:Ep; [|discriminate]. destruct (nth_error l n) as [x|] eqn:En; [|discriminate].
    injection Ho as <- <-. rewrite (ref_holds A v l c i n x H Ep En). left. cbn [obind]. eauto.
  - destruct (place l i) as [n|] eqn:Ep; [|discriminate]. injection Ho as <- <-.
    destruct (set_holds A v l c i n x H Ep) as (w & E & Hw). rewrite E. left. cbn [obind]. eauto.
  - destruct (rev l) as [|x r] eqn:Er; [discriminate|]. injection Ho as <- <-. apply rev_last in Er. subst l.
    destruct (shorter_holds _ _ _ _ _ H) as [Ei Hs]. left. unfold vecPop.
    rewrite (h_len _ _ _ H). cbn [rd obind]. rewrite Ei. cbn [obind].
    assert (Eg : vecGet v (Z.of_nat (length (rev r))) = Ok x).
    { eapply ref_holds; [exact H|apply place_some; rewrite app_length; cbn [length]; lia|].
      rewrite Nat2Z.id, nth_error_app2, Nat.sub_diag by lia. reflexivity. }
    unfold vecGet in Eg. rewrite Eg. cbn [obind fst snd]. eauto.
  - destruct (rev l) as [|x r] eqn:Er; [discriminate|]. injection Ho as <- <-. apply rev_last in Er. subst l.
    destruct (shorter_holds _ _ _ _ _ H) as [Ei Hs]. left. unfold vecDrop.
    rewrite (h_len _ _ _ H). cbn [rd obind]. rewrite Ei. cbn [obind]. eauto.
  - injection Ho as <- <-. left. unfold vecLen. rewrite (h_len _ _ _ H). cbn [rd obind]. eauto.
Qed.

Lemma longest_ge : forall A (ops : list (vop A)) l, Z.of_nat (length l) <= longest l ops.
Proof. intros A [|o ops] l; cbn [longest]; lia. Qed.
Lemma longest_step : forall A (ops : list (vop A)) o l a l1, on_list l o = Some (a, l1) -> longest l1 ops <= longest l (o :: ops).
Proof. intros A ops o l a l1 E. cbn [longest]. rewrite E. lia. Qed.

Lemma run_holds : forall A mem es (ops : list (vop A)) v l c rs l1, holds v l c -> 0 < es < 2^31 ->
  longest l ops <= 2^30 -> on_lists l ops = Some (rs, l1) ->
  (exists w c', vec_run mem es v ops = Ok (rs, w) /\ holds w l1 c' /\ c <= c' /\ c' <= Z.max c (2 * longest l ops)) \/
  (vec_run mem es v ops = Trap /\ mem < 2 * longest l ops * es).
Proof.
  intros A mem es. induction ops as [|o ops IH]; intros v l c rs l1 H He Hb Ho; cbn [on_lists vec_run] in *.
  - injection Ho as <- <-. left. exists v, c. repeat split; auto; try lia; apply H.
  - destruct (on_list l o) as [[a l2]|] eqn:E1; [|discriminate].
    destruct (on_lists l2 ops) as [[rs2 l3]|] eqn:E2; [|discriminate]. injection Ho as <- <-.
    pose proof (longest_step _ ops o l a l2 E1) as Hs. pose proof (longest_ge _ ops l2) as Hg.
    destruct (step_holds A mem es v l c o a l2 H He ltac:(lia) E1) as [(w & c' & E & Hw & Ec)|(E & El & M)]; rewrite E; cbn [obind fst snd].
    + assert (B : c <= c' <= Z.max c (2 * longest l (o :: ops))).
      { subst c'. destruct o; try lia. cbn [on_list] in E1. injection E1 as <- <-.
        rewrite app_length in Hg. cbn [length] in Hg.
        pose proof (h_room _ _ _ H). destruct (Z.leb_spec c (Z.of_nat (length l))); [|lia].
        destruct (Z.ltb_spec 0 c); lia. }
      destruct (IH w l2 c' rs2 l3 Hw He ltac:(lia) E2) as [(w2 & c2 & Er & Hw2 & B1 & B2)|(Er & M)]; rewrite Er; cbn [obind fst snd].
      * left. exists w2, c2. repeat split; auto; try apply Hw2; lia.
      * right. split; [reflexivity|]. nia.
    + right. split; [reflexivity|]. rewrite El in Hg. nia.
Qed.
