(** C74: the growable arrays of the runtime hold exactly what was put into them. *)
From Coq Require Import ZArith Bool List Lia.
From Verif Require Import Base ListLib VecModel VecSpec VecProofs.
Import ListNotations.
Local Open Scope Z_scope.
Local Open Scope out_scope.

(** Any history of appends, reads, writes and removals that a list would answer, up to
    2^30 elements: the answers are the list's, unless the system has no memory for twice
    the greatest length, and then the process ends. *)
Theorem vector_is_list_partial : forall A mem es cap (ops : list (vop A)) rs l,
  0 < es < 2^31 -> 0 <= cap < 2^31 -> cap * es <= mem -> longest [] ops <= 2^30 ->
  on_lists [] ops = Some (rs, l) ->
  (exists w, vec_run mem es (vector_init mem es cap) ops = Ok (rs, w) /\
     v_len w = Some (Z.of_nat (length l)) /\
     (forall n x, nth_error l n = Some x -> vecGet w (Z.of_nat n) = Ok x) /\
     exists c, v_cap w = Some c /\ Z.max cap (Z.of_nat (length l)) <= c <= Z.max cap (2 * longest [] ops)) \/
  (vec_run mem es (vector_init mem es cap) ops = Trap /\ mem < 2 * longest [] ops * es).
Proof.
  intros A mem es cap ops rs l He Hc Hm Hb Ho.
  destruct (run_holds A mem es ops _ [] cap rs l (init_holds A mem es cap He Hc Hm) He Hb Ho)
    as [(w & c' & E & Hw & B1 & B2)|H]; [left|right; exact H].
  exists w. split; [exact E|]. split; [apply Hw|]. split.
  - intros n x Hn. assert (n < length l)%nat by (apply nth_error_Some; congruence).
    eapply ref_holds; [exact Hw|apply place_some; lia|]. now rewrite Nat2Z.id.
  - exists c'. split; [apply Hw|]. pose proof (h_room _ _ _ Hw). lia.
Qed.
Print Assumptions vector_is_list_partial.

(** the same from memory that is all zero, as the global variables and the packages need *)
Theorem zeroed_is_list_partial : forall A mem es (ops : list (vop A)) rs l,
  0 < es < 2^31 -> longest [] ops <= 2^30 -> on_lists [] ops = Some (rs, l) ->
  (exists w, vec_run mem es zeroed ops = Ok (rs, w) /\ v_len w = Some (Z.of_nat (length l)) /\
     forall n x, nth_error l n = Some x -> vecGet w (Z.of_nat n) = Ok x) \/
  (vec_run mem es zeroed ops = Trap /\ mem < 2 * longest [] ops * es).
Proof.
  intros A mem es ops rs l He Hb Ho.
  destruct (run_holds A mem es ops _ [] 0 rs l (zeroed_holds A) He Hb Ho)
    as [(w & c' & E & Hw & B1 & B2)|H]; [left|right; exact H].
  exists w. split; [exact E|]. split; [apply Hw|].
  intros n x Hn. assert (n < length l)%nat by (apply nth_error_Some; congruence).
  eapply ref_holds; [exact Hw|apply place_some; lia|]. now rewrite Nat2Z.id.
Qed.
Print Assumptions zeroed_is_list_partial.

Definition some_ops : list (vop Z) :=
  [Append 5; Append 6; Append 7; Get 1; Pop; Put 0 9; Append 8; Get 0; Len; Drop; Get 1; Len].
Example vector_is_list_ex :
  on_lists [] some_ops = Some ([Done; Done; Done; Elem 6; Elem 7; Done; Done; Elem 9; Count 3; Done; Elem 6; Count 2], [9; 6]) /\
  longest [] some_ops = 3 /\
  omap fst (vec_run 1000 8 (vector_init 1000 8 2) some_ops) =
    Ok [Done; Done; Done; Elem 6; Elem 7; Done; Done; Elem 9; Count 3; Done; Elem 6; Count 2] /\
  vec_run 31 8 (vector_init 31 8 2) some_ops = Trap.
Proof. vm_compute. repeat split; reflexivity. Qed.

(** ** growing costs a constant per append *)
(** the elements that realloc moves *)
Fixpoint moved {A} (mem es : Z) (v : vec A) (ops : list (vop A)) : Z :=
  match ops with
  | [] => 0
  | o :: ops' =>
      (match o, v_len v, v_cap v with
       | Append _, Some len, Some cap => if cap <=? len then len else 0
       | _, _, _ => 0
       end) + match vec_step mem es v o with Ok (_, w) => moved mem es w ops' | _ => 0 end
  end.
Lemma moved_le : forall A mem es (ops : list (vop A)) v l c rs l1, holds v l c -> 0 < es < 2^31 ->
  longest l ops <= 2^30 -> on_lists l ops = Some (rs, l1) -> moved mem es v ops <= Z.max c (2 * longest l ops) - c.
Proof.
  intros A mem es. induction ops as [|o ops IH]; intros v l c rs l1 H He Hb Ho; [cbn [moved]; lia|].
  cbn [on_lists] in Ho. destruct (on_list l o) as [[a l2]|] eqn:E1; [|discriminate].
  destruct (on_lists l2 ops) as [[rs2 l3]|] eqn:E2; [|discriminate].
  pose proof (longest_step _ ops o l a l2 E1) as Hs. pose proof (longest_ge _ ops l2) as Hg.
  pose proof (longest_ge _ (o :: ops) l) as Hg0.
  cbn [moved]. rewrite (h_len _ _ _ H), (h_cap _ _ _ H). pose proof (h_room _ _ _ H) as Hr.
  assert (B : forall c', c' = (match o with Append _ => if c <=? Z.of_nat (length l) then if 0 <? c then 2 * c else 1 else c | _ => c end) ->
     (match o with Append _ => if c <=? Z.of_nat (length l) then Z.of_nat (length l) else 0 | _ => 0 end) <= c' - c /\
     c' <= Z.max c (2 * longest l (o :: ops))).
  { intros c' ->. destruct o; try lia. cbn [on_list] in E1. injection E1 as <- <-.
    rewrite app_length in Hg. cbn [length] in Hg.
    destruct (Z.leb_spec c (Z.of_nat (length l))); [|lia]. destruct (Z.ltb_spec 0 c); lia. }
  destruct (step_holds A mem es v l c o a l2 H He ltac:(lia) E1) as [(w & c' & E & Hw & Ec)|(E & El & M)]; rewrite E.
  - specialize (IH w l2 c' rs2 l3 Hw He ltac:(lia) E2). specialize (B c' Ec). destruct o; lia.
  - specialize (B _ eq_refl). destruct o; lia.
Qed.
Lemma longest_appends : forall A (ops : list (vop A)) l, longest l ops <= Z.of_nat (length l) + appends ops.
Proof.
  assert (P : forall A (ops : list (vop A)), 0 <= appends ops) by (induction ops as [|[] ops IH]; cbn [appends]; lia).
  intros A. induction ops as [|o ops IH]; intros l; cbn [longest]; [cbn [appends]; lia|].
  pose proof (P A ops) as P1. pose proof (P A (o :: ops)) as P2.
  destruct (on_list l o) as [[a l1]|] eqn:E; [|lia]. specialize (IH l1).
  assert (Z.of_nat (length l1) + appends ops <= Z.of_nat (length l) + appends (o :: ops)); [|lia].
  destruct o as [x|i|i x| | |]; cbn [on_list appends] in *.
  - injection E as <- <-. rewrite app_length. cbn [length]. lia.
  - destruct (place l i); [|discriminate]. destruct (nth_error l n); [|discriminate]. injection E as <- <-. lia.
  - destruct (place l i) as [n|] eqn:Ep; [|discriminate]. apply place_inv in Ep. injection E as <- <-.
    rewrite <- list_set_cut, list_set_length by lia. lia.
  - destruct (rev l) as [|x r] eqn:Er; [discriminate|]. apply rev_last in Er. subst l. injection E as <- <-.
    rewrite app_length. lia.
  - destruct (rev l) as [|x r] eqn:Er; [discriminate|]. apply rev_last in Er. subst l. injection E as <- <-.
    rewrite app_length. lia.
  - injection E as <- <-. lia.
Qed.
Theorem growth_is_amortised : forall A mem es cap (ops : list (vop A)) rs l,
  0 < es < 2^31 -> 0 <= cap < 2^31 -> cap * es <= mem -> longest [] ops <= 2^30 ->
  on_lists [] ops = Some (rs, l) ->
  moved mem es (vector_init mem es cap) ops <= 2 * appends ops.
Proof.
  intros A mem es cap ops rs l He Hc Hm Hb Ho.
  pose proof (moved_le A mem es ops _ [] cap rs l (init_holds A mem es cap He Hc Hm) He Hb Ho).
  pose proof (longest_appends A ops []). pose proof (longest_ge A ops []). cbn [length] in *. lia.
Qed.
Print Assumptions growth_is_amortised.
Example amortised_ex : moved 1000 8 (vector_init 1000 8 1) (map Append [1; 2; 3; 4; 5; 6; 7; 8; 9]) = 15.
Proof. vm_compute. reflexivity. Qed.

(** ** packages *)
Lemma pad_holds : forall A mem f (p : vec (option A)) l c n, holds p l c -> 0 <= n <= 2^30 ->
  Z.to_nat (n - Z.of_nat (length l)) = f ->
  (exists q c', pad f mem p n = Ok q /\ holds q (l ++ repeat None f) c') \/ (pad f mem p n = Trap /\ mem < 2 * n * 8).
Proof.
  intros A mem. induction f as [|f IH]; intros p l c n H Hn Ef; cbn [pad]; unfold vecLen;
    rewrite (h_len _ _ _ H); cbn [rd obind].
  - destruct (Z.ltb_spec (Z.of_nat (length l)) n); [lia|]. left. exists p, c.
    cbn [repeat]. rewrite app_nil_r. auto.
  - destruct (Z.ltb_spec (Z.of_nat (length l)) n); [|lia].
    destruct (append_holds _ mem 8 p l c None H ltac:(lia) ltac:(lia)) as [(w & c' & E & Hw & Ec)|(E & Ec & M)];
      rewrite E; cbn [obind].
    + assert (L : length (l ++ [None]) = S (length l)) by (rewrite app_length; cbn; lia).
      destruct (IH w (l ++ [None]) c' n Hw Hn ltac:(lia)) as [(q & c2 & Eq & Hq)|Hx]; [left|right; exact Hx].
      exists q, c2. split; [exact Eq|]. rewrite <- app_assoc in Hq. exact Hq.
    + right. split; [reflexivity|]. lia.
Qed.
Fixpoint add_all {A} (mem : Z) (p : vec (option (list A))) (h : list (Z * list A)) : outcome (vec (option (list A))) :=
  match h with
  | [] => Ok p
  | (id, t) :: h' => do! q <- addPackage mem p id t; add_all mem q h'
  end.
Lemma add_holds : forall A mem (p : vec (option (list A))) l c id t, holds p l c -> 0 <= id < 2^30 ->
  (exists q l' c', addPackage mem p id t = Ok q /\ holds q l' c' /\ nth_error l' (Z.to_nat id) = Some (Some t) /\
     forall k t', k <> Z.to_nat id -> nth_error l k = Some (Some t') -> nth_error l' k = Some (Some t')) \/
  (addPackage mem p id t = Trap /\ mem < 2 * (id + 1) * 8).
Proof.
  intros A mem p l c id t H Hi. unfold addPackage, assertT, vecLen. destruct (Z.leb_spec 0 id); [|lia].
  rewrite int_ok by lia. rewrite (h_len _ _ _ H). cbn [rd obind].
  destruct (pad_holds _ mem _ p l c (id + 1) H ltac:(lia) eq_refl) as [(q & c' & E & Hq)|[E M]]; rewrite E; cbn [obind].
  2:{ right. split; [reflexivity|lia]. }
  set (f := Z.to_nat (id + 1 - Z.of_nat (length l))) in *.
  assert (L : 0 <= id < Z.of_nat (length (l ++ repeat None f))) by (rewrite app_length, repeat_length; unfold f; lia).
  destruct (set_holds _ q _ c' id _ (Some t) Hq (place_some _ _ id L)) as (w & Ew & Hw).
  left. exists w, (firstn (Z.to_nat id) (l ++ repeat None f) ++ Some t :: skipn (S (Z.to_nat id)) (l ++ repeat None f)), c'.
  split; [exact Ew|]. split; [exact Hw|]. rewrite <- list_set_cut by lia.
  rewrite nth_error_list_set_eq by lia. split; [reflexivity|].
  intros k t' Hk Hn. rewrite nth_error_list_set_neq by auto. rewrite nth_error_app1; [exact Hn|].
  apply nth_error_Some. congruence.
Qed.
Theorem packages_right_partial : forall A mem (h : list (Z * list A)),
  (forall id t, In (id, t) h -> 0 <= id < 2^30) ->
  (exists p, add_all mem zeroed h = Ok p /\
     forall id t slot b, registered h id = Some t -> nth_error t slot = Some b ->
       getBinding p id (Z.of_nat slot) = Ok b) \/
  (add_all mem zeroed h = Trap /\ exists id t, In (id, t) h /\ mem < 16 * (id + 1)).
Proof.
  intros A mem h Hin.
  assert (G : forall h (p : vec (option (list A))) l c, (forall id t, In (id, t) h -> 0 <= id < 2^30) -> holds p l c ->
    (exists q, add_all mem p h = Ok q /\
      (forall id t, registered h id = Some t -> 0 <= id -> vecGet q id = Ok (Some t)) /\
      (forall id t, registered h id = None -> 0 <= id -> nth_error l (Z.to_nat id) = Some (Some t) -> vecGet q id = Ok (Some t))) \/
    (add_all mem p h = Trap /\ exists id t, In (id, t) h /\ mem < 16 * (id + 1))).
  { clear h Hin. induction h as [|[id t] h IH]; intros p l c Hin H; cbn [add_all registered].
    - left. exists p. split; [reflexivity|]. split; [discriminate|]. intros id t _ Hi Hn.
      assert (Z.to_nat id < length l)%nat by (apply nth_error_Some; congruence).
      eapply ref_holds; [exact H|apply place_some; lia|exact Hn].
    - destruct (add_holds A mem p l c id t H (Hin id t (or_introl eq_refl))) as [(q & l' & c' & E & Hq & N & K)|[E M]];
        rewrite E; cbn [obind].
      2:{ right. split; [reflexivity|]. exists id, t. split; [now left|lia]. }
      destruct (IH q l' c' (fun i u I => Hin i u (or_intror I)) Hq) as [(q2 & E2 & R1 & R2)|(E2 & id' & t' & I & M)].
      2:{ right. split; [exact E2|]. exists id', t'. split; [now right|exact M]. }
      left. exists q2. split; [exact E2|]. split.
      + intros i u Hr Hi. destruct (registered h i) as [w|] eqn:Ew.
        * injection Hr as ->. now apply R1.
        * destruct (Z.eqb_spec id i); [|discriminate]. subst i. injection Hr as <-. now apply R2.
      + intros i u Hr Hi Hn. destruct (registered h i) as [w|] eqn:Ew; [discriminate|].
        destruct (Z.eqb_spec id i) as [|Hne]; [discriminate|]. apply R2; auto. apply K; [|exact Hn].
        pose proof (Hin id t (or_introl eq_refl)). lia. }
  destruct (G h zeroed [] 0 Hin (zeroed_holds _)) as [(q & E & R1 & R2)|X]; [left|right; exact X].
  exists q. split; [exact E|]. intros id t slot b Hr Hn. unfold getBinding.
  assert (Hi : 0 <= id).
  { assert (I : exists u, In (id, u) h); [|destruct I as [u I]; apply (Hin id u I)].
    clear - Hr. induction h as [|[k u] h IH]; cbn [registered] in Hr; [discriminate|].
    destruct (registered h id) as [w|] eqn:Ew.
    - destruct (IH Hr) as [z I]. exists z. now right.
    - destruct (Z.eqb_spec k id); [|discriminate]. subst. exists u. now left. }
  rewrite (R1 id t Hr Hi). cbn [obind]. destruct (Z.leb_spec 0 (Z.of_nat slot)); [|lia].
  rewrite Nat2Z.id, Hn. reflexivity.
Qed.
Print Assumptions packages_right_partial.
Example packages_ex :
  let h := [(3, [10; 11]); (0, [20]); (3, [30; 31; 32])] in
  registered h 3 = Some [30; 31; 32] /\
  (do! p <- add_all 1000 zeroed h; do! a <- getBinding p 3 2; do! b <- getBinding p 0 0; Ok (a, b)) = Ok (32, 20).
Proof. vm_compute. split; reflexivity. Qed.

(** ** what is not checked *)
(** coraNew sets up neither the array of the global variables nor that of the packages:
    entering the first global variable, or the first package, reads fields that were never
    assigned, whatever the memory. *)
Theorem fresh_arrays_refuted : forall mem, new_global mem (fresh_globals (A:=Z)) 0 = UB /\
  forall id t, 0 <= id < 2^30 -> addPackage (A:=Z) mem fresh_globals id t = UB.
Proof.
  intros mem. split; [reflexivity|]. intros id t Hi. unfold addPackage, assertT.
  destruct (Z.leb_spec 0 id); [|lia]. rewrite int_ok by lia. reflexivity.
Qed.
Print Assumptions fresh_arrays_refuted.

(** Setting up an array ignores that there was no memory, and the next append writes
    through the null pointer, although growing in the same situation would end the process. *)
Theorem init_failure_refuted : exists mem cap, mem < 8 * cap /\
  vec_run mem 8 (vector_init mem 8 cap) [Append 1] = UB /\ vec_run mem 8 zeroed [Append 1; Append 2; Append 3] = Trap.
Proof. exists 24, 64. split; [lia|]. vm_compute. split; reflexivity. Qed.
Print Assumptions init_failure_refuted.

(** Taking from an empty array and reading behind the end are not noticed; what was removed
    can still be read. *)
Theorem bounds_refuted :
  vec_run 1000 8 (vector_init 1000 8 4) [Pop (A:=Z)] = UB /\
  vec_run 1000 8 (vector_init 1000 8 4) [Append 1; Get 1] = UB /\
  exists w, vec_run 1000 8 (vector_init 1000 8 4) [Append 1; Append 2; Drop; Get 1] = Ok ([Done; Done; Done; Elem 2], w) /\
    on_lists [] [Append 1; Append 2; Drop; Get 1] = None.
Proof. split; [reflexivity|]. split; [reflexivity|]. eexists. split; reflexivity. Qed.
Print Assumptions bounds_refuted.

(** The bound of 2^30 elements is needed: the doubling overflows. *)
Theorem growth_overflow_refuted : exists v l, holds (A:=Z) v l (2^30) /\ Z.of_nat (length l) = 2^30 /\
  forall mem es x, vector_append mem es v x = UB.
Proof.
  remember (Z.to_nat (2^30)) as n eqn:En. assert (Hn : Z.of_nat n = 2^30) by lia.
  exists (mkvec (Blk (repeat (Some 0) n)) (Some (2^30)) (Some (2^30))), (repeat 0 n).
  split; [|split; [rewrite repeat_length; exact Hn|]].
  - constructor; cbn [v_len v_cap v_data]; rewrite ?repeat_length, ?Hn; try reflexivity; [lia|].
    right. exists (repeat (Some 0) n). rewrite repeat_length. split; [reflexivity|]. split; [exact Hn|].
    rewrite <- (repeat_length (Some 0) n) at 1. rewrite firstn_all. clear. induction n; [reflexivity|]. cbn. now f_equal.
  - intros mem es x. unfold vector_append. cbn [rd v_len v_cap obind].
    destruct (Z.leb_spec (2^30) (2^30)); [|lia]. reflexivity.
Qed.
Print Assumptions growth_overflow_refuted.

(** freeing gives back an empty array that can be used again, and twice is harmless *)
Theorem free_right : forall A (v : vec A) l c, holds v l c ->
  vector_free v = Ok zeroed /\ vector_free (zeroed (A:=A)) = Ok zeroed.
Proof.
  intros A v l c H. unfold vector_free. destruct (h_data _ _ _ H) as [[E _]|(cells & E & _)]; rewrite E; split; reflexivity.
Qed.
Print Assumptions free_right.
Example free_ex : exists v, vec_run 100 8 (vector_init 100 8 2) [Append 4] = Ok ([Done], v) /\ vector_free v = Ok zeroed.
Proof. eexists. split; reflexivity. Qed.
