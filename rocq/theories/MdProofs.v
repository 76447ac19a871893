(** Lemmas on lib/md4c/wrap.c (C83). *)
From Coq Require Import List ZArith Bool Ascii String Arith Lia.
From Verif Require Import Base ListLib StrModel StrProofs ReaderModel SxmlModel SxmlProps IoSpec IoModel MdModel MdSpec.
Import ListNotations.
Local Open Scope nat_scope.
Local Open Scope list_scope.

(** ** Trees *)

Section Ind.
  Variable P : node -> Prop.
  Hypothesis HB : forall b kids, Forall P kids -> P (Block b kids).
  Hypothesis HS : forall s kids, Forall P kids -> P (Span s kids).
  Hypothesis HL : forall t s, P (Leaf t s).
  Fixpoint node_rec2 (n : node) : P n :=
    let all := fix all (l : list node) : Forall P l :=
      match l with [] => Forall_nil P | n :: l => Forall_cons n (node_rec2 n) (all l) end in
    match n with Block b kids => HB b kids (all kids) | Span s kids => HS s kids (all kids) | Leaf t s => HL t s end.
End Ind.

Lemma all_Forall : forall (P : node -> Prop) l,
  (fix all l := match l with [] => True | n :: l => P n /\ all l end) l <-> Forall P l.
Proof.
  induction l as [|n l IH]; [split; auto|]. rewrite IH. split; [intros []; constructor; auto|inversion 1; auto].
Qed.

(** ** The stack *)

Definition wf (r : render) : Prop :=
  match r_stack r with None => r_size r = 0 /\ r_cap r = 0 | Some l => List.length l = r_cap r /\ r_size r <= r_cap r end.
Definition same (r r' : render) : Prop :=
  wf r' /\ r_size r' = r_size r /\ forall i, i < r_size r -> vref (r_stack r') i = vref (r_stack r) i.
Definition opened (r r1 : render) (c : sx) : Prop :=
  wf r1 /\ r_size r1 = S (r_size r) /\ vref (r_stack r1) (r_size r) = Ok (r_curr r) /\
  (forall i, i < r_size r -> vref (r_stack r1) i = vref (r_stack r) i) /\ r_curr r1 = c.

Lemma vref_set : forall l i j x l', vset (Some l) i x = Ok (Some l') ->
  vref (Some l') j = if j =? i then Ok x else vref (Some l) j.
Proof.
  unfold vset, vref. intros l i j x l' H. destruct (Nat.ltb_spec i (List.length l)); [|discriminate]. injection H as <-.
  revert i j H0. induction l as [|y l IH]; intros [|i] [|j] L; cbn [list_set nth_error List.length Nat.eqb] in *; try lia; auto.
  apply (IH i j). lia.
Qed.

Lemma copy_ok : forall old n i new, (forall j, j < i + n -> exists x, vref old j = Ok x) -> i + n <= List.length new ->
  exists new', copy_loop old (Some new) i n = Ok (Some new') /\ List.length new' = List.length new /\
    forall j, vref (Some new') j = if (i <=? j) && (j <? i + n) then vref old j else vref (Some new) j.
Proof.
  intros old. induction n as [|n IH]; intros i new H L.
  - exists new. repeat split. intros j. destruct (Nat.leb_spec i j), (Nat.ltb_spec j (i + 0)); cbn [andb]; auto; lia.
  - cbn [copy_loop]. destruct (H i ltac:(lia)) as (x & E). rewrite E. cbn [obind].
    assert (S : exists l', vset (Some new) i x = Ok (Some l') /\ List.length l' = List.length new).
    { unfold vset. destruct (Nat.ltb_spec i (List.length new)); [|lia]. eexists. split; [reflexivity|apply list_set_length]. }
    destruct S as (l' & S & Ll). rewrite S. cbn [obind].
    destruct (IH (Datatypes.S i) l') as (new' & Q & Ln & V); [intros j J; apply H; lia|lia|].
    exists new'. split; [exact Q|]. split; [lia|]. intros j. rewrite V, (vref_set _ _ _ _ _ S).
    destruct (Nat.leb_spec (Datatypes.S i) j), (Nat.ltb_spec j (Datatypes.S i + n)), (Nat.leb_spec i j), (Nat.ltb_spec j (i + Datatypes.S n)), (Nat.eqb_spec j i); cbn [andb]; try lia; auto.
    subst j. now rewrite E.
Qed.

Lemma vref_some : forall r i, wf r -> i < r_size r -> exists x, vref (r_stack r) i = Ok x.
Proof.
  intros r i W L. unfold wf in W. unfold vref. destruct (r_stack r) as [l|]; [|lia].
  destruct (nth_error l i) as [x|] eqn:E; [eauto|]. apply nth_error_None in E. lia.
Qed.

Lemma push_ok : forall r, wf r -> exists r1, md_html_push r = Ok r1 /\ opened r r1 (r_curr r).
Proof.
  intros r W. unfold md_html_push.
  assert (G : exists l cap, md_html_grow r = Ok (Some l, cap) /\ List.length l = cap /\ r_size r < cap /\
     forall i, i < r_size r -> vref (Some l) i = vref (r_stack r) i).
  { unfold md_html_grow. destruct (Nat.leb_spec (r_cap r) (r_size r)).
    - cbv zeta. set (cap := if r_cap r =? 0 then 16 else r_cap r * 2).
      assert (C : r_size r < cap).
      { unfold cap, wf in *. destruct (Nat.eqb_spec (r_cap r) 0); destruct (r_stack r); lia. }
      destruct (copy_ok (r_stack r) (r_size r) 0 (repeat XOther cap)) as (l & E & L & V).
      + intros j J. apply vref_some; auto.
      + rewrite repeat_length. lia.
      + rewrite E. cbn [obind]. exists l, cap. rewrite L, repeat_length. repeat split; auto. intros i I. rewrite V.
        destruct (Nat.ltb_spec i (0 + r_size r)); [reflexivity|lia].
    - unfold wf in W. destruct (r_stack r) as [l|]; [|lia]. exists l, (r_cap r). repeat split; auto; lia. }
  destruct G as (l & cap & E & L & C & V). rewrite E. cbn [obind].
  assert (S : exists l', vset (Some l) (r_size r) (r_curr r) = Ok (Some l') /\ List.length l' = List.length l).
  { unfold vset. destruct (Nat.ltb_spec (r_size r) (List.length l)); [|lia]. eexists. split; [reflexivity|apply list_set_length]. }
  destruct S as (l' & S & Ll). rewrite S. cbn [obind]. eexists. split; [reflexivity|].
  unfold opened, wf. cbn [r_stack r_size r_cap r_curr]. repeat split; try lia.
  - rewrite (vref_set _ _ _ _ _ S), Nat.eqb_refl. reflexivity.
  - intros i I. rewrite (vref_set _ _ _ _ _ S). destruct (Nat.eqb_spec i (r_size r)); [lia|]. auto.
Qed.

Lemma opened_set : forall r r1 c c', opened r r1 c -> opened r (set_curr r1 c') c'.
Proof. intros r r1 c c' (W & A & B & D & _). unfold opened, wf, set_curr in *. cbn [r_stack r_size r_cap r_curr]. repeat split; auto. Qed.

Lemma opened_fields : forall r r1 r2 c, opened r r1 c -> r_stack r2 = r_stack r1 -> r_size r2 = r_size r1 -> r_cap r2 = r_cap r1 -> opened r r2 (r_curr r2).
Proof. intros r r1 r2 c (W & A & B & D & _) E1 E2 E3. unfold opened, wf in *. rewrite E1, E2, E3. auto. Qed.

Lemma opened_append : forall r r1 c x, opened r r1 c -> opened r (append_curr r1 x) (XCons x c).
Proof.
  intros r r1 c x H. pose proof H as (_ & _ & _ & _ & <-). unfold append_curr. eapply opened_set; eauto.
Qed.

Lemma opened_wf : forall r r1 c, opened r r1 c -> wf r1.
Proof. now intros r r1 c (? & _). Qed.

Lemma same_refl : forall r, wf r -> same r r.
Proof. intros r W. repeat split; auto. Qed.
Lemma same_trans : forall a b c, same a b -> same b c -> same a c.
Proof.
  intros a b c (W & S & V) (W' & S' & V'). repeat split; auto; [congruence|]. intros i I. rewrite V', V; auto. lia.
Qed.
Lemma same_set : forall a b c, same a b -> same a (set_curr b c).
Proof. intros a b c (W & S & V). unfold same, wf, set_curr in *. cbn [r_stack r_size r_cap]. auto. Qed.

Lemma reverse_loop_ok : forall l acc, reverse_loop (xlist l) acc = Ok (fold_left (fun c x => XCons x c) l acc).
Proof. induction l as [|a l IH]; intros acc; [reflexivity|]. cbn [xlist fold_right reverse_loop fold_left]. apply IH. Qed.

Definition onto (l : list sx) (c : sx) : sx := fold_left (fun c x => XCons x c) l c.

Lemma onto_app : forall a b c, onto (a ++ b) c = onto b (onto a c).
Proof. intros. apply fold_left_app. Qed.
Lemma onto_rev : forall l m, onto l (xlist m) = xlist (rev l ++ m).
Proof.
  induction l as [|a l IH]; intros m; [reflexivity|]. unfold onto. cbn [fold_left].
  change (XCons a (xlist m)) with (xlist (a :: m)). fold (onto l (xlist (a :: m))). rewrite IH. cbn [rev]. now rewrite <- app_assoc.
Qed.
Lemma reverse_ok : forall l, reverse (xlist l) = Ok (xlist (rev l)).
Proof.
  intros l. unfold reverse. rewrite reverse_loop_ok. change XNil with (xlist []). fold (onto l (xlist [])).
  now rewrite onto_rev, app_nil_r.
Qed.

Lemma leave_ok : forall r r1 c r2 l, opened r r1 c -> same r1 r2 -> r_curr r2 = xlist l ->
  exists r3, render_verbatim_leave r2 = Ok r3 /\ r_curr r3 = XCons (xlist (rev l)) (r_curr r) /\ same r r3.
Proof.
  intros r r1 c r2 l (W1 & S1 & V1 & D1 & _) (W2 & S2 & V2) E. unfold render_verbatim_leave. rewrite E, reverse_ok. cbn [obind].
  unfold md_html_pop. rewrite S2, S1. rewrite V2, V1 by lia. cbn [obind]. eexists. split; [reflexivity|]. cbn [set_curr r_curr].
  split; [reflexivity|]. unfold same, wf, set_curr. cbn [r_stack r_size r_cap]. repeat split.
  - unfold wf in W2. destruct (r_stack r2) as [l'|]; lia.
  - intros i I. rewrite V2 by lia. auto.
Qed.

Lemma callbacks_app : forall a b r, callbacks (a ++ b) r = obind (callbacks a r) (callbacks b).
Proof. induction a as [|e a IH]; intros b r; [reflexivity|]. cbn [app callbacks]. destruct (callback r e); cbn [obind]; auto. Qed.

(** ** The value for a tree *)

Definition xattr (n : string) (s : bytes) : sx := xlist [sym n; XStr s].
Definition title_attr (a : attribute) : list sx := match at_text a with Some s => [xattr "title" s] | None => [] end.

Definition block_head (b : block) : list sx :=
  match b with
  | BQuote => [sym "blockquote"] | BUl => [sym "ul"] | BP => [sym "p"] | BLi None => [sym "li"]
  | BOl start => sym "ol" :: if (start =? 1)%Z then [] else [xlist [sym "@"; xlist [sym "start"; XNum start]]]
  | BLi (Some mark) =>
      [sym "li"; xlist [sym "@"; xattr "class" (lit "task-list-item")];
       xlist [sym "input"; xlist (sym "@" :: xattr "type" (lit "checkbox") :: xattr "class" (lit "task-list-item-checkbox") :: sym "disabled"
                                    :: if Ascii.eqb mark "x" || Ascii.eqb mark "X" then [sym "checked"] else [])]]
  | BH level => [XSym ("h"%char :: printNum (Z.of_nat level))]
  | _ => []
  end.
Definition span_head (s : span) : list sx :=
  match s with
  | SEm => [sym "em"] | SStrong => [sym "strong"] | SCode => [sym "code"] | SDel => [sym "del"]
  | SA href title => [sym "a"; xlist (sym "@" :: xattr "href" (text_of href) :: title_attr title)]
  | SImg src _ => [sym "img"; xlist [sym "@"; xattr "src" (text_of src)]]
  | _ => []
  end.
Fixpoint sxs (n : node) : list sx :=
  match n with
  | Block BDoc kids | Block BHtml kids => flat_map sxs kids
  | Block BHr _ => [xlist [sym "hr"]]
  | Block (BCode _) kids => [xlist [sym "pre"; xlist (sym "code" :: flat_map sxs kids)]]
  | Block b kids => [xlist (block_head b ++ flat_map sxs kids)]
  | Span s kids => [xlist (span_head s ++ flat_map sxs kids)]
  | Leaf TBr _ => [xlist [sym "br"]]
  | Leaf THtml _ => []
  | Leaf _ s => [XStr s]
  end.

(** ** Entering *)

Lemma verbatim_ok : forall r t, wf r -> exists r1, render_verbatim_enter r t = Ok r1 /\ opened r r1 (xlist [sym t]).
Proof.
  intros r t W. destruct (push_ok r W) as (r1 & E & O). unfold render_verbatim_enter. rewrite E. cbn [obind].
  eexists. split; [reflexivity|]. eapply opened_set; eauto.
Qed.

Lemma attribute_ok : forall r a s f, one_piece a s -> render_attribute r a f = Ok (f r s).
Proof.
  intros r a s f (N & ->). unfold render_attribute.
  assert (L : 0 < List.length s) by (destruct s; [congruence|cbn; lia]). apply Nat.ltb_lt in L.
  assert (P : piece (Some s) 0 (List.length s) = Ok s).
  { unfold piece. rewrite Nat.leb_refl. cbn [skipn]. now rewrite firstn_all. }
  cbn [at_offs attr_loop at_size at_text]. rewrite L. change (List.length s <? 0) with false. cbv iota.
  rewrite Nat.sub_0_r, P. cbn [obind]. now rewrite Nat.ltb_irrefl.
Qed.

Lemma enter_block_ok : forall r b kids, wf r -> block_possible b kids -> block_simple b ->
  match b with BDoc | BHtml | BHr | BCode _ => False | _ => True end ->
  exists r1, enter_block r b = Ok r1 /\ opened r r1 (xlist (rev (block_head b))).
Proof.
  intros r b kids W P Sm K. destruct b as [| | |start|task| |level| | | | | | | | |]; try contradiction; try (apply verbatim_ok; assumption).
  - cbn [enter_block]. unfold render_open_ol_block. destruct (verbatim_ok r "ol" W) as (r1 & -> & O). cbn [obind block_head].
    destruct (Z.eqb_spec start 1); [exists r1; split; [reflexivity|exact O]|].
    cbn in P. rewrite to_int32_id by lia. eexists. split; [reflexivity|]. apply opened_append. exact O.
  - cbn [enter_block]. unfold render_open_li_block. destruct task as [mark|]; [|apply verbatim_ok; assumption].
    destruct (push_ok r W) as (r1 & -> & O). cbn [obind]. eexists. split; [reflexivity|]. cbn [block_head].
    destruct (Ascii.eqb mark "x" || Ascii.eqb mark "X"); apply opened_append; eapply opened_set; eauto.
  - cbn in P. cbn [enter_block]. do 7 (destruct level as [|level]; [try lia; apply verbatim_ok; assumption|]). lia.
Qed.

Lemma enter_span_ok : forall r s, wf r -> span_possible s -> span_simple s ->
  exists r1, enter_span r s = Ok r1 /\ opened r r1 (xlist (rev (span_head s))).
Proof.
  intros r s W P Sm. destruct s as [| |href title|src title| | | | | |]; try contradiction; try (apply verbatim_ok; assumption).
  - destruct Sm as (H & T). cbn [enter_span]. unfold render_open_a_span. destruct (push_ok r W) as (r1 & -> & O). cbn [obind].
    rewrite (attribute_ok _ _ _ _ H). cbn [obind render_url_escaped1 append_curr set_curr r_curr].
    change (XCons (XStr (text_of href)) (xlist [sym "href"])) with (xlist [XStr (text_of href); sym "href"]).
    rewrite reverse_ok. cbn [obind rev app]. cbn [span_head]. unfold title_attr.
    destruct T as [T|T].
    + unfold missing in T. rewrite T. cbn [obind].
      change (XCons (xlist [sym "href"; XStr (text_of href)]) (xlist [sym "@"])) with (xlist [xattr "href" (text_of href); sym "@"]).
      rewrite reverse_ok. cbn [obind rev app]. eexists. split; [reflexivity|]. match goal with |- opened _ ?q _ => change (opened r q (r_curr q)) end. eapply opened_fields; [exact O|reflexivity..].
    + assert (E : at_text title = Some (text_of title)) by (destruct T as (_ & T); rewrite T; reflexivity).
      rewrite E. rewrite (attribute_ok _ _ _ _ T). cbn [obind render_url_escaped1 append_curr set_curr r_curr].
      change (XCons (XStr (text_of title)) (xlist [sym "title"])) with (xlist [XStr (text_of title); sym "title"]).
      rewrite reverse_ok. cbn [obind rev app].
      change (XCons (xlist [sym "title"; XStr (text_of title)]) (XCons (xlist [sym "href"; XStr (text_of href)]) (xlist [sym "@"])))
        with (xlist [xattr "title" (text_of title); xattr "href" (text_of href); sym "@"]).
      rewrite reverse_ok. cbn [obind rev app]. eexists. split; [reflexivity|]. match goal with |- opened _ ?q _ => change (opened r q (r_curr q)) end. eapply opened_fields; [exact O|reflexivity..].
  - destruct Sm as (H & T). cbn [enter_span]. unfold render_open_img_span. destruct (push_ok r W) as (r1 & -> & O). cbn [obind].
    rewrite (attribute_ok _ _ _ _ H). cbn [obind render_url_escaped1 append_curr set_curr r_curr].
    change (XCons (XStr (text_of src)) (xlist [sym "src"])) with (xlist [XStr (text_of src); sym "src"]).
    rewrite reverse_ok. cbn [obind rev app]. eexists. split; [reflexivity|]. match goal with |- opened _ ?q _ => change (opened r q (r_curr q)) end. eapply opened_fields; [exact O|reflexivity..].
Qed.

(** ** A tree *)

Definition good (n : node) : Prop := forall r, possible n -> simple n -> wf r ->
  exists r', callbacks (calls n) r = Ok r' /\ r_curr r' = onto (sxs n) (r_curr r) /\ same r r'.

Lemma good_list : forall kids, Forall good kids -> Forall possible kids -> Forall simple kids -> forall r, wf r ->
  exists r', callbacks (flat_map calls kids) r = Ok r' /\ r_curr r' = onto (flat_map sxs kids) (r_curr r) /\ same r r'.
Proof.
  induction 1 as [|n kids G _ IH]; intros P S r W.
  - exists r. repeat split; auto.
  - inversion P; subst. inversion S; subst. cbn [flat_map]. rewrite callbacks_app.
    destruct (G r) as (r1 & -> & C1 & S1); auto. cbn [obind].
    destruct (IH H2 H4 r1) as (r2 & -> & C2 & S2); [apply S1|]. exists r2. split; [reflexivity|]. split; [|eapply same_trans; eauto].
    now rewrite C2, C1, onto_app.
Qed.

Lemma onto_head : forall l h, onto l (xlist (rev h)) = xlist (rev (h ++ l)).
Proof. intros. now rewrite onto_rev, rev_app_distr. Qed.

Lemma element_ok : forall kids r ent lea h, Forall good kids -> Forall possible kids -> Forall simple kids -> wf r ->
  (exists r1, callback r ent = Ok r1 /\ opened r r1 (xlist (rev h))) -> (forall r, callback r lea = render_verbatim_leave r) ->
  exists r', callbacks (ent :: flat_map calls kids ++ [lea]) r = Ok r' /\ r_curr r' = onto [xlist (h ++ flat_map sxs kids)] (r_curr r) /\ same r r'.
Proof.
  intros kids r ent lea h G P S W (r1 & E & O) L. cbn [callbacks]. rewrite E. cbn [obind]. rewrite callbacks_app.
  destruct (good_list kids G P S r1) as (r2 & -> & C2 & S2); [eapply opened_wf; eauto|]. cbn [obind callbacks]. rewrite L.
  pose proof O as (_ & _ & _ & _ & C1). rewrite C1, onto_head in C2.
  destruct (leave_ok _ _ _ _ _ O S2 C2) as (r3 & -> & C3 & S3). cbn [obind]. exists r3. split; [reflexivity|]. split; [|assumption].
  rewrite C3, rev_involutive. reflexivity.
Qed.

Lemma all_good : forall n, good n.
Proof.
  induction n as [b kids G|s kids G|t s] using node_rec2; intros r P S W.
  - cbn [possible simple] in P, S. rewrite all_Forall in P, S. destruct P as (PB & P), S as (SB & S). cbn [calls].
    assert (ND : forall b, (forall r, enter_block r b = Ok r) -> (forall r, leave_block r b = Ok r) ->
      exists r', callbacks (EnterBlock b :: flat_map calls kids ++ [LeaveBlock b]) r = Ok r' /\ r_curr r' = onto (flat_map sxs kids) (r_curr r) /\ same r r').
    { intros b' E L. cbn [callbacks callback]. rewrite E. cbn [obind]. rewrite callbacks_app.
      destruct (good_list kids G P S r W) as (r2 & -> & C2 & S2). cbn [obind callbacks callback]. rewrite L. cbn [obind]. eauto. }
    destruct b as [| | |start|task| |level|lang| | | | | | | |]; try contradiction PB;
      try (match type of PB with block_possible ?b _ =>
             exact (element_ok kids r (EnterBlock b) (LeaveBlock b) (block_head b) G P S W (enter_block_ok r b kids W PB SB I) (fun _ => eq_refl)) end).
    + apply ND; reflexivity.
    + cbn in PB. subst kids. cbn. eexists. split; [reflexivity|]. split; [reflexivity|]. apply same_set, same_refl, W.
    + cbn [callbacks callback enter_block]. unfold render_open_code_block.
      destruct (push_ok r W) as (r1 & -> & O1). cbn [obind].
      assert (O1' : opened r (set_curr r1 (xlist [sym "pre"])) (xlist [sym "pre"])) by (eapply opened_set; eauto).
      destruct (push_ok (set_curr r1 (xlist [sym "pre"]))) as (r2 & -> & O2); [eapply opened_wf; eauto|]. cbn [obind].
      cbn in SB. unfold missing in SB. rewrite SB. cbn [obind].
      assert (O2' : opened (set_curr r1 (xlist [sym "pre"])) (set_curr r2 (xlist [sym "code"])) (xlist (rev [sym "code"]))) by (eapply opened_set; eauto).
      rewrite callbacks_app.
      destruct (good_list kids G P S (set_curr r2 (xlist [sym "code"]))) as (r3 & -> & C3 & S3); [eapply opened_wf; eauto|].
      cbn [obind callbacks callback leave_block].
      pose proof O2' as (_ & _ & _ & _ & C2). rewrite C2, onto_head in C3.
      destruct (leave_ok _ _ _ _ _ O2' S3 C3) as (r4 & -> & C4 & S4). cbn [obind].
      rewrite rev_involutive in C4. cbn [set_curr r_curr] in C4.
      change (XCons (xlist ([sym "code"] ++ flat_map sxs kids)) (xlist [sym "pre"])) with (xlist [xlist (sym "code" :: flat_map sxs kids); sym "pre"]) in C4.
      destruct (leave_ok _ _ _ _ _ O1' S4 C4) as (r5 & -> & C5 & S5). cbn [obind]. exists r5. repeat split; auto; apply S5.
    + apply ND; reflexivity.
  - cbn [possible simple] in P, S. rewrite all_Forall in P, S. destruct P as (PB & P), S as (SB & S). cbn [calls sxs].
    exact (element_ok kids r (EnterSpan s) (LeaveSpan s) (span_head s) G P S W (enter_span_ok r s W PB SB) (fun _ => eq_refl)).
  - cbn [calls callbacks callback obind]. eexists. split; [reflexivity|].
    destruct t; cbn [text_callback sxs onto fold_left]; (split; [reflexivity|]); try (apply same_set); apply same_refl, W.
Qed.

(** ** The text *)

Lemma docs_app : forall a b x y, docs (xlist a) x -> docs (xlist b) y -> docs (xlist (a ++ b)) (x ++ y).
Proof.
  induction a as [|v a IH]; intros b x y A B; cbn [xlist fold_right app] in *.
  - inversion A; subst. exact B.
  - inversion A; subst. rewrite <- app_assoc. constructor; [assumption|]. apply IH; assumption.
Qed.

Definition plain_elem (v : sx) : Prop :=
  match v with XStr _ => True | XCons (XSym t) _ => at_sign t = false | _ => False end.

Lemma plain_no_attrs : forall l, Forall plain_elem l -> has_attrs (xlist l) = false.
Proof.
  intros [|v l] H; [reflexivity|]. inversion H; subst. cbn [xlist fold_right has_attrs]. destruct v; auto. destruct v1; auto.
  rewrite <- at_sign_is. assumption.
Qed.

Lemma xlist_nil : forall l, is_nil (xlist l) = match l with [] => true | _ => false end.
Proof. now intros [|]. Qed.

Lemma shows_flat : forall kids, Forall (fun n => possible n -> match sxs n with [] => true | _ => false end = negb (shows n)) kids -> Forall possible kids ->
  match flat_map sxs kids with [] => true | _ => false end = negb (existsb shows kids).
Proof.
  induction 1 as [|n kids H _ IH]; intros P; [reflexivity|]. inversion P; subst. cbn [flat_map existsb].
  rewrite negb_orb, <- H, <- IH by assumption. now destruct (sxs n).
Qed.

Lemma shows_ok : forall n, possible n -> match sxs n with [] => true | _ => false end = negb (shows n).
Proof.
  induction n as [b kids G|s kids G|t s] using node_rec2; intros P; cbn [possible] in P; try rewrite all_Forall in P; try destruct P as (PB & P).
  - destruct b; cbn [sxs shows]; try reflexivity; apply shows_flat; auto.
  - reflexivity.
  - now destruct t.
Qed.

Lemma shows_all : forall kids, Forall possible kids -> match flat_map sxs kids with [] => true | _ => false end = negb (existsb shows kids).
Proof. intros kids P. apply shows_flat; auto. apply Forall_forall. intros n _. apply shows_ok. Qed.

Lemma plain_ok : forall n, possible n -> Forall plain_elem (sxs n).
Proof.
  assert (F : forall kids, Forall (fun n => possible n -> Forall plain_elem (sxs n)) kids -> Forall possible kids -> Forall plain_elem (flat_map sxs kids)).
  { intros kids H P. apply Forall_flat_map. revert P. induction H; intros P; inversion P; subst; constructor; auto. }
  induction n as [b kids G|s kids G|t s] using node_rec2; intros P; cbn [possible] in P; try rewrite all_Forall in P; try destruct P as (PB & P).
  - destruct b as [| | |start|[mark|]| |level|lang| | | | | | | |]; cbn [sxs]; try contradiction PB; try (apply F; assumption); try (repeat constructor; fail).
    repeat constructor. cbn [xlist fold_right block_head app plain_elem]. cbn in PB.
    do 7 (destruct level as [|level]; [try lia; reflexivity|]). lia.
  - destruct s; cbn [sxs]; try contradiction PB; repeat constructor.
  - destruct t; cbn [sxs]; repeat constructor.
Qed.
Lemma plain_all : forall kids, Forall possible kids -> Forall plain_elem (flat_map sxs kids).
Proof. intros kids H. apply Forall_flat_map. induction H; constructor; auto using plain_ok. Qed.

Lemma one_elem : forall v t, doc v t -> docs (xlist [v]) t.
Proof. intros v t H. rewrite <- (app_nil_r t). constructor; [exact H|constructor]. Qed.

Lemma elem_plain : forall t kids x, (len t < 255)%Z -> Forall plain_elem kids -> docs (xlist kids) x ->
  doc (xlist (XSym t :: kids)) (element_text t [] (match kids with [] => true | _ => false end) x).
Proof.
  intros t kids x L P D. rewrite <- xlist_nil. apply doc_elem; auto. now apply plain_no_attrs.
Qed.
Lemma elem_attrs : forall t attrs kids x y, (len t < 255)%Z -> attrs_text (xlist attrs) x -> docs (xlist kids) y ->
  doc (xlist (XSym t :: xlist (sym "@" :: attrs) :: kids)) (element_text t x (match kids with [] => true | _ => false end) y).
Proof. intros t attrs kids x y L A D. rewrite <- xlist_nil. now apply (doc_elem_attrs t (xlist attrs) (xlist kids)). Qed.

Lemma xattr_ok : forall n s, (len (lit n) < 255)%Z -> attr_text (xattr n s) (attr n s).
Proof. intros n s L. apply at_str. exact L. Qed.

Lemma text_ok : forall n, possible n -> simple n -> docs (xlist (sxs n)) (xml n).
Proof.
  assert (F : forall kids, Forall (fun n => possible n -> simple n -> docs (xlist (sxs n)) (xml n)) kids -> Forall possible kids -> Forall simple kids ->
    docs (xlist (flat_map sxs kids)) (flat_map xml kids)).
  { induction 1 as [|n kids H _ IH]; intros P S; [constructor|]. inversion P; subst. inversion S; subst. cbn [flat_map]. apply docs_app; auto. }
  induction n as [b kids G|s kids G|t s] using node_rec2; intros P S; cbn [possible simple] in P, S; try rewrite all_Forall in P, S;
    try destruct P as (PB & P); try destruct S as (SB & S); cbn [xml]; try (specialize (F kids G P S); rewrite <- (shows_all kids P); pose proof (plain_all kids P) as PL).
  - destruct b as [| | |start|[mark|]| |level|lang| | | | | | | |]; cbn [sxs block_xml]; try contradiction PB; try exact F;
      try (apply one_elem, elem_plain; [reflexivity|assumption|assumption]).
    + apply one_elem. cbn [block_head]. destruct (start =? 1)%Z; [apply elem_plain; [reflexivity|assumption|assumption]|].
      apply (elem_attrs (lit "ol") [xlist [sym "start"; XNum start]]); [reflexivity| |assumption].
      rewrite <- (app_nil_r (attr_raw _ _)). constructor; [|constructor]. apply at_num. reflexivity.
    + apply one_elem. cbn [block_head app].
      apply (elem_attrs (lit "li") [xattr "class" (lit "task-list-item")] (_ :: flat_map sxs kids)); [reflexivity| |].
      * rewrite <- (app_nil_r (attr _ _)). constructor; [|constructor]. apply xattr_ok. reflexivity.
      * rewrite !app_assoc. constructor; [|assumption]. rewrite <- !app_assoc.
        set (fl := if Ascii.eqb mark "x" || Ascii.eqb mark "X" then [sym "checked"] else []).
        assert (A : attrs_text (xlist (xattr "type" (lit "checkbox") :: xattr "class" (lit "task-list-item-checkbox") :: sym "disabled" :: fl))
                      (attr "type" (lit "checkbox") ++ attr "class" (lit "task-list-item-checkbox") ++ lit " disabled"
                         ++ (if Ascii.eqb mark "x" || Ascii.eqb mark "X" then lit " checked" else []))).
        { constructor; [apply xattr_ok; reflexivity|]. constructor; [apply xattr_ok; reflexivity|].
          constructor; [apply (at_flag (lit "disabled")); reflexivity|]. unfold fl.
          destruct (Ascii.eqb mark "x" || Ascii.eqb mark "X"); [|constructor].
          rewrite <- (app_nil_r (lit " checked")). constructor; [apply (at_flag (lit "checked")); reflexivity|constructor]. }
        pose proof (elem_attrs (lit "input") _ [] _ [] eq_refl A docs_nil) as D. unfold element_text in D. rewrite <- !app_assoc in D. exact D.
    + apply one_elem. apply (elem_plain (lit "hr") [] []); [reflexivity|constructor|constructor].
    + apply one_elem. cbn [block_head]. apply (elem_plain ("h"%char :: printNum (Z.of_nat level))); auto. cbn in PB.
      do 7 (destruct level as [|level]; [try lia; reflexivity|]). lia.
    + cbn in SB. unfold missing in SB. rewrite SB. apply one_elem.
      apply (elem_plain (lit "pre") [_]); [reflexivity|repeat constructor|]. apply one_elem, elem_plain; [reflexivity|assumption|assumption].
  - destruct s as [| |href title|src title| | | | | |]; cbn [sxs span_xml]; try contradiction PB;
      try (apply one_elem, elem_plain; [reflexivity|assumption|assumption]).
    + apply one_elem. cbn [span_head app]. apply (elem_attrs (lit "a") (_ :: _)); [reflexivity| |assumption].
      constructor; [apply xattr_ok; reflexivity|]. unfold title_attr, opt_attr. destruct (at_text title); [|constructor].
      rewrite <- (app_nil_r (attr _ _)). constructor; [apply xattr_ok; reflexivity|constructor].
    + destruct SB as (_ & T). unfold missing in T. unfold opt_attr. rewrite T. apply one_elem. cbn [span_head app].
      apply (elem_attrs (lit "img") [_]); [reflexivity| |assumption].
      constructor; [apply xattr_ok; reflexivity|constructor].
  - destruct t; cbn [sxs]; try contradiction S; try (apply one_elem, doc_text); [|constructor]. apply one_elem.
    apply (elem_plain (lit "br") [] []); [reflexivity|constructor|constructor].
Qed.

(** ** Reading the file *)

Lemma read_ok : forall fuel rest eof asize buf, 2 <= asize -> List.length buf <= asize -> List.length rest < fuel ->
  read_loop fuel asize buf (mkIn rest None eof) = Some (buf ++ rest).
Proof.
  induction fuel as [|fuel IH]; intros rest eof asize buf A B L; [lia|]. cbn [read_loop fread i_error i_rest].
  set (a := if asize <=? List.length buf then asize + asize / 2 else asize).
  assert (Ha : 2 <= a /\ List.length buf < a).
  { unfold a. destruct (Nat.leb_spec asize (List.length buf)); [|lia]. pose proof (Nat.div_le_lower_bound asize 2 1). lia. }
  destruct (firstn (a - List.length buf) rest) as [|c x] eqn:E.
  - destruct rest as [|d rest]; [now rewrite app_nil_r|]. destruct (a - List.length buf) eqn:Q; [lia|discriminate].
  - assert (F : List.length (c :: x) = Nat.min (a - List.length buf) (List.length rest)) by (rewrite <- E; apply firstn_length).
    cbn [List.length] in F. rewrite IH; [|lia| |].
    + rewrite <- E, <- app_assoc, firstn_skipn. reflexivity.
    + rewrite app_length. cbn [List.length]. lia.
    + rewrite skipn_length. lia.
Qed.
