(** C51: sxml->xml. *)
From Coq Require Import List ZArith NArith Bool Ascii String Lia Arith.
From Verif Require Import Base StrModel StrProofs ReaderModel SxmlModel.
Import ListNotations.
Local Open Scope list_scope.
Local Open Scope Z_scope.

(** ** Specification *)

(** The text for a character; the apostrophe is the backslash's. *)
Definition escape_char (c : ascii) : bytes :=
  if Ascii.eqb c """"%char then lit "&quot;"
  else if Ascii.eqb c "&"%char then lit "&amp;"
  else if Ascii.eqb c "\"%char then lit "&apos;"
  else if Ascii.eqb c "<"%char then lit "&lt;"
  else if Ascii.eqb c ">"%char then lit "&gt;"
  else [c].
Definition escape (s : bytes) : bytes := flat_map escape_char s.

Definition len (s : bytes) : Z := Z.of_nat (List.length s).

Inductive attr_text : sx -> bytes -> Prop :=
| at_flag : forall n, len n < 255 -> attr_text (XSym n) (lit " " ++ n)
| at_str : forall n s rest, len n < 255 ->
    attr_text (XCons (XSym n) (XCons (XStr s) rest)) (lit " " ++ n ++ ["="%char; """"%char] ++ escape s ++ [""""%char])
| at_num : forall n z rest, len n < 255 ->
    attr_text (XCons (XSym n) (XCons (XNum z) rest)) (lit " " ++ n ++ ["="%char; """"%char] ++ printNum z ++ [""""%char]).

Inductive attrs_text : sx -> bytes -> Prop :=
| ats_nil : attrs_text XNil []
| ats_cons : forall a d x y, attr_text a x -> attrs_text d y -> attrs_text (XCons a d) (x ++ y).

Definition element_text (t attrs : bytes) (empty : bool) (body : bytes) : bytes :=
  lit "<" ++ t ++ attrs ++ (if empty then lit " />" else lit ">" ++ body ++ lit "</" ++ t ++ lit ">").

Definition is_nil (v : sx) : bool := match v with XNil => true | _ => false end.
Definition has_attrs (v : sx) : bool :=
  match v with XCons (XCons (XSym a) _) _ => if list_eq_dec ascii_dec a (lit "@") then true else false | _ => false end.

(** [doc v t]: [v] is a document or a list of documents, with text [t]. *)
Inductive doc : sx -> bytes -> Prop :=
| doc_text : forall s, doc (XStr s) (escape s)
| doc_elem_attrs : forall t attrs body x y, len t < 255 -> attrs_text attrs x -> docs body y ->
    doc (XCons (XSym t) (XCons (XCons (XSym ["@"%char]) attrs) body)) (element_text t x (is_nil body) y)
| doc_elem : forall t body y, len t < 255 -> has_attrs body = false -> docs body y ->
    doc (XCons (XSym t) body) (element_text t [] (is_nil body) y)
| doc_list : forall l y, docs l y -> doc l y
with docs : sx -> bytes -> Prop :=
| docs_nil : docs XNil []
| docs_cons : forall a d x y, doc a x -> docs d y -> docs (XCons a d) (x ++ y).

Scheme doc_ind2 := Induction for doc Sort Prop with docs_ind2 := Induction for docs Sort Prop.
Combined Scheme doc_docs_ind from doc_ind2, docs_ind2.

(** ** Buffers *)

Definition brepr (b : buffer) (c : bytes) : Prop :=
  b_size b = len c /\ exists rest, b_bytes b = List.map Some c ++ rest.

Definition BOUND : Z := 2^29.

Lemma to_int32_id : forall z, 0 <= z < 2^31 -> to_int32 z = z.
Proof.
  intros z H. unfold to_int32. rewrite Z.mod_small by lia. cbv zeta. destruct (Z.ltb_spec z (2^31)); lia.
Qed.

Lemma makeBytes_ok : forall n, 0 <= n < 2^31 - 64 -> makeBytes n = Ok (repeat None (Z.to_nat n)).
Proof.
  intros n H. unfold makeBytes. cbv zeta. rewrite to_int32_id by lia.
  destruct (Z.leb_spec 0 n); [|lia]. destruct (Z.ltb_spec (n + 64) (2^31)); [reflexivity|lia].
Qed.

Lemma next_size_range : forall n, 0 <= n -> n <= next_size n <= 2 * n + 1.
Proof.
  intros n H. unfold next_size, div_num. destruct (Z.ltb_spec n 1024); [lia|]. destruct (Z.leb_spec 2 n); lia.
Qed.

Lemma memcpy_ok : forall dst o1 src o2 n, 0 <= o1 -> 0 <= o2 -> 0 <= n -> o1 + n <= Z.of_nat (List.length dst) ->
  o2 + n <= Z.of_nat (List.length src) ->
  memcpy dst o1 src o2 n = Ok (firstn (Z.to_nat o1) dst ++ firstn (Z.to_nat n) (skipn (Z.to_nat o2) src)
             ++ skipn (Z.to_nat (o1 + n)) dst).
Proof.
  intros dst o1 src o2 n H1 H2 H3 H4 H5. unfold memcpy.
  rewrite (proj2 (Z.leb_le 0 o1)), (proj2 (Z.leb_le 0 o2)), (proj2 (Z.leb_le 0 n)), (proj2 (Z.leb_le _ _) H4),
    (proj2 (Z.leb_le _ _) H5) by auto. reflexivity.
Qed.

Lemma len_app : forall a b, len (a ++ b) = len a + len b.
Proof. intros. unfold len. rewrite app_length. lia. Qed.
Lemma len_nonneg : forall a, 0 <= len a.
Proof. intro. unfold len. lia. Qed.

Lemma write_ok : forall c d s, Z.of_nat (List.length c) + len s <= Z.of_nat (List.length (List.map (@Some ascii) c ++ d)) ->
  exists d', memcpy (List.map Some c ++ d) (len c) (List.map Some s) 0 (len s) = Ok (List.map Some (c ++ s) ++ d').
Proof.
  intros c d s H. rewrite app_length, map_length in H.
  rewrite memcpy_ok; try (unfold len; lia); try (rewrite app_length, map_length; unfold len in *; lia);
    try (rewrite map_length; unfold len; lia).
  exists (skipn (Z.to_nat (len c + len s)) (List.map Some c ++ d)).
  f_equal. unfold len. rewrite !Nat2Z.id. cbn [Z.to_nat skipn].
  rewrite firstn_app, map_length, Nat.sub_diag. cbn [firstn]. rewrite app_nil_r.
  replace (List.length c) with (List.length (List.map (@Some ascii) c)) at 1 by apply map_length. rewrite firstn_all.
  replace (List.length s) with (List.length (List.map (@Some ascii) s)) at 1 by apply map_length. rewrite firstn_all.
  now rewrite map_app, <- app_assoc.
Qed.

Lemma buffer_append_ok : forall b c s, brepr b c -> len c + len s < BOUND ->
  exists b', buffer_append b s = Ok b' /\ brepr b' (c ++ s).
Proof.
  intros b c s (Hs & rest & Hd) HB. unfold buffer_append. rewrite Hs. fold (len s).
  pose proof (len_nonneg c). pose proof (len_nonneg s). unfold BOUND in HB.
  assert (exists b1, (if buffer_cap b <? len c + len s
     then obind (makeBytes (next_size (len c + len s))) (fun new_data =>
          obind (memcpy new_data 0 (b_bytes b) 0 (len c)) (fun new_data => Ok (mkB new_data (len c))))
     else Ok b) = Ok b1 /\ brepr b1 c /\ len c + len s <= buffer_cap b1) as (b1 & -> & (Hs1 & rest1 & Hd1) & Hc1).
  { destruct (Z.ltb_spec (buffer_cap b) (len c + len s)).
    - pose proof (next_size_range (len c + len s) ltac:(lia)).
      rewrite makeBytes_ok by lia. cbn [obind].
      rewrite Hd, memcpy_ok; try lia; try (rewrite repeat_length; lia);
        try (rewrite app_length, map_length; unfold len; lia).
      cbn [obind]. eexists. split; [reflexivity|]. split.
      + split; [reflexivity|]. cbn [b_bytes]. eexists. cbn [Z.to_nat firstn skipn app]. f_equal.
        unfold len. rewrite Nat2Z.id, firstn_app, map_length, Nat.sub_diag. cbn [firstn]. rewrite app_nil_r.
        replace (List.length c) with (List.length (List.map (@Some ascii) c)) at 1 by apply map_length. apply firstn_all.
      + unfold buffer_cap. cbn [b_bytes]. rewrite !app_length, !firstn_length, !skipn_length, app_length, map_length, repeat_length.
        generalize dependent (next_size (len c + len s)). intros ns Hns. unfold len in *. lia.
    - exists b. split; auto. split; [split; eauto|lia]. }
  cbn [obind]. rewrite Hs1, Hd1. unfold buffer_cap in Hc1. rewrite Hd1 in Hc1.
  destruct (write_ok c rest1 s) as (d' & ->); [unfold len in *; lia|]. cbn [obind].
  eexists. split; [reflexivity|]. split; [cbn; now rewrite len_app|]. cbn [b_bytes]. eauto.
Qed.

(** ** Escaping *)

Lemma schar_is : forall c a, (nat_of_ascii a < 128)%nat -> (schar c =? Z.of_nat (nat_of_ascii a)) = Ascii.eqb c a.
Proof.
  intros c a Ha. destruct (Ascii.eqb_spec c a) as [->|Hne].
  - apply Z.eqb_eq. unfold schar. cbv zeta. destruct (Z.ltb_spec (Z.of_nat (nat_of_ascii a)) 128); lia.
  - apply Z.eqb_neq. intro E. apply Hne. rewrite <- (ascii_nat_embedding c), <- (ascii_nat_embedding a). f_equal.
    pose proof (nat_ascii_bounded c). unfold schar in E. cbv zeta in E.
    destruct (Z.ltb_spec (Z.of_nat (nat_of_ascii c)) 128); lia.
Qed.

Lemma charAt_mid : forall a c b, charAt (a ++ c :: b) (List.length a) = Ok c.
Proof. intros. unfold charAt. rewrite nth_error_app2, Nat.sub_diag by lia. reflexivity. Qed.

Lemma bytesRef_mid : forall a c b, len (a ++ c :: b) < 2^31 -> bytesRef (a ++ c :: b) (len a) = Ok (schar c).
Proof.
  intros a c b H. unfold bytesRef. cbv zeta. pose proof (len_nonneg a). rewrite len_app in H. pose proof (len_nonneg b).
  assert (len (c :: b) = 1 + len b) by (unfold len; cbn [List.length]; lia).
  rewrite Z.mod_small by lia. fold (len (a ++ c :: b)). rewrite len_app, H2. unfold assertT.
  destruct (Z.ltb_spec (len a) (len a + (1 + len b))); [|lia].
  unfold len. rewrite Nat2Z.id, charAt_mid. reflexivity.
Qed.

Lemma stringIndex_mid : forall a c b, len (a ++ c :: b) < 2^31 -> stringIndex (a ++ c :: b) (len a) = Ok [c].
Proof.
  intros a c b H. unfold stringIndex. pose proof (len_nonneg a). rewrite len_app in H. pose proof (len_nonneg b).
  assert (len (c :: b) = 1 + len b) by (unfold len; cbn [List.length]; lia).
  rewrite to_int32_id by lia. unfold peek. fold (len ((a ++ c :: b) ++ [NUL])).
  rewrite !len_app, H2. change (len [NUL]) with 1.
  rewrite (proj2 (Z.leb_le 0 (len a))), (proj2 (Z.leb_le 0 1)), (proj2 (Z.leb_le (len a + 1) _)) by lia.
  cbn [andb]. unfold len. rewrite Nat2Z.id, <- app_assoc. rewrite skipn_app, Nat.sub_diag, skipn_all. reflexivity.
Qed.

Lemma escape_loop_ok : forall todo done_ b c, brepr b c -> len (done_ ++ todo) < 2^31 ->
  len c + len (escape todo) < BOUND ->
  exists b', escape_loop (done_ ++ todo) (List.length todo) (len done_) b = Ok b' /\ brepr b' (c ++ escape todo).
Proof.
  induction todo as [|x todo IH]; intros done_ b c R HL HB.
  - exists b. cbn. rewrite app_nil_r. auto.
  - cbn [List.length escape_loop]. rewrite bytesRef_mid by auto. cbn [obind].
    cbn [escape flat_map] in HB. fold (escape todo) in HB. rewrite len_app in HB.
    assert (exists b1,
      (if schar x =? 34 then buffer_append b (lit "&quot;")
       else if schar x =? 38 then buffer_append b (lit "&amp;")
       else if schar x =? 92 then buffer_append b (lit "&apos;")
       else if schar x =? 60 then buffer_append b (lit "&lt;")
       else if schar x =? 62 then buffer_append b (lit "&gt;")
       else obind (stringIndex (done_ ++ x :: todo) (len done_)) (fun s => buffer_append b s)) = Ok b1 /\
      brepr b1 (c ++ escape_char x)) as (b1 & -> & R1).
    { change 34 with (Z.of_nat (nat_of_ascii """"%char)). change 38 with (Z.of_nat (nat_of_ascii "&"%char)).
      change 92 with (Z.of_nat (nat_of_ascii "\"%char)). change 60 with (Z.of_nat (nat_of_ascii "<"%char)).
      change 62 with (Z.of_nat (nat_of_ascii ">"%char)).
      rewrite !schar_is by (vm_compute; repeat constructor).
      pose proof (len_nonneg (escape todo)). rewrite stringIndex_mid by auto. cbn [obind].
      unfold escape_char in *.
      repeat match goal with |- context [if Ascii.eqb ?a ?b then _ else _] => destruct (Ascii.eqb a b) end;
        apply buffer_append_ok; auto; lia. }
    cbn [obind].
    replace (len done_ + 1) with (len (done_ ++ [x])) by (rewrite len_app; reflexivity).
    replace (done_ ++ x :: todo) with ((done_ ++ [x]) ++ todo) in * by (rewrite <- app_assoc; reflexivity).
    destruct (IH (done_ ++ [x]) b1 _ R1 HL) as (b2 & E2 & R2); [rewrite len_app; lia|].
    exists b2. split; auto. cbn [escape flat_map]. fold (escape todo). now rewrite app_assoc.
Qed.

Lemma escape_longer : forall s, len s <= len (escape s).
Proof.
  induction s as [|x s IH]; cbn [escape flat_map]; [reflexivity|]. fold (escape s). rewrite len_app.
  assert (len (x :: s) = 1 + len s) by (unfold len; cbn [List.length]; lia).
  assert (1 <= len (escape_char x)); [|lia]. unfold escape_char.
  repeat match goal with |- context [if Ascii.eqb ?a ?b then _ else _] => destruct (Ascii.eqb a b) end; vm_compute; discriminate.
Qed.

Lemma escaped_ok : forall s b c, brepr b c -> len c + len (escape s) < BOUND ->
  exists b', string_to_escaped_xml s b = Ok b' /\ brepr b' (c ++ escape s).
Proof.
  intros s b c R H. unfold string_to_escaped_xml. apply (escape_loop_ok s [] b c R); auto.
  pose proof (escape_longer s). pose proof (len_nonneg c). unfold BOUND in H. cbn [app]. lia.
Qed.

(** ** Documents *)

Lemma symbol_ok : forall t, len t < 255 -> symbol_to_string (XSym t) = Ok (XStr t).
Proof.
  intros t H. cbn [symbol_to_string]. unfold assertT, len in *. destruct (Nat.ltb_spec (List.length t + 1) 256); [reflexivity|lia].
Qed.

Ltac bound := repeat rewrite len_app in *;
  repeat match goal with |- context [len ?x] => pose proof (len_nonneg x); generalize dependent (len x); intros end; lia.

(** [put] a string on the output and go on *)
Lemma put_ok : forall b c s, brepr b c -> len c + len s < BOUND -> exists b', output b (XStr s) = Ok b' /\ brepr b' (c ++ s).
Proof. intros. cbn. apply buffer_append_ok; auto. Qed.

Lemma attr_ok : forall a x, attr_text a x -> forall b c, brepr b c -> len c + len x < BOUND ->
  exists b', one_attribute b a = Ok b' /\ brepr b' (c ++ x).
Proof.
  intros a x H b c R HB. destruct H as [n Hn|n s rest Hn|n z rest Hn]; unfold one_attribute.
  - rewrite len_app in HB. pose proof (len_nonneg n).
    destruct (put_ok b c (lit " ") R) as (b1 & -> & R1); [lia|]. cbn [obind]. rewrite symbol_ok by auto. cbn [obind].
    destruct (put_ok b1 _ n R1) as (b2 & -> & R2); [rewrite len_app; lia|]. exists b2. split; auto. now rewrite app_assoc.
  - rewrite !len_app in HB. pose proof (len_nonneg n). pose proof (len_nonneg (escape s)).
    pose proof (len_nonneg ["="%char; """"%char]). pose proof (len_nonneg [""""%char]).
    destruct (put_ok b c (lit " ") R) as (b1 & -> & R1); [lia|]. cbn [obind xcar]. rewrite symbol_ok by auto. cbn [obind].
    destruct (put_ok b1 _ n R1) as (b2 & -> & R2); [rewrite !len_app; lia|]. cbn [obind].
    destruct (put_ok b2 _ ["="%char; """"%char] R2) as (b3 & -> & R3); [rewrite !len_app; lia|]. cbn [obind xcdr xcar attribute_value_to_xml].
    destruct (escaped_ok s b3 _ R3) as (b4 & -> & R4); [rewrite !len_app; lia|]. cbn [obind].
    destruct (put_ok b4 _ [""""%char] R4) as (b5 & -> & R5); [rewrite !len_app; lia|]. exists b5. split; auto.
    rewrite <- !app_assoc in R5. exact R5.
  - rewrite !len_app in HB. pose proof (len_nonneg n). pose proof (len_nonneg (printNum z)).
    pose proof (len_nonneg ["="%char; """"%char]). pose proof (len_nonneg [""""%char]).
    destruct (put_ok b c (lit " ") R) as (b1 & -> & R1); [lia|]. cbn [obind xcar]. rewrite symbol_ok by auto. cbn [obind].
    destruct (put_ok b1 _ n R1) as (b2 & -> & R2); [rewrite !len_app; lia|]. cbn [obind].
    destruct (put_ok b2 _ ["="%char; """"%char] R2) as (b3 & -> & R3); [rewrite !len_app; lia|]. cbn [obind xcdr xcar attribute_value_to_xml].
    destruct (buffer_append_ok b3 _ (printNum z) R3) as (b4 & -> & R4); [rewrite !len_app; lia|]. cbn [obind].
    destruct (put_ok b4 _ [""""%char] R4) as (b5 & -> & R5); [rewrite !len_app; lia|]. exists b5. split; auto.
    rewrite <- !app_assoc in R5. exact R5.
Qed.

Lemma attrs_ok : forall a x, attrs_text a x -> forall b c, brepr b c -> len c + len x < BOUND ->
  exists b', attributes_to_xml a b = Ok b' /\ brepr b' (c ++ x).
Proof.
  intros a x H. induction H as [|a d x y Ha Hd IH]; intros b c R HB; cbn [attributes_to_xml].
  - exists b. rewrite app_nil_r. auto.
  - rewrite len_app in HB. pose proof (len_nonneg y).
    destruct (attr_ok a x Ha b c R) as (b1 & -> & R1); [lia|]. cbn [obind].
    destruct (IH b1 _ R1) as (b2 & -> & R2); [rewrite len_app; lia|]. exists b2. split; auto. now rewrite app_assoc.
Qed.

Definition each_doc := fix each (l : sx) (buf : buffer) {struct l} : outcome buffer :=
    match l with
    | XNil => Ok buf
    | XCons a d => obind (sxml_h a buf) (fun buf => each d buf)
    | _ => Trap
    end.

Definition writes (f : buffer -> outcome buffer) (t : bytes) : Prop :=
  forall b c, brepr b c -> len c + len t < BOUND -> exists b', f b = Ok b' /\ brepr b' (c ++ t).

Lemma element_ok : forall t attrs body x y content, len t < 255 -> attrs_text attrs x -> writes content y ->
  writes (element_to_xml t attrs body content) (element_text t x (is_nil body) y).
Proof.
  intros t attrs body x y content Ht Ha Hc b c R HB. unfold element_to_xml, element_text in *.
  rewrite !len_app in HB.
  pose proof (len_nonneg t). pose proof (len_nonneg x). pose proof (len_nonneg y).
  pose proof (len_nonneg (if is_nil body then lit " />" else lit ">" ++ y ++ lit "</" ++ t ++ lit ">")).
  destruct (put_ok b c (lit "<") R) as (b1 & -> & R1); [lia|]. cbn [obind]. rewrite symbol_ok by auto. cbn [obind].
  destruct (put_ok b1 _ t R1) as (b2 & -> & R2); [rewrite !len_app; lia|]. cbn [obind].
  destruct (attrs_ok attrs x Ha b2 _ R2) as (b3 & -> & R3); [rewrite !len_app; lia|]. cbn [obind].
  destruct (is_nil body) eqn:En.
  - assert (body = XNil) by (destruct body; try discriminate; auto). subst body.
    destruct (put_ok b3 _ (lit " />") R3) as (b4 & -> & R4); [rewrite !len_app; lia|]. exists b4. split; auto.
    rewrite <- !app_assoc in R4. exact R4.
  - rewrite !len_app in *. pose proof (len_nonneg (lit ">")). pose proof (len_nonneg (lit "</")).
    destruct (put_ok b3 _ (lit ">") R3) as (b4 & E4 & R4); [rewrite !len_app; lia|].
    destruct (Hc b4 _ R4) as (b5 & E5 & R5); [rewrite !len_app; lia|].
    destruct (put_ok b5 _ (lit "</") R5) as (b6 & E6 & R6); [rewrite !len_app; lia|].
    destruct (put_ok b6 _ t R6) as (b7 & E7 & R7); [rewrite !len_app; lia|].
    destruct (put_ok b7 _ (lit ">") R7) as (b8 & E8 & R8); [rewrite !len_app; lia|].
    exists b8. split; [|rewrite <- !app_assoc in R8; exact R8].
    destruct body; try discriminate; rewrite E4; cbn [obind]; rewrite E5; cbn [obind]; rewrite E6; cbn [obind];
      rewrite E7; cbn [obind]; exact E8.
Qed.

Lemma doc_not_sym : forall v t, doc v t -> forall s, v <> XSym s.
Proof. intros v t H s. destruct H; try discriminate. destruct H; discriminate. Qed.

Lemma sxml_h_cons_list : forall a d b, (forall s, a <> XSym s) ->
  sxml_h (XCons a d) b = obind (sxml_h a b) (fun b1 => sxml_h d b1).
Proof. intros a d b H. destruct a; try reflexivity. elim (H s eq_refl). Qed.

Lemma at_sign_is : forall a, at_sign a = if list_eq_dec ascii_dec a (lit "@") then true else false.
Proof.
  intros a. destruct (list_eq_dec ascii_dec a (lit "@")) as [->|N]; [reflexivity|].
  destruct a as [|c [|d a]]; try reflexivity. cbn [at_sign]. destruct (Ascii.eqb_spec c "@"%char) as [->|]; [now elim N|reflexivity].
Qed.

Lemma doc_ok : (forall v t, doc v t -> writes (sxml_h v) t) /\
  (forall l t, docs l t -> writes (each_doc l) t /\ writes (sxml_h l) t).
Proof.
  apply doc_docs_ind.
  - intros s b c R HB. cbn [sxml_h]. apply escaped_ok; auto.
  - intros t attrs body x y Ht Ha Hd (IH & _) b c R HB.
    destruct (element_ok t attrs body x y _ Ht Ha IH b c R HB) as (b' & E & R'). exists b'. split; [|auto]. rewrite <- E. reflexivity.
  - intros t body y Ht Hn Hd (IH & _) b c R HB.
    destruct (element_ok t XNil body [] y _ Ht ats_nil IH b c R HB) as (b' & E & R'). exists b'. split; [|auto]. rewrite <- E.
    cbn [sxml_h]. destruct body as [| | | |[| | | |[a| | | | |] at_|] body|]; try reflexivity.
    cbn [has_attrs] in Hn. rewrite <- at_sign_is in Hn. rewrite Hn. reflexivity.
  - intros l y Hd (_ & IH). exact IH.
  - split; intros b c R HB; exists b; rewrite app_nil_r; auto.
  - intros a d x y Ha IHa Hd (IH1 & IH2). split; intros b c R HB; rewrite len_app in HB; pose proof (len_nonneg y).
    + cbn [each_doc]. destruct (IHa b c R) as (b1 & -> & R1); [lia|]. cbn [obind].
      destruct (IH1 b1 _ R1) as (b2 & E2 & R2); [rewrite len_app; lia|]. exists b2. split; [exact E2|]. now rewrite app_assoc.
    + rewrite sxml_h_cons_list by (eapply doc_not_sym; eauto). destruct (IHa b c R) as (b1 & -> & R1); [lia|]. cbn [obind].
      destruct (IH2 b1 _ R1) as (b2 & E2 & R2); [rewrite len_app; lia|]. exists b2. split; [exact E2|]. now rewrite app_assoc.
Qed.

(** The text of a document is exactly the one described by [doc]: no byte
    lost, none overwritten, no access outside a buffer, at every growth of
    the buffer. *)
Theorem sxml_text : forall v t, doc v t -> len t < 2^29 -> sxml_to_xml v = Ok t.
Proof.
  intros v t H HB. unfold sxml_to_xml, make_buffer. rewrite makeBytes_ok by lia. cbn [obind].
  destruct (proj1 doc_ok v t H (mkB (repeat None (Z.to_nat 16)) 0) []) as (b & -> & Hs & rest & Hd).
  - split; [reflexivity|]. eexists. reflexivity.
  - exact HB.
  - cbn [obind app] in *. unfold buffer_to_string. cbv zeta. rewrite Hs, to_int32_id by (pose proof (len_nonneg t); lia).
    unfold buffer_cap. rewrite Hd, app_length, map_length.
    destruct (Z.ltb_spec (len t) 0); [pose proof (len_nonneg t); lia|].
    destruct (Z.ltb_spec (Z.of_nat (List.length t + List.length rest)) (len t)); [unfold len in *; lia|].
    cbn [orb]. unfold len. rewrite Nat2Z.id. apply take_init_map.
Qed.

(** ** The escaped text of a string cannot be broken out of *)

Definition special (c : ascii) : bool := Ascii.eqb c "<"%char || Ascii.eqb c ">"%char || Ascii.eqb c """"%char.

Theorem escape_no_markup : forall s c, In c (escape s) -> special c = false.
Proof.
  intros s c H. apply in_flat_map in H as (x & _ & H). unfold escape_char in H.
  Ltac ent H := cbn in H; repeat (destruct H as [<-|H]; [reflexivity|]); elim H.
  destruct (Ascii.eqb_spec x """"%char) as [|N1]; [ent H|]. destruct (Ascii.eqb_spec x "&"%char) as [|N2]; [ent H|].
  destruct (Ascii.eqb_spec x "\"%char) as [|N3]; [ent H|]. destruct (Ascii.eqb_spec x "<"%char) as [|N4]; [ent H|].
  destruct (Ascii.eqb_spec x ">"%char) as [|N5]; [ent H|].
  destruct H as [<-|[]]. unfold special. rewrite !orb_false_iff, !Ascii.eqb_neq. auto.
Qed.

Definition entities : list bytes := [lit "&quot;"; lit "&amp;"; lit "&apos;"; lit "&lt;"; lit "&gt;"].

Theorem escape_ampersands : forall s a b, escape s = a ++ "&"%char :: b ->
  exists e b', In e entities /\ "&"%char :: b = e ++ b'.
Proof.
  induction s as [|x s IH]; intros a b H; [destruct a; discriminate|].
  cbn [escape flat_map] in H. fold (escape s) in H.
  assert (G : forall e rest, In e entities -> e ++ rest = a ++ "&"%char :: b ->
     (a = [] /\ exists b', "&"%char :: b = e ++ b') \/ exists a', rest = a' ++ "&"%char :: b).
  { intros e rest He F.
    assert (exists t, e = "&"%char :: t /\ ~ In "&"%char t) as (t & -> & Hn).
    { unfold entities in He. cbn [In] in He.
      repeat (destruct He as [<-|He]; [eexists; split; [reflexivity|]; cbn; intuition discriminate|]). elim He. }
    clear H IH He. destruct a as [|y a]; cbn [app] in F.
    - left. split; auto. exists rest. now rewrite <- F.
    - right. injection F as _ F. revert a F. induction t as [|z t IHt]; intros a F; cbn [app] in F; [eauto|].
      destruct a as [|y' a]; cbn [app] in F; injection F as -> F.
      + elim Hn. now left.
      + eapply IHt; [|exact F]. intro X; apply Hn; now right. }
  assert (G' : forall e, In e entities -> e ++ escape s = a ++ "&"%char :: b ->
     exists e b', In e entities /\ "&"%char :: b = e ++ b').
  { intros e He F. destruct (G e _ He F) as [(-> & b' & E)|(a' & E)]; [exists e, b'; auto|eapply IH; eauto]. }
  unfold escape_char in H.
  destruct (Ascii.eqb_spec x """"%char); [apply (G' (lit "&quot;")); auto; cbn; auto|].
  destruct (Ascii.eqb_spec x "&"%char); [apply (G' (lit "&amp;")); auto; cbn; auto|].
  destruct (Ascii.eqb_spec x "\"%char); [apply (G' (lit "&apos;")); auto; cbn; auto|].
  destruct (Ascii.eqb_spec x "<"%char); [apply (G' (lit "&lt;")); auto; cbn; tauto|].
  destruct (Ascii.eqb_spec x ">"%char); [apply (G' (lit "&gt;")); auto; cbn; tauto|].
  destruct a as [|y a]; cbn [app] in H; [congruence|]. injection H as -> H. eapply IH; eauto.
Qed.

(** A reader of XML text: the five entities, anything else stands for
    itself. *)
Fixpoint strip (p s : bytes) : option bytes :=
  match p, s with
  | [], _ => Some s
  | x :: p', y :: s' => if Ascii.eqb x y then strip p' s' else None
  | _, [] => None
  end.
Definition entity_table : list (bytes * ascii) :=
  [(lit "&quot;", """"%char); (lit "&amp;", "&"%char); (lit "&apos;", "'"%char); (lit "&lt;", "<"%char); (lit "&gt;", ">"%char)].
Fixpoint entity (tb : list (bytes * ascii)) (s : bytes) : option (ascii * bytes) :=
  match tb with
  | [] => None
  | (e, c) :: r => match strip e s with Some s' => Some (c, s') | None => entity r s end
  end.
Fixpoint unescape (fuel : nat) (s : bytes) : bytes :=
  match fuel, s with
  | S f, c :: r => match entity entity_table s with
                   | Some (x, s') => x :: unescape f s'
                   | None => c :: unescape f r
                   end
  | _, _ => []
  end.

Definition seen_as (c : ascii) : ascii := if Ascii.eqb c "\"%char then "'"%char else c.

Lemma unescape_escape : forall s f, (List.length (escape s) <= f)%nat -> unescape f (escape s) = List.map seen_as s.
Proof.
  induction s as [|x s IH]; intros f Hf; [destruct f; reflexivity|].
  cbn [escape flat_map List.map] in *. fold (escape s) in *. rewrite app_length in Hf.
  unfold escape_char, seen_as in *.
  destruct (Ascii.eqb_spec x """"%char) as [->|N1]; [destruct f; cbn in Hf; [lia|]; cbn; f_equal; apply IH; lia|].
  destruct (Ascii.eqb_spec x "&"%char) as [->|N2]; [destruct f; cbn in Hf; [lia|]; cbn; f_equal; apply IH; lia|].
  destruct (Ascii.eqb_spec x "\"%char) as [->|N3]; [destruct f; cbn in Hf; [lia|]; cbn; f_equal; apply IH; lia|].
  destruct (Ascii.eqb_spec x "<"%char) as [->|N4]; [destruct f; cbn in Hf; [lia|]; cbn; f_equal; apply IH; lia|].
  destruct (Ascii.eqb_spec x ">"%char) as [->|N5]; [destruct f; cbn in Hf; [lia|]; cbn; f_equal; apply IH; lia|].
  destruct f; cbn [List.length] in Hf; [lia|]. cbn [app unescape].
  assert (E : entity entity_table (x :: escape s) = None).
  { unfold entity_table. cbn [entity strip lit list_ascii_of_string].
    destruct (Ascii.eqb_spec "&"%char x); [congruence|]. reflexivity. }
  rewrite E. f_equal. apply IH. lia.
Qed.

(** Reading back gives the string, for strings without a backslash. *)
Theorem escape_round_trip_partial : forall s f, ~ In "\"%char s -> (List.length (escape s) <= f)%nat ->
  unescape f (escape s) = s.
Proof.
  intros s f Hn Hf. rewrite unescape_escape by auto. rewrite <- (map_id s) at 2. apply map_ext_in. intros c Hc. unfold seen_as.
  destruct (Ascii.eqb_spec c "\"%char); [subst; tauto|reflexivity].
Qed.

(** With a backslash it does not: an apostrophe comes back. *)
Theorem escape_round_trip_refuted : exists s, unescape (List.length (escape s)) (escape s) <> s.
Proof. exists (lit "a\b"). vm_compute. discriminate. Qed.

(** And the apostrophe itself is not escaped. *)
Theorem apostrophe_raw_refuted : exists s, In "'"%char (escape s).
Proof. exists (lit "it's"). vm_compute. auto. Qed.

(** ** The markup of a document does not depend on the strings in it *)

Inductive same_shape : sx -> sx -> Prop :=
| ss_str : forall s s', same_shape (XStr s) (XStr s')
| ss_num : forall z z', same_shape (XNum z) (XNum z')
| ss_sym : forall s, same_shape (XSym s) (XSym s)
| ss_nil : same_shape XNil XNil
| ss_other : same_shape XOther XOther
| ss_cons : forall a d a' d', same_shape a a' -> same_shape d d' -> same_shape (XCons a d) (XCons a' d').

Definition markup (t : bytes) : bytes := List.filter special t.

Lemma markup_app : forall a b, markup (a ++ b) = markup a ++ markup b.
Proof. intros. apply filter_app. Qed.

Lemma markup_none : forall t, (forall c, In c t -> special c = false) -> markup t = [].
Proof.
  induction t as [|c t IH]; intro H; [reflexivity|]. cbn. rewrite H by (now left). apply IH. intros; apply H; now right.
Qed.

Lemma markup_escape : forall s, markup (escape s) = [].
Proof. intro s. apply markup_none. apply escape_no_markup. Qed.

Lemma dec_digits_plain : forall f n, 0 <= n -> forall c, In c (dec_digits f n) -> special c = false.
Proof.
  assert (D : forall k, 0 <= k < 10 -> special (ch (Z.to_nat (k + 48))) = false).
  { intros k Hk. assert (k = 0 \/ k = 1 \/ k = 2 \/ k = 3 \/ k = 4 \/ k = 5 \/ k = 6 \/ k = 7 \/ k = 8 \/ k = 9) by lia.
    repeat match goal with H : _ \/ _ |- _ => destruct H as [->|H] | H : k = _ |- _ => subst k end; reflexivity. }
  induction f as [|f IH]; intros n Hn c Hc; cbn [dec_digits] in Hc; [elim Hc|].
  destruct (Z.ltb_spec n 10).
  - destruct Hc as [<-|[]]. apply D. lia.
  - apply in_app_or in Hc as [Hc|[<-|[]]]; [apply (IH (n / 10)); auto; apply Z.div_pos; lia|].
    apply D. apply Z.mod_pos_bound. lia.
Qed.

Lemma markup_num : forall z, markup (printNum z) = [].
Proof.
  intro z. apply markup_none. unfold printNum, dec_nat. intros c Hc. destruct (Z.ltb_spec z 0).
  - destruct Hc as [<-|Hc]; [reflexivity|]. eapply dec_digits_plain; [|eauto]. lia.
  - eapply dec_digits_plain; [|eauto]. lia.
Qed.

Lemma attr_shape : forall a x, attr_text a x -> forall a' x', same_shape a a' -> attr_text a' x' -> markup x = markup x'.
Proof.
  intros a x H a' x' HS H'. inversion H; subst; inversion HS; subst; inversion H'; subst;
    repeat match goal with H : same_shape (XSym _) _ |- _ => inversion H; subst; clear H
                         | H : same_shape (XCons _ _) _ |- _ => inversion H; subst; clear H
                         | H : same_shape (XStr _) (XNum _) |- _ => inversion H
                         | H : same_shape (XNum _) (XStr _) |- _ => inversion H end;
    repeat rewrite markup_app; rewrite ?markup_escape, ?markup_num; reflexivity.
Qed.

Lemma attrs_shape : forall a x, attrs_text a x -> forall a' x', same_shape a a' -> attrs_text a' x' -> markup x = markup x'.
Proof.
  intros a x H. induction H as [|a d x y Ha Hd IH]; intros a' x' HS H'; inversion HS; subst; inversion H'; subst; [reflexivity|].
  rewrite !markup_app. f_equal; [eapply attr_shape; eauto|eauto].
Qed.

Lemma shape_nil : forall v v', same_shape v v' -> is_nil v = is_nil v'.
Proof. intros v v' H. destruct H; reflexivity. Qed.
Lemma shape_has : forall v v', same_shape v v' -> has_attrs v = has_attrs v'.
Proof. intros v v' H. destruct H as [| | | | |a d a' d' Ha Hd]; try reflexivity. destruct Ha as [| | | | |a1 d1 a1' d1' Ha1 _]; try reflexivity. destruct Ha1; reflexivity. Qed.

Lemma docs_not_sym_head : forall s d y, ~ docs (XCons (XSym s) d) y.
Proof. intros s d y H. inversion H; subst. eapply doc_not_sym; eauto. Qed.

Lemma element_markup : forall t x x' e y y', markup x = markup x' -> markup y = markup y' ->
  markup (element_text t x e y) = markup (element_text t x' e y').
Proof.
  intros t x x' e y y' Hx Hy. unfold element_text. rewrite !markup_app. rewrite Hx. f_equal. f_equal. f_equal.
  destruct e; auto. rewrite !markup_app. now rewrite Hy.
Qed.

Lemma doc_shape : (forall v t, doc v t -> forall v' t', same_shape v v' -> doc v' t' -> markup t = markup t') /\
  (forall l t, docs l t -> forall l' t', same_shape l l' -> docs l' t' -> markup t = markup t').
Proof.
  apply doc_docs_ind.
  - intros s v' t' HS H'. inversion HS; subst. inversion H'; subst; [now rewrite !markup_escape|]. inversion H.
  - intros t attrs body x y Ht Ha Hd IH v' t' HS H'. inversion HS as [| | | | |? ? ? ? HS1 HS2]; subst. inversion HS1; subst.
    inversion HS2 as [| | | | |? ? ? ? HS3 HS4]; subst. inversion HS3 as [| | | | |? ? ? ? HS5 HS6]; subst. inversion HS5; subst.
    inversion H'; subst.
    + rewrite (shape_nil _ _ HS4). apply element_markup; [eapply attrs_shape; eauto|eauto].
    + discriminate.
    + exfalso. eapply docs_not_sym_head; eauto.
  - intros t body y Ht Hn Hd IH v' t' HS H'. inversion HS as [| | | | |? ? ? ? HS1 HS2]; subst. inversion HS1; subst.
    inversion H'; subst.
    + apply shape_has in HS2. rewrite Hn in HS2. discriminate.
    + rewrite (shape_nil _ _ HS2). apply element_markup; eauto.
    + exfalso. eapply docs_not_sym_head; eauto.
  - intros l y Hd IH v' t' HS H'. inversion H'; subst.
    + inversion HS; subst. inversion Hd.
    + inversion HS as [| | | | |? ? ? ? HS1 HS2]; subst. inversion HS1; subst. exfalso. eapply docs_not_sym_head; eauto.
    + inversion HS as [| | | | |? ? ? ? HS1 HS2]; subst. inversion HS1; subst. exfalso. eapply docs_not_sym_head; eauto.
    + eauto.
  - intros l' t' HS H'. inversion HS; subst. inversion H'; subst. reflexivity.
  - intros a d x y Ha IHa Hd IHd l' t' HS H'. inversion HS; subst. inversion H'; subst. rewrite !markup_app. f_equal; eauto.
Qed.

Theorem markup_independent_of_strings : forall v t v' t', doc v t -> doc v' t' -> same_shape v v' ->
  List.filter special t = List.filter special t'.
Proof. intros v t v' t' H H' HS. eapply (proj1 doc_shape); eauto. Qed.

Definition doc1 (s1 s2 : string) : sx :=
  XCons (XSym (lit "a"))
    (XCons (XCons (XSym ["@"%char]) (XCons (XCons (XSym (lit "href")) (XCons (XStr (lit s1)) XNil)) XNil))
       (XCons (XStr (lit s2)) (XCons (XCons (XSym (lit "br")) XNil) XNil))).

Example sxml_example :
  sxml_to_xml (doc1 "x?a=1&b=<2>" "hello world, this is longer than sixteen bytes & more") =
    Ok (lit "<a href=""x?a=1&amp;b=&lt;2&gt;"">hello world, this is longer than sixteen bytes &amp; more<br /></a>") /\
  (exists t, doc (doc1 "x" "y") t) /\ same_shape (doc1 "x" "y") (doc1 "<" """").
Proof.
  split; [vm_compute; reflexivity|]. split.
  - eexists. apply doc_elem_attrs; [reflexivity| |].
    + eapply ats_cons; [apply at_str; reflexivity|constructor].
    + eapply docs_cons; [apply doc_text|]. eapply docs_cons; [|constructor]. apply doc_elem; [reflexivity|reflexivity|constructor].
  - unfold doc1. repeat constructor.
Qed.

Print Assumptions sxml_text.
Print Assumptions escape_no_markup.
Print Assumptions escape_ampersands.
Print Assumptions escape_round_trip_partial.
Print Assumptions markup_independent_of_strings.
