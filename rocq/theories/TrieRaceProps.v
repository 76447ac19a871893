(** C14: interning by several procs at once. *)
From Coq Require Import ZArith Bool List Ascii Lia.
From Verif Require Import Base ListLib StrModel NumModel NumProofs TrieModel TrieProofs TrieRaceModel.
Import ListNotations.
Open Scope Z_scope.

Lemma place_absent : forall V (t : trie bytes V) h key, place strEQ t h key = None <-> lookup strEQ t h key <> None.
Proof.
  intros V t. induction t as [|k v c0 IH0 c1 IH1 c2 IH2 c3 IH3]; intros h key; cbn [place lookup].
  - split; [discriminate|congruence].
  - destruct (strEQ key k); [split; [discriminate|reflexivity]|]. cbv zeta.
    assert (X : forall o : option (list Z), option_map (cons (h / 2^62)) o = None <-> o = None) by (intros [|]; cbn; split; congruence).
    rewrite X. destruct (h / 2 ^ 62) as [|[p|[p|p|]|]|p]; auto.
Qed.

Lemma place_insert : forall V (t : trie bytes V) h key path v, place strEQ t h key = Some path ->
  hang t path (Node key v Leaf Leaf Leaf Leaf) = insert strEQ t h key v.
Proof.
  intros V t. induction t as [|k v0 c0 IH0 c1 IH1 c2 IH2 c3 IH3]; intros h key path v H; cbn [place insert] in *.
  - now injection H as <-.
  - destruct (strEQ key k); [discriminate|]. cbv zeta in *.
    destruct (h / 2 ^ 62) as [|[p|[p|p|]|]|p]; cbn [option_map] in H;
      match type of H with option_map _ ?o = _ => destruct o as [r|] eqn:E; [|discriminate] end;
      cbn [option_map] in H; injection H as <-; cbn [hang]; f_equal; auto.
Qed.

Lemma hang_twice : forall V (t : trie bytes V) path a b, hang (hang t path a) path b = hang t path b.
Proof.
  intros V t path. revert t. induction path as [|d path IH]; intros t a b; [destruct t, a; reflexivity|]. destruct t as [|k v c0 c1 c2 c3]; [reflexivity|].
  cbn [hang]. destruct d as [|[p|[p|p|]|]|p]; cbn [hang]; now rewrite IH.
Qed.

(** Without another proc in between the two steps are intern. *)
Theorem intern_in_steps : forall st s addr,
  intern st s addr =
  match intern_find st s with
  | Some path => intern_store st s path addr
  | None => match map_get strEQ fnv1a64 (st_map st) (cstr s) with
            | Some p => omap (fun o => (st, o)) (makeNaNPtr p TAG_SYMBOL)
            | None => UB
            end
  end.
Proof.
  intros st s addr. unfold intern, intern_find, intern_store, map_get, map_set.
  destruct (place strEQ (st_map st) (fnv1a64 (cstr s)) (cstr s)) as [path|] eqn:E.
  - destruct (lookup strEQ (st_map st) (fnv1a64 (cstr s)) (cstr s)) as [p|] eqn:L.
    + assert (X : place strEQ (st_map st) (fnv1a64 (cstr s)) (cstr s) = None) by (apply place_absent; congruence). congruence.
    + now rewrite (place_insert _ _ _ _ _ addr E).
  - apply place_absent in E. destruct (lookup _ _ _ _); [reflexivity|congruence].
Qed.

(** Two procs intern at once and their searches end at the same place.
    If the names are equal there are now two symbols with that name.  If they
    are different the first name is no longer in the table: interning it again,
    by any proc, makes another symbol with that name. *)
Theorem intern_race : forall st s1 s2 path a1 a2 st1 st2 o1 o2,
  intern_find st s1 = Some path -> intern_find st s2 = Some path ->
  a1 <> a2 -> 0 <= a1 < 2^48 -> 0 <= a2 < 2^48 ->
  intern_store st s1 path a1 = Ok (st1, o1) -> intern_store st1 s2 path a2 = Ok (st2, o2) ->
  (cstr s1 = cstr s2 -> o1 <> o2) /\
  (cstr s1 <> cstr s2 -> forall a3, a3 <> a1 -> 0 <= a3 < 2^48 -> exists st3 o3, intern st2 s1 a3 = Ok (st3, o3) /\ o3 <> o1).
Proof.
  intros st s1 s2 path a1 a2 st1 st2 o1 o2 F1 F2 Da B1 B2 S1 S2. unfold intern_store in S1, S2.
  assert (Bx : forall a b oa ob, 0 <= a < 2^48 -> 0 <= b < 2^48 -> a <> b -> makeNaNPtr a TAG_SYMBOL = Ok oa -> makeNaNPtr b TAG_SYMBOL = Ok ob -> oa <> ob).
  { intros a b oa ob Ba Bb D Ha Hb <-. rewrite makeNaNPtr_ok in Ha, Hb by (unfold TAG_SYMBOL; lia).
    apply Ok_inj in Ha. apply Ok_inj in Hb. rewrite <- Hb in Ha. apply (f_equal ptr) in Ha.
    rewrite !boxed_ptr in Ha by (unfold TAG_SYMBOL; lia). contradiction. }
  destruct (makeNaNPtr a1 TAG_SYMBOL) as [x1| |] eqn:M1; try discriminate. cbn [omap] in S1. injection S1 as <- <-. cbn [st_map st_mem] in S2.
  destruct (makeNaNPtr a2 TAG_SYMBOL) as [x2| |] eqn:M2; try discriminate. cbn [omap] in S2. injection S2 as <- <-.
  split; [intros _; exact (Bx _ _ _ _ B1 B2 Da M1 M2)|]. intros D a3 D3 B3. unfold intern. cbn [st_map st_mem].
  unfold intern_find in F1, F2. rewrite hang_twice, (place_insert _ _ _ _ _ a2 F2). fold (map_set strEQ fnv1a64 (st_map st) (cstr s2) a2).
  rewrite sget_other by congruence.
  destruct (map_get strEQ fnv1a64 (st_map st) (cstr s1)) as [p|] eqn:G.
  - assert (X : place strEQ (st_map st) (fnv1a64 (cstr s1)) (cstr s1) = None) by (apply place_absent; unfold map_get in G; congruence). congruence.
  - destruct (makeNaNPtr a3 TAG_SYMBOL) as [x3| |] eqn:M3.
    + cbn [omap]. eexists _, _. split; [reflexivity|]. exact (Bx _ _ _ _ B3 B1 D3 M3 M1).
    + rewrite makeNaNPtr_ok in M3 by (unfold TAG_SYMBOL; lia). discriminate.
    + rewrite makeNaNPtr_ok in M3 by (unfold TAG_SYMBOL; lia). discriminate.
Qed.

(** "ab" is there; two procs intern "x", or one "x" and the other "r". *)
Definition one : symtab := mkSym (Node ["a"%char; "b"%char] 4096 Leaf Leaf Leaf Leaf) [(4096, ["a"%char; "b"%char])].
Theorem intern_race_refuted :
  (exists path st1 st2 o1 o2, intern_find one ["x"%char] = Some path /\
     intern_store one ["x"%char] path 8192 = Ok (st1, o1) /\ intern_store st1 ["x"%char] path 12288 = Ok (st2, o2) /\
     o1 <> o2 /\ symbolStr st2 o1 256 = symbolStr st2 o2 256) /\
  (exists path st1 st2 st3 o1 o2 o3, intern_find one ["x"%char] = Some path /\ intern_find one ["r"%char] = Some path /\
     intern_store one ["x"%char] path 8192 = Ok (st1, o1) /\ intern_store st1 ["r"%char] path 12288 = Ok (st2, o2) /\
     intern st2 ["x"%char] 16384 = Ok (st3, o3) /\ o3 <> o1 /\ symbolStr st3 o3 256 = symbolStr st3 o1 256).
Proof.
  split.
  - do 5 eexists. split; [vm_compute; reflexivity|]. split; [vm_compute; reflexivity|]. split; [vm_compute; reflexivity|].
    split; [vm_compute; discriminate|]. vm_compute. reflexivity.
  - do 7 eexists. split; [vm_compute; reflexivity|]. split; [vm_compute; reflexivity|]. split; [vm_compute; reflexivity|].
    split; [vm_compute; reflexivity|]. split; [vm_compute; reflexivity|]. split; [vm_compute; discriminate|]. vm_compute. reflexivity.
Qed.

Print Assumptions intern_in_steps.
Print Assumptions intern_race.
Print Assumptions intern_race_refuted.
