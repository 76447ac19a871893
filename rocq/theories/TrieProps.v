(** Theorems of record for C13 (hash trie), C14 (interning), C15 (globals). *)
From Coq Require Import ZArith Bool List Ascii String Lia Arith.
From Verif Require Import Base ListLib StrModel NumModel NumProofs TrieModel TrieProofs.
Import ListNotations.
Open Scope Z_scope.

Local Definition by_ (s : string) : bytes := list_ascii_of_string s.

(** ** C13.  The trie is a finite map, whatever the hash function. *)

(** The specification: the most recent write to a key wins. *)
Fixpoint last_write {K V} (eq_dec : forall a b : K, {a = b} + {a <> b}) (ws : list (K * V)) (k : K) : option V :=
  match ws with
  | [] => None
  | (k', v) :: ws' =>
      match last_write eq_dec ws' k with
      | Some v' => Some v'
      | None => if eq_dec k' k then Some v else None
      end
  end.

Theorem trie_is_map : forall (K V : Type) (eq_dec : forall a b : K, {a = b} + {a <> b})
    (eqb : K -> K -> bool) (hash : K -> Z),
  (forall a b, eqb a b = true <-> a = b) ->
  forall (ws : list (K * V)) (k : K),
    map_get eqb hash (fold_left (fun t w => map_set eqb hash t (fst w) (snd w)) ws Leaf) k
    = last_write eq_dec ws k.
Proof.
  intros K V dec eqb hash Hspec ws k.
  assert (G : forall (t : trie K V),
    map_get eqb hash (fold_left (fun t w => map_set eqb hash t (fst w) (snd w)) ws t) k
    = match last_write dec ws k with Some v => Some v | None => map_get eqb hash t k end).
  { induction ws as [|[k' v] ws IH]; intro t; [reflexivity|].
    cbn [fold_left fst snd last_write]. rewrite IH.
    destruct (last_write dec ws k); [reflexivity|].
    destruct (map_get_set eqb hash Hspec t k' v k) as [Hs Ho].
    destruct (dec k' k) as [e|n]; auto. }
  rewrite G. destruct (last_write dec ws k); reflexivity.
Qed.
Print Assumptions trie_is_map.

(** a constant hash: every key collides and still nothing is lost *)
Example trie_is_map_ex :
  map_get strEQ (fun _ => 7)
    (fold_left (fun t w => map_set strEQ (fun _ => 7) t (fst w) (snd w))
       [(by_ "a", 1); (by_ "b", 2); (by_ "a", 3); (by_ "c", 4)] Leaf) (by_ "a") = Some 3.
Proof. vm_compute. reflexivity. Qed.

(** The instance used by the runtime: string keys compared bytewise, FNV-1a. *)
Theorem trie_string_map : forall (V : Type) (ws : list (bytes * V)) (k : bytes),
  map_get strEQ fnv1a64 (fold_left (fun t w => map_set strEQ fnv1a64 t (fst w) (snd w)) ws Leaf) k
  = last_write (list_eq_dec ascii_dec) ws k.
Proof. intros. apply trie_is_map, strEQ_spec. Qed.
Print Assumptions trie_string_map.

Example trie_string_map_ex :
  map_get strEQ fnv1a64
    (fold_left (fun t w => map_set strEQ fnv1a64 t (fst w) (snd w))
       [(by_ "car", 1); (by_ "cdr", 2); (by_ "cons", 3); (by_ "cdr", 4)] Leaf) (by_ "cdr") = Some 4.
Proof. vm_compute. reflexivity. Qed.

(** ** C14.  Interning. *)

(** Intern a sequence of C strings; each comes with the address malloc would hand out. *)
Fixpoint intern_all (st : symtab) (l : list (bytes * Z)) : outcome (symtab * list Z) :=
  match l with
  | [] => Ok (st, [])
  | (s, a) :: l' =>
      obind (intern st s a) (fun r =>
      obind (intern_all (fst r) l') (fun r' => Ok (fst r', snd r :: snd r')))
  end.

(** malloc: distinct live blocks, 48-bit user addresses *)
Definition malloc_like (l : list (bytes * Z)) : Prop :=
  NoDup (map snd l) /\ forall s a, In (s, a) l -> 0 <= a < 2^48.

Lemma intern_all_spec : forall l st, sym_inv st -> malloc_like l ->
  (forall a, In a (map fst (st_mem st)) -> ~ In a (map snd l)) ->
  exists st' os, intern_all st l = Ok (st', os) /\ sym_inv st' /\
    (forall x, In x (st_mem st) -> In x (st_mem st')) /\
    List.length os = List.length l /\
    forall i s a, nth_error l i = Some (s, a) ->
      exists p o, nth_error os i = Some o /\ In (p, cstr s) (st_mem st') /\
        0 <= p < 2^48 /\ makeNaNPtr p TAG_SYMBOL = Ok o.
Proof.
  induction l as [|[s a] l IH]; intros st Hinv [Hnd Hr] Hfr; cbn [intern_all].
  - exists st, []. do 4 (split; [auto|]). intros [|i] ? ? H; discriminate H.
  - assert (Hf : fresh_for st a).
    { split; [apply (Hr s a); now left|]. intro Hin. apply (Hfr a Hin). now left. }
    destruct (intern_step st s a Hinv Hf) as (st1 & o & p & E & Hinv1 & Hmono & Hin & Hp & Ho).
    rewrite E. cbn [obind fst snd].
    cbn in Hnd. inversion Hnd as [|? ? Hnin Hnd']; subst.
    destruct (IH st1 Hinv1) as (st' & os & -> & Hinv' & Hmono' & Hlen & Hget).
    { split; [exact Hnd'|]. intros. apply (Hr s0). now right. }
    { (* the new memory is the old plus possibly the fresh block *)
      intros b Hb Hbl.
      assert (In b (map fst (st_mem st)) \/ b = a) as [H|H].
      { revert E. unfold intern.
        destruct (map_get strEQ fnv1a64 (st_map st) (cstr s)).
        - destruct (makeNaNPtr z TAG_SYMBOL); cbn [omap]; intro E; [|discriminate|discriminate].
          injection E as <- _. now left.
        - destruct (makeNaNPtr a TAG_SYMBOL); cbn [omap]; intro E; [|discriminate|discriminate].
          injection E as <- _. cbn in Hb. destruct Hb as [<-|Hb]; auto. }
      - apply (Hfr b H). now right.
      - subst b. contradiction. }
    exists st', (o :: os). split; [reflexivity|]. split; [exact Hinv'|].
    split; [auto|]. split; [cbn; now f_equal|].
    intros [|i] s0 a0 H.
    + cbn in H. injection H as <- <-. exists p, o. split; [reflexivity|]. split; [auto|]. auto.
    + apply (Hget i s0 a0). exact H.
Qed.

(** Two symbols obtained anywhere in any interning history are the same object
    exactly when their (NUL-terminated) names are equal; and the name can be read
    back from the symbol. *)
Theorem intern_same_iff : forall l, malloc_like l ->
  exists st os, intern_all sym_empty l = Ok (st, os) /\
    (forall i j si ai sj aj oi oj,
       nth_error l i = Some (si, ai) -> nth_error l j = Some (sj, aj) ->
       nth_error os i = Some oi -> nth_error os j = Some oj ->
       (oi = oj <-> cstr si = cstr sj)) /\
    (forall i si ai oi sz,
       nth_error l i = Some (si, ai) -> nth_error os i = Some oi ->
       (List.length (cstr si) + 1 < sz)%nat -> symbolStr st oi sz = Ok (cstr si)).
Proof.
  intros l Hl.
  destruct (intern_all_spec l sym_empty sym_empty_inv Hl) as (st & os & E & Hinv & _ & Hlen & Hget);
    [intros a []|].
  exists st, os. split; [exact E|]. split.
  - intros i j si ai sj aj oi oj Hi Hj Hoi Hoj.
    destruct (Hget _ _ _ Hi) as (p & o & Ho & Hp & Hpr & Hbox).
    destruct (Hget _ _ _ Hj) as (q & o' & Ho' & Hq & Hqr & Hbox').
    assert (o = oi) by congruence. assert (o' = oj) by congruence. subst o o'.
    destruct Hinv as (Hm & Ha & Hd). split.
    + intros <-. assert (p = q) as <-.
      { rewrite makeNaNPtr_ok in Hbox, Hbox' by (unfold TAG_SYMBOL; lia).
        apply Ok_inj in Hbox. apply Ok_inj in Hbox'. rewrite <- Hbox' in Hbox.
        apply (f_equal ptr) in Hbox. rewrite !boxed_ptr in Hbox by (unfold TAG_SYMBOL; lia). exact Hbox. }
      exact (nodup_fst_inj _ _ _ _ Hd Hp Hq).
    + intro Heq. rewrite <- Heq in Hq. apply Hm in Hp. apply Hm in Hq. congruence.
  - intros i si ai oi sz Hi Hoi Hsz.
    destruct (Hget _ _ _ Hi) as (p & o & Ho & Hp & Hpr & Hbox).
    assert (o = oi) by congruence. subst o. eapply symbolStr_of; eassumption.
Qed.
Print Assumptions intern_same_iff.

Example intern_same_iff_ex :
  malloc_like [(by_ "foo", 4096); (by_ "bar", 8192); (by_ "foo", 12288)] /\
  match intern_all sym_empty [(by_ "foo", 4096); (by_ "bar", 8192); (by_ "foo", 12288)] with
  | Ok (st, [a; b; c]) => a = c /\ a <> b /\ symbolStr st c 256 = Ok (by_ "foo")
  | _ => False
  end.
Proof.
  split.
  - split.
    + repeat constructor; cbn; intuition discriminate.
    + intros s a H. cbn in H. intuition (injection H0 || injection H1 || idtac); try lia;
        repeat match goal with H : _ = (_, _) |- _ => injection H as <- <- end; lia.
  - vm_compute. intuition discriminate.
Qed.

(** Names that differ only after a NUL byte collapse: interning takes a C string. *)
Theorem intern_full_name_refuted : exists s1 s2 a1 a2 st o1 o2,
  s1 <> s2 /\ malloc_like [(s1, a1); (s2, a2)] /\
  intern_all sym_empty [(s1, a1); (s2, a2)] = Ok (st, [o1; o2]) /\ o1 = o2.
Proof.
  exists ["a"%char; NUL; "b"%char], ["a"%char; NUL; "c"%char], 4096, 8192.
  eexists _, _, _. split; [discriminate|]. split.
  - split; [repeat constructor; cbn; intuition discriminate|].
    intros s a [H|[H|[]]]; injection H as <- <-; lia.
  - split; [vm_compute; reflexivity|reflexivity].
Qed.
Print Assumptions intern_full_name_refuted.

(** Reading a long name back with the 256-byte buffer of symbol->string aborts. *)
Theorem symbol_name_any_length_refuted : exists s a st o,
  intern sym_empty s a = Ok (st, o) /\ symbolStr st o 256 = Trap.
Proof.
  exists (repeat "a"%char 255), 4096.
  assert (H : match intern sym_empty (repeat "a"%char 255) 4096 with
              | Ok (st, o) => symbolStr st o 256 = Trap | _ => False end)
    by (vm_compute; reflexivity).
  destruct (intern sym_empty (repeat "a"%char 255) 4096) as [[st o]| |]; try contradiction.
  exists st, o. split; [reflexivity|exact H].
Qed.
Print Assumptions symbol_name_any_length_refuted.

(** ** C15.  Global variables. *)
Inductive gop :=
| GSet (s : bytes) (v : Z)        (** (set 's v), (def s v) *)
| GValue (s : bytes)              (** (value 's) *)
| GValueOr (s : bytes) (d : Z)    (** (value-or 's d) *)
| GBind (s : bytes).              (** loading compiled code that mentions s *)

Definition gstep (g : genv) (op : gop) : outcome (genv * option Z) :=
  match op with
  | GSet s v => omap (fun g' => (g', Some v)) (primSet g s v)
  | GValue s => omap (fun r => (fst r, Some (snd r))) (builtinValue g s)
  | GValueOr s d => omap (fun r => (fst r, Some (snd r))) (builtinValueOr g s d)
  | GBind s => Ok (fst (bindSymbol g s), None)
  end.
Fixpoint gexec (g : genv) (ops : list gop) : outcome (genv * list (option Z)) :=
  match ops with
  | [] => Ok (g, [])
  | op :: ops' =>
      obind (gstep g op) (fun r => obind (gexec (fst r) ops') (fun r' => Ok (fst r', snd r :: snd r')))
  end.

(** Specification: a store from names to optional values. *)
Definition gstore := bytes -> Z.
Definition supd (m : gstore) (s : bytes) (v : Z) : gstore :=
  fun x => if list_eq_dec ascii_dec s x then v else m x.
Fixpoint gspec (m : gstore) (ops : list gop) : outcome (gstore * list (option Z)) :=
  match ops with
  | [] => Ok (m, [])
  | GSet s v :: ops' =>
      obind (gspec (supd m s v) ops') (fun r => Ok (fst r, Some v :: snd r))
  | GValue s :: ops' =>
      if m s =? Undef then Trap
      else obind (gspec m ops') (fun r => Ok (fst r, Some (m s) :: snd r))
  | GValueOr s d :: ops' =>
      obind (gspec m ops') (fun r => Ok (fst r, Some (if m s =? Undef then d else m s) :: snd r))
  | GBind s :: ops' => obind (gspec m ops') (fun r => Ok (fst r, None :: snd r))
  end.

Lemma gspec_ext : forall ops m m', (forall s, m s = m' s) ->
  omap snd (gspec m ops) = omap snd (gspec m' ops).
Proof.
  induction ops as [|op ops IH]; intros m m' H; [reflexivity|].
  destruct op as [s v|s|s d|s]; cbn [gspec].
  - assert (Hx : forall x, supd m s v x = supd m' s v x) by (intro; unfold supd; now rewrite H).
    specialize (IH _ _ Hx). destruct (gspec (supd m s v) ops), (gspec (supd m' s v) ops); cbn in *; congruence.
  - rewrite H. destruct (m' s =? Undef); [reflexivity|].
    specialize (IH _ _ H). destruct (gspec m ops), (gspec m' ops); cbn in *; congruence.
  - rewrite H. specialize (IH _ _ H). destruct (gspec m ops), (gspec m' ops); cbn in *; congruence.
  - specialize (IH _ _ H). destruct (gspec m ops), (gspec m' ops); cbn in *; congruence.
Qed.

Lemma gexec_spec : forall ops g, genv_inv g ->
  omap snd (gexec g ops) = omap snd (gspec (gval g) ops).
Proof.
  induction ops as [|op ops IH]; intros g Hg; [reflexivity|].
  destruct op as [s v|s|s d|s]; cbn [gexec gstep gspec].
  - destruct (primSet_spec g s v Hg) as (g' & -> & Hg' & _ & Hs & Ho). cbn [omap obind fst snd].
    specialize (IH g' Hg').
    rewrite (gspec_ext ops (gval g') (supd (gval g) s v)) in IH.
    2:{ intro x. unfold supd. destruct (list_eq_dec ascii_dec s x) as [<-|Hne]; auto. }
    destruct (gexec g' ops), (gspec (supd (gval g) s v) ops); cbn in *; congruence.
  - unfold builtinValue. destruct (symbolGet_spec g s Hg) as (g' & -> & Hg' & _ & Hv).
    cbn [obind snd]. destruct (gval g s =? Undef); cbn [negb assertT]; [reflexivity|].
    cbn [omap obind fst snd]. specialize (IH g' Hg').
    rewrite (gspec_ext ops _ _ Hv) in IH.
    destruct (gexec g' ops), (gspec (gval g) ops); cbn in *; congruence.
  - unfold builtinValueOr. destruct (symbolGet_spec g s Hg) as (g' & -> & Hg' & _ & Hv).
    cbn [omap obind fst snd]. specialize (IH g' Hg').
    rewrite (gspec_ext ops _ _ Hv) in IH.
    destruct (gexec g' ops), (gspec (gval g) ops); cbn in *; congruence.
  - destruct (bind_spec g s Hg) as (g' & i & -> & Hg' & _ & _ & _ & Hv).
    cbn [omap obind fst snd]. specialize (IH g' Hg').
    rewrite (gspec_ext ops _ _ Hv) in IH.
    destruct (gexec g' ops), (gspec (gval g) ops); cbn in *; congruence.
Qed.

(** Any sequence of set/value/value-or/load operations returns exactly what a plain
    name-to-value store returns; [value] aborts exactly on names never set. *)
Theorem globals_are_a_store : forall ops,
  omap snd (gexec genv_empty ops) = omap snd (gspec (fun _ => Undef) ops).
Proof.
  intro ops. rewrite (gexec_spec ops genv_empty genv_empty_inv). now apply gspec_ext.
Qed.
Print Assumptions globals_are_a_store.

Example globals_are_a_store_ex :
  omap snd (gexec genv_empty [GSet (by_ "x") 3; GBind (by_ "y"); GSet (by_ "y") 4; GSet (by_ "x") 5;
                              GValue (by_ "x"); GValue (by_ "y"); GValueOr (by_ "z") 9])
  = Ok [Some 3; None; Some 4; Some 5; Some 5; Some 4; Some 9] /\
  gexec genv_empty [GSet (by_ "x") 3; GValue (by_ "y")] = Trap.
Proof. vm_compute. split; reflexivity. Qed.

Lemma gexec_inv : forall ops g g' rs, genv_inv g -> gexec g ops = Ok (g', rs) ->
  genv_inv g' /\ forall s j, map_get strEQ fnv1a64 (g_env g) s = Some j -> map_get strEQ fnv1a64 (g_env g') s = Some j.
Proof.
  induction ops as [|op ops IH]; intros g g' rs Hg E; cbn [gexec] in E.
  - injection E as <- <-. auto.
  - assert (exists g1 r, gstep g op = Ok (g1, r) /\ genv_inv g1 /\
       (forall s j, map_get strEQ fnv1a64 (g_env g) s = Some j -> map_get strEQ fnv1a64 (g_env g1) s = Some j))
       as (g1 & r & E1 & Hg1 & Hm).
    { destruct op as [s v|s|s d|s]; cbn [gstep] in E |- *.
      - destruct (primSet_spec g s v Hg) as (g1 & -> & ? & ? & _). cbn. eauto.
      - unfold builtinValue in E |- *. destruct (symbolGet_spec g s Hg) as (g1 & Es & ? & ? & _).
        rewrite Es in E |- *. cbn [obind snd] in E |- *. unfold assertT in *.
        destruct (negb (gval g s =? Undef)); [cbn; eauto|discriminate].
      - unfold builtinValueOr. destruct (symbolGet_spec g s Hg) as (g1 & -> & ? & ? & _). cbn. eauto.
      - destruct (bind_spec g s Hg) as (g1 & i & -> & ? & _ & _ & ? & _). cbn. eauto. }
    rewrite E1 in E. cbn [obind fst snd] in E.
    destruct (gexec g1 ops) as [[g2 rs2]| |] eqn:E2; cbn [obind] in E; try discriminate.
    injection E as <- <-. cbn. destruct (IH g1 g2 rs2 Hg1 E2) as [? ?]. auto.
Qed.

(** A slot index cached by compiled code stays attached to its name for ever: after
    any later operations reading or writing through the cached index is reading or
    writing the variable. *)
Theorem cached_binding_stays_valid : forall ops0 ops1 g0 rs0 s g1 i g2 rs1,
  gexec genv_empty ops0 = Ok (g0, rs0) ->
  bindSymbol g0 s = (g1, i) ->
  gexec g1 ops1 = Ok (g2, rs1) ->
  (exists v, globalRef g2 i = Ok v /\ symbolGet g2 s = Ok (g2, v)) /\
  (forall v, globalSet g2 i v = primSet g2 s v).
Proof.
  intros ops0 ops1 g0 rs0 s g1 i g2 rs1 E0 Eb E1.
  destruct (gexec_inv _ _ _ _ genv_empty_inv E0) as [Hg0 _].
  destruct (bind_spec g0 s Hg0) as (g1' & i' & Eb' & Hg1 & Hi & _). rewrite Eb in Eb'. injection Eb' as <- <-.
  destruct (gexec_inv _ _ _ _ Hg1 E1) as [[H1 H2] Hm]. apply Hm in Hi.
  assert (Hb : bindSymbol g2 s = (g2, i)) by (unfold bindSymbol; now rewrite Hi).
  split.
  - pose proof (H1 _ _ Hi) as Hlt. apply nth_error_ex in Hlt. destruct Hlt as [v Hv].
    exists v. unfold symbolGet, globalRef. rewrite Hb, Hv. auto.
  - intro v. unfold primSet. now rewrite Hb.
Qed.
Print Assumptions cached_binding_stays_valid.

Example cached_binding_stays_valid_ex :
  match gexec genv_empty [GSet (by_ "x") 3] with
  | Ok (g0, _) =>
      let (g1, i) := bindSymbol g0 (by_ "y") in
      i = 1%nat /\
      match gexec g1 [GSet (by_ "z") 3; GSet (by_ "y") 8] with
      | Ok (g2, _) => globalRef g2 i = Ok 8
      | _ => False
      end
  | _ => False
  end.
Proof. vm_compute. split; reflexivity. Qed.
