(** C87: what a program that embeds the language reads and writes. *)
From Coq Require Import ZArith Bool List Ascii String Lia.
From Verif Require Import Base ListLib StrModel NumModel NumProps TrieModel TrieProofs ApiModel.
Import ListNotations.
Local Open Scope Z_scope.
Local Open Scope list_scope.

Definition is_int (v : Z) : Prop := - 2^31 <= v < 2^31.

Lemma to_int32_id : forall z, is_int z -> to_int32 z = z.
Proof.
  intros z H. unfold is_int in H. unfold to_int32. cbv zeta. destruct (Z.ltb_spec z 0).
  - replace (z mod 2^32) with (z + 2^32) by (apply (Zmod_unique z (2^32) (-1)); lia). destruct (Z.ltb_spec (z + 2^32) (2^31)); lia.
  - rewrite Z.mod_small by lia. destruct (Z.ltb_spec z (2^31)); lia.
Qed.

Lemma to_int32_spec : forall z, is_int (to_int32 z) /\ exists k, z = to_int32 z + k * 2^32.
Proof.
  intros z. unfold is_int, to_int32. cbv zeta. pose proof (Z.mod_pos_bound z (2^32) ltac:(lia)). pose proof (Z.div_mod z (2^32) ltac:(lia)).
  destruct (Z.ltb_spec (z mod 2^32) (2^31)); (split; [lia|]).
  - exists (z / 2^32). lia.
  - exists (z / 2^32 + 1). lia.
Qed.

(** ** Numbers *)
(** A number the host makes is that number in the language and comes back. *)
Theorem host_number : forall v, is_int v ->
  exists o, coraMakeNumber v = Ok o /\ makeNumber v = Ok o /\ fixnum o = Ok v /\ coraFixnum o = Ok v.
Proof.
  intros v H. destruct (integer_roundtrip v) as (o & M & _ & F); [unfold is_int in H; lia|].
  exists o. repeat split; auto. unfold coraFixnum. rewrite F. cbn [obind]. now rewrite to_int32_id.
Qed.

(** The host reads a number of the language right exactly when it is an int; it
    always reads an int that differs by a multiple of 2^32. *)
Theorem host_reads_number : forall z o, - 2^53 <= z <= 2^53 -> makeNumber z = Ok o ->
  exists v, coraFixnum o = Ok v /\ is_int v /\ (exists k, z = v + k * 2^32) /\ (v = z <-> is_int z).
Proof.
  intros z o B M. destruct (integer_roundtrip z B) as (o' & M' & _ & F). assert (o' = o) by congruence. subst o'.
  exists (to_int32 z). destruct (to_int32_spec z) as (I & K). unfold coraFixnum. rewrite F. cbn [obind].
  split; [reflexivity|]. split; [exact I|]. split; [exact K|]. split; [intros <-; exact I|apply to_int32_id].
Qed.

(** What is no integer stops the program. *)
Theorem host_no_number : forall o, isfixnum o = false -> coraFixnum o = Trap.
Proof. intros o H. apply fixnum_traps in H. unfold coraFixnum. now rewrite H. Qed.

Theorem host_wide_number_refuted : exists z o, - 2^53 <= z <= 2^53 /\ makeNumber z = Ok o /\ fixnum o = Ok z /\ coraFixnum o = Ok 0 /\ z <> 0.
Proof. exists (2^32), (i2d (2^32)). split; [lia|]. split; [vm_compute; reflexivity|]. split; [vm_compute; reflexivity|]. split; [vm_compute; reflexivity|lia]. Qed.

(** ** Strings *)
Lemma cstr_app : forall s r, ~ In NUL s -> cstr (s ++ NUL :: r) = s.
Proof.
  induction s as [|c s IH]; intros r H; [reflexivity|]. cbn [app cstr].
  destruct (Ascii.eqb_spec c NUL) as [->|_]; [elim H; now left|]. f_equal. apply IH. intros X. apply H. now right.
Qed.

(** A string of n bytes given by the host is the string of these bytes; given
    without a length, it ends before the first zero byte. *)
Theorem host_string : forall s r, coraMakeString (s ++ r) (Z.of_nat (List.length s)) = Ok s.
Proof.
  intros s r. unfold coraMakeString, peek. rewrite app_length.
  destruct (Z.leb_spec 0 0); [|lia]. destruct (Z.leb_spec 0 (Z.of_nat (List.length s))); [|lia].
  destruct (Z.leb_spec (0 + Z.of_nat (List.length s)) (Z.of_nat (List.length s + List.length r))); [|lia].
  cbn [andb]. change (Z.to_nat 0) with 0%nat. cbn [skipn]. rewrite Nat2Z.id, firstn_app, Nat.sub_diag, firstn_all. cbn. now rewrite app_nil_r.
Qed.
Theorem host_cstring : forall s r, ~ In NUL s -> coraMakeCString (s ++ NUL :: r) = Ok s.
Proof.
  intros s r H. unfold coraMakeCString.
  assert (X : existsb (Ascii.eqb NUL) (s ++ NUL :: r) = true).
  { apply existsb_exists. exists NUL. split; [apply in_or_app; right; now left|apply Ascii.eqb_refl]. }
  rewrite X. now rewrite cstr_app.
Qed.

(** The host gets the bytes of a string back, as a C string exactly when it has
    no zero byte; so made from the same pointer it is the same string. *)
Theorem host_string_back : forall s, coraMakeString (coraBytesData s) (Z.of_nat (List.length s)) = Ok s /\
  (coraMakeCString (coraBytesData s) = Ok s <-> ~ In NUL s).
Proof.
  intros s. unfold coraBytesData. split; [apply host_string|]. split; [|apply host_cstring].
  unfold coraMakeCString. destruct (existsb _ _); [|discriminate]. intros H. injection H as H. rewrite <- H.
  generalize (s ++ [NUL]) as b. induction b as [|c b IH]; [intros []|]. cbn [cstr]. destruct (Ascii.eqb_spec c NUL) as [|N]; [intros []|].
  intros [->|X]; [congruence|exact (IH X)].
Qed.

(** ** Global variables *)
(** what the host and the language do, in any order *)
Inductive act :=
| HostSet (name : bytes) (v : Z) | HostGet (name : bytes)
| LangSet (name : bytes) (v : Z) | LangValue (name : bytes).

Definition do_act (g : genv) (a : act) : outcome (genv * Z) :=
  match a with
  | HostSet n v => omap (fun g => (g, v)) (coraPrimSet g (coraMakeSymbol n) v)
  | HostGet n => coraSymbolGet g (coraMakeSymbol n)
  | LangSet n v => omap (fun g => (g, v)) (primSet g n v)
  | LangValue n => builtinValue g n
  end.
Fixpoint do_acts (g : genv) (l : list act) : outcome (list Z) :=
  match l with
  | [] => Ok []
  | a :: r => obind (do_act g a) (fun x => omap (cons (snd x)) (do_acts (fst x) r))
  end.

(** a store with one value for each name, Undef at the start; a host name is a C
    string; only the language minds Undef *)
Definition change (m : bytes -> Z) (s : bytes) (v : Z) : bytes -> Z := fun x => if list_eq_dec ascii_dec s x then v else m x.
Fixpoint on_store (m : bytes -> Z) (l : list act) : outcome (list Z) :=
  match l with
  | [] => Ok []
  | HostSet n v :: r => omap (cons v) (on_store (change m (cstr n) v) r)
  | LangSet n v :: r => omap (cons v) (on_store (change m n v) r)
  | HostGet n :: r => omap (cons (m (cstr n))) (on_store m r)
  | LangValue n :: r => if m n =? Undef then Trap else omap (cons (m n)) (on_store m r)
  end.

Lemma on_store_ext : forall l m m', (forall s, m s = m' s) -> on_store m l = on_store m' l.
Proof.
  induction l as [|a l IH]; intros m m' H; [reflexivity|].
  assert (C : forall s v x, change m s v x = change m' s v x) by (intros; unfold change; now rewrite H).
  destruct a; cbn [on_store].
  - now rewrite (IH _ _ (C (cstr name) v)).
  - now rewrite H, (IH _ _ H).
  - now rewrite (IH _ _ (C name v)).
  - now rewrite H, (IH _ _ H).
Qed.

Lemma acts_store : forall l g, genv_inv g -> do_acts g l = on_store (gval g) l.
Proof.
  induction l as [|a l IH]; intros g Hg; [reflexivity|].
  assert (S : forall s v, exists g', primSet g s v = Ok g' /\ do_acts g' l = on_store (change (gval g) s v) l).
  { intros s v. destruct (primSet_spec g s v Hg) as (g' & E & Hg' & _ & Hs & Ho). exists g'. split; [exact E|].
    rewrite (IH g' Hg'). apply on_store_ext. intros x. unfold change. destruct (list_eq_dec ascii_dec s x) as [<-|Hne]; auto. }
  assert (G : forall s, exists g', symbolGet g s = Ok (g', gval g s) /\ do_acts g' l = on_store (gval g) l).
  { intros s. destruct (symbolGet_spec g s Hg) as (g' & E & Hg' & _ & Hv). exists g'. split; [exact E|].
    rewrite (IH g' Hg'). now apply on_store_ext. }
  destruct a; cbn [do_acts do_act on_store].
  - destruct (S (cstr name) v) as (g' & E & X). unfold coraPrimSet, coraMakeSymbol. rewrite E. cbn [omap obind fst snd]. now rewrite X.
  - destruct (G (cstr name)) as (g' & E & X). unfold coraSymbolGet, coraMakeSymbol. rewrite E. cbn [obind fst snd]. now rewrite X.
  - destruct (S name v) as (g' & E & X). rewrite E. cbn [omap obind fst snd]. now rewrite X.
  - destruct (G name) as (g' & E & X). unfold builtinValue. rewrite E. cbn [obind snd].
    destruct (gval g name =? Undef); cbn [negb assertT obind]; [reflexivity|]. cbn [fst snd]. now rewrite X.
Qed.

(** Host and language share the global variables: in any order of their reads and
    writes each reads what was written last. *)
Theorem host_globals : forall l, do_acts genv_empty l = on_store (fun _ => Undef) l.
Proof. intros l. rewrite (acts_store l _ genv_empty_inv). now apply on_store_ext. Qed.

Example host_ex :
  let x := list_ascii_of_string "x" in
  do_acts genv_empty [HostGet x; LangSet x 5; HostGet (x ++ [NUL; "y"%char]); HostSet x 7; LangValue x] = Ok [Undef; 5; 5; 7; 7] /\
  do_acts genv_empty [HostGet x; LangValue x] = Trap /\ is_int (- 2^31) /\
  coraMakeCString (list_ascii_of_string "ab" ++ [NUL; "c"%char]) = Ok (list_ascii_of_string "ab").
Proof. repeat split; vm_compute; (reflexivity || discriminate). Qed.

Print Assumptions host_number.
Print Assumptions host_reads_number.
Print Assumptions host_string_back.
Print Assumptions host_globals.
