(** Theorems of record about macros a program defines (C81). *)
From Coq Require Import List ZArith Bool String Arith Lia.
From Verif Require Import CoreSpec TocModel NsModel MacroModel MacroExp UmacModel UmacSpec.
Import ListNotations.
Local Open Scope list_scope.
Local Open Scope nat_scope.

Scheme Exp_mut := Induction for Exp Sort Prop
with Exps_mut := Induction for Exps Sort Prop.
Combined Scheme Exp_both from Exp_mut, Exps_mut.

Scheme Expanded_mut := Induction for Expanded Sort Prop
with Expanded_list_mut := Induction for Expanded_list Sort Prop.
Combined Scheme Expanded_both from Expanded_mut, Expanded_list_mut.

(** ** lookups and keywords *)

Lemma protect_eq : forall h, is_protect h = true <-> h = mark.
Proof.
  intros h. unfold is_protect, protect, mark. destruct h as [z|[x|k]|x| | | |a d]; cbn; split; try discriminate; try congruence.
  - intros H. apply Nat.eqb_eq in H. now subst.
  - intros H. injection H as ->. reflexivity.
Qed.

Lemma is_sym_eq : forall x h, is_sym x h = true <-> h = SSym (NS x).
Proof.
  intros x h. destruct h as [z|[y|k]|y| | | |a d]; cbn; split; try discriminate; try congruence.
  - intros H. apply String.eqb_eq in H. now subst.
  - intros H. injection H as ->. apply String.eqb_refl.
Qed.

Lemma special_dec : forall h, special h <-> is_protect h || is_sym "lambda" h || is_sym "quote" h = true.
Proof.
  intros h. unfold special. rewrite !orb_true_iff, protect_eq, !is_sym_eq. tauto.
Qed.

Lemma not_special : forall h, ~ special h -> is_protect h = false /\ is_sym "lambda" h = false /\ is_sym "quote" h = false.
Proof.
  intros h H. rewrite special_dec in H. destruct (is_protect h), (is_sym "lambda" h), (is_sym "quote" h); cbn in H; auto; tauto.
Qed.

Lemma special_not : forall h, is_protect h = false -> is_sym "lambda" h = false -> is_sym "quote" h = false -> ~ special h.
Proof. intros h A B C. rewrite special_dec, A, B, C. discriminate. Qed.

Section S.
  Context {St : Type}.
  Notation tab := (list (sexp * @mac St)).

  Lemma eqb_neq : forall a b, sexp_eqb a b = false <-> a <> b.
  Proof.
    intros a b. split.
    - intros H ->. rewrite sexp_eqb_refl in H. discriminate.
    - intros H. destruct (sexp_eqb a b) eqn:E; [|reflexivity]. apply sexp_eqb_eq in E. contradiction.
  Qed.

  (** macroexpand1: the newest definition, or the expression itself *)
  Lemma expand1_newest : forall (l : tab) h t s f, newest l h f -> expand1_h (SCons h t) l s = f (SCons h t) s.
  Proof.
    intros l h t s f (l1 & l2 & -> & N). induction l1 as [|[k g] l1 IH]; cbn [app expand1_h fst snd].
    - now rewrite sexp_eqb_refl.
    - cbn in N. rewrite (proj2 (eqb_neq h k)) by (intros ->; tauto). apply IH. tauto.
  Qed.

  Lemma expand1_none : forall (l : tab) h t s, ~ In h (map fst l) -> expand1_h (SCons h t) l s = Some (SCons h t, s).
  Proof.
    intros l h t s N. induction l as [|[k g] l IH]; [reflexivity|]. cbn in *.
    rewrite (proj2 (eqb_neq h k)) by (intros ->; tauto). apply IH. tauto.
  Qed.

  Lemma newest_or : forall (l : tab) h, (exists f, newest l h f) \/ ~ In h (map fst l).
  Proof.
    induction l as [|[k g] l IH]; intros h; [now right|]. destruct (sexp_eqb h k) eqn:E.
    - apply sexp_eqb_eq in E. subst k. left. exists g, [], l. split; [reflexivity|intros []].
    - apply eqb_neq in E. destruct (IH h) as [(f & l1 & l2 & -> & N)|N].
      + left. exists f, ((k, g) :: l1), l2. split; [reflexivity|]. cbn. intros [Q|Q]; [congruence|tauto].
      + right. cbn. intros [Q|Q]; [congruence|tauto].
  Qed.

  Lemma newest_unique : forall (l : tab) h f g, newest l h f -> newest l h g -> f = g.
  Proof.
    intros l h f g (l1 & l2 & -> & N) (l3 & l4 & E & N2). revert l3 N2 E.
    induction l1 as [|[k x] l1 IH]; intros [|[k' y] l3] N2 E; cbn in N, N2, E.
    - now injection E.
    - exfalso. apply N2. left. congruence.
    - exfalso. apply N. left. congruence.
    - injection E as _ _ E. eapply (IH ltac:(tauto) l3); [tauto|exact E].
  Qed.

  Context (macros : St -> tab).
  Notation ex := (uboot macros).

  Lemma map_mono : forall (f g : sexp -> St -> result St) l s,
    (forall x s, f x s <> NoFuel -> g x s = f x s) -> map_u f l s <> NoFuel -> map_u g l s = map_u f l s.
  Proof.
    intros f g l. induction l as [|x l IH]; intros s H N; cbn [map_u] in *; [reflexivity|].
    assert (E : g x s = f x s). { apply H. destruct (f x s); congruence. }
    rewrite E. destruct (f x s) as [y s1| |] eqn:F; try reflexivity.
    rewrite (IH s1); auto. destruct (map_u f l s1); congruence.
  Qed.

  Lemma uboot_next : forall n m, (forall e s, ex n e s <> NoFuel -> ex m e s = ex n e s) ->
    forall e s, ex (Datatypes.S n) e s <> NoFuel -> ex (Datatypes.S m) e s = ex (Datatypes.S n) e s.
  Proof.
    intros n m IH e s N. cbn [uboot] in N |- *.
    destruct e as [ | | | | | |h t]; try reflexivity.
    destruct (is_protect h); [reflexivity|]. destruct (is_sym "lambda" h).
    - destruct (ocadr (SCons h t)); [|reflexivity]. destruct (ocaddr (SCons h t)) as [b|]; [|reflexivity].
      rewrite IH; [reflexivity|]. destruct (ex n b s); congruence.
    - destruct (is_sym "quote" h); [reflexivity|]. destruct (expand1_u macros (SCons h t) s) as [[e1 s1]|]; [|reflexivity].
      destruct (sexp_eqb e1 (SCons h t)).
      + apply map_mono; auto.
      + now apply IH.
  Qed.

  Lemma uboot_mono : forall n e s, ex n e s <> NoFuel -> ex (Datatypes.S n) e s = ex n e s.
  Proof. induction n as [|n IH]; [intros e s N; now elim N|]. now apply uboot_next. Qed.

  Lemma uboot_le : forall n m e s, n <= m -> ex n e s <> NoFuel -> ex m e s = ex n e s.
  Proof.
    intros n m e s L N. induction L; [reflexivity|]. rewrite uboot_mono; [exact IHL|]. congruence.
  Qed.

  (** ** the expander follows the rules *)

Lemma uboot_sound : forall n e s e' s', ex n e s = Done e' s' -> Exp macros e s e' s'.
  Proof.
    induction n as [|n IH]; intros e s e' s' H; [discriminate|]. cbn [uboot] in H.
    destruct e as [ | | | | | |h t]; try (injection H as <- <-; apply X_atom; unfold atom; discriminate).
    destruct (is_protect h) eqn:P.
    { injection H as <- <-. apply protect_eq in P. subst h. apply X_mark. }
    destruct (is_sym "lambda" h) eqn:L.
    { apply is_sym_eq in L. subst h. unfold ocaddr, ocadr, ocddr in H. cbn [ocdr] in H.
      destruct t as [ | | | | | |ps t]; cbn [ocar ocdr] in H; try discriminate.
      destruct t as [ | | | | | |b t]; cbn [ocar ocdr] in H; try discriminate.
      destruct (ex n b s) as [b1 s1| |] eqn:B; try discriminate. injection H as <- <-. apply X_lambda. now apply IH. }
    destruct (is_sym "quote" h) eqn:Q.
    { injection H as <- <-. apply is_sym_eq in Q. subst h. apply X_quote. }
    pose proof (special_not h P L Q) as NS.
    assert (M : forall l x s e' s', map_u (ex n) (cells x) s = Done e' s' -> l = cells x -> Exps macros x s e' s').
    { clear H. induction l as [|a l IHl]; intros x s0 e0 s0' Hm Ex.
      - destruct x; try discriminate; cbn in Hm; injection Hm as <- <-; apply Xs_end; unfold atom; discriminate.
      - destruct x as [ | | | | | |a0 d0]; try discriminate. cbn [cells] in *. injection Ex as -> ->. cbn [map_u] in Hm.
        destruct (ex n a0 s0) as [y s1| |] eqn:A; try discriminate.
        destruct (map_u (ex n) (cells d0) s1) as [ys s2| |] eqn:D; try discriminate. injection Hm as <- <-.
        eapply Xs_cons; [apply IH; exact A|]. now apply IHl. }
    unfold expand1_u in H. destruct (newest_or (macros s) h) as [(f & F)|N].
    - rewrite (expand1_newest _ _ _ _ _ F) in H. destruct (f (SCons h t) s) as [[e1 s1]|] eqn:E; [|discriminate].
      destruct (sexp_eqb e1 (SCons h t)) eqn:Eq.
      + apply sexp_eqb_eq in Eq. subst e1. eapply X_same; eauto.
      + apply eqb_neq in Eq. eapply X_macro; eauto.
    - rewrite expand1_none in H by exact N. rewrite sexp_eqb_refl in H. apply X_form; eauto.
  Qed.

  Lemma uboot_complete :
    (forall e s e' s', Exp macros e s e' s' -> exists n, ex n e s = Done e' s') /\
    (forall e s e' s', Exps macros e s e' s' -> exists n, map_u (ex n) (cells e) s = Done e' s').
  Proof.
    apply (Exp_both St macros (fun e s e' s' _ => exists n, ex n e s = Done e' s')
             (fun e s e' s' _ => exists n, map_u (ex n) (cells e) s = Done e' s')).
    - intros e s A. exists 1. destruct e as [ | | | | | |a d]; try reflexivity. now elim (A a d).
    - intros t s. exists 1. cbn [uboot]. now rewrite (proj2 (protect_eq mark) eq_refl).
    - intros t s. exists 1. reflexivity.
    - intros ps b more s b' s' _ (n & E). exists (Datatypes.S n). cbn [uboot is_protect protect name_eqb is_sym String.eqb].
      change (is_protect (SSym (NS "lambda"))) with false. change (is_sym "lambda" (SSym (NS "lambda"))) with true.
      unfold ocaddr, ocadr, ocddr. cbn [ocdr ocar]. now rewrite E.
    - intros h t s f e1 s1 e' s' NS F E Ne _ (n & En). exists (Datatypes.S n). cbn [uboot].
      destruct (not_special h NS) as (-> & -> & ->). unfold expand1_u. rewrite (expand1_newest _ _ _ _ _ F), E.
      now rewrite (proj2 (eqb_neq _ _) Ne).
    - intros h t s f s1 e' s' NS F E _ (n & En). exists (Datatypes.S n). cbn [uboot].
      destruct (not_special h NS) as (-> & -> & ->). unfold expand1_u. rewrite (expand1_newest _ _ _ _ _ F), E.
      now rewrite sexp_eqb_refl.
    - intros h t s e' s' NS F _ (n & En). exists (Datatypes.S n). cbn [uboot].
      destruct (not_special h NS) as (-> & -> & ->). unfold expand1_u. rewrite expand1_none by exact F.
      now rewrite sexp_eqb_refl.
    - intros e s A. exists 0. destruct e as [ | | | | | |a d]; try reflexivity. now elim (A a d).
    - intros a d s a' s1 d' s' _ (n & En) _ (m & Em). exists (n + m). cbn [cells map_u].
      rewrite (uboot_le n (n + m)) by (try lia; congruence). rewrite En.
      rewrite (map_mono (ex m)); [now rewrite Em| |congruence]. intros x s0 N. apply uboot_le; [lia|exact N].
  Qed.
End S.

(** * C81 *)

(** The expander does what the rules say, and nothing else, for any macros. *)
Theorem expand_right : forall St (macros : St -> table St) e s e' s',
  (exists n, uboot macros n e s = Done e' s') <-> Exp macros e s e' s'.
Proof.
  intros St macros e s e' s'. split; [intros (n & H); eapply uboot_sound; eauto|]. apply uboot_complete.
Qed.

(** The result does not depend on the fuel. *)
Theorem expand_fuel : forall St (macros : St -> table St) n m e s,
  uboot macros n e s <> NoFuel -> uboot macros m e s <> NoFuel -> uboot macros n e s = uboot macros m e s.
Proof.
  intros St macros n m e s A B. destruct (Nat.le_ge_cases n m).
  - symmetry. now apply uboot_le.
  - now apply uboot_le.
Qed.

(** A new definition takes the place of all earlier ones, for every use of
    its name, and is given the whole expression, unexpanded. *)
Theorem newest_wins : forall St (macros : St -> table St) h f t0 t s e1 s1 e' s',
  macros s = add_macro h f t0 -> ~ special h -> f (SCons h t) s = Some (e1, s1) -> e1 <> SCons h t ->
  (Exp macros (SCons h t) s e' s' <-> Exp macros e1 s1 e' s').
Proof.
  intros St macros h f t0 t s e1 s1 e' s' M NS F Ne.
  assert (N : newest (macros s) h f) by (exists [], t0; split; [exact M|intros []]).
  split; intros H; [|eapply X_macro; eauto].
  inversion H; subst; try (exfalso; apply NS; unfold special; tauto).
  - exfalso. now apply (H0 h t).
  - pose proof (newest_unique _ _ _ _ N H3). subst f0. rewrite F in H4. injection H4 as <- <-. exact H9.
  - pose proof (newest_unique _ _ _ _ N H3). subst f0. rewrite F in H4. injection H4 as E _. now elim Ne.
  - match goal with H1 : ~ In _ _ |- _ => elim H1 end. rewrite M. now left.
Qed.

(** Well-behaved macros: they do not make the protecting symbol, do not
    return the call they were given, and what they return is not the bare
    name of a macro or of lambda or quote. *)
Record tidy {St} (T : table St) : Prop := {
  t_keys : forall k, In k (map fst T) -> atom k;
  t_mark : forall k f t s e1 s1, In (k, f) T -> f (SCons k t) s = Some (e1, s1) -> without mark (SCons k t) -> without mark e1;
  t_self : forall k f t s s1, In (k, f) T -> f (SCons k t) s <> Some (SCons k t, s1);
  t_name : forall k f t s e1 s1, In (k, f) T -> f (SCons k t) s = Some (e1, s1) -> atom e1 ->
    ~ special e1 /\ ~ In e1 (map fst T) }.

Lemma newest_in : forall St (l : table St) h f, newest l h f -> In (h, f) l.
Proof. intros St l h f (l1 & l2 & -> & _). apply in_or_app. right. now left. Qed.

Lemma pair_not_key : forall St (T : table St) a d, tidy T -> ~ special (SCons a d) /\ ~ In (SCons a d) (map fst T).
Proof.
  intros St T a d X. split.
  - intros [H|[H|H]]; discriminate.
  - intros H. exact (t_keys T X _ H a d eq_refl).
Qed.

Lemma atom_or : forall e, atom e \/ exists a d, e = SCons a d.
Proof. intros e. destruct e as [ | | | | | |a d]; try (left; unfold atom; discriminate). eauto. Qed.

Lemma exp_atom : forall St (macros : St -> table St) e s e' s', Exp macros e s e' s' -> atom e -> e' = e.
Proof.
  intros St macros e s e' s' H A. inversion H; subst; try reflexivity; exfalso; eapply A; reflexivity.
Qed.

Lemma expanded_both : forall St (T : table St), tidy T ->
  (forall e s e' s', Exp (fun _ => T) e s e' s' -> without mark e ->
     Expanded T e' /\ (~ atom e -> ~ special e' /\ ~ In e' (map fst T))) /\
  (forall e s e' s', Exps (fun _ => T) e s e' s' -> without mark e -> Expanded_list T e' /\
     (forall a d, e = SCons a d -> exists a' d', e' = SCons a' d' /\
        (atom a -> a' = a) /\ (~ atom a -> ~ special a' /\ ~ In a' (map fst T)))).
Proof.
  intros St T X.
  apply (Exp_both St (fun _ => T)
    (fun e s e' s' _ => without mark e -> Expanded T e' /\ (~ atom e -> ~ special e' /\ ~ In e' (map fst T)))
    (fun e s e' s' _ => without mark e -> Expanded_list T e' /\
     (forall a d, e = SCons a d -> exists a' d', e' = SCons a' d' /\
        (atom a -> a' = a) /\ (~ atom a -> ~ special a' /\ ~ In a' (map fst T))))).
  - intros e s A W. split; [now apply E_atom|tauto].
  - intros t s W. cbn in W. unfold mark in W. cbn in W. exfalso. tauto.
  - intros t s W. split; [apply E_quote|]. intros _. now apply pair_not_key.
  - intros ps b more s b' s' _ IH W. cbn [without] in W. split; [apply E_lambda; apply IH; tauto|]. intros _. now apply pair_not_key.
  - intros h t s f e1 s1 e' s' NS F E Ne H IH W. apply newest_in in F.
    pose proof (t_mark T X _ _ _ _ _ _ F E W) as W1. destruct (IH W1) as (I1 & I2). split; [exact I1|]. intros _.
    destruct (atom_or e1) as [A|(a & d & ->)].
    + rewrite (exp_atom _ _ _ _ _ _ H A). eapply t_name; eauto.
    + apply I2. intros A. now apply (A a d).
  - intros h t s f s1 e' s' NS F E _ _ _. exfalso. apply newest_in in F. eapply t_self; eauto.
  - intros h t s e' s' NS F _ IH W. destruct (IH W) as (I1 & I2).
    destruct (I2 h t eq_refl) as (a' & d' & -> & A1 & A2). split; [|intros _; now apply pair_not_key].
    destruct (atom_or h) as [A|(a & d & ->)].
    + rewrite (A1 A) in *. now apply E_form.
    + assert (NA : ~ atom (SCons a d)) by (intros Q; now apply (Q a d)).
      destruct (A2 NA) as (B1 & B2). now apply E_form.
  - intros e s A _. split; [apply El_nil|]. intros a d ->. now elim (A a d).
  - intros a d s a' s1 d' s' H IHa _ IHd W. cbn [without] in W. destruct W as (_ & Wa & Wd).
    destruct (IHa Wa) as (A1 & A2). destruct (IHd Wd) as (D1 & D2).
    split; [now apply El_cons|]. intros a0 d0 E. injection E as <- <-. exists a', d'. split; [reflexivity|].
    split; [intros A; eapply exp_atom; eauto|exact A2].
Qed.

(** With well-behaved macros nothing is left to expand ... *)
Theorem expand_all_partial : forall St (T : table St) e s e' s', tidy T -> without mark e ->
  Exp (fun _ => T) e s e' s' -> Expanded T e'.
Proof. intros St T e s e' s' X W H. now apply (proj1 (expanded_both St T X) e s e' s' H). Qed.

Lemma expanded_fix : forall St (T : table St),
  (forall e, Expanded T e -> forall s, Exp (fun _ => T) e s e s) /\
  (forall e, Expanded_list T e -> forall s, Exps (fun _ => T) e s e s).
Proof.
  intros St T. apply (Expanded_both St T (fun e _ => forall s, Exp (fun _ => T) e s e s)
    (fun e _ => forall s, Exps (fun _ => T) e s e s)).
  - intros e A s. now apply X_atom.
  - intros t s. apply X_quote.
  - intros ps b _ IH s. apply X_lambda. apply IH.
  - intros h t NS N _ IH s. apply X_form; auto.
  - intros s. apply Xs_end. unfold atom. discriminate.
  - intros a d _ IHa _ IHd s. eapply Xs_cons; eauto.
Qed.

(** ... so expanding again changes nothing and runs no macro. *)
Theorem expand_twice_partial : forall St (T : table St) e s e' s', tidy T -> without mark e ->
  (exists n, uboot (fun _ => T) n e s = Done e' s') ->
  (exists n, uboot (fun _ => T) n e' s' = Done e' s') /\
  (forall n, uboot (fun _ => T) n e' s' <> NoFuel -> uboot (fun _ => T) n e' s' = Done e' s').
Proof.
  intros St T e s e' s' X W H. apply expand_right in H. pose proof (expand_all_partial _ _ _ _ _ _ X W H) as E.
  apply (proj1 (expanded_fix St T)) with (s := s') in E. apply expand_right in E. split; [exact E|].
  intros n N. destruct E as (m & Em). rewrite <- Em. apply expand_fuel; [exact N|congruence].
Qed.

(** A macro whose name does not occur makes no difference. *)
Theorem unused_macro : forall St (T : table St) k f e s e' s',
  (forall h g t s x1 s1, In (h, g) T -> g (SCons h t) s = Some (x1, s1) -> without k (SCons h t) -> without k x1) -> without k e ->
  (Exp (fun _ => add_macro k f T) e s e' s' <-> Exp (fun _ => T) e s e' s').
Proof.
  intros St T k f e s e' s' P W.
  assert (N1 : forall h g, h <> k -> newest T h g -> newest (add_macro k f T) h g).
  { intros h g Ne (l1 & l2 & -> & N). exists ((k, f) :: l1), l2. split; [reflexivity|]. cbn. intros [Q|Q]; [congruence|tauto]. }
  assert (N2 : forall h g, h <> k -> newest (add_macro k f T) h g -> newest T h g).
  { intros h g Ne ([|[k0 f0] l1] & l2 & E & N); cbn in E; injection E; intros; [congruence|subst].
    exists l1, l2. split; [reflexivity|]. cbn in N. tauto. }
  assert (N3 : forall h, h <> k -> ~ In h (map fst T) -> ~ In h (map fst (add_macro k f T))).
  { intros h Ne N [Q|Q]; cbn in Q; [congruence|tauto]. }
  assert (N4 : forall h, ~ In h (map fst (add_macro k f T)) -> ~ In h (map fst T)).
  { intros h N Q. apply N. now right. }
  assert (WC : forall h t, without k (SCons h t) -> h <> k).
  { intros h t (_ & Q & _). destruct h; cbn in Q; tauto. }
  split; intros H; revert W.
  - apply (Exp_mut St (fun _ => add_macro k f T)
      (fun e s e' s' _ => without k e -> Exp (fun _ => T) e s e' s')
      (fun e s e' s' _ => without k e -> Exps (fun _ => T) e s e' s')); [..|exact H]; clear e s e' s' H.
    + intros; now apply X_atom.
    + intros; apply X_mark.
    + intros; apply X_quote.
    + intros ps b more s b' s' _ IH W. apply X_lambda. apply IH. cbn [without] in W. tauto.
    + intros h t s g e1 s1 e' s' NS F E Ne _ IH W. pose proof (N2 h g (WC h t W) F) as F2.
      eapply X_macro; eauto. apply IH. eapply P; [exact (newest_in _ _ _ _ F2)|exact E|exact W].
    + intros h t s g s1 e' s' NS F E _ IH W. eapply X_same; eauto. 
    + intros h t s e' s' NS F _ IH W. apply X_form; auto.
    + intros e s A W. now apply Xs_end.
    + intros a d s a' s1 d' s' _ IHa _ IHd W. cbn [without] in W. eapply Xs_cons; [apply IHa|apply IHd]; tauto.
  - apply (Exp_mut St (fun _ => T)
      (fun e s e' s' _ => without k e -> Exp (fun _ => add_macro k f T) e s e' s')
      (fun e s e' s' _ => without k e -> Exps (fun _ => add_macro k f T) e s e' s')); [..|exact H]; clear e s e' s' H.
    + intros; now apply X_atom.
    + intros; apply X_mark.
    + intros; apply X_quote.
    + intros ps b more s b' s' _ IH W. apply X_lambda. apply IH. cbn [without] in W. tauto.
    + intros h t s g e1 s1 e' s' NS F E Ne _ IH W. pose proof (N1 h g (WC h t W) F) as F2.
      eapply X_macro; eauto. apply IH. eapply P; [exact (newest_in _ _ _ _ F)|exact E|exact W].
    + intros h t s g s1 e' s' NS F E _ IH W. pose proof (N1 h g (WC h t W) F). eapply X_same; eauto.
    + intros h t s e' s' NS F _ IH W. apply X_form; auto. apply N3; [|exact F]. eapply WC; eauto.
    + intros e s A W. now apply Xs_end.
    + intros a d s a' s1 d' s' _ IHa _ IHd W. cbn [without] in W. eapply Xs_cons; [apply IHa|apply IHd]; tauto.
Qed.

(** ** where it fails *)

Definition Y (x : string) : sexp := SSym (NS x).
Definition N (z : Z) : sexp := SNum z.

(** An operator that expands to the name of a macro is not looked at again:
    expanding a second time gives something else. *)
Definition two : table unit :=
  [(Y "pick", fun _ s => Some (Y "double", s));
   (Y "double", fun e s => match e with SCons _ (SCons x _) => Some (of_list [Y "+"; x; x], s) | _ => None end)].

Theorem expand_twice_refuted : exists (T : table unit) e n e1 e2,
  uboot (fun _ => T) n e tt = Done e1 tt /\ uboot (fun _ => T) n e1 tt = Done e2 tt /\ e1 <> e2 /\ ~ Expanded T e1.
Proof.
  exists two, (of_list [of_list [Y "pick"]; N 4]), 9, (of_list [Y "double"; N 4]), (of_list [Y "+"; N 4; N 4]).
  split; [vm_compute; reflexivity|]. split; [vm_compute; reflexivity|]. split; [discriminate|].
  intros H. inversion H; subst. { now elim (H0 (Y "double") (of_list [N 4])). } apply H3. right. now left.
Qed.

(** The expansion of a dotted form loses what follows the dot. *)
Theorem dotted_refuted : forall St (macros : St -> table St) s, macros s = [] ->
  uboot macros 3 (SCons (Y "f") (SCons (N 1) (N 2))) s = Done (of_list [Y "f"; N 1]) s.
Proof. intros St macros s E. cbn. unfold expand1_u. rewrite E. reflexivity. Qed.

(** A macro whose result contains its own call: the expansion has no end. *)
Definition again : table unit := [(Y "m", fun e s => Some (of_list [Y "m"; e], s))].

Fixpoint sz (e : sexp) : nat := match e with SCons a d => Datatypes.S (sz a + sz d) | _ => 0 end.

Theorem no_end_refuted : forall n t, uboot (fun _ => again) n (SCons (Y "m") t) tt = NoFuel.
Proof.
  induction n as [|n IH]; intros t; [reflexivity|]. cbn [uboot].
  change (is_protect (Y "m")) with false. change (is_sym "lambda" (Y "m")) with false. change (is_sym "quote" (Y "m")) with false.
  unfold expand1_u. cbn [again expand1_h fst snd]. rewrite sexp_eqb_refl.
  cbn [of_list]. rewrite (proj2 (eqb_neq _ _)).
  - apply IH.
  - intros E. injection E as E. apply (f_equal sz) in E. cbn [sz] in E. lia.
Qed.

(** ** examples *)

(** swap!, a macro counting its uses, and when *)
Definition some_macros : table nat :=
  [(Y "swap!", fun e n => match e with
       | SCons _ (SCons a (SCons b _)) =>
           let t := SSym (NG (Datatypes.S n)) in
           Some (of_list [Y "let"; t; a; of_list [Y "begin2"; of_list [Y "store"; a; b]; of_list [Y "store"; b; t]]], Datatypes.S n)
       | _ => None end);
   (Y "begin2", fun e n => match e with
       | SCons _ (SCons a (SCons b _)) => Some (of_list [Y "do"; a; b], n) | _ => None end)].

Example expand_example : uboot (fun _ => some_macros) 20
    (of_list [Y "lambda"; of_list [Y "begin2"]; of_list [Y "f"; of_list [Y "swap!"; Y "x"; Y "y"]; of_list [Y "quote"; of_list [Y "swap!"; Y "x"]]]]) 5 =
  Done (of_list [Y "lambda"; of_list [Y "begin2"];
          of_list [Y "f"; of_list [Y "let"; SSym (NG 6); Y "x"; of_list [Y "do"; of_list [Y "store"; Y "x"; Y "y"]; of_list [Y "store"; Y "y"; SSym (NG 6)]]];
                   of_list [Y "quote"; of_list [Y "swap!"; Y "x"]]]]) 6.
Proof. vm_compute. reflexivity. Qed.

Example newest_example : exists e', uboot (fun _ => add_macro (Y "begin2") (fun e n => Some (N 0, n)) some_macros) 20
    (of_list [Y "begin2"; N 1; N 2]) 5 = Done e' 5 /\ e' = N 0.
Proof. eexists. split; vm_compute; reflexivity. Qed.

(** The macros above are well behaved, and do not make the symbol "unless". *)
Example tidy_example : tidy some_macros /\
  (forall h g t s x1 s1, In (h, g) some_macros -> g (SCons h t) s = Some (x1, s1) -> without (Y "unless") (SCons h t) ->
     without (Y "unless") x1).
Proof.
  assert (P : forall k, (k = mark \/ k = Y "unless") -> forall h g t s x1 s1,
     In (h, g) some_macros -> g (SCons h t) s = Some (x1, s1) -> without k (SCons h t) -> without k x1).
  { intros k K h g d s x1 s1 [H|[H|[]]] E W; injection H as <- <-;
    destruct d as [ | | | | | |b d]; try discriminate E;
    destruct d as [ | | | | | |c d]; try discriminate E; injection E as <- <-;
    cbn [without] in W; destruct K as [-> | ->]; cbn; repeat split; try discriminate; try tauto. }
  split; [constructor|].
  - intros k [<-|[<-|[]]]; unfold atom; discriminate.
  - intros k f e s e1 s1. apply P. now left.
  - intros k f d s s1 [H|[H|[]]] E; injection H as <- <-;
    destruct d as [ | | | | | |b d]; try discriminate E;
    destruct d as [ | | | | | |c d]; discriminate E.
  - intros k f d s e1 s1 [H|[H|[]]] E A; injection H as <- <-;
    destruct d as [ | | | | | |b d]; try discriminate E;
    destruct d as [ | | | | | |c d]; try discriminate E; injection E as <- <-; exfalso; eapply A; reflexivity.
  - intros h g x s x1 s1. apply P. now right.
Qed.

Print Assumptions expand_right.
Print Assumptions expand_fuel.
Print Assumptions newest_wins.
Print Assumptions expand_all_partial.
Print Assumptions expand_twice_partial.
Print Assumptions unused_macro.
Print Assumptions expand_twice_refuted.
Print Assumptions dotted_refuted.
Print Assumptions no_end_refuted.
