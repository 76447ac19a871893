(** C88: libraries loaded by several machines of one process. *)
From Coq Require Import ZArith Bool List Ascii String Lia.
From Verif Require Import Base NumModel ListLib StrModel TrieModel TrieProofs MultiModel.
Import ListNotations.
Local Open Scope list_scope.
Local Open Scope nat_scope.

(** * Specification *)
Inductive act :=
| Enter (k lib : nat)                       (** machine k loads a library *)
| Read (k lib slot : nat)                   (** the code of the library reads a variable *)
| Const (k lib slot : nat)                  (** or evaluates a quoted symbol *)
| SetName (k : nat) (n : bytes) (v : Z).    (** machine k sets a variable *)
Inductive answer := Nothing | Value (v : Z) | Symbol (n : bytes).

Section Spec.
  Variable names : nat -> list bytes.
  Definition store := nat -> bytes -> Z.

  (** every machine has its own variables; a library refers to those of the
      machine that runs it, by name *)
  Fixpoint on_stores (m : store) (l : list act) : list answer :=
    match l with
    | [] => []
    | Enter _ _ :: r => Nothing :: on_stores m r
    | Read k lib slot :: r => Value (m k (nth slot (names lib) [])) :: on_stores m r
    | Const _ lib slot :: r => Symbol (nth slot (names lib) []) :: on_stores m r
    | SetName k n v :: r =>
        Nothing :: on_stores (fun k' n' => if Nat.eqb k' k then if list_eq_dec ascii_dec n n' then v else m k n' else m k' n') r
    end.

  (** code runs in machines that have loaded it, and refers to its own names *)
  Fixpoint sensible (loaded : list (nat * nat)) (l : list act) : Prop :=
    match l with
    | [] => True
    | Enter k lib :: r => sensible ((k, lib) :: loaded) r
    | Read k lib slot :: r | Const k lib slot :: r => In (k, lib) loaded /\ slot < List.length (names lib) /\ sensible loaded r
    | SetName _ _ _ :: r => sensible loaded r
    end.

  Definition do_act (p : process) (a : act) : outcome (process * answer) :=
    match a with
    | Enter k lib => Ok (enter names p k lib, Nothing)
    | Read k lib slot => omap (fun v => (p, Value v)) (read_global p k lib slot)
    | Const k lib slot => omap (fun n => (p, Symbol n)) (const_symbol p k lib slot)
    | SetName k n v => omap (fun q => (q, Nothing)) (set_global p k n v)
    end.
  Fixpoint do_acts (p : process) (l : list act) : outcome (list answer) :=
    match l with
    | [] => Ok []
    | a :: r => obind (do_act p a) (fun x => omap (cons (snd x)) (do_acts (fst x) r))
    end.

  (** * Proofs *)
  Definition bound (g : genv) (b : binding) : Prop := map_get strEQ fnv1a64 (g_env g) (fst b) = Some (snd b).

  Lemma bind_all_spec : forall ns g, genv_inv g -> exists g' t, bind_all g ns = (g', t) /\ genv_inv g' /\
    List.map fst t = ns /\ Forall (bound g') t /\
    (forall s j, map_get strEQ fnv1a64 (g_env g) s = Some j -> map_get strEQ fnv1a64 (g_env g') s = Some j) /\
    (forall s, gval g' s = gval g s).
  Proof.
    induction ns as [|n ns IH]; intros g Hg; cbn [bind_all].
    - exists g, []. repeat split; auto; apply Hg.
    - destruct (bind_spec g n Hg) as (g1 & i & -> & Hg1 & Hi & _ & Hm & Hv).
      destruct (IH g1 Hg1) as (g2 & t & -> & Hg2 & Ht & Hb & Hm2 & Hv2).
      exists g2, ((n, i) :: t). split; [reflexivity|]. split; [exact Hg2|]. split; [cbn; now rewrite Ht|].
      split; [constructor; [apply Hm2; exact Hi|exact Hb]|]. split; [auto|]. intros s. now rewrite Hv2, Hv.
  Qed.

  Lemma put_nth : forall A (x : A) i l j, nth_error (put l i x) j =
    if Nat.eqb j i then Some (Some x) else match nth_error l j with Some y => Some y | None => if Nat.ltb j i then Some None else None end.
  Proof.
    intros A x. induction i as [|i IH]; intros l j; destruct l as [|y l], j as [|j]; cbn [put nth_error Nat.eqb]; auto.
    - destruct j; reflexivity.
    - destruct (nth_error l j); reflexivity.
    - rewrite IH. destruct (Nat.eqb j i); auto. destruct j; reflexivity.
    - rewrite IH. destruct (Nat.eqb j i); auto.
  Qed.

  Record inv (p : process) (loaded : list (nat * nat)) (m : store) : Prop := mkI {
    i_genv : forall k, genv_inv (m_genv (p_mach p k));
    i_below : forall lib i, p_id p lib = Some i -> i < p_next p;
    i_inj : forall lib lib' i, p_id p lib = Some i -> p_id p lib' = Some i -> lib = lib';
    i_loaded : forall k lib, In (k, lib) loaded -> exists i t, p_id p lib = Some i /\ nth_error (m_pkgs (p_mach p k)) i = Some (Some t) /\
      List.map fst t = names lib /\ Forall (bound (m_genv (p_mach p k))) t;
    i_store : forall k n, gval (m_genv (p_mach p k)) n = m k n }.

  Lemma inv0 : inv process0 [] (fun _ _ => Undef).
  Proof. split; cbn; try discriminate; try contradiction; auto. intros _. apply genv_empty_inv. Qed.

  Lemma package_id_inv : forall p loaded m lib, inv p loaded m -> exists p1 i, package_id p lib = (p1, i) /\
    inv p1 loaded m /\ p_id p1 lib = Some i /\ p_mach p1 = p_mach p.
  Proof.
    intros p loaded m lib I. unfold package_id. destruct (p_id p lib) as [i|] eqn:E; [eauto 6|].
    eexists _, _. split; [reflexivity|]. split.
    - destruct I as [Ig Ib Ii Il Is]. split; cbn [p_next p_id p_mach]; auto.
      + intros lib' i. unfold set_at. destruct (Nat.eqb lib' lib); [intros H; injection H as <-; lia|]. intros H. apply Ib in H. lia.
      + intros l1 l2 i. unfold set_at. destruct (Nat.eqb_spec l1 lib) as [->|], (Nat.eqb_spec l2 lib) as [->|]; auto.
        * intros H1 H2. injection H1 as <-. apply Ib in H2. lia.
        * intros H1 H2. injection H2 as <-. apply Ib in H1. lia.
        * apply Ii.
      + intros k l H. destruct (Il k l H) as (i & t & H1 & H2). exists i, t. split; [|exact H2].
        unfold set_at. destruct (Nat.eqb_spec l lib) as [->|]; [congruence|exact H1].
    - cbn [p_id p_mach]. unfold set_at. now rewrite Nat.eqb_refl.
  Qed.

  Lemma enter_inv : forall p loaded m k lib, inv p loaded m -> inv (enter names p k lib) ((k, lib) :: loaded) m.
  Proof.
    intros p loaded m k lib I0. unfold enter. destruct (package_id_inv p loaded m lib I0) as (p1 & id & -> & I & Eid & _).
    destruct I as [Ig Ib Ii Il Is]. destruct (bind_all_spec (names lib) _ (Ig k)) as (g & t & -> & Hg & Ht & Hb & Hm & Hv).
    split; cbn [p_next p_id p_mach]; auto.
    - intros k'. unfold set_at. destruct (Nat.eqb k' k); [exact Hg|apply Ig].
    - intros k' lib' H. unfold set_at. destruct (Nat.eqb_spec k' k) as [->|Nk].
      + cbn [addPackage m_genv m_pkgs]. destruct (Nat.eq_dec lib' lib) as [->|Nl].
        * exists id, t. split; [exact Eid|]. rewrite put_nth, Nat.eqb_refl. auto.
        * destruct H as [H|H]; [congruence|]. destruct (Il k lib' H) as (i & t' & H1 & H2 & H3 & H4). exists i, t'. split; [exact H1|].
          assert (Ni : i <> id) by (intros ->; apply Nl; eapply Ii; eauto).
          rewrite put_nth. destruct (Nat.eqb_spec i id); [contradiction|]. rewrite H2. split; [reflexivity|]. split; [exact H3|].
          eapply Forall_impl; [|exact H4]. intros [x j]. unfold bound. cbn. apply Hm.
      + destruct H as [H|H]; [congruence|]. exact (Il k' lib' H).
    - intros k' n. unfold set_at. destruct (Nat.eqb_spec k' k) as [->|]; cbn [addPackage m_genv]; [now rewrite Hv|apply Is].
  Qed.

  Lemma binding_right : forall p loaded m k lib slot, inv p loaded m -> In (k, lib) loaded -> slot < List.length (names lib) ->
    exists i, getBinding p k lib slot = Ok (nth slot (names lib) [], i) /\ bound (m_genv (p_mach p k)) (nth slot (names lib) [], i).
  Proof.
    intros p loaded m k lib slot I H L. destruct (i_loaded _ _ _ I k lib H) as (id & t & E1 & E2 & E3 & E4).
    unfold getBinding. rewrite E1, E2. rewrite <- E3, map_length in L.
    destruct (nth_error t slot) as [[n i]|] eqn:E; [|apply nth_error_None in E; unfold binding in *; lia].
    assert (nth slot (names lib) [] = n) as ->.
    { rewrite <- E3. apply nth_error_nth. unfold binding in *. rewrite nth_error_map. now rewrite E. }
    exists i. split; [reflexivity|]. rewrite Forall_forall in E4. apply E4. exact (nth_error_In _ _ E).
  Qed.

  Lemma stores_ext : forall l m m', (forall k n, m k n = m' k n) -> on_stores m l = on_stores m' l.
  Proof.
    induction l as [|a l IH]; intros m m' H; [reflexivity|]. destruct a; cbn [on_stores]; f_equal; auto.
    - now rewrite H.
    - apply IH. intros k' n'. now rewrite !H.
  Qed.

  Lemma acts_right : forall l p loaded m, inv p loaded m -> sensible loaded l -> do_acts p l = Ok (on_stores m l).
  Proof.
    induction l as [|a l IH]; intros p loaded m I S; [reflexivity|]. destruct a; cbn [do_acts do_act on_stores sensible obind fst snd] in *.
    - rewrite (IH _ _ m (enter_inv _ _ _ k lib I) S). reflexivity.
    - destruct S as (H & L & S). destruct (binding_right _ _ _ _ _ _ I H L) as (i & E & B). unfold read_global. rewrite E. cbn [obind snd].
      assert (G : globalRef (m_genv (p_mach p k)) i = Ok (m k (nth slot (names lib) []))).
      { rewrite <- (i_store _ _ _ I). unfold gval, globalRef. unfold bound in B. cbn [fst snd] in B. rewrite B.
        destruct (proj1 (i_genv _ _ _ I k) _ _ B) as [|]; destruct (nth_error _ i) eqn:X; auto; apply nth_error_None in X; pose proof (proj1 (i_genv _ _ _ I k) _ _ B); lia. }
      rewrite G. cbn [omap obind fst snd]. rewrite (IH _ _ m I S). reflexivity.
    - destruct S as (H & L & S). destruct (binding_right _ _ _ _ _ _ I H L) as (i & E & B). unfold const_symbol. rewrite E.
      cbn [obind omap fst snd]. rewrite (IH _ _ m I S). reflexivity.
    - unfold set_global. destruct (primSet_spec _ n v (i_genv _ _ _ I k)) as (g & E & Hg & Hm & Hs & Ho). rewrite E. cbn [obind omap fst snd].
      rewrite (IH _ loaded (fun k' n' => if Nat.eqb k' k then if list_eq_dec ascii_dec n n' then v else m k n' else m k' n')); [reflexivity| |exact S].
      destruct I as [Ig Ib Ii Il Is]. split; cbn [p_next p_id p_mach]; auto.
      + intros k'. unfold set_at. destruct (Nat.eqb k' k); [exact Hg|apply Ig].
      + intros k' lib H. destruct (Il k' lib H) as (i & t & H1 & H2 & H3 & H4). exists i, t. split; [exact H1|]. unfold set_at.
        destruct (Nat.eqb_spec k' k) as [->|]; cbn [m_genv m_pkgs]; [|auto]. split; [exact H2|]. split; [exact H3|].
        eapply Forall_impl; [|exact H4]. intros [x j]. unfold bound. cbn. apply Hm.
      + intros k' n'. unfold set_at. destruct (Nat.eqb_spec k' k) as [->|]; cbn [m_genv]; [|apply Is].
        destruct (list_eq_dec ascii_dec n n') as [<-|Ne]; [exact Hs|]. rewrite Ho by congruence. apply Is.
  Qed.
End Spec.

(** * The theorems *)
(** Any number of machines load and run the same libraries in any order, again
    and again: the code of a library always refers to the variables of the
    machine that runs it, by their names, and to the right symbols. *)
Theorem machines_apart : forall names l, sensible names [] l -> do_acts names process0 l = Ok (on_stores names (fun _ _ => Undef) l).
Proof. intros names l S. exact (acts_right names l _ _ _ (inv0 names) S). Qed.

Lemma bind_all_names : forall ns g, List.map fst (snd (bind_all g ns)) = ns.
Proof.
  induction ns as [|n ns IH]; intros g; [reflexivity|]. cbn [bind_all]. destruct (bindSymbol g n) as [g1 i].
  specialize (IH g1). destruct (bind_all g1 ns). cbn in *. now rewrite IH.
Qed.
Lemma enter_id : forall names p k lib id, p_id p lib = Some id -> p_id (enter names p k lib) = p_id p.
Proof. intros names p k lib id E. unfold enter, package_id. rewrite E. destruct (bind_all _ _). reflexivity. Qed.
Lemma enter_const : forall names p k lib lib' id slot, p_id p lib = Some id -> p_id p lib' = Some id ->
  const_symbol (enter names p k lib) k lib' slot = match nth_error (names lib) slot with Some n => Ok n | None => UB end.
Proof.
  intros names p k lib lib' id slot E E'. unfold const_symbol, getBinding. rewrite (enter_id _ _ _ _ _ E), E'.
  unfold enter, package_id. rewrite E. pose proof (bind_all_names (names lib) (m_genv (p_mach p k))) as H.
  destruct (bind_all _ _) as [g t]. cbn [snd p_mach] in *. unfold set_at. rewrite Nat.eqb_refl. cbn [addPackage m_pkgs].
  rewrite put_nth, Nat.eqb_refl. rewrite <- H, nth_error_map. unfold binding in *. destruct (nth_error t slot) as [[x i]|]; reflexivity.
Qed.

(** Two procs enter two new libraries at once and both get one number.  In a
    machine that then enters both, the code of the first refers to the names of
    the second, and reads past the table where the second has fewer. *)
Theorem package_race : forall names p lib1 lib2 k slot, lib1 <> lib2 ->
  const_symbol (enter names (enter names (package_id_race p lib1 lib2) k lib1) k lib2) k lib1 slot =
  match nth_error (names lib2) slot with Some n => Ok n | None => UB end.
Proof.
  intros names p lib1 lib2 k slot D.
  assert (E1 : p_id (package_id_race p lib1 lib2) lib1 = Some (p_next p)).
  { cbn. unfold set_at. rewrite Nat.eqb_refl. destruct (Nat.eqb_spec lib1 lib2); [contradiction|reflexivity]. }
  assert (E2 : p_id (package_id_race p lib1 lib2) lib2 = Some (p_next p)).
  { cbn. unfold set_at. now rewrite Nat.eqb_refl. }
  apply enter_const with (id := p_next p); rewrite (enter_id _ _ _ _ _ E1); assumption.
Qed.

Definition nm (n : string) : bytes := list_ascii_of_string n.
Definition two (lib : nat) : list bytes := if Nat.eqb lib 0 then [nm "f"; nm "g"] else [nm "h"].

(** Library 0 reads h where it says f, and reads past the table for g. *)
Theorem package_race_refuted : exists p,
  p = enter two (enter two (package_id_race process0 0 1) 0 0) 0 1 /\
  const_symbol p 0 0 0 = Ok (nm "h") /\ const_symbol p 0 0 1 = UB.
Proof. eexists. split; [reflexivity|]. split; vm_compute; reflexivity. Qed.

Example machines_ex :
  let l := [Enter 0 0; SetName 0 (nm "g") 5; Enter 1 1; Enter 1 0; SetName 1 (nm "g") 6; Read 0 0 1; Read 1 0 1; Const 1 1 0; Read 1 1 0]%Z in
  sensible two [] l /\ do_acts two process0 l = Ok [Nothing; Nothing; Nothing; Nothing; Nothing; Value 5; Value 6; Symbol (nm "h"); Value Undef]%Z.
Proof. split; [cbn; intuition lia|vm_compute; reflexivity]. Qed.

Print Assumptions machines_apart.
Print Assumptions package_race.
Print Assumptions package_race_refuted.
