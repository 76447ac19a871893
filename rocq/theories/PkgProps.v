(** C50: import runs the body of a package at most once, and loads the right
    file. *)
From Coq Require Import List ZArith NArith Bool Ascii String Lia Arith.
From Verif Require Import Base StrModel StrProofs PkgModel.
Import ListNotations.
Local Open Scope list_scope.

(** ** Specification *)

Definition ends_with_slash (p : bytes) : Prop := exists q, p = q ++ ["/"%char].
Definition str (s : string) : bytes := list_ascii_of_string s.

(** The directory of packages, for a value of CORAPATH (None: unset). *)
Definition root_dir (env : option bytes) (home r : bytes) : Prop :=
  let p := match env with Some p => p | None => home ++ str "/.local/share/cora/" end in
  (ends_with_slash p /\ r = p) \/ (~ ends_with_slash p /\ p <> [] /\ r = p ++ str "/").

(** The compiled file is used when it is there and no newer source is. *)
Definition so_usable (fs : fsys) (base : bytes) : Prop :=
  exists t, fs (base ++ str ".so") = Some t /\
    forall t', fs (base ++ str ".cora") = Some t' -> (t' <= t)%Z.

Definition chosen (fs : fsys) (base pkg : bytes) (r : request) : Prop :=
  (so_usable fs base /\ r = LoadSo (base ++ str ".so") pkg) \/
  (~ so_usable fs base /\ r = LoadCora (base ++ str ".cora") pkg).

(** ** One call *)

Lemma was_imported_spec : forall l p, was_imported l p = true <-> In p l.
Proof.
  induction l as [|e l IH]; intro p; cbn; [split; [discriminate|tauto]|].
  unfold beqb. destruct (list_eq_dec ascii_dec e p); [intuition|]. rewrite IH. intuition.
Qed.

Lemma buf_repr_last : forall b c x, buf_repr b (c ++ [x]) -> nth_error (sb_data b) (List.length c) = Some (Some x).
Proof.
  intros b c x (_ & _ & rest & E). rewrite E, map_app, <- app_assoc. rewrite nth_error_app2; rewrite map_length; auto.
  now rewrite Nat.sub_diag.
Qed.

Lemma getCoraPath_repr : forall env home, env <> Some [] ->
  exists b r, getCoraPath env home = Ok b /\ buf_repr b r /\ root_dir env home r.
Proof.
  intros env home He. unfold getCoraPath.
  destruct (strNew_repr 512 ltac:(lia)) as (t0 & -> & R0 & _). cbn [obind].
  set (p := match env with Some p => p | None => home ++ str "/.local/share/cora/" end).
  assert (exists t, match env with
     | None => obind (strCpy t0 home) (fun t => strCat t (list_ascii_of_string "/.local/share/cora/"))
     | Some p => strCpy t0 p end = Ok t /\ buf_repr t p /\ p <> []) as (t & -> & Rt & Hp).
  { destruct env as [q|].
    - destruct (strCpy_repr t0 q) as (t & E & R & _); [apply R0|]. exists t. split; auto. split; auto. unfold p. congruence.
    - destruct (strCpy_repr t0 home) as (t & E & R & _); [apply R0|]. rewrite E. cbn [obind].
      destruct (strCat_repr t home (list_ascii_of_string "/.local/share/cora/") R) as (t' & E' & R'). exists t'. split; auto.
      split; auto. intro F. apply app_eq_nil in F as [_ F]. discriminate. }
  cbn [obind]. destruct (exists_last Hp) as (q & x & Eq). rewrite Eq in Rt.
  assert (Hl : sb_len t = S (List.length q)) by (destruct Rt as (_ & -> & _); rewrite app_length; cbn; lia).
  rewrite Hl, (buf_repr_last _ _ _ Rt). destruct (Ascii.eqb_spec x "/"%char) as [->|Hx].
  - exists t, (q ++ ["/"%char]). repeat split; auto; try apply Rt. left. fold p. rewrite Eq. split; [now exists q|auto].
  - destruct (strCat_repr t _ ["/"%char] Rt) as (t' & E' & R'). exists t', ((q ++ [x]) ++ ["/"%char]).
    repeat split; auto; try apply R'. right. fold p. rewrite Eq. split; [|split; [now rewrite <- Eq|reflexivity]].
    intros (q' & F). apply app_inj_tail in F as [_ F]. congruence.
Qed.

Lemma shrink_ext : forall b base, buf_repr b (base ++ str ".so") ->
  exists b', strShrink b 3 = Ok b' /\ buf_repr b' base.
Proof.
  intros b base R. destruct (strShrink_repr b _ 3 R ltac:(lia)) as (b' & E & R'). exists b'. split; auto.
  rewrite app_length in R'. change (List.length (str ".so")) with 3%nat in R'. change (Z.to_nat 3) with 3%nat in R'.
  replace (List.length base + 3 - 3)%nat with (List.length base) in R' by lia.
  rewrite firstn_app, Nat.sub_diag, firstn_all in R'. cbn [firstn] in R'. now rewrite app_nil_r in R'.
Qed.

Lemma safeToUseSo_spec : forall fs b base, buf_repr b (base ++ str ".so") ->
  exists u, safeToUseSo fs b = Ok u /\ (u = true <-> so_usable fs base).
Proof.
  intros fs b base R. unfold safeToUseSo. rewrite (toStr_repr _ _ R). cbn [obind].
  destruct (fs (base ++ str ".so")) as [t|] eqn:Et.
  - destruct (strNew_repr (List.length (base ++ str ".so") + 3) ltac:(lia)) as (b0 & -> & R0 & _). cbn [obind].
    destruct (strCpy_repr b0 (base ++ str ".so")) as (b1 & -> & R1 & _); [apply R0|]. cbn [obind].
    destruct (shrink_ext _ _ R1) as (b2 & -> & R2). cbn [obind].
    destruct (strCat_repr b2 base (list_ascii_of_string ".cora") R2) as (b3 & -> & R3). cbn [obind].
    rewrite (toStr_repr _ _ R3). cbn [obind]. change (list_ascii_of_string ".cora") with (str ".cora").
    destruct (fs (base ++ str ".cora")) as [t'|] eqn:Et'.
    + eexists. split; [reflexivity|]. unfold so_usable. rewrite Et, Et'. rewrite negb_true_iff, Z.ltb_ge. split.
      * intro H. exists t. split; auto. intros t'' F. injection F as <-. lia.
      * intros (t1 & F & H). injection F as <-. auto.
    + exists true. split; auto. split; auto. intros _. exists t. split; auto. congruence.
  - exists false. split; auto. split; [discriminate|]. intros (t & F & _). congruence.
Qed.

(** One call: a package already in the list does nothing; any other is added
    and exactly the chosen file is requested. *)
Theorem import_spec : forall fs env home imported pkg, env <> Some [] ->
  exists imported' req, builtinImport fs env home imported pkg = Ok (imported', req) /\
    (In pkg imported -> imported' = imported /\ req = None) /\
    (~ In pkg imported -> imported' = pkg :: imported /\
       exists root r, root_dir env home root /\ req = Some r /\ chosen fs (root ++ str "pkg/" ++ pkg) pkg r).
Proof.
  intros fs env home imported pkg He. unfold builtinImport.
  destruct (was_imported imported pkg) eqn:Ew.
  - apply was_imported_spec in Ew. eexists _, _. split; [reflexivity|]. split; [auto|tauto].
  - assert (Hn : ~ In pkg imported) by (intro F; apply was_imported_spec in F; congruence).
    destruct (getCoraPath_repr env home He) as (b & root & -> & R & HR). cbn [obind].
    destruct (strCat_repr b _ (list_ascii_of_string "pkg/") R) as (b1 & -> & R1). cbn [obind].
    destruct (strCat_repr b1 _ pkg R1) as (b2 & -> & R2). cbn [obind].
    destruct (strCat_repr b2 _ (list_ascii_of_string ".so") R2) as (b3 & -> & R3). cbn [obind].
    destruct (safeToUseSo_spec fs b3 _ R3) as (u & -> & Hu). cbn [obind].
    assert (Ebase : (root ++ list_ascii_of_string "pkg/") ++ pkg = root ++ str "pkg/" ++ pkg) by now rewrite <- app_assoc.
    rewrite Ebase in *. destruct u.
    + rewrite (toStr_repr _ _ R3). cbn [obind]. eexists _, _. split; [reflexivity|]. split; [tauto|]. intros _. split; auto.
      exists root. eexists. split; [auto|]. split; [reflexivity|]. left. split; [now apply Hu|]. reflexivity.
    + destruct (shrink_ext _ _ R3) as (b4 & -> & R4). cbn [obind].
      destruct (strCat_repr b4 _ (list_ascii_of_string ".cora") R4) as (b5 & -> & R5). cbn [obind].
      rewrite (toStr_repr _ _ R5). cbn [obind]. eexists _, _. split; [reflexivity|]. split; [tauto|]. intros _. split; auto.
      exists root. eexists. split; [auto|]. split; [reflexivity|]. right. split; [|reflexivity]. intro F. apply Hu in F. discriminate.
Qed.

(** ** Any sequence of imports, nested and circular ones included *)

(** Never stuck, whatever the packages do and whatever happens to the files. *)
Theorem imports_run : forall env home es s, env <> Some [] -> exists s', pruns env home s es = Ok s'.
Proof.
  intros env home es. induction es as [|e es IH]; intros s He; cbn; [eauto|].
  destruct e as [fs pkg loads|]; cbn.
  - destruct (import_spec fs env home (p_imported s) pkg He) as (imp & req & -> & _). cbn [obind].
    destruct req as [r|]; [destruct loads|]; cbn [obind]; apply IH; auto.
  - apply IH; auto.
Qed.

Definition pinv (s : psys) : Prop :=
  NoDup (List.map fst (p_started s)) /\ incl (List.map fst (p_started s)) (p_imported s) /\
  incl (p_running s) (p_imported s).

Lemma pstep_inv : forall env home s e s', env <> Some [] -> pstep env home s e = Ok s' -> pinv s -> pinv s'.
Proof.
  intros env home s e s' He E (I1 & I2 & I3). destruct e as [fs pkg loads|]; cbn in E.
  - destruct (import_spec fs env home (p_imported s) pkg He) as (imp & req & E1 & H1 & H2). rewrite E1 in E. cbn [obind] in E.
    destruct (in_dec (list_eq_dec ascii_dec) pkg (p_imported s)) as [Hin|Hn].
    + destruct (H1 Hin) as (-> & ->). apply Ok_inj in E. subst s'. split; auto.
    + destruct (H2 Hn) as (-> & root & r & _ & -> & _). destruct loads; apply Ok_inj in E; subst s'; unfold pinv; cbn.
      * split; [constructor; auto|]. split; intros x [<-|Hx]; cbn; auto.
      * split; auto. split; intros x Hx; right; auto.
  - apply Ok_inj in E. subst s'. unfold pinv. cbn. split; auto. split; auto. intros x Hx. apply I3.
    destruct (p_running s); cbn in *; auto.
Qed.

Lemma pruns_inv : forall env home es s s', env <> Some [] -> pruns env home s es = Ok s' -> pinv s -> pinv s'.
Proof.
  intros env home es. induction es as [|e es IH]; intros s s' He E I; cbn in E; [congruence|].
  destruct (pstep env home s e) as [s1| |] eqn:E1; try discriminate. cbn in E. eapply IH; eauto. eapply pstep_inv; eauto.
Qed.

(** The body of a package is started at most once. *)
Theorem import_at_most_once : forall env home es s, env <> Some [] -> pruns env home psys0 es = Ok s ->
  NoDup (List.map fst (p_started s)).
Proof.
  intros env home es s He E. apply (pruns_inv _ _ _ _ _ He E). split; [constructor|]. split; intros x [].
Qed.

(** Importing a package that has been started, or is being loaded right now
    (a circular import), changes nothing. *)
Theorem reimport_is_noop : forall env home es s fs pkg loads, env <> Some [] -> pruns env home psys0 es = Ok s ->
  In pkg (List.map fst (p_started s)) \/ In pkg (p_running s) ->
  pstep env home s (EImport fs pkg loads) = Ok s.
Proof.
  intros env home es s fs pkg loads He E H.
  destruct (pruns_inv _ _ _ _ _ He E) as (I1 & I2 & I3); [split; [constructor|]; split; intros x []|].
  assert (Hin : In pkg (p_imported s)) by (destruct H; auto). cbn.
  destruct (import_spec fs env home (p_imported s) pkg He) as (imp & req & -> & H1 & _). destruct (H1 Hin) as (-> & ->).
  cbn. now destruct s.
Qed.

(** The first import of a package starts its body from the chosen file, if
    the file loads. *)
Theorem first_import_starts : forall env home es1 s1 fs pkg, env <> Some [] -> pruns env home psys0 es1 = Ok s1 ->
  (forall fs' loads, ~ In (EImport fs' pkg loads) es1) ->
  exists root r s2, root_dir env home root /\ chosen fs (root ++ str "pkg/" ++ pkg) pkg r /\
    pstep env home s1 (EImport fs pkg true) = Ok s2 /\ p_started s2 = (pkg, r) :: p_started s1 /\
    p_running s2 = pkg :: p_running s1.
Proof.
  intros env home es1 s1 fs pkg He E Hno.
  assert (G : forall es s s', pruns env home s es = Ok s' -> (forall fs' loads, ~ In (EImport fs' pkg loads) es) ->
     ~ In pkg (p_imported s) -> ~ In pkg (p_imported s')).
  { induction es as [|e es IH]; intros s s' E' Hno' Hn; cbn in E'; [congruence|].
    destruct (pstep env home s e) as [s2| |] eqn:E2; try discriminate. cbn in E'. eapply IH; eauto.
    - intros fs' l F. apply (Hno' fs' l). now right.
    - destruct e as [fs' p' l|]; cbn in E2.
      + destruct (import_spec fs' env home (p_imported s) p' He) as (imp & req & E3 & H1 & H2). rewrite E3 in E2. cbn in E2.
        assert (p' <> pkg) by (intros ->; apply (Hno' fs' l); now left).
        destruct (in_dec (list_eq_dec ascii_dec) p' (p_imported s)) as [Hin|Hn'].
        * destruct (H1 Hin) as (-> & ->). apply Ok_inj in E2. subst s2. auto.
        * destruct (H2 Hn') as (-> & root & r & _ & -> & _). destruct l; apply Ok_inj in E2; subst s2; cbn; intros [F|F]; auto.
      + apply Ok_inj in E2. subst s2. auto. }
  assert (Hn : ~ In pkg (p_imported s1)) by (eapply G; eauto). cbn.
  destruct (import_spec fs env home (p_imported s1) pkg He) as (imp & req & -> & _ & H2).
  destruct (H2 Hn) as (-> & root & r & HR & -> & HC). exists root, r. eexists. cbn. repeat split; auto.
Qed.

Example import_example :
  let fs := fun p => if list_eq_dec ascii_dec p (str "/c/pkg/a.so") then Some 3%Z
                     else if list_eq_dec ascii_dec p (str "/c/pkg/a.cora") then Some 4%Z
                     else if list_eq_dec ascii_dec p (str "/c/pkg/b.so") then Some 5%Z else None in
  match pruns (Some (str "/c")) [] psys0
     [EImport fs (str "a") true; EImport fs (str "b") true; EImport fs (str "a") true; EEnd; EEnd; EImport fs (str "b") true] with
  | Ok s => p_started s = [(str "b", LoadSo (str "/c/pkg/b.so") (str "b")); (str "a", LoadCora (str "/c/pkg/a.cora") (str "a"))]
  | _ => False
  end.
Proof. vm_compute. reflexivity. Qed.

(** A package whose load failed counts as imported: importing it again, with
    everything now in order, silently does nothing. *)
Theorem failed_import_sticks_refuted : exists es s,
  es = [EImport (fun _ => None) (str "a") false; EImport (fun _ => Some 1%Z) (str "a") true] /\
  pruns (Some (str "/c/")) [] psys0 es = Ok s /\ p_started s = [] /\ p_imported s = [str "a"].
Proof. eexists _, _. split; [reflexivity|]. vm_compute. auto. Qed.

(** One file under two names is run twice. *)
Theorem import_alias_refuted : exists es s,
  es = [EImport (fun _ => Some 1%Z) (str "x/a") true; EImport (fun _ => Some 1%Z) (str "x/./a") true] /\
  pruns (Some (str "/c/")) [] psys0 es = Ok s /\ List.length (p_started s) = 2%nat.
Proof. eexists _, _. split; [reflexivity|]. vm_compute. auto. Qed.

(** An empty CORAPATH reads before the start of the buffer. *)
Theorem empty_corapath_refuted : exists fs pkg, builtinImport fs (Some []) [] [] pkg = UB.
Proof. exists (fun _ => None), (str "a"). vm_compute. reflexivity. Qed.

Print Assumptions import_spec.
Print Assumptions imports_run.
Print Assumptions import_at_most_once.
Print Assumptions reimport_is_noop.
Print Assumptions first_import_starts.
