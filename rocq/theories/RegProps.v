(** Functions written in C (C82).

    A module registered under a package defines exactly its functions in the
    package, each with its number of arguments, and exports exactly them;
    registering the functions one by one comes to the same.  At the start of a
    program exactly the builtin functions are defined. *)
From Coq Require Import List ZArith Bool Ascii String Arith Lia.
From Verif Require Import Base StrModel NumModel TrieModel TrieProofs TrieProps RegModel RegSpec.
Import ListNotations.
Local Open Scope list_scope.

Definition reached (g : genv) : Prop := exists ops rs, gexec genv_empty ops = Ok (g, rs).
Lemma reached_inv : forall g, reached g -> genv_inv g.
Proof. intros g (ops & rs & E). exact (proj1 (gexec_inv ops _ _ _ genv_empty_inv E)). Qed.

Lemma look_gval : forall g s, genv_inv g -> look g s = Ok (gval g s).
Proof. intros g s I. unfold look. destruct (symbolGet_spec g s I) as (g' & -> & _). reflexivity. Qed.

Lemma cstr_clean : forall s, ~ In NUL s -> cstr s = s.
Proof.
  induction s as [|c s IH]; intros N; [reflexivity|]. cbn [cstr]. destruct (Ascii.eqb_spec c NUL) as [->|_]; [exfalso; apply N; now left|].
  rewrite IH; [reflexivity|]. intro; apply N; now right.
Qed.

Lemma in_package_clean : forall pkg n, ~ In NUL pkg -> ~ In NUL n -> cstr (in_package pkg n) = in_package pkg n.
Proof.
  intros pkg n P N. apply cstr_clean. unfold in_package. intro I. apply in_app_or in I. destruct I as [I|I]; [auto|].
  cbn in I. destruct I as [I|I]; [discriminate I|auto].
Qed.
Lemma in_package_inj : forall pkg a b, in_package pkg a = in_package pkg b -> a = b.
Proof. intros pkg a b E. unfold in_package in E. apply app_inv_head in E. cbn in E. congruence. Qed.

Definition key (pkg n : bytes) : bytes := match pkg with [] => n | _ => in_package pkg n end.
Lemma key_inj : forall pkg a b, key pkg a = key pkg b -> a = b.
Proof. intros [|c pkg] a b E; [exact E|exact (in_package_inj _ _ _ E)]. Qed.
Lemma variable_key : forall pkg n, ~ In NUL pkg -> ~ In NUL n -> variable pkg n = key pkg n.
Proof.
  intros [|c pkg] n P N; unfold variable; [cbn; now apply cstr_clean|].
  replace (Z.of_nat (List.length (c :: pkg)) >? 0)%Z with true by (symmetry; apply Z.gtb_lt; cbn; lia).
  rewrite (cstr_clean n N). exact (in_package_clean (c :: pkg) n P N).
Qed.

Lemma reg_loop_spec : forall A pkg es g x, genv_inv g -> ~ In NUL pkg -> c_names es ->
  exists g', reg_loop A pkg es g x = Ok (g', symbols A (map e_name es) x) /\ genv_inv g' /\
    (forall n, gval g' (key pkg n) = match last_named es n with Some e => callable A e | None => gval g (key pkg n) end) /\
    (forall s, (forall e, In e es -> s <> key pkg (e_name e)) -> gval g' s = gval g s).
Proof.
  intros A pkg. induction es as [|e r IH]; intros g x I P C.
  - exists g. cbn. auto.
  - inversion C as [|? ? C1 C2]; subst. cbn [reg_loop]. rewrite (variable_key _ _ P C1).
    destruct (primSet_spec g (key pkg (e_name e)) (a_native A (e_args e + 1) (e_func e) (e_args e)) I) as (g1 & -> & I1 & _ & V & O).
    cbn [obind]. destruct (IH g1 (a_cons A (a_sym A (cstr (e_name e))) x) I1 P C2) as (g' & -> & I' & L & K).
    exists g'. split; [|split; [exact I'|split]].
    + f_equal. f_equal. unfold symbols. cbn [map rev]. rewrite fold_right_app. cbn [fold_right]. now rewrite (cstr_clean _ C1).
    + intros n. rewrite L. cbn [last_named]. destruct (last_named r n); [reflexivity|].
      destruct (list_eq_dec ascii_dec (e_name e) n) as [<-|N].
      * rewrite V. unfold callable. now rewrite Nat.add_1_r.
      * apply O. intro E. apply N. symmetry. exact (key_inj _ _ _ E).
    + intros s S. rewrite K by (intros e' E'; apply S; now right). apply O. apply S. now left.
Qed.

Lemma last_named_none : forall es n, last_named es n = None <-> ~ In n (map e_name es).
Proof.
  induction es as [|e r IH]; intros n; cbn; [tauto|]. destruct (last_named r n) eqn:E.
  - split; [discriminate|]. intros N. exfalso. assert (X : last_named r n <> None) by congruence. apply X, IH. tauto.
  - destruct (list_eq_dec ascii_dec (e_name e) n) as [->|N]; [split; [discriminate|tauto]|].
    apply IH in E. tauto.
Qed.

(** * A module under a package *)
Theorem module_registered : forall A g es pkg, reached g -> pkg <> [] -> ~ In NUL pkg -> c_names es -> ~ In export_name (map e_name es) ->
  exists g', registerAPI A g es pkg = Ok g' /\
    (forall n e, last_named es n = Some e -> look g' (in_package pkg n) = Ok (callable A e)) /\
    look g' (in_package pkg export_name) = Ok (symbols A (map e_name es) Nil) /\
    (forall s, s <> in_package pkg export_name -> (forall n, In n (map e_name es) -> s <> in_package pkg n) -> look g' s = look g s).
Proof.
  intros A g es pkg R NE P C X. apply reached_inv in R. destruct pkg as [|c pk]; [contradiction|]. set (pkg := c :: pk) in *.
  unfold registerAPI. destruct (reg_loop_spec A pkg es g Nil R P C) as (g1 & -> & I1 & L & K). cbn [obind].
  replace (Z.of_nat (List.length pkg) >? 0)%Z with true by (symmetry; apply Z.gtb_lt; cbn; lia).
  change (pkg ++ chars "#*ns-export*") with (in_package pkg export_name).
  rewrite in_package_clean; [|exact P|cbn; intuition discriminate].
  destruct (primSet_spec g1 (in_package pkg export_name) (symbols A (map e_name es) Nil) I1) as (g' & -> & I' & _ & V & O).
  exists g'. split; [reflexivity|]. split; [|split].
  - intros n e E. rewrite (look_gval _ _ I'). rewrite O.
    + specialize (L n). rewrite E in L. exact (f_equal (@Ok Z) L).
    + intro Q. apply in_package_inj in Q. subst n. apply X. destruct (in_dec (list_eq_dec ascii_dec) export_name (map e_name es)); [assumption|].
      apply last_named_none in n. congruence.
  - rewrite (look_gval _ _ I'). now rewrite V.
  - intros s S1 S2. rewrite !look_gval by assumption. f_equal. rewrite O by exact S1. apply K. intros e E. exact (S2 _ (in_map _ _ _ E)).
Qed.
Print Assumptions module_registered.

(** Without a package the names themselves are defined and nothing else. *)
Theorem unnamed_registered : forall A g es, reached g -> c_names es ->
  exists g', registerAPI A g es [] = Ok g' /\
    (forall n e, last_named es n = Some e -> look g' n = Ok (callable A e)) /\
    (forall s, ~ In s (map e_name es) -> look g' s = look g s).
Proof.
  intros A g es R C. apply reached_inv in R. unfold registerAPI.
  destruct (reg_loop_spec A [] es g Nil R (fun F => F) C) as (g1 & -> & I1 & L & K). cbn [obind List.length]. change (Z.of_nat 0 >? 0)%Z with false.
  exists g1. split; [reflexivity|]. split.
  - intros n e E. rewrite (look_gval _ _ I1). specialize (L n). rewrite E in L. exact (f_equal (@Ok Z) L).
  - intros s S. rewrite !look_gval by assumption. f_equal. apply K. intros e E Q. apply S. rewrite Q. exact (in_map _ _ _ E).
Qed.
Print Assumptions unnamed_registered.

(** * One function at a time *)
Lemma one_spec : forall A g pkg e, genv_inv g -> ~ In NUL pkg -> ~ In NUL (e_name e) -> e_name e <> export_name ->
  exists g', coraRegisterAPI A g (Some pkg) e = Ok g' /\ genv_inv g' /\
    gval g' (in_package pkg (e_name e)) = callable A e /\
    gval g' (in_package pkg export_name) = a_cons A (a_sym A (e_name e))
      (if (gval g (in_package pkg export_name) =? Undef)%Z then Nil else gval g (in_package pkg export_name)) /\
    (forall s, s <> in_package pkg (e_name e) -> s <> in_package pkg export_name -> gval g' s = gval g s).
Proof.
  intros A g pkg e I P N X. unfold coraRegisterAPI. rewrite (cstr_clean pkg P), (cstr_clean _ N).
  change (pkg ++ [hash_sign] ++ e_name e) with (in_package pkg (e_name e)). rewrite (in_package_clean _ _ P N).
  change (pkg ++ chars "#*ns-export*") with (in_package pkg export_name). rewrite in_package_clean; [|exact P|cbn; intuition discriminate].
  destruct (primSet_spec g (in_package pkg (e_name e)) (a_native A (e_args e + 1) (e_func e) (e_args e)) I) as (g1 & -> & I1 & _ & V & O).
  cbn [obind]. set (k := in_package pkg export_name). set (w := a_cons A (a_sym A (e_name e))).
  assert (NK : k <> in_package pkg (e_name e)) by (intro Q; apply X; symmetry; exact (in_package_inj _ _ _ Q)).
  pose proof (symbolGet_spec g1 k I1) as (g2' & SG & _). unfold symbolGet in SG.
  destruct (primSet_spec g1 k (w (if (gval g1 k =? Undef)%Z then Nil else gval g1 k)) I1) as (g' & PS & I' & _ & V' & O').
  unfold primSet in PS. destruct (bindSymbol g1 k) as [g2 b]. destruct (globalRef g2 b) as [x| |]; [|discriminate|discriminate].
  cbn in SG. injection SG as _ ->. cbn [obind]. exists g'. split; [exact PS|]. split; [exact I'|]. split; [|split].
  - rewrite O' by congruence. rewrite V. unfold callable. now rewrite Nat.add_1_r.
  - rewrite V'. rewrite O by exact NK. reflexivity.
  - intros s S1 S2. rewrite O' by exact S2. exact (O s S1).
Qed.

Theorem one_by_one : forall A g es pkg, reached g -> ~ In NUL pkg -> c_names es -> ~ In export_name (map e_name es) ->
  (forall a b, a_cons A a b <> Undef) ->
  exists g', register_each A g (Some pkg) es = Ok g' /\
    (forall n e, last_named es n = Some e -> look g' (in_package pkg n) = Ok (callable A e)) /\
    (es <> [] -> forall x, look g (in_package pkg export_name) = Ok x ->
       look g' (in_package pkg export_name) = Ok (symbols A (map e_name es) (if (x =? Undef)%Z then Nil else x))) /\
    (forall s, s <> in_package pkg export_name -> (forall n, In n (map e_name es) -> s <> in_package pkg n) -> look g' s = look g s).
Proof.
  intros A g es pkg R P C X U. apply reached_inv in R.
  assert (G : forall es g, genv_inv g -> c_names es -> ~ In export_name (map e_name es) ->
    exists g', register_each A g (Some pkg) es = Ok g' /\ genv_inv g' /\
      (forall n, n <> export_name -> gval g' (in_package pkg n) = match last_named es n with Some e => callable A e | None => gval g (in_package pkg n) end) /\
      (gval g' (in_package pkg export_name) = match es with [] => gval g (in_package pkg export_name) | _ => symbols A (map e_name es)
         (if (gval g (in_package pkg export_name) =? Undef)%Z then Nil else gval g (in_package pkg export_name)) end) /\
      (forall s, s <> in_package pkg export_name -> (forall n, In n (map e_name es) -> s <> in_package pkg n) -> gval g' s = gval g s)).
  { clear R C X g es. induction es as [|e r IH]; intros g I C X; [exists g; cbn; auto|]. inversion C as [|? ? C1 C2]; subst.
    cbn [register_each]. destruct (one_spec A g pkg e I P C1) as (g1 & -> & I1 & V & E & O); [intro Q; apply X; left; exact Q|].
    cbn [obind]. destruct (IH g1 I1 C2) as (g' & -> & I' & L & E' & K); [intro Q; apply X; right; exact Q|].
    exists g'. split; [reflexivity|]. split; [exact I'|]. split; [|split].
    - intros n N. rewrite (L n N). cbn [last_named]. destruct (last_named r n); [reflexivity|].
      destruct (list_eq_dec ascii_dec (e_name e) n) as [<-|M]; [exact V|]. apply O.
      + intro Q. apply M. symmetry. exact (in_package_inj _ _ _ Q).
      + intro Q. exact (N (in_package_inj _ _ _ Q)).
    - rewrite E'. rewrite E. unfold symbols. cbn [map rev]. rewrite fold_right_app. cbn [fold_right].
      destruct r; [reflexivity|]. destruct (Z.eqb_spec (a_cons A (a_sym A (e_name e)) (if (gval g (in_package pkg export_name) =? Undef)%Z then Nil else gval g (in_package pkg export_name))) Undef) as [Q|_]; [elim (U _ _ Q)|reflexivity].
    - intros s S1 S2. rewrite (K s S1) by (intros n N; apply S2; now right). apply O; [apply S2; now left|exact S1]. }
  destruct (G es g R C X) as (g' & E & I' & L & V & K). exists g'. split; [exact E|]. split; [|split].
  - intros n e H. rewrite (look_gval _ _ I'). f_equal. rewrite L.
    + rewrite H. reflexivity.
    + intros ->. apply X. destruct (in_dec (list_eq_dec ascii_dec) export_name (map e_name es)); [assumption|]. apply last_named_none in n. congruence.
  - intros NE x Hx. rewrite (look_gval _ _ R) in Hx. injection Hx as <-. rewrite (look_gval _ _ I'), V. destruct es; [contradiction|reflexivity].
  - intros s S1 S2. rewrite !look_gval by assumption. f_equal. exact (K s S1 S2).
Qed.
Print Assumptions one_by_one.

(** * The start of a program *)
Lemma init_loop_spec : forall A l g, genv_inv g -> exists g', init_loop A g l = Ok g' /\ genv_inv g' /\
  forall s, gval g' s = match find (fun q => if list_eq_dec ascii_dec (chars (fst (fst (fst q)))) s then true else false) (rev l) with
                        | Some (_, fr, f, req) => a_native A fr f req | None => gval g s end.
Proof.
  intros A. induction l as [|[[[n fr] f] req] r IH]; intros g I; [exists g; cbn; auto|].
  cbn [init_loop]. destruct (primSet_spec g (chars n) (a_native A fr f req) I) as (g1 & -> & I1 & _ & V & O). cbn [obind].
  destruct (IH g1 I1) as (g' & -> & I' & L). exists g'. split; [reflexivity|]. split; [exact I'|]. intros s. rewrite L. cbn [rev].
  assert (FA : forall T (p : T -> bool) a b, find p (a ++ b) = match find p a with Some x => Some x | None => find p b end).
  { intros T p a b. induction a as [|x a IHa]; [reflexivity|]. cbn [app find]. destruct (p x); [reflexivity|exact IHa]. }
  rewrite FA. destruct (find _ (rev r)) as [[[[? ?] ?] ?]|]; [reflexivity|]. cbn [find fst].
  destruct (list_eq_dec ascii_dec (chars n) s) as [<-|N]; [exact V|apply O; congruence].
Qed.

Theorem start_of_a_program : forall A a, exists g, coraInit A (chars "0x" ++ a) = Ok g /\
  (forall n f k, In (n, f, k) builtins -> look g (chars n) = Ok (a_native A (S k) f k)) /\
  look g (chars "cora/init#*imported*") = Ok Nil /\ look g (chars "0x" ++ a) = Ok Nil /\
  (forall s, ~ In s (map (fun q => chars (fst (fst q))) builtins) -> s <> chars "cora/init#*imported*" -> s <> chars "0x" ++ a -> look g s = Ok Undef).
Proof.
  intros A a. unfold coraInit.
  destruct (init_loop_spec A init_table genv_empty genv_empty_inv) as (g1 & -> & I1 & L1). cbn [obind].
  destruct (primSet_spec g1 (chars "cora/init#*imported*") Nil I1) as (g2 & -> & I2 & _ & V2 & O2). cbn [obind].
  destruct (init_loop_spec A init_table2 g2 I2) as (g3 & -> & I3 & L3). cbn [obind].
  destruct (primSet_spec g3 (chars "0x" ++ a) Nil I3) as (g & -> & I & _ & V & O).
  exists g. split; [reflexivity|]. split; [|split; [|split]].
  - intros n f k H. rewrite (look_gval _ _ I). f_equal.
    assert (Z0 : chars n <> chars "0x" ++ a).
    { intro Q. apply (f_equal (fun l => hd NUL l)) in Q. cbn in H. repeat (destruct H as [H|H]; [injection H as <- <- <-; discriminate Q|]). exact H. }
    rewrite (O _ Z0), L3. cbn in H. repeat (destruct H as [H|H]; [injection H as <- <- <-; try reflexivity; cbn; rewrite O2 by discriminate; rewrite L1; reflexivity|]). contradiction.
  - rewrite (look_gval _ _ I). f_equal. rewrite O by discriminate. rewrite L3. exact V2.
  - rewrite (look_gval _ _ I). now rewrite V.
  - intros s N1 N2 N3. rewrite (look_gval _ _ I). f_equal. rewrite (O _ N3), L3.
    assert (F : forall l, (forall q, In q l -> In (chars (fst (fst (fst q)))) (map (fun q => chars (fst (fst q))) builtins)) ->
      find (fun q : string * nat * string * nat => if list_eq_dec ascii_dec (chars (fst (fst (fst q)))) s then true else false) l = None).
    { induction l as [|q l IH]; intros H; [reflexivity|]. cbn [find]. destruct (list_eq_dec ascii_dec (chars (fst (fst (fst q)))) s) as [Q|_].
      - exfalso. apply N1. rewrite <- Q. apply H. now left.
      - apply IH. intros q' Q'. apply H. now right. }
    rewrite F; [|intros q Q; apply in_rev in Q; cbn in Q; repeat (destruct Q as [<-|Q]; [cbn; tauto|]); contradiction].
    rewrite (O2 _ N2), L1.
    rewrite F; [reflexivity|intros q Q; apply in_rev in Q; cbn in Q; repeat (destruct Q as [<-|Q]; [cbn; tauto|]); contradiction].
Qed.
Print Assumptions start_of_a_program.

(** * What fails *)
Definition words : objects := mkObjects (fun s => fnv1a64 s) (fun a b => (a * 2 + b * 3 + 7)%Z) (fun n f k => (Z.of_nat n + 100 * Z.of_nat (String.length f))%Z).
Definition mod1 := [mkEn (chars "f") "cf" 1].
Definition mod2 := [mkEn (chars "g") "cg" 2].

(** Of two modules registered under one package only the second is exported:
    the functions of the first stay defined, and no import finds them. *)
Theorem second_module_refuted : exists A g g', registerAPI A genv_empty mod1 (chars "p") = Ok g /\ registerAPI A g mod2 (chars "p") = Ok g' /\
  look g' (chars "p#f") = Ok (callable A (mkEn (chars "f") "cf" 1)) /\
  look g' (chars "p#*ns-export*") = Ok (symbols A [chars "g"] Nil) /\ look g' (chars "p#*ns-export*") <> Ok (symbols A [chars "f"; chars "g"] Nil).
Proof. exists words. eexists. eexists. split; [vm_compute; reflexivity|]. split; [vm_compute; reflexivity|]. vm_compute. repeat split. discriminate. Qed.

(** A package name with a NUL byte is cut before the sign: what is defined is a
    variable of the program, and its value is the list of exports. *)
Theorem nul_package_refuted : exists A pkg g g', primSet genv_empty (chars "a") 5%Z = Ok g /\
  registerAPI A g mod1 pkg = Ok g' /\ look g' (in_package pkg (chars "f")) = Ok Undef /\ look g' (chars "a") = Ok (symbols A [chars "f"] Nil).
Proof. exists words, (chars "a" ++ [NUL] ++ chars "b"). eexists. eexists. split; [vm_compute; reflexivity|]. split; [vm_compute; reflexivity|]. vm_compute. auto. Qed.

(** An empty package name means no package to registerAPI and a package with an
    empty name to coraRegisterAPI. *)
Theorem empty_package_refuted : exists A g g', registerAPI A genv_empty mod1 [] = Ok g /\ register_each A genv_empty (Some []) mod1 = Ok g' /\
  look g (chars "f") <> look g' (chars "f").
Proof. exists words. eexists. eexists. split; [vm_compute; reflexivity|]. split; [vm_compute; reflexivity|]. vm_compute. discriminate. Qed.

(** A library that is loaded again exports its functions twice. *)
Theorem loaded_again_refuted : exists A g g', register_each A genv_empty (Some (chars "p")) mod1 = Ok g /\ register_each A g (Some (chars "p")) mod1 = Ok g' /\
  look g' (chars "p#*ns-export*") = Ok (symbols A [chars "f"; chars "f"] Nil).
Proof. exists words. eexists. eexists. split; [vm_compute; reflexivity|]. split; [vm_compute; reflexivity|]. vm_compute. reflexivity. Qed.

Example module_example : let es := [mkEn (chars "f") "cf" 1; mkEn (chars "g") "cg" 2; mkEn (chars "f") "cf2" 3] in
  reached genv_empty /\ c_names es /\ ~ In export_name (map e_name es) /\ last_named es (chars "f") = Some (mkEn (chars "f") "cf2" 3) /\
  exists g, registerAPI words genv_empty es (chars "p/q") = Ok g /\ look g (chars "p/q#f") = Ok (a_native words 4 "cf2" 3).
Proof.
  split; [exists [], []; reflexivity|]. split; [repeat constructor; cbn; intuition discriminate|]. split; [cbn; intuition discriminate|].
  split; [reflexivity|]. eexists. split; [vm_compute; reflexivity|]. vm_compute. reflexivity.
Qed.
