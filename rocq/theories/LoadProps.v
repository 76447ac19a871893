(** C85: what load compiles, where the compiled file goes and what is loaded. *)
From Coq Require Import List ZArith Bool Ascii String Arith Lia.
From Verif Require Import Base StrModel StrProofs ReaderModel ReaderSpec ReaderProofs IoSpec IoProofs IoProps PkgModel PkgProps LoadModel.
Import ListNotations.
Local Open Scope nat_scope.
Local Open Scope list_scope.

(** ** Specification *)

(** A file name without characters that the shell treats specially. *)
Definition plain_name (s : bytes) : Prop := s <> [] /\ Forall plain s.

(** The names of the files in /tmp for load number [n] of a process. *)
Definition numbered (n : Z) (ext s : bytes) : Prop := exists d, decimal d n /\ s = str "/tmp/cora-xxx-" ++ d ++ ext.

(** The command line that compiles the C file [c] to the shared library [so]. *)
Definition gcc (src c so : bytes) : list bytes :=
  [str "gcc"; str "-shared"; str "-I" ++ src; str "-g"; str "-fPIC"; c; str "-o"; so; str "-ldl"; str "-lm"; str "-L" ++ src; str "-lcora"].

(** [file] comes before [root] in the order of ASCII. *)
Definition before (file root : bytes) : Prop :=
  (exists r, root = file ++ r) \/
  (exists p c x d y, file = p ++ c :: x /\ root = p ++ d :: y /\ nat_of_ascii c < nat_of_ascii d).

(** A load of [file]: it is compiled to [c], [c] is compiled to [so] by one
    command, and exactly if that succeeds [so] is loaded. *)
Definition load_does (status : bytes -> Z) (src file c so : bytes) (acts : list action) (r : result) : Prop :=
  exists cmd, acts = [Compile file c; System cmd] /\ shell_words cmd = gcc src c so /\
    (status cmd = 0%Z -> r = Loaded so) /\ (status cmd <> 0%Z -> r = Status (status cmd)).

(** ** Numbers *)

Lemma dec_digits_short : forall k f n, (0 <= n < 10 ^ Z.of_nat k)%Z -> 0 < k -> List.length (dec_digits f n) <= k.
Proof.
  induction k as [|k IH]; intros f n H K; [lia|]. destruct f as [|f]; [cbn; lia|]. cbn [dec_digits].
  destruct (Z.ltb_spec n 10); [cbn; lia|]. rewrite app_length. cbn [List.length].
  destruct k as [|k]; [change (10 ^ Z.of_nat 1)%Z with 10%Z in H; lia|].
  assert (List.length (dec_digits f (n / 10)) <= S k); [|lia]. apply IH; [|lia].
  rewrite Nat2Z.inj_succ, Z.pow_succ_r in H by lia. split; [apply Z.div_pos; lia|apply Z.div_lt_upper_bound; lia].
Qed.

Lemma printNum_pos : forall n, (0 <= n < 2^31)%Z -> decimal (printNum n) n /\ List.length (printNum n) <= 10.
Proof.
  intros n H. unfold printNum. destruct (Z.ltb_spec n 0); [lia|]. unfold dec_nat. split; [apply dec_digits_spec; lia|].
  apply dec_digits_short; [|lia]. change (Z.of_nat 10) with 10%Z. lia.
Qed.

Lemma digit_plain : forall c, digit_char c -> plain c.
Proof. intros c H. unfold digit_char in H. cbn [map In] in H. left. repeat (destruct H as [<-|H]; [vm_compute; lia|]). contradiction. Qed.
Lemma decimal_plain : forall d n, decimal d n -> Forall plain d.
Proof. induction 1; [constructor; [now apply digit_plain|constructor]|]. apply Forall_app. split; [assumption|]. constructor; [now apply digit_plain|constructor]. Qed.

Definition plainb (c : ascii) : bool :=
  let n := nat_of_ascii c in
  ((48 <=? n) && (n <=? 57)) || ((65 <=? n) && (n <=? 90)) || ((97 <=? n) && (n <=? 122)) ||
  existsb (Ascii.eqb c) ["_"; "."; "/"; "-"; "+"; ","; ":"; "@"; "%"]%char.
Lemma plainb_plain : forall c, plainb c = true -> plain c.
Proof.
  intros c H. unfold plainb in H. cbv zeta in H. rewrite !orb_true_iff, !andb_true_iff, !Nat.leb_le, existsb_exists in H. unfold plain.
  destruct H as [[[H|H]|H]|(x & I & E)]; auto. apply Ascii.eqb_eq in E as ->. auto.
Qed.
Lemma plain_text : forall s, forallb plainb s = true -> Forall plain s.
Proof. intros s H. rewrite forallb_forall in H. apply Forall_forall. auto using plainb_plain. Qed.

(** ** Words *)

Lemma words_cons : forall w s, w <> [] -> Forall plain w -> shell_words (w ++ " "%char :: s) = w :: shell_words s.
Proof.
  intros w s N P. unfold shell_words. rewrite parts_app, filter_app, parts_none.
  - destruct w; [contradiction|reflexivity].
  - intro I. rewrite Forall_forall in P. exact (proj1 (plain_not _ (P _ I)) eq_refl).
Qed.
Lemma words_last : forall w, w <> [] -> Forall plain w -> shell_words w = [w].
Proof.
  intros w N P. unfold shell_words. rewrite parts_none; [destruct w; [contradiction|reflexivity]|].
  intro I. rewrite Forall_forall in P. exact (proj1 (plain_not _ (P _ I)) eq_refl).
Qed.

Lemma command_words : forall src n so, plain_name src -> plain_name so -> (0 <= n < 2^31)%Z ->
  2 * List.length src + List.length so + List.length (printNum n) <= 448 ->
  shell_words (command src n so) = gcc src (str "/tmp/cora-xxx-" ++ printNum n ++ str ".c") so.
Proof.
  intros src n so (S1 & S2) (O1 & O2) N L. destruct (printNum_pos n N) as (D & _). apply decimal_plain in D.
  unfold command, snprintf. rewrite firstn_all2 by (rewrite !app_length; cbn [List.length list_ascii_of_string]; lia).
  assert (A : forall a b : bytes, Forall plain a -> Forall plain b -> Forall plain (a ++ b)) by (intros; apply Forall_app; auto).
  set (num := printNum n) in *. clearbody num.
  transitivity (shell_words (str "gcc" ++ " "%char :: str "-shared" ++ " "%char :: (str "-I" ++ src) ++ " "%char :: str "-g" ++ " "%char :: str "-fPIC" ++ " "%char ::
    (str "/tmp/cora-xxx-" ++ num ++ str ".c") ++ " "%char :: str "-o" ++ " "%char :: so ++ " "%char :: str "-ldl" ++ " "%char :: str "-lm" ++ " "%char ::
    (str "-L" ++ src) ++ " "%char :: str "-lcora")).
  { f_equal. unfold str. cbn [list_ascii_of_string app]. now rewrite <- !app_assoc. }
  rewrite !words_cons, words_last; try (apply plain_text; reflexivity); try discriminate; try assumption; [reflexivity|..];
    repeat apply A; try assumption; try (apply plain_text; reflexivity).
Qed.

(** ** Comparing *)

Definition ascii7 (s : bytes) : Prop := Forall (fun c => nat_of_ascii c < 128) s.

Lemma strCmp_app : forall p a b, strCmp (p ++ a) (p ++ b) = strCmp a b.
Proof.
  induction p as [|c p IH]; intros a b; [reflexivity|]. cbn [app strCmp]. rewrite Z.ltb_irrefl. apply IH.
Qed.
Lemma schar_ascii : forall c, nat_of_ascii c < 128 -> schar c = Z.of_nat (nat_of_ascii c).
Proof. intros c H. unfold schar. cbv zeta. destruct (Z.ltb_spec (Z.of_nat (nat_of_ascii c)) 128); lia. Qed.
Lemma strCmp_before : forall f r, ascii7 f -> ascii7 r -> before f r -> (strCmp f r <= 0)%Z.
Proof.
  intros f r F R [(q & ->)|(p & c & x & d & y & -> & -> & L)].
  - rewrite <- (app_nil_r f) at 1. rewrite strCmp_app. destruct q; cbn [strCmp List.length]; lia.
  - rewrite strCmp_app. apply Forall_app in F as (_ & F). apply Forall_app in R as (_ & R). inversion F; inversion R; subst.
    cbn [strCmp]. rewrite !schar_ascii by assumption. destruct (Z.ltb_spec (Z.of_nat (nat_of_ascii d)) (Z.of_nat (nat_of_ascii c))); [lia|].
    destruct (Z.ltb_spec (Z.of_nat (nat_of_ascii c)) (Z.of_nat (nat_of_ascii d))); lia.
Qed.
Lemma strCmp_after : forall p c x d y, ascii7 (p ++ c :: x) -> ascii7 (p ++ d :: y) -> nat_of_ascii d < nat_of_ascii c ->
  (0 < strCmp (p ++ c :: x) (p ++ d :: y))%Z.
Proof.
  intros p c x d y F R L. rewrite strCmp_app. apply Forall_app in F as (_ & F). apply Forall_app in R as (_ & R). inversion F; inversion R; subst.
  cbn [strCmp]. rewrite !schar_ascii by assumption. destruct (Z.ltb_spec (Z.of_nat (nat_of_ascii d)) (Z.of_nat (nat_of_ascii c))); lia.
Qed.
Lemma strCmp_longer : forall p x, x <> [] -> (0 < strCmp (p ++ x) p)%Z.
Proof.
  intros p x N. replace p with (p ++ []) at 2 by apply app_nil_r. rewrite strCmp_app. destruct x; [contradiction|]. cbn [strCmp List.length]. lia.
Qed.

Lemma root_unique : forall env home r r', root_dir env home r -> root_dir env home r' -> r = r'.
Proof. intros env home r r' [(A & ->)|(A & B & ->)] [(A' & ->)|(A' & B' & ->)]; congruence || contradiction. Qed.

Lemma strSub_prefix : forall base ext, List.length ext = 5 -> strSub (base ++ ext) 0 (Z.of_nat (List.length (base ++ ext)) - 5) = base.
Proof.
  intros base ext L. rewrite app_length, L. unfold strSub. rewrite app_length, L. unfold ptrByIdx. change (0 <=? 0)%Z with true. cbv iota.
  destruct (Z.leb_spec 0 (Z.of_nat (List.length base + 5))); [|lia].
  destruct (Z.leb_spec 0 (Z.of_nat (List.length base + 5) - 5)); [|lia].
  destruct (Z.leb_spec (Z.of_nat (List.length base + 5) - 5) (Z.of_nat (List.length base + 5))); [|lia].
  destruct (Z.leb_spec (Z.of_nat (List.length base + 5) - 5) 0).
  - destruct base; [reflexivity|cbn [List.length] in *; lia].
  - change (skipn (Z.to_nat 0) (base ++ ext)) with (base ++ ext).
    replace (Z.to_nat (Z.of_nat (List.length base + 5) - 5 - 0)) with (List.length base) by lia. now rewrite firstn_app, Nat.sub_diag, firstn_all, app_nil_r.
Qed.

(** The library of a file that sorts after the root. *)
Lemma so_after : forall env home n root base ext, env <> Some [] -> root_dir env home root -> List.length ext = 5 ->
  Forall plain base -> (0 < strCmp (base ++ ext) root)%Z -> so_file env home n (base ++ ext) = Ok (base ++ str ".so").
Proof.
  intros env home n root base ext E R L P C. unfold so_file.
  destruct (getCoraPath_repr env home E) as (b & r & -> & B & R'). cbn [obind]. rewrite (toStr_repr _ _ B). cbn [obind].
  rewrite <- (root_unique _ _ _ _ R R'). destruct (Z.ltb_spec 0 (strCmp (base ++ ext) root)); [|lia].
  destruct (strNew_repr (List.length (base ++ ext) - 2)) as (t & -> & T & _); [rewrite app_length; lia|]. cbn [obind].
  rewrite strSub_prefix by assumption. destruct (strCat_repr _ _ base T) as (t1 & -> & T1). cbn [obind].
  destruct (strCat_repr _ _ (list_ascii_of_string ".so") T1) as (t2 & -> & T2). cbn [obind]. rewrite (toStr_repr _ _ T2). cbn [obind app].
  f_equal. apply IoProofs.cstr_id. intro I. apply in_app_or in I as [I|I].
  - rewrite Forall_forall in P. exact (proj2 (plain_not _ (P _ I)) eq_refl).
  - cbn in I. repeat (destruct I as [I|I]; [discriminate I|]). exact I.
Qed.

Lemma load_so : forall env home src status n file so, (1 <= n < 2^31 - 1)%Z -> plain_name src -> plain_name so ->
  2 * List.length src + List.length so <= 438 -> so_file env home n file = Ok so ->
  exists c acts r, builtinLoad env home src status n file = Ok ((n + 1)%Z, acts, r) /\
    numbered n (str ".c") c /\ load_does status src file c so acts r.
Proof.
  intros env home src status n file so N S O L E. destruct (printNum_pos n) as (D & Dl); [lia|].
  exists (str "/tmp/cora-xxx-" ++ printNum n ++ str ".c"). unfold builtinLoad. destruct (Z.eqb_spec n (2^31 - 1)); [lia|]. rewrite E. cbn [obind].
  eexists _, _. split; [reflexivity|]. split; [now exists (printNum n)|].
  exists (command src n so). split; [|split].
  - unfold c_file, snprintf. rewrite firstn_all2; [reflexivity|]. rewrite !app_length. cbn [List.length list_ascii_of_string]. lia.
  - apply command_words; auto; lia.
  - destruct (Z.eqb_spec (status (command src n so)) 0); split; congruence.
Qed.

(** ** Theorems *)

(** A file of the package directory is compiled to the library beside it, which
    is loaded if and only if the compiler succeeded. *)
Theorem load_package : forall env home src status n root name, env <> Some [] -> root_dir env home root ->
  (1 <= n < 2^31 - 1)%Z -> plain_name src -> Forall plain (root ++ name) ->
  2 * List.length src + List.length (root ++ name ++ str ".so") <= 438 ->
  exists c acts r, builtinLoad env home src status n (root ++ name ++ str ".cora") = Ok ((n + 1)%Z, acts, r) /\
    numbered n (str ".c") c /\
    load_does status src (root ++ name ++ str ".cora") c (root ++ name ++ str ".so") acts r.
Proof.
  intros env home src status n root name E R N S P L. apply load_so; auto.
  - split; [destruct root; [destruct name|]; discriminate|]. rewrite app_assoc. apply Forall_app. split; [assumption|]. apply plain_text. reflexivity.
  - rewrite !app_assoc. apply so_after with root; auto. rewrite <- app_assoc. apply strCmp_longer. destruct name; discriminate.
Qed.

(** A file before the package directory in ASCII order is compiled to a library
    in /tmp, numbered like the C file. *)
Theorem load_elsewhere : forall env home src status n root file, env <> Some [] -> root_dir env home root ->
  (1 <= n < 2^31 - 1)%Z -> plain_name src -> ascii7 root -> ascii7 file -> before file root -> List.length src <= 200 ->
  exists c so acts r, builtinLoad env home src status n file = Ok ((n + 1)%Z, acts, r) /\
    numbered n (str ".c") c /\ numbered n (str ".so") so /\ load_does status src file c so acts r.
Proof.
  intros env home src status n root file E R N S A F B L. destruct (printNum_pos n) as (D & Dl); [lia|].
  set (so := str "/tmp/cora-xxx-" ++ printNum n ++ str ".so").
  assert (O : so_file env home n file = Ok so).
  { unfold so_file. destruct (getCoraPath_repr env home E) as (b & r & -> & Rb & R'). cbn [obind]. rewrite (toStr_repr _ _ Rb). cbn [obind].
    rewrite <- (root_unique _ _ _ _ R R'). pose proof (strCmp_before file root F A B). destruct (Z.ltb_spec 0 (strCmp file root)); [lia|].
    unfold snprintf. rewrite firstn_all2; [reflexivity|]. rewrite !app_length. cbn [List.length list_ascii_of_string]. lia. }
  destruct (load_so env home src status n file so) as (c & acts & r & H & C & H'); auto.
  - split; [discriminate|]. unfold so. apply Forall_app. split; [apply plain_text; reflexivity|]. apply Forall_app. split; [exact (decimal_plain _ _ D)|apply plain_text; reflexivity].
  - unfold so. rewrite !app_length. cbn [str List.length list_ascii_of_string]. lia.
  - exists c, so, acts, r. split; [exact H|]. split; [exact C|]. split; [now exists (printNum n)|exact H'].
Qed.

(** A file after the package directory in ASCII order is treated like a file of
    a package wherever it is, whatever the last five characters of its name are. *)
Theorem load_beside : forall env home src status n p c x d y base ext, env <> Some [] -> root_dir env home (p ++ d :: y) ->
  (1 <= n < 2^31 - 1)%Z -> plain_name src -> ascii7 (p ++ d :: y) -> ascii7 (p ++ c :: x) ->
  nat_of_ascii d < nat_of_ascii c -> p ++ c :: x = base ++ ext -> List.length ext = 5 -> Forall plain base ->
  2 * List.length src + List.length (base ++ str ".so") <= 438 ->
  exists cf acts r, builtinLoad env home src status n (p ++ c :: x) = Ok ((n + 1)%Z, acts, r) /\
    numbered n (str ".c") cf /\ load_does status src (p ++ c :: x) cf (base ++ str ".so") acts r.
Proof.
  intros env home src status n p c x d y base ext E R N S A F O EQ X P L. apply load_so; auto.
  - split; [destruct base; discriminate|]. apply Forall_app. split; [assumption|]. apply plain_text. reflexivity.
  - pose proof (strCmp_after p c x d y F A O) as C. rewrite EQ in *. eapply so_after; eauto.
Qed.

(** When import asks for a source file, load compiles it to the library that a
    later import of the same package takes. *)
Theorem import_then_load : forall fs env home imported pkg imported' file pkg' src status n, env <> Some [] ->
  builtinImport fs env home imported pkg = Ok (imported', Some (LoadCora file pkg')) ->
  (1 <= n < 2^31 - 1)%Z -> plain_name src -> Forall plain file -> 2 * List.length src + List.length file <= 440 ->
  exists so c acts r, builtinLoad env home src status n file = Ok ((n + 1)%Z, acts, r) /\ load_does status src file c so acts r /\
    forall fs' imported2 t, ~ In pkg imported2 -> fs' so = Some t -> (forall t', fs' file = Some t' -> (t' <= t)%Z) ->
      builtinImport fs' env home imported2 pkg = Ok (pkg :: imported2, Some (LoadSo so pkg)).
Proof.
  intros fs env home imported pkg imported' file pkg' src status n E I N S P L.
  destruct (import_spec fs env home imported pkg E) as (im & req & I' & H1 & H2). rewrite I in I'. injection I' as <- <-.
  assert (X : ~ In pkg imported) by (intro X; destruct (H1 X); discriminate).
  destruct (H2 X) as (_ & root & r & R & Q & C). injection Q as <-. destruct C as [(_ & C)|(NU & C)]; [discriminate|].
  assert (C1 : file = (root ++ str "pkg/" ++ pkg) ++ str ".cora") by congruence. clear C H1 H2 I. subst file.
  set (base := root ++ str "pkg/" ++ pkg) in *.
  destruct (load_package env home src status n root (str "pkg/" ++ pkg) E R N S) as (c & acts & r & B & _ & D).
  - apply Forall_app in P. apply P.
  - unfold base in L. rewrite <- !app_assoc in L. rewrite !app_length in *. cbn [List.length str list_ascii_of_string] in *. lia.
  - exists (base ++ str ".so"), c, acts, r. replace (base ++ str ".cora") with (root ++ (str "pkg/" ++ pkg) ++ str ".cora") by (unfold base; now rewrite <- !app_assoc).
    split; [exact B|]. split; [replace (base ++ str ".so") with (root ++ (str "pkg/" ++ pkg) ++ str ".so") by (unfold base; now rewrite <- !app_assoc); exact D|].
    intros fs' im2 t N2 T1 T2. destruct (import_spec fs' env home im2 pkg E) as (im' & req & I' & _ & H). rewrite I'.
    destruct (H N2) as (-> & root' & r' & R' & -> & C). rewrite <- (root_unique _ _ _ _ R R') in C. fold base in C.
    destruct C as [(_ & ->)|(U & _)]; [reflexivity|]. exfalso. apply U. exists t. split; [exact T1|].
    intros t' T'. apply T2. unfold base in T'. rewrite <- !app_assoc in *. exact T'.
Qed.

(** The C files of one process all have different names. *)
Definition c_files (l : list (list action * result)) : list bytes :=
  flat_map (fun p => flat_map (fun a => match a with Compile _ c => [c] | System _ => [] end) (fst p)) l.

Theorem loads_apart : forall env home src status files l, loads env home src status unique0 files = Ok l ->
  List.length (c_files l) = List.length files /\ NoDup (c_files l).
Proof.
  intros env home src status files l H.
  assert (G : forall files n l, (1 <= n <= 2^31 - 1)%Z -> loads env home src status n files = Ok l ->
    List.length (c_files l) = List.length files /\ NoDup (c_files l) /\
    forall c, In c (c_files l) -> exists m, (n <= m < 2^31)%Z /\ numbered m (str ".c") c).
  { clear files l H. induction files as [|f files IH]; intros n l N H; cbn [loads] in H.
    - injection H as <-. repeat split; [constructor|]. intros c [].
    - unfold builtinLoad in H. destruct (Z.eqb_spec n (2^31 - 1)); [discriminate|].
      destruct (so_file env home n f) as [so| |]; try discriminate. cbn [obind] in H.
      destruct (loads env home src status (n + 1) files) as [rest| |] eqn:R; try discriminate. cbn [obind] in H. injection H as <-.
      destruct (IH (n + 1)%Z rest) as (A & B & C); [lia|exact R|].
      cbn [c_files flat_map fst app]. fold (c_files rest).
      assert (D : numbered n (str ".c") (c_file n)).
      { destruct (printNum_pos n) as (D & Dl); [lia|]. exists (printNum n). split; [exact D|]. unfold c_file, snprintf.
        rewrite firstn_all2; [reflexivity|]. rewrite !app_length. cbn [List.length list_ascii_of_string]. lia. }
      repeat split.
      + cbn [List.length]. now rewrite A.
      + constructor; [|exact B]. intro I. destruct (C _ I) as (m & M & d & D1 & E1). destruct D as (d' & D2 & E2). rewrite E2 in E1.
        apply app_inv_head, app_inv_tail in E1. subst d'. apply decimal_spec in D1, D2. lia.
      + intros c [<-|I]; [exists n; split; [lia|exact D]|]. destruct (C _ I) as (m & M & Q). exists m. split; [lia|exact Q]. }
  destruct (G files unique0 l) as (A & B & _); auto. unfold unique0. lia.
Qed.

(** ** What does not hold *)

Definition ok : bytes -> Z := fun _ => 0%Z.

(** A relative name sorts after every absolute directory. The library is then
    written beside the file, but the name given to load-so has no slash, so
    dlopen looks for it where libraries are installed. *)
Theorem relative_name_refuted : exists root file acts so,
  builtinLoad (Some root) [] (str "/c/src") ok 1 file = Ok (2%Z, acts, Loaded so) /\ ~ In "/"%char so.
Proof.
  exists (str "/home/u/cora/"), (str "hello.cora"). eexists _, (str "hello.so"). split; [vm_compute; reflexivity|].
  cbn. intuition discriminate.
Qed.

(** Two files with short extensions are compiled to the same library. *)
Theorem extension_refuted : exists root f1 f2 a1 a2 so, f1 <> f2 /\
  builtinLoad (Some root) [] (str "/c/src") ok 1 f1 = Ok (2%Z, a1, Loaded so) /\
  builtinLoad (Some root) [] (str "/c/src") ok 1 f2 = Ok (2%Z, a2, Loaded so).
Proof.
  exists (str "/home/u/cora/"), (str "/srv/a1.lsp"), (str "/srv/a2.lsp"). eexists _, _, (str "/srv/a.so").
  split; [discriminate|]. split; vm_compute; reflexivity.
Qed.

(** Names of one or two characters fail an assertion. *)
Theorem short_name_refuted : exists root, builtinLoad (Some root) [] (str "/c/src") ok 1 (str "ab") = Trap.
Proof. exists (str "/home/u/cora/"). vm_compute. reflexivity. Qed.

(** Names reach the shell without quotes. *)
Theorem space_refuted : exists root file so c cmd r,
  builtinLoad (Some root) [] (str "/c/src") ok 1 (root ++ file ++ str ".cora") = Ok (2%Z, [Compile (root ++ file ++ str ".cora") c; System cmd], r) /\
  so = root ++ file ++ str ".so" /\ In (str "rm") (shell_words cmd) /\ ~ In so (shell_words cmd).
Proof.
  exists (str "/home/u/cora/"), (str "x; rm -r y"). eexists _, _, _, _. split; [vm_compute; reflexivity|]. split; [reflexivity|].
  split; [vm_compute; tauto|]. vm_compute. intuition discriminate.
Qed.

(** A command of more than 511 characters is cut; this one has 512. *)
Theorem long_name_refuted : exists root file c cmd r,
  Forall plain (root ++ file) /\
  builtinLoad (Some root) [] (str "/c/src") ok 1 (root ++ file ++ str ".cora") = Ok (2%Z, [Compile (root ++ file ++ str ".cora") c; System cmd], r) /\
  ~ In (str "-lcora") (shell_words cmd).
Proof.
  exists (str "/home/u/cora/"), (repeat "d"%char 420). eexists _, _, _. split; [apply plain_text; vm_compute; reflexivity|].
  split; [vm_compute; reflexivity|]. vm_compute. intuition discriminate.
Qed.

(** Two processes use the same names in /tmp. *)
Theorem processes_refuted : exists root f1 f2 l1 l2 x, f1 <> f2 /\
  loads (Some root) [] (str "/c/src") ok unique0 [f1] = Ok l1 /\ loads (Some root) [] (str "/c/src") ok unique0 [f2] = Ok l2 /\
  map snd l1 = [Loaded x] /\ map snd l2 = [Loaded x].
Proof.
  exists (str "/home/u/cora/"), (str "/bin/a.cora"), (str "/bin/b.cora"). eexists _, _, (str "/tmp/cora-xxx-1.so").
  split; [discriminate|]. split; [vm_compute; reflexivity|]. split; [vm_compute; reflexivity|]. split; vm_compute; reflexivity.
Qed.

(** ** Examples *)

Example package_premises : root_dir (Some (str "/home/u/cora")) [] (str "/home/u/cora/") /\ plain_name (str "/c/src") /\
  Forall plain (str "/home/u/cora/" ++ str "pkg/cora/lib/toc") /\ before (str "/etc/x.cora") (str "/home/u/cora/").
Proof.
  split; [|split; [|split]].
  - right. split; [|split; [discriminate|reflexivity]]. intros (q & Q).
    change (str "/home/u/cora") with (str "/home/u/cor" ++ ["a"%char]) in Q. apply app_inj_tail in Q as (_ & Q). discriminate Q.
  - split; [discriminate|]. apply plain_text. reflexivity.
  - apply plain_text. reflexivity.
  - right. exists (str "/"), "e"%char, (str "tc/x.cora"), "h"%char, (str "ome/u/cora/"). split; [reflexivity|]. split; [reflexivity|]. vm_compute. lia.
Qed.
Example package_load : builtinLoad (Some (str "/home/u/cora")) [] (str "/c/src") (fun _ => 256%Z) 7 (str "/home/u/cora/pkg/a.cora") =
  Ok (8%Z, [Compile (str "/home/u/cora/pkg/a.cora") (str "/tmp/cora-xxx-7.c");
         System (str "gcc -shared -I/c/src -g -fPIC /tmp/cora-xxx-7.c -o /home/u/cora/pkg/a.so -ldl -lm -L/c/src -lcora")], Status 256).
Proof. vm_compute. reflexivity. Qed.
Example import_asks : builtinImport (fun _ => None) (Some (str "/home/u/cora")) [] [] (str "a") = Ok ([str "a"], Some (LoadCora (str "/home/u/cora/pkg/a.cora") (str "a"))).
Proof. vm_compute. reflexivity. Qed.
Example three_loads : match loads (Some (str "/home/u/cora")) [] (str "/c/src") ok unique0 [str "/a.cora"; str "/z.cora"; str "/a.cora"] with
  Ok l => c_files l | _ => [] end = [str "/tmp/cora-xxx-1.c"; str "/tmp/cora-xxx-2.c"; str "/tmp/cora-xxx-3.c"].
Proof. vm_compute. reflexivity. Qed.

Print Assumptions load_package.
Print Assumptions load_elsewhere.
Print Assumptions load_beside.
Print Assumptions import_then_load.
Print Assumptions loads_apart.
Print Assumptions relative_name_refuted.
Print Assumptions extension_refuted.
Print Assumptions short_name_refuted.
Print Assumptions space_refuted.
Print Assumptions long_name_refuted.
Print Assumptions processes_refuted.
