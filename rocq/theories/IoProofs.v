(** Lemmas for IoProps.v. *)
From Coq Require Import List ZArith Bool Ascii Arith Lia.
From Verif Require Import Base NumModel StrModel StrProps IoSpec IoModel.
Import ListNotations.
Local Open Scope list_scope.
Local Open Scope nat_scope.

Lemma parts_app : forall sep a b, parts sep (a ++ sep :: b) = parts sep a ++ parts sep b.
Proof.
  intros sep a b. induction a as [|c a IH]; cbn [app parts].
  - rewrite Ascii.eqb_refl. reflexivity.
  - destruct (Ascii.eqb c sep); [rewrite IH; reflexivity|]. rewrite IH. destruct (parts sep a) eqn:E; [|reflexivity].
    exfalso. destruct a as [|d a]; cbn in E; [discriminate|]. destruct (Ascii.eqb d sep); [discriminate|]. destruct (parts sep a); discriminate.
Qed.
Lemma parts_none : forall sep s, ~ In sep s -> parts sep s = [s].
Proof.
  intros sep s. induction s as [|c s IH]; intros H; [reflexivity|]. cbn [parts]. destruct (Ascii.eqb_spec c sep) as [->|N]; [exfalso; apply H; left; reflexivity|].
  rewrite IH by (intro X; apply H; right; exact X). reflexivity.
Qed.
Lemma names_app : forall a b, names (a ++ slash :: b) = names a ++ names b.
Proof. intros a b. unfold names. rewrite parts_app. apply filter_app. Qed.
Lemma names_base : forall s, s <> [] -> ~ In slash s -> names s = [s].
Proof. intros s N H. unfold names. rewrite parts_none by exact H. destruct s; [contradiction|reflexivity]. Qed.
Lemma names_slash : forall a, names (a ++ [slash]) = names a.
Proof. intros a. rewrite names_app. apply app_nil_r. Qed.

(** the bytes after the last slash *)
Lemma after_slash : forall s, (exists a b, s = a ++ slash :: b /\ ~ In slash b) \/ ~ In slash s.
Proof.
  induction s as [|c s [(a & b & -> & N)|N]].
  - right. intros [].
  - left. exists (c :: a), b. split; [reflexivity|exact N].
  - destruct (ascii_dec c slash) as [->|C]; [left; exists [], s; split; [reflexivity|exact N]|right; intros [E|I]; [exact (C E)|exact (N I)]].
Qed.

Lemma names_snoc : forall s c, c <> slash ->
  ((s = [] \/ last s NUL = slash) /\ names (s ++ [c]) = names s ++ [[c]]) \/
  exists l y, names s = l ++ [y] /\ names (s ++ [c]) = l ++ [y ++ [c]].
Proof.
  intros s c C. assert (H : forall b, ~ In slash b -> ~ In slash (b ++ [c])) by (intros b B I; apply in_app_or in I; destruct I as [I|[I|[]]]; [exact (B I)|exact (C I)]).
  destruct (after_slash s) as [(a & b & -> & N)|N].
  - rewrite <- app_assoc. cbn [app]. rewrite !names_app. destruct b as [|x b].
    + left. split; [right; apply last_last|]. cbn [app]. rewrite (names_base [c]); [|discriminate|apply (H []); intros []].
      change (names []) with (@nil (list ascii)). rewrite app_nil_r. reflexivity.
    + right. exists (names a), (x :: b). rewrite (names_base (x :: b)) by (discriminate || assumption). split; [reflexivity|].
      rewrite (names_base ((x :: b) ++ [c])); [reflexivity|destruct b; discriminate|apply H; exact N].
  - destruct s as [|x s].
    + left. split; [left; reflexivity|]. cbn [app]. rewrite (names_base [c]); [reflexivity|discriminate|apply (H []); intros []].
    + right. exists [], (x :: s). rewrite (names_base (x :: s)) by (discriminate || assumption). split; [reflexivity|].
      rewrite (names_base ((x :: s) ++ [c])); [reflexivity|discriminate|apply H; exact N].
Qed.

(** * One directory *)
Lemma is_dir_mk : forall d f f' q p, is_dir (mkFs (p :: d) f') q = true <-> q = p \/ is_dir (mkFs d f) q = true.
Proof.
  intros d f f' q p. unfold is_dir. cbn [dirs]. destruct (snd q) as [|x l] eqn:E; [tauto|].
  destruct (in_dec place_dec q (p :: d)) as [[->|I]|N]; destruct (in_dec place_dec q d) as [J|J]; try tauto;
    split; try tauto; intros; try (destruct H as [->|H]; [exfalso; apply N; left; reflexivity|try discriminate]); try discriminate; exfalso; apply N; right; exact J.
Qed.
Lemma mkdir_files : forall fs s, files (fst (mkdir fs s)) = files fs.
Proof. intros fs s. unfold mkdir. destruct (_ && _); reflexivity. Qed.
Lemma mkdir_dirs : forall fs s q, is_dir (fst (mkdir fs s)) q = true -> is_dir fs q = true \/ q = locate s.
Proof.
  intros fs s q. unfold mkdir. destruct (_ && _); cbn [fst]; [|tauto]. intros H. apply (is_dir_mk _ (files fs)) in H. destruct fs. tauto.
Qed.
Lemma mkdir_keeps : forall fs s q, is_dir fs q = true -> is_dir (fst (mkdir fs s)) q = true.
Proof.
  intros fs s q H. unfold mkdir. destruct (_ && _); cbn [fst]; [|exact H]. apply (is_dir_mk _ (files fs)). right. destruct fs. exact H.
Qed.
Lemma mkdir_makes : forall fs s, s <> [] -> is_file fs (locate s) = false -> is_dir fs (parent (locate s)) = true ->
  is_dir (fst (mkdir fs s)) (locate s) = true.
Proof.
  intros fs s N F P. unfold mkdir. destruct (is_dir fs (locate s)) eqn:D.
  - destruct s; [contradiction|]. cbn [nonempty andb negb fst]. exact D.
  - rewrite F, P. destruct s; [contradiction|]. cbn [nonempty negb andb fst]. apply (is_dir_mk _ (files fs)). left. reflexivity.
Qed.

(** * All directories of a path *)
Definition above (fs : filesys) (b : bool) (l : list (list ascii)) : Prop := forall k, k < length l -> is_dir fs (b, firstn k l) = true.

Lemma absolute_app : forall a b, a <> [] -> absolute (a ++ b) = absolute a.
Proof. intros [|c a] b N; [contradiction|]. reflexivity. Qed.

Lemma is_file_files : forall fs fs' p, files fs' = files fs -> is_file fs' p = is_file fs p.
Proof. intros fs fs' p E. unfold is_file. rewrite E. reflexivity. Qed.

Lemma loop_spec : forall rest fs pre, pre <> [] ->
  (forall k, is_file fs (absolute pre, firstn k (names (pre ++ rest))) = false) ->
  above fs (absolute pre) (names pre) -> (last pre NUL = slash -> is_dir fs (absolute pre, names pre) = true) ->
  let fs' := mkdirP_loop fs pre rest in
  files fs' = files fs /\ (forall q, is_dir fs q = true -> is_dir fs' q = true) /\
  (forall q, is_dir fs' q = true -> is_dir fs q = true \/ exists k, q = (absolute pre, firstn k (names (pre ++ rest)))) /\
  above fs' (absolute pre) (names (pre ++ rest)) /\ (last (pre ++ rest) NUL = slash -> is_dir fs' (absolute pre, names (pre ++ rest)) = true).
Proof.
  induction rest as [|c rest IH]; intros fs pre N F A L; cbn [mkdirP_loop].
  - rewrite app_nil_r. repeat split; auto.
  - set (fs1 := if Ascii.eqb c slash then fst (mkdir fs pre) else fs).
    assert (E : pre ++ c :: rest = (pre ++ [c]) ++ rest) by (rewrite <- app_assoc; reflexivity).
    assert (AB : absolute (pre ++ [c]) = absolute pre) by (apply absolute_app; exact N).
    assert (X : files fs1 = files fs /\ (forall q, is_dir fs q = true -> is_dir fs1 q = true) /\
      (forall q, is_dir fs1 q = true -> is_dir fs q = true \/ exists k, q = (absolute pre, firstn k (names (pre ++ c :: rest)))) /\
      above fs1 (absolute pre) (names (pre ++ [c])) /\ (last (pre ++ [c]) NUL = slash -> is_dir fs1 (absolute pre, names (pre ++ [c])) = true)).
    { unfold fs1. destruct (Ascii.eqb_spec c slash) as [->|C].
      - split; [apply mkdir_files|]. split; [intros; apply mkdir_keeps; assumption|]. split.
        + intros q H. apply mkdir_dirs in H. destruct H as [H| ->]; [left; exact H|]. right. exists (length (names pre)).
          rewrite names_app, firstn_app, firstn_all, Nat.sub_diag, app_nil_r. reflexivity.
        + rewrite names_slash. split; [intros k K; apply mkdir_keeps, A, K|]. intros _. apply mkdir_makes; [exact N| |].
          * specialize (F (length (names pre))). rewrite names_app, firstn_app, firstn_all, Nat.sub_diag, app_nil_r in F. exact F.
          * unfold locate, parent. cbn [fst snd]. destruct (names pre) as [|x l] eqn:G using rev_ind; [reflexivity|]. rewrite removelast_last.
            specialize (A (length l)). rewrite app_length, firstn_app, firstn_all, Nat.sub_diag, app_nil_r in A. apply A. cbn. lia.
      - split; [reflexivity|]. split; [auto|]. split; [auto|]. rewrite last_last. split; [|contradiction].
        destruct (names_snoc pre c C) as [[H ->]|(l & y & H1 & ->)].
        + destruct H as [H|H]; [contradiction|]. intros k K. rewrite app_length in K. cbn in K.
          destruct (Nat.eq_dec k (length (names pre))) as [->|K'].
          * rewrite firstn_app, firstn_all, Nat.sub_diag, app_nil_r. apply L, H.
          * rewrite firstn_app. replace (k - length (names pre)) with 0 by lia. rewrite app_nil_r. apply A. lia.
        + intros k K. rewrite app_length in K. cbn in K. rewrite firstn_app. replace (k - length l) with 0 by lia. rewrite app_nil_r.
          specialize (A k). rewrite H1, app_length, firstn_app in A. replace (k - length l) with 0 in A by lia. rewrite app_nil_r in A. apply A. cbn. lia. }
    destruct X as (X1 & X2 & X3 & X4 & X5). specialize (IH fs1 (pre ++ [c])). rewrite AB, <- E in IH.
    destruct IH as (Y1 & Y2 & Y3 & Y4 & Y5).
    + destruct pre; discriminate.
    + intros k. rewrite (is_file_files fs fs1) by exact X1. apply F.
    + exact X4.
    + exact X5.
    + split; [congruence|]. split; [auto|]. split; [|split; assumption]. intros q Q. apply Y3 in Q. destruct Q as [Q|Q]; [apply X3 in Q; exact Q|right; exact Q].
Qed.

Lemma cstr_id : forall s, ~ In NUL s -> cstr s = s.
Proof.
  induction s as [|c s IH]; intros H; [reflexivity|]. cbn [cstr]. destruct (Ascii.eqb_spec c Ascii.zero) as [->|_]; [exfalso; apply H; left; reflexivity|].
  rewrite IH by (intro X; apply H; right; exact X). reflexivity.
Qed.

Lemma mkdirP_spec : forall fs d, d <> [] -> ~ In NUL d -> length d < 1024 ->
  (forall k, is_file fs (absolute d, firstn k (names d)) = false) ->
  exists fs' b, mkdirP fs d = Ok (fs', b) /\ files fs' = files fs /\
    (forall q, is_dir fs' q = true <-> is_dir fs q = true \/ exists k, q = (absolute d, firstn k (names d))).
Proof.
  intros fs d N Z L F. unfold mkdirP. rewrite cstr_id by exact Z. rewrite firstn_all2 by lia.
  set (tmp := if Ascii.eqb (last d NUL) slash then removelast d else d).
  assert (T : names tmp = names d /\ (tmp = [] -> names d = []) /\ (tmp <> [] -> absolute tmp = absolute d)).
  { unfold tmp. destruct (Ascii.eqb_spec (last d NUL) slash) as [E|_].
    - pose proof (app_removelast_last NUL N) as R. rewrite E in R. rewrite R at 2 4 7. rewrite names_slash. split; [reflexivity|].
      split; [intros ->; reflexivity|intros X; symmetry; apply absolute_app, X].
    - split; [reflexivity|]. split; [contradiction|reflexivity]. }
  destruct T as (T1 & T2 & T3). destruct d as [|d0 dr] eqn:D; [contradiction|]. rewrite <- D in *. clear D.
  destruct tmp as [|c r] eqn:TE.
  - rewrite (T2 eq_refl). exists fs, false. split; [reflexivity|]. split; [reflexivity|]. intros q. split; [auto|].
    intros [Q|[k ->]]; [exact Q|]. rewrite firstn_nil. reflexivity.
  - specialize (T3 ltac:(discriminate)). assert (TA : absolute [c] = absolute d) by exact T3.
    destruct (loop_spec r fs [c]) as (A & B & C & U & V); [discriminate| | | |].
    + intros k. rewrite TA. cbn [app]. rewrite T1. apply F.
    + intros k K. destruct (ascii_dec c slash) as [->|X]; [cbn in K; lia|]. rewrite names_base in * by (try discriminate; intros [Y|[]]; exact (X Y)).
      cbn in K. destruct k; [reflexivity|lia].
    + cbn [last]. intros ->. reflexivity.
    + rewrite TA in *. cbn [app] in *. rewrite T1 in *. set (fs1 := mkdirP_loop fs [c] r) in *.
      assert (LC : locate (c :: r) = (absolute d, names d)) by (unfold locate; rewrite T1, T3; reflexivity).
      destruct (mkdir fs1 (c :: r)) as [fs2 b] eqn:M. exists fs2, b. split; [reflexivity|].
      assert (FS : fs2 = fst (mkdir fs1 (c :: r))) by (rewrite M; reflexivity).
      split; [rewrite FS, mkdir_files; exact A|]. intros q. split.
      * rewrite FS. intros Q. apply mkdir_dirs in Q. destruct Q as [Q| ->]; [apply C in Q; exact Q|]. right. exists (length (names d)). rewrite firstn_all. exact LC.
      * intros [Q|[k ->]]; [rewrite FS; apply mkdir_keeps, B, Q|]. destruct (Nat.lt_ge_cases k (length (names d))) as [K|K].
        -- rewrite FS. apply mkdir_keeps, U, K.
        -- rewrite firstn_all2 by lia. rewrite <- LC, FS. apply mkdir_makes; [discriminate| |].
           ++ rewrite (is_file_files fs fs1) by exact A. rewrite LC. specialize (F (length (names d))). rewrite firstn_all in F. exact F.
           ++ rewrite LC. unfold parent. cbn [fst snd]. destruct (names d) as [|x l] eqn:G using rev_ind; [reflexivity|]. rewrite removelast_last.
              specialize (U (length l)). rewrite app_length, firstn_app, firstn_all, Nat.sub_diag, app_nil_r in U. apply U. cbn. lia.
Qed.
