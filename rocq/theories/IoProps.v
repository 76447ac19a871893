(** Files, streams and commands (C64, C65).

    C64: open-output-file makes the directories of a path and the file, and
    nothing else; read-all, copy and write-bytes move exactly the bytes.
    C65: exec runs the command its arguments name, and the numbers it, pclose
    and randN give are the ones the system gave. *)
From Coq Require Import List ZArith Bool Ascii String Arith Lia.
From Verif Require Import Base NumModel NumProofs NumProps StrModel StrProps IoSpec IoModel IoProofs.
Import ListNotations.
Local Open Scope list_scope.
Local Open Scope nat_scope.

(** * Opening a file *)
Lemma last_slash : forall s, (exists a b, s = a ++ slash :: b /\ ~ In slash b /\ strRchr s slash = Ok (Z.of_nat (List.length a))) \/
  (~ In slash s /\ strRchr s slash = Ok (-1)%Z).
Proof.
  intros s. destruct (strRchr_last s slash) as [(j & E & H & M)|[E N]]; [|right; auto]. left.
  destruct (nth_error_split s j H) as (a & b & -> & L). exists a, b. split; [reflexivity|]. split; [|rewrite L; exact E].
  intro I. apply In_nth_error in I. destruct I as [k K]. apply (M (j + S k)).
  - rewrite app_length. cbn. assert (k < List.length b) by (apply nth_error_Some; congruence). lia.
  - rewrite nth_error_app2 by lia. replace (j + S k - List.length a) with (S k) by lia. exact K.
Qed.

Lemma content_file : forall fs p, is_file fs p = true <-> content (files fs) p <> None.
Proof. intros fs p. unfold is_file. destruct (content (files fs) p); split; congruence. Qed.

Lemma fopen_spec : forall fs path, path <> [] -> last path NUL <> slash -> is_dir fs (locate path) = false -> is_dir fs (parent (locate path)) = true ->
  fopen_w fs path = (Some (locate path), mkFs (dirs fs) ((locate path, []) :: files fs)).
Proof.
  intros fs path N L D P. unfold fopen_w. rewrite D, P. destruct path; [contradiction|]. cbn [nonempty].
  change Ascii.zero with NUL. change "/"%char with slash. destruct (Ascii.eqb_spec (last (a :: path) NUL) slash); [contradiction|]. reflexivity.
Qed.

Definition usable (fs : filesys) (path : list ascii) : Prop :=
  path <> [] /\ ~ In NUL path /\ last path NUL <> slash /\
  (forall dir base, path = dir ++ slash :: base -> List.length dir < 1024) /\
  is_dir fs (locate path) = false /\
  forall k, k < List.length (names path) -> content (files fs) (absolute path, firstn k (names path)) = None.

Theorem open_creates_path : forall fs path, usable fs path ->
  exists fs', openOutputFile fs path = Ok (Some (locate path), fs') /\
    content (files fs') (locate path) = Some [] /\
    (forall q, q <> locate path -> content (files fs') q = content (files fs) q) /\
    (forall q, is_dir fs' q = true <-> is_dir fs q = true \/ exists k, k < List.length (names path) /\ q = (absolute path, firstn k (names path))).
Proof.
  intros fs path (N & Z & L & S & D & F). unfold openOutputFile.
  assert (FIN : forall fs1, files fs1 = files fs ->
    (forall q, is_dir fs1 q = true <-> is_dir fs q = true \/ exists k, k < List.length (names path) /\ q = (absolute path, firstn k (names path))) ->
    is_dir fs1 (parent (locate path)) = true ->
    exists fs', Ok (fopen_w fs1 (cstr path)) = Ok (Some (locate path), fs') /\
      content (files fs') (locate path) = Some [] /\
      (forall q, q <> locate path -> content (files fs') q = content (files fs) q) /\
      (forall q, is_dir fs' q = true <-> is_dir fs q = true \/ exists k, k < List.length (names path) /\ q = (absolute path, firstn k (names path)))).
  { intros fs1 E I P. rewrite cstr_id by exact Z. rewrite (fopen_spec fs1 path N L); [| |exact P].
    - eexists. split; [reflexivity|]. cbn [files content]. destruct (place_dec (locate path) (locate path)); [|contradiction].
      split; [reflexivity|]. split.
      + intros q Q. destruct (place_dec q (locate path)); [contradiction|]. rewrite E. reflexivity.
      + intros q. rewrite <- I. reflexivity.
    - destruct (is_dir fs1 (locate path)) eqn:X; [|reflexivity]. apply I in X. destruct X as [X|(k & K & X)]; [congruence|].
      unfold locate in X. injection X as X. apply (f_equal (@List.length _)) in X. rewrite firstn_length in X. lia. }
  destruct (last_slash path) as [(a & b & -> & NB & ->)|[NS ->]]; cbn [obind].
  - assert (B : b <> []) by (intros ->; apply L; apply last_last).
    assert (NM : names (a ++ slash :: b) = names a ++ [b]) by (rewrite names_app, (names_base b B NB); reflexivity).
    destruct a as [|a0 ar].
    + cbn [List.length]. change (Z.of_nat 0) with 0%Z. change (0 <? 0)%Z with false. cbn [obind]. apply FIN; [reflexivity| |].
      * intros q. split; [auto|]. intros [Q|(k & K & ->)]; [exact Q|]. rewrite NM in *. cbn in K. destruct k; [reflexivity|lia].
      * unfold locate, parent. cbn [fst snd]. rewrite NM. reflexivity.
    + set (a := a0 :: ar) in *. assert (LA : (0 <? Z.of_nat (List.length a))%Z = true) by (apply Z.ltb_lt; unfold a; cbn [List.length]; lia).
      rewrite LA, Nat2Z.id. rewrite firstn_app, firstn_all, Nat.sub_diag, app_nil_r.
      assert (AB : absolute (a ++ slash :: b) = absolute a) by reflexivity.
      destruct (mkdirP_spec fs a) as (fs1 & r & M & E & I).
      * discriminate.
      * intro X. apply Z. apply in_or_app. left. exact X.
      * exact (S a b eq_refl).
      * intros k. unfold is_file. destruct (Nat.lt_ge_cases k (List.length (names a))) as [K|K].
        -- specialize (F k). rewrite NM, AB, app_length, firstn_app in F. replace (k - List.length (names a)) with 0 in F by lia.
           rewrite app_nil_r in F. rewrite F by (cbn [List.length]; lia). reflexivity.
        -- specialize (F (List.length (names a))). rewrite NM, AB, app_length, firstn_app, firstn_all, Nat.sub_diag, app_nil_r in F.
           rewrite firstn_all2 by lia. rewrite F by (cbn [List.length]; lia). reflexivity.
      * rewrite M. cbn [omap obind fst]. apply FIN; [exact E| |].
        -- intros q. rewrite I, AB, NM. split; (intros [Q|Q]; [left; exact Q|right]).
           ++ destruct Q as [k ->]. exists (Nat.min k (List.length (names a))). rewrite app_length. split; [cbn [List.length]; lia|]. rewrite firstn_app.
              replace (Nat.min k (List.length (names a)) - List.length (names a)) with 0 by lia. rewrite app_nil_r.
              destruct (Nat.le_ge_cases k (List.length (names a))) as [K|K]; [rewrite Nat.min_l by exact K; reflexivity|].
              rewrite Nat.min_r by exact K. rewrite firstn_all, firstn_all2 by exact K. reflexivity.
           ++ destruct Q as (k & K & ->). exists k. rewrite app_length in K. cbn [List.length] in K. rewrite firstn_app. replace (k - List.length (names a)) with 0 by lia.
              rewrite app_nil_r. reflexivity.
        -- apply I. right. exists (List.length (names a)). unfold locate, parent. cbn [fst snd]. rewrite NM, removelast_last, firstn_all. reflexivity.
  - change (0 <? -1)%Z with false. cbn [obind]. apply FIN; [reflexivity| |].
    + intros q. split; [auto|]. intros [Q|(k & K & ->)]; [exact Q|]. rewrite (names_base path N NS) in *. cbn in K. destruct k; [reflexivity|lia].
    + unfold locate, parent. cbn [fst snd]. rewrite (names_base path N NS). reflexivity.
Qed.

(** A path whose directory has 1024 bytes or more is cut: the file is not
    made, although nothing is in its way. *)
Fixpoint deep (n : nat) : list ascii := match n with O => [] | S n => repeat "a"%char 200 ++ slash :: deep n end.
Theorem open_long_path_refuted : exists fs path, path <> [] /\ ~ In NUL path /\ last path NUL <> slash /\
  is_dir fs (locate path) = false /\ files fs = [] /\ exists fs', openOutputFile fs path = Ok (None, fs').
Proof.
  exists (mkFs [] []), (deep 6 ++ ["b"%char]). split; [discriminate|]. split.
  - intro I. apply in_app_or in I. destruct I as [I|[I|[]]]; [|vm_compute in I; discriminate]. revert I. generalize 6. induction n; cbn [deep]; [auto|]. intros I. apply in_app_or in I. destruct I as [I|[I|I]]; [apply repeat_spec in I; vm_compute in I; discriminate|vm_compute in I; discriminate|auto].
  - split; [rewrite last_last; discriminate|]. split; [vm_compute; reflexivity|]. split; [reflexivity|]. eexists. vm_compute. reflexivity.
Qed.
(** A NUL byte cuts the name that is opened: another file is emptied. *)
Theorem open_nul_refuted : exists fs path p, fst p = absolute path /\ p <> locate path /\ content (files fs) p = Some ["x"%char] /\
  exists fs', openOutputFile fs path = Ok (Some p, fs') /\ content (files fs') p = Some [].
Proof.
  exists (mkFs [] [((false, [["a"%char]]), ["x"%char])]), ["a"; NUL; "b"]%char, (false, [["a"%char]]).
  split; [reflexivity|]. split; [vm_compute; discriminate|]. split; [vm_compute; reflexivity|]. eexists. split; vm_compute; reflexivity.
Qed.
(** When the directory part starts with a NUL byte, mkdirP reads bytes that
    were never written. *)
Theorem open_nul_dir_refuted : exists path, forall fs, openOutputFile fs path = UB.
Proof. exists [NUL; slash; "b"]%char. intros fs. reflexivity. Qed.

(** * Reading *)
Definition sound (f : instream) : Prop := i_error f = None /\ (i_eof f = true -> i_rest f = []).

Lemma read_all_spec : forall fuel f d, sound f -> List.length (i_rest f) < fuel ->
  exists f', read_all_loop fuel f d = Some (d ++ i_rest f, f') /\ i_rest f' = [] /\ i_eof f' = true.
Proof.
  induction fuel as [|fuel IH]; intros [rest er eof] d [E S] L; [lia|]. cbn in E, S, L. subst er. cbn [read_all_loop i_eof].
  destruct eof; [rewrite (S eq_refl), app_nil_r; eexists; repeat split; reflexivity|]. cbn [fread i_error i_rest i_eof orb].
  rewrite firstn_length. destruct (Nat.ltb_spec (Nat.min BATCH_SIZE (List.length rest)) BATCH_SIZE) as [M|M].
  - assert (List.length rest < BATCH_SIZE) by lia. rewrite firstn_all2 by lia. rewrite skipn_all2 by lia.
    destruct (Nat.ltb_spec (List.length rest) BATCH_SIZE); [|lia]. eexists. repeat split; reflexivity.
  - assert (BATCH_SIZE <= List.length rest) by lia.
    destruct (IH (mkIn (skipn BATCH_SIZE rest) None (List.length rest <? BATCH_SIZE)) (d ++ firstn BATCH_SIZE rest)) as (f' & R & A & B).
    + split; [reflexivity|]. cbn [i_eof i_rest]. destruct (Nat.ltb_spec (List.length rest) BATCH_SIZE); [lia|discriminate].
    + cbn [i_rest]. rewrite skipn_length. unfold BATCH_SIZE in *. lia.
    + exists f'. split; [|auto]. rewrite R. cbn [i_rest]. rewrite <- app_assoc, firstn_skipn. reflexivity.
Qed.

(** read-all gives exactly the bytes that were left. *)
Theorem read_all_exact : forall fuel f, sound f -> List.length (i_rest f) < fuel ->
  exists f', ioReadAll fuel f = Some (i_rest f, f') /\ i_rest f' = [].
Proof. intros fuel f S L. destruct (read_all_spec fuel f [] S L) as (f' & E & R & _). exists f'. auto. Qed.

(** It always ends, and what it gives was there to be read: with an error, the
    bytes before it. *)
Theorem read_all_prefix : forall fuel f, i_eof f = false -> List.length (i_rest f) < fuel ->
  exists x f', ioReadAll fuel f = Some (x, f') /\ x = match i_error f with Some e => firstn e (i_rest f) | None => i_rest f end.
Proof.
  assert (G : forall fuel rest e d, List.length rest < fuel -> exists f', read_all_loop fuel (mkIn rest (Some e) false) d = Some (d ++ firstn e rest, f')).
  { induction fuel as [|fuel IH]; intros rest e d L; [lia|]. cbn [read_all_loop i_eof fread i_error i_rest orb].
    set (k := Nat.min BATCH_SIZE (Nat.min e (List.length rest))). rewrite firstn_length. rewrite (Nat.min_l k) by (unfold k; lia).
    destruct (Nat.ltb_spec k BATCH_SIZE) as [K|K].
    - eexists. replace (firstn k rest) with (firstn e rest); [reflexivity|]. destruct (Nat.le_ge_cases e (List.length rest)) as [M|M].
      + replace k with e by (unfold k in *; lia). reflexivity.
      + rewrite firstn_all2 by exact M. rewrite firstn_all2; [reflexivity|unfold k in *; lia].
    - assert (KB : k = BATCH_SIZE) by (unfold k in *; lia). assert (BATCH_SIZE <= e /\ BATCH_SIZE <= List.length rest) as [B1 B2] by (unfold k in *; lia).
      rewrite KB. destruct (Nat.ltb_spec (List.length rest) BATCH_SIZE); [lia|]. cbn [andb].
      destruct (IH (skipn BATCH_SIZE rest) (e - BATCH_SIZE) (d ++ firstn BATCH_SIZE rest)) as [f' R].
      + rewrite skipn_length. unfold BATCH_SIZE in *. lia.
      + exists f'. rewrite R. rewrite <- app_assoc. do 3 f_equal. rewrite <- (firstn_skipn BATCH_SIZE rest) at 3. rewrite firstn_app, firstn_length.
        rewrite (Nat.min_l BATCH_SIZE) by exact B2. rewrite firstn_firstn, Nat.min_r by exact B1. reflexivity. }
  intros fuel [rest [e|] eof] E L; cbn in *; subst eof.
  - destruct (G fuel rest e [] L) as [f' R]. exists (firstn e rest), f'. split; [exact R|reflexivity].
  - destruct (read_all_exact fuel (mkIn rest None false)) as (f' & R & _); [split; [reflexivity|discriminate]|exact L|]. exists rest, f'. auto.
Qed.

(** * Copying *)
Theorem copy_exact : forall fuel f t, sound f -> o_room t = None -> List.length (i_rest f) < fuel ->
  exists r f' t', ioCopy fuel f t = Some (r, f', t') /\ i_rest f' = [] /\ o_data t' = o_data t ++ i_rest f /\ o_room t' = None.
Proof.
  induction fuel as [|fuel IH]; intros [rest er eof] [dat room] [E S] R L; [lia|]. cbn in E, S, R, L. subst er room. cbn [ioCopy i_eof].
  destruct eof; [rewrite (S eq_refl); do 3 eexists; split; [reflexivity|]; cbn; rewrite app_nil_r; auto|].
  cbn [fread i_error i_rest i_eof orb fwrite o_room snd o_data].
  rewrite firstn_length. destruct (Nat.ltb_spec (Nat.min BATCH_SIZE (List.length rest)) BATCH_SIZE) as [M|M].
  - assert (List.length rest < BATCH_SIZE) by lia. rewrite firstn_all2 by lia. rewrite skipn_all2 by lia. do 3 eexists. split; [reflexivity|]. cbn. auto.
  - assert (BATCH_SIZE <= List.length rest) by lia.
    destruct (IH (mkIn (skipn BATCH_SIZE rest) None (List.length rest <? BATCH_SIZE)) (mkOut (dat ++ firstn BATCH_SIZE rest) None)) as (r & f' & t' & C & A & B & D).
    + split; [reflexivity|]. cbn [i_eof i_rest]. destruct (Nat.ltb_spec (List.length rest) BATCH_SIZE); [lia|discriminate].
    + reflexivity.
    + cbn [i_rest]. rewrite skipn_length. unfold BATCH_SIZE in *. lia.
    + exists r, f', t'. split; [exact C|]. split; [exact A|]. split; [|exact D]. rewrite B. cbn [o_data i_rest]. rewrite <- app_assoc, firstn_skipn. reflexivity.
Qed.

(** copy answers 1 at the end of the source and 0 after a read error, with the
    bytes before the error copied. *)
Theorem copy_answer : forall fuel f t, i_eof f = false -> o_room t = None -> List.length (i_rest f) < fuel ->
  exists f' t', ioCopy fuel f t =
    Some (match i_error f with Some e => if List.length (i_rest f) <? e then 1%Z else 0%Z | None => 1%Z end, f', t') /\
    o_data t' = o_data t ++ match i_error f with Some e => firstn e (i_rest f) | None => i_rest f end.
Proof.
  induction fuel as [|fuel IH]; intros [rest er eof] [dat room] E R L; [lia|]. cbn in E, R, L. subst eof room. cbn [ioCopy i_eof i_error i_rest o_data].
  destruct er as [e|]; cbn [fread i_error i_rest i_eof orb fwrite o_room snd o_data].
  - set (k := Nat.min BATCH_SIZE (Nat.min e (List.length rest))).
    rewrite firstn_length. replace (Nat.min k (List.length rest)) with k by (unfold k; lia).
    destruct (Nat.ltb_spec k BATCH_SIZE) as [M|M].
    + do 2 eexists. split.
      * f_equal. f_equal. f_equal.
        destruct (Nat.ltb_spec (List.length rest) e); destruct (Nat.ltb_spec (List.length rest) BATCH_SIZE); try reflexivity; unfold k in M; lia.
      * cbn [o_data]. f_equal. destruct (Nat.le_ge_cases (List.length rest) e).
        -- rewrite !firstn_all2; [reflexivity|lia|unfold k in *; lia].
        -- f_equal. unfold k in *; lia.
    + assert (KB : k = BATCH_SIZE) by (unfold k in *; lia). assert (BATCH_SIZE <= e /\ BATCH_SIZE <= List.length rest) as [B1 B2] by (unfold k in *; lia).
      rewrite KB. destruct (Nat.ltb_spec (List.length rest) BATCH_SIZE); [lia|]. cbn [andb].
      destruct (IH (mkIn (skipn BATCH_SIZE rest) (Some (e - BATCH_SIZE)) false) (mkOut (dat ++ firstn BATCH_SIZE rest) None)) as (f' & t' & C & D).
      * reflexivity.
      * reflexivity.
      * cbn [i_rest]. rewrite skipn_length. unfold BATCH_SIZE in *. lia.
      * cbn [i_error i_rest] in C, D. exists f', t'. split.
        -- rewrite C. rewrite skipn_length. do 3 f_equal.
           destruct (Nat.ltb_spec (List.length rest) e); destruct (Nat.ltb_spec (List.length rest - BATCH_SIZE) (e - BATCH_SIZE)); try reflexivity; lia.
        -- rewrite D. cbn [o_data]. rewrite <- app_assoc. f_equal. rewrite <- (firstn_skipn BATCH_SIZE rest) at 3. rewrite firstn_app, firstn_length.
           rewrite (Nat.min_l BATCH_SIZE) by exact B2. rewrite firstn_firstn, Nat.min_r by exact B1. reflexivity.
  - rewrite firstn_length. destruct (Nat.ltb_spec (Nat.min BATCH_SIZE (List.length rest)) BATCH_SIZE) as [M|M].
    + do 2 eexists. split; [destruct (Nat.ltb_spec (List.length rest) BATCH_SIZE); [reflexivity|lia]|]. cbn [o_data]. rewrite firstn_all2 by lia. reflexivity.
    + assert (BATCH_SIZE <= List.length rest) by lia. destruct (Nat.ltb_spec (List.length rest) BATCH_SIZE); [lia|].
      destruct (IH (mkIn (skipn BATCH_SIZE rest) None false) (mkOut (dat ++ firstn BATCH_SIZE rest) None)) as (f' & t' & C & D).
      * reflexivity.
      * reflexivity.
      * cbn [i_rest]. rewrite skipn_length. unfold BATCH_SIZE in *. lia.
      * exists f', t'. split; [exact C|]. rewrite D. cbn [o_data i_rest i_error]. rewrite <- app_assoc, firstn_skipn. reflexivity.
Qed.
Print Assumptions copy_answer.
Example copy_answer_example : ioCopy 9 (mkIn ["x"; "y"; "z"]%char (Some 2) false) (mkOut [] None) =
  Some (0%Z, mkIn ["z"]%char (Some 0) false, mkOut ["x"; "y"]%char None).
Proof. reflexivity. Qed.

(** No number is represented by a small word other than 0. *)
Lemma small_word : forall w v, (0 < w < 2 ^ 52)%Z -> (Z.abs v <= 2 ^ 63)%Z -> makeNumber v <> Ok w.
Proof.
  intros w v W V E. rewrite makeNumber_ok in E by exact V. apply Ok_inj in E. destruct (Z.eq_dec v 0) as [->|N]; [cbn in E; lia|].
  destruct (i2d_bounds v N V) as (F & H & B). rewrite E in H. destruct (v <? 0)%Z; lia.
Qed.

(** The word copy answers is neither a number nor true nor false. *)
Theorem copy_result_refuted : exists f t r f' t', sound f /\ ioCopy 2 f t = Some (r, f', t') /\
  r <> True_ /\ r <> False_ /\ forall v, (Z.abs v <= 2 ^ 63)%Z -> makeNumber v <> Ok r.
Proof.
  exists (mkIn ["x"%char] None false), (mkOut [] None), 1%Z. do 2 eexists. split; [split; [reflexivity|discriminate]|].
  split; [reflexivity|]. split; [discriminate|]. split; [discriminate|]. intros v V. apply small_word; [lia|exact V].
Qed.
(** When the target is full the rest is dropped, and the answer is the same. *)
Theorem copy_full_refuted : exists f t r f' t', sound f /\ ioCopy 2 f t = Some (r, f', t') /\ r = 1%Z /\ o_data t' <> o_data t ++ i_rest f.
Proof.
  exists (mkIn ["x"; "y"]%char None false), (mkOut [] (Some 1)), 1%Z. do 2 eexists. split; [split; [reflexivity|discriminate]|].
  split; [reflexivity|]. split; [reflexivity|discriminate].
Qed.

(** * Writing *)
Definition has_room (t : outstream) (n : nat) : Prop := match o_room t with Some r => n <= r | None => True end.

Theorem write_bytes_exact : forall fuel t data, has_room t (List.length data) -> 2 <= fuel -> (Z.of_nat (List.length data) < 2 ^ 53)%Z ->
  exists w t', ioWrite fuel t data = Some (Ok w, t') /\ fixnum w = Ok (Z.of_nat (List.length data)) /\ o_data t' = o_data t ++ data.
Proof.
  intros fuel t data R F L. destruct fuel as [|[|fuel]]; [lia|lia|]. unfold ioWrite. cbn [ioWrite_loop].
  assert (N : forall t' : outstream, exists w, (makeNumber (Z.of_nat (List.length data)), t') = (Ok w, t') /\ fixnum w = Ok (Z.of_nat (List.length data))).
  { intros t'. exists (i2d (Z.of_nat (List.length data))). rewrite makeNumber_ok by lia. split; [reflexivity|]. apply fixnum_i2d. lia. }
  destruct (Nat.ltb_spec 0 (List.length data)) as [P|P].
  - cbn [skipn]. unfold fwrite, has_room in *. destruct (o_room t) as [r|].
    + rewrite Nat.min_r by exact R. rewrite firstn_all. cbn [Nat.add]. rewrite Nat.ltb_irrefl.
      destruct (N (mkOut (o_data t ++ data) (Some (r - List.length data)))) as (w & E & W). exists w. eexists. split; [rewrite E; reflexivity|]. split; [exact W|reflexivity].
    + cbn [Nat.add]. rewrite Nat.ltb_irrefl. destruct (N (mkOut (o_data t ++ data) None)) as (w & E & W). exists w. eexists. split; [rewrite E; reflexivity|]. split; [exact W|reflexivity].
  - destruct (N t) as (w & E & W). exists w, t. split; [rewrite E; reflexivity|]. split; [exact W|]. destruct data; [|cbn in P; lia]. rewrite app_nil_r. reflexivity.
Qed.
(** When the target gets full write-bytes never returns. *)
Theorem write_bytes_full_refuted : forall t data r, o_room t = Some r -> r < List.length data -> forall fuel, ioWrite fuel t data = None.
Proof.
  intros t data r R L fuel. unfold ioWrite.
  assert (G : forall fuel t off, off < List.length data -> (exists r, o_room t = Some r /\ off + r < List.length data) -> ioWrite_loop fuel t data off = None).
  { clear. induction fuel as [|fuel IH]; intros t off O (r & R & L); [reflexivity|]. cbn [ioWrite_loop]. destruct (Nat.ltb_spec off (List.length data)); [|lia].
    unfold fwrite. rewrite R. rewrite Nat.min_l by (rewrite skipn_length; lia). apply IH; [lia|]. exists (r - r). cbn [o_room]. split; [reflexivity|lia]. }
  apply G; [lia|]. exists r. auto.
Qed.
Example full_disk : exists t (data : list ascii) r, o_room t = Some r /\ r < List.length data.
Proof. exists (mkOut [] (Some 0)), ["x"%char], 0. split; [reflexivity|cbn; lia]. Qed.

(** * Commands *)
Lemma cmd_words : forall args cmd, Forall (fun s => s <> [] /\ ~ In " "%char s) args ->
  filter nonempty (parts " " (cmdListStr args (cmd ++ [" "%char]))) = filter nonempty (parts " " cmd) ++ args.
Proof.
  induction args as [|s r IH]; intros cmd H; cbn [cmdListStr].
  - rewrite parts_app, filter_app. reflexivity.
  - inversion H as [|? ? [N S] R]; subst. rewrite IH by exact R.
    rewrite <- app_assoc. cbn [app]. rewrite parts_app, filter_app, (parts_none " " s S). destruct s; [contradiction|]. cbn [filter nonempty].
    rewrite <- app_assoc. reflexivity.
Qed.
Lemma cmd_in : forall args cmd c, In c (cmdListStr args cmd) -> In c cmd \/ c = " "%char \/ exists s, In s args /\ In c s.
Proof.
  induction args as [|s r IH]; intros cmd c I; cbn [cmdListStr] in I; [auto|]. apply IH in I. rewrite !in_app_iff in I. cbn [In] in *.
  destruct I as [[[I|I]|[I|[]]]|[I|(s0 & A & B)]]; eauto 7.
Qed.
Lemma plain_not : forall c, plain c -> c <> " "%char /\ c <> NUL.
Proof.
  intros c P. split; intros ->; unfold plain in P; cbn [In] in P; destruct P as [P|[P|[P|P]]];
    try (vm_compute in P; lia); repeat (destruct P as [P|P]; [vm_compute in P; discriminate|]); exact P.
Qed.

(** exec gives the shell the words of its argument. *)
Theorem exec_words : forall args, Forall (fun s => s <> [] /\ Forall plain s) args -> shell_words (exec_command args) = args.
Proof.
  intros args H. unfold exec_command, shell_words. rewrite cstr_id.
  - destruct args as [|s r]; [reflexivity|]. inversion H as [|? ? [N P] R]; subst. cbn [cmdListStr app]. rewrite cmd_words.
    + rewrite parts_none by (intro I; rewrite Forall_forall in P; exact (proj1 (plain_not _ (P _ I)) eq_refl)). destruct s; [contradiction|reflexivity].
    + eapply Forall_impl; [|exact R]. intros x [X Q]. split; [exact X|]. intro I. rewrite Forall_forall in Q. exact (proj1 (plain_not _ (Q _ I)) eq_refl).
  - intro I. apply cmd_in in I. destruct I as [[]|[I|(s & A & B)]]; [vm_compute in I; discriminate|].
    rewrite Forall_forall in H. destruct (H s A) as [_ P]. rewrite Forall_forall in P. exact (proj2 (plain_not _ (P _ B)) eq_refl).
Qed.
Example some_command : Forall (fun s => s <> [] /\ Forall plain s) [["l"; "s"]; ["-"; "l"]]%char /\ exec_command [["l"; "s"]; ["-"; "l"]]%char = ["l"; "s"; " "; "-"; "l"; " "]%char.
Proof.
  split; [|reflexivity]. assert (A : plain "l" /\ plain "s" /\ plain "-").
  { unfold plain. change (nat_of_ascii "l") with 108. change (nat_of_ascii "s") with 115. split; [|split]; [do 2 right; left; lia|do 2 right; left; lia|do 3 right; cbn [In]; tauto]. }
  destruct A as (L & S & M). repeat (constructor; try assumption; try discriminate).
Qed.
(** An argument is not quoted: one with a space becomes two words, one with a
    semicolon another command. *)
Theorem exec_quoting_refuted : exists args, Forall (fun s => s <> [] /\ ~ In NUL s) args /\ shell_words (exec_command args) <> args.
Proof.
  exists [["r"; "m"]; ["a"; " "; "b"]]%char. split; [|vm_compute; discriminate]. 
  repeat (constructor; [split; [discriminate|intro I; repeat (destruct I as [I|I]; [vm_compute in I; discriminate|]); exact I]|]). constructor.
Qed.
(** What follows a NUL byte is not run. *)
Theorem exec_nul_refuted : exists args, exec_command args = exec_command (firstn 1 args) /\ List.length args = 2 /\ nth 1 args [] <> [].
Proof. exists [["l"; NUL]; ["x"]]%char. repeat split; try reflexivity. discriminate. Qed.

(** exec answers the status the system gave. *)
Theorem exec_status : forall n, (- 2 ^ 31 <= n < 2 ^ 31)%Z -> exists w, exec_result n = Ok w /\ fixnum w = Ok n.
Proof. intros n H. exists (i2d n). unfold exec_result. rewrite makeNumber_ok by lia. split; [reflexivity|]. apply fixnum_i2d. lia. Qed.
(** pclose answers the number 0 exactly when the status is 0, and otherwise a
    word that is no number. *)
Theorem pclose_zero : forall n, (- 2 ^ 31 <= n < 2 ^ 31)%Z -> (makeNumber 0 = Ok (pclose_result n) <-> n = 0%Z).
Proof.
  intros n H. unfold pclose_result. split; [|intros ->; reflexivity]. intros E. rewrite makeNumber_ok in E by lia. apply Ok_inj in E. cbn in E.
  symmetry in E. apply Z.mod_divide in E; [|lia]. destruct E as [k E]. lia.
Qed.
Theorem pclose_status_refuted : forall n, (0 < n < 2 ^ 31)%Z -> forall v, (Z.abs v <= 2 ^ 63)%Z -> makeNumber v <> Ok (pclose_result n).
Proof. intros n H v V. unfold pclose_result. rewrite Z.mod_small by lia. apply small_word; [lia|exact V]. Qed.

(** * Random numbers *)
Theorem randN_range : forall val n w, (0 <= val < 2 ^ 31)%Z -> (0 < n <= 2 ^ 53)%Z -> makeNumber n = Ok w ->
  exists r, randN val w = Ok r /\ exists z, fixnum r = Ok z /\ z = (val mod n)%Z /\ (0 <= z < n)%Z.
Proof.
  intros val n w V N W. rewrite makeNumber_ok in W by lia. apply Ok_inj in W. subst w. unfold randN. rewrite fixnum_i2d by lia. cbn [obind].
  destruct (Z.eqb_spec n 0); [lia|]. rewrite Z.rem_mod_nonneg by lia. pose proof (Z.mod_pos_bound val n). pose proof (Z.mod_le val n).
  rewrite makeNumber_ok by lia. eexists. split; [reflexivity|]. exists (val mod n)%Z. rewrite fixnum_i2d by lia. split; [reflexivity|]. split; [reflexivity|lia].
Qed.
(** Every number below n can come, n up to the range of rand(). *)
Theorem randN_onto : forall n w z, (0 < n <= 2 ^ 31)%Z -> makeNumber n = Ok w -> (0 <= z < n)%Z ->
  exists val r, (0 <= val < 2 ^ 31)%Z /\ randN val w = Ok r /\ fixnum r = Ok z.
Proof.
  intros n w z N W Z. exists z. destruct (randN_range z n w) as (r & R & z' & F & -> & _); [lia|lia|exact W|]. exists r. split; [lia|]. split; [exact R|].
  rewrite F, Z.mod_small by lia. reflexivity.
Qed.
Theorem randN_zero_refuted : exists w, makeNumber 0 = Ok w /\ forall val, randN val w = UB.
Proof. exists 0%Z. split; [reflexivity|]. intros val. vm_compute. reflexivity. Qed.

(** * Examples *)
Example usable_path : usable (mkFs [(true, [["t"; "m"; "p"]])] [((true, [["t"; "m"; "p"]; ["x"]]), ["1"])])%char ["/"; "t"; "m"; "p"; "/"; "/"; "a"; "/"; "b"; "/"; "c"]%char.
Proof.
  split; [discriminate|]. split; [intro I; repeat (destruct I as [I|I]; [vm_compute in I; discriminate|]); exact I|]. split; [vm_compute; discriminate|].
  split; [intros dir base E; apply (f_equal (@List.length _)) in E; rewrite app_length in E; cbn in E; lia|]. split; [vm_compute; reflexivity|].
  intros k K. vm_compute in K. do 4 (destruct k as [|k]; [vm_compute; reflexivity|]). lia.
Qed.
Example reads_three_batches : sound (mkIn (repeat "x"%char 150) None false) /\ exists f', ioReadAll 151 (mkIn (repeat "x"%char 150) None false) = Some (repeat "x"%char 150, f').
Proof. split; [split; [reflexivity|discriminate]|]. eexists. vm_compute. reflexivity. Qed.

Print Assumptions open_creates_path.
Print Assumptions open_long_path_refuted.
Print Assumptions open_nul_refuted.
Print Assumptions open_nul_dir_refuted.
Print Assumptions read_all_exact.
Print Assumptions read_all_prefix.
Print Assumptions copy_exact.
Print Assumptions copy_result_refuted.
Print Assumptions copy_full_refuted.
Print Assumptions write_bytes_exact.
Print Assumptions write_bytes_full_refuted.
Print Assumptions exec_words.
Print Assumptions exec_quoting_refuted.
Print Assumptions exec_nul_refuted.
Print Assumptions exec_status.
Print Assumptions pclose_zero.
Print Assumptions pclose_status_refuted.
Print Assumptions randN_range.
Print Assumptions randN_onto.
Print Assumptions randN_zero_refuted.
