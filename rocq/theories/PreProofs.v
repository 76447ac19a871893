(** Proofs about reading files and preparing them for the compiler. *)
From Coq Require Import List ZArith Bool String Ascii Arith Lia.
From Verif Require Import Base StrModel ReaderModel ReaderSpec ReaderProofs ReaderTerm ReaderProps CoreSpec TocModel NsSpec NsModel MacroModel SurfSpec
  CSpec GenModel PreSpec PreModel.
Import ListNotations.
Local Open Scope list_scope.
Local Open Scope nat_scope.

(** * Reading *)
Lemma eat_end : forall t, ~ In cNL t -> eatWs true t = [].
Proof.
  induction t as [|c t IH]; intro H; cbn [eatWs]; auto.
  replace (is c cNL) with false; [apply IH; intro K; apply H; now right|].
  symmetry. apply is_false. intros ->. apply H. now left.
Qed.
Lemma eat_layout_end : forall w, layout_end w -> eatWhitespace w = [].
Proof.
  intros w (w1 & w2 & -> & L & H). rewrite eat_layout by auto. destruct H as [->|(t & -> & N)]; [reflexivity|].
  unfold eatWhitespace. cbn [eatWs]. change (isspace cSC) with false. rewrite is_refl. cbv iota. now apply eat_end.
Qed.
Lemma read_loop_text : forall t l, file_text t l -> exists F, forall n f acc, F <= f -> List.length l < n ->
  read_loop n f t acc = Some (Ok (rev l ++ acc)).
Proof.
  induction 1 as [w L|w t d b r l L R D FT (F & IH)].
  - exists 1. intros [|n] [|f] acc H1 H2; try (cbn in *; lia). cbn [read_loop]. rewrite sexp_eq, eat_layout_end by auto. reflexivity.
  - destruct (reader_follows_grammar w t d b r L R D) as (F1 & E). exists (max F F1).
    intros [|n] f acc H1 H2; [lia|]. cbn [read_loop]. rewrite E by lia. cbn [List.length] in H2.
    rewrite IH by lia. cbn [rev]. now rewrite <- app_assoc.
Qed.

(** the datum of a file with the forms [l] *)
Definition whole {A} (cons : A -> A -> A) (nil begin : A) (l : list A) : A :=
  match l with [x] => x | _ => cons begin (fold_right cons nil l) end.
Lemma dlist_fold : forall l, dlist l = fold_right DCons DNil l.
Proof. induction l; cbn; congruence. Qed.
Lemma read_file_text : forall t l, file_text t l -> l <> [] -> exists F, forall f, F <= f ->
  read_file_as_sexp f t = Some (Ok (whole DCons DNil (DSym s_begin) l)).
Proof.
  intros t l FT N. destruct (read_loop_text t l FT) as (F & E). exists (max F (S (List.length l))). intros f Hf.
  unfold read_file_as_sexp. rewrite E by lia. rewrite app_nil_r.
  destruct l as [|d l]; [contradiction|]. destruct l as [|d2 l]; [reflexivity|].
  assert (H : exists a b c, rev (d :: d2 :: l) = a :: b :: c).
  { assert (HL : List.length (rev (d :: d2 :: l)) = S (S (List.length l))) by (rewrite rev_length; reflexivity).
    destruct (rev (d :: d2 :: l)) as [|a [|b c]]; [discriminate|discriminate|eauto]. }
  destruct H as (a & b0 & c & H). rewrite H, reverse_rev, <- H, rev_involutive, app_nil_r. cbn [whole]. rewrite dlist_fold. reflexivity.
Qed.
Lemma form_of_fold : forall l, form_of (fold_right DCons DNil l) = seq_of (map form_of l).
Proof. induction l as [|a l IH]; [reflexivity|]. cbn [fold_right form_of]. rewrite IH. reflexivity. Qed.
Lemma form_of_whole : forall l, l <> [] -> form_of (whole DCons DNil (DSym s_begin) l) = whole SCons SNil (SSym (NS "begin")) (map form_of l).
Proof. intros [|x [|y l]] H; [contradiction|reflexivity|]. cbn [whole map]. cbn [form_of]. now rewrite form_of_fold. Qed.

(** * Annotations *)
Lemma is_sym_eq : forall s t, is_sym s (SSym (NS t)) = String.eqb t s.
Proof. reflexivity. Qed.
Lemma of_list_seq : forall l, of_list l = seq_of l.
Proof. induction l as [|a l IH]; [reflexivity|]. cbn [of_list]. rewrite IH. reflexivity. Qed.
Lemma split_forms : forall l ty co, split_type_and_code (seq_of l) ty co = Some (rev ty ++ map type_code l, rev co ++ code l).
Proof.
  induction l as [|e l IH]; intros ty co; [cbn; now rewrite !app_nil_r|].
  assert (P : annotation e = false -> type_code e = check_of e ->
    split_type_and_code (seq_of l) (check_of e :: ty) (e :: co) = Some (rev ty ++ map type_code (e :: l), rev co ++ code (e :: l))).
  { intros A T. rewrite IH. cbn [rev map code filter]. rewrite A. cbn [negb]. rewrite T, <- !app_assoc. reflexivity. }
  change (seq_of (e :: l)) with (SCons e (seq_of l)). cbn [split_type_and_code].
  destruct e as [z|x|s| | | |h e]; try (now apply P).
  destruct h as [z|[t|k]|s| | | |h1 h2]; try (now apply P).
  rewrite !is_sym_eq. unfold annotation in P. cbn [headed type_code] in P.
  destruct (String.eqb t ":type") eqn:E1.
  - rewrite IH. cbn [rev map code filter]. unfold annotation. cbn [headed type_code]. rewrite E1. cbn [orb negb].
    rewrite <- !app_assoc. reflexivity.
  - destruct (String.eqb t ":declare") eqn:E2.
    + rewrite IH. cbn [rev map code filter]. unfold annotation. cbn [headed type_code]. rewrite E1, E2. cbn [orb negb].
      rewrite <- !app_assoc. reflexivity.
    + apply P; reflexivity.
Qed.

Definition keep (x : sexp) (r : option sexp) : option sexp := match r with Some y => Some (SCons x y) | None => None end.
Lemma extract_nil : forall k, extract_typecheck_body SNil k = k SNil.
Proof. reflexivity. Qed.
Lemma header_not_code : forall e, header_form e = true -> annotation e = false.
Proof.
  intros e H. destruct e as [z|x|s| | | |h t]; try reflexivity. destruct h as [z|[n|k]|s| | | |h1 h2]; try reflexivity.
  unfold header_form, annotation in *. cbn [headed import_form] in *.
  destruct (String.eqb_spec n ":type") as [->|]; [destruct t as [| | | | | |? [| | | | | |]]; discriminate|].
  destruct (String.eqb_spec n ":declare") as [->|]; [destruct t as [| | | | | |? [| | | | | |]]; discriminate|]. reflexivity.
Qed.
Lemma code_header : forall l, code l = header l ++ code (body l).
Proof.
  induction l as [|e l IH]; [reflexivity|]. cbn [header body]. destruct (header_form e) eqn:H; [|reflexivity].
  cbn [code filter app]. rewrite (header_not_code _ H). cbn [negb]. now rewrite <- IH.
Qed.

(** past the first word, only the header is kept apart *)
Lemma extract_step : forall e l k, bare e = false ->
  extract_typecheck_body (seq_of (e :: l)) k =
    if header_form e then keep e (extract_typecheck_body (seq_of l) k) else k (seq_of (e :: l)).
Proof.
  intros e l k B. change (seq_of (e :: l)) with (SCons e (seq_of l)).
  assert (P : forall q, match seq_of l with SCons name more => if is_sym "package" e then q name more else
      match e with
      | SCons i a => if is_sym "import" i && match a with SCons _ SNil => true | _ => false end then keep e (extract_typecheck_body (seq_of l) k)
                     else if is_sym "export" i then keep e (extract_typecheck_body (seq_of l) k) else k (SCons e (seq_of l))
      | _ => if is_sym "begin" e then keep e (extract_typecheck_body (seq_of l) k) else k (SCons e (seq_of l))
      end | _ =>
      match e with
      | SCons i a => if is_sym "import" i && match a with SCons _ SNil => true | _ => false end then keep e (extract_typecheck_body (seq_of l) k)
                     else if is_sym "export" i then keep e (extract_typecheck_body (seq_of l) k) else k (SCons e (seq_of l))
      | _ => if is_sym "begin" e then keep e (extract_typecheck_body (seq_of l) k) else k (SCons e (seq_of l))
      end end = if header_form e then keep e (extract_typecheck_body (seq_of l) k) else k (SCons e (seq_of l))).
  { intro q.
    assert (X : is_sym "package" e = false /\ is_sym "begin" e = false).
    { destruct e as [z|[s|j]|s| | | |h t]; try (split; reflexivity). cbn [bare] in B. apply orb_false_elim in B. exact B. }
    destruct X as (-> & ->).
    assert (Z : forall (A : Type) (s : sexp) (u : A), match s with SCons _ _ => u | _ => u end = u) by (intros A s u; destruct s; reflexivity).
    rewrite Z. clear Z.
    destruct e as [z|x|s| | | |h t]; try reflexivity.
    unfold header_form. destruct h as [z|[n|j]|s| | | |h1 h2]; try reflexivity.
    cbn [headed import_form]. rewrite !is_sym_eq.
    destruct (String.eqb_spec n "export") as [->|NE].
    - change (String.eqb "export" "import") with false. reflexivity.
    - destruct (String.eqb n "import"), t as [| | | | | |p [| | | | | |]]; reflexivity. }
  exact (P (fun name more => keep e (keep name (extract_typecheck_body more k)))).
Qed.
Lemma extract_header : forall l k r, forallb (fun e => negb (bare e)) l = true -> k (seq_of (body l)) = Some r ->
  extract_typecheck_body (seq_of l) k = Some (fold_right SCons r (header l)).
Proof.
  induction l as [|e l IH]; intros k r B K; [exact K|].
  cbn [forallb] in B. apply andb_prop in B as (B1 & B2). apply negb_true_iff in B1. rewrite extract_step by auto.
  cbn [body header] in *. destruct (header_form e).
  - rewrite (IH k r B2 K). reflexivity.
  - exact K.
Qed.

Lemma seq_app : forall l m, fold_right SCons (seq_of m) l = seq_of (l ++ m).
Proof. intros. unfold seq_of. now rewrite fold_right_app. Qed.

(** * Whole files *)
Lemma split_begin : forall tc l, forallb (fun e => negb (bare e)) l = true ->
  split_type_and_code_toplevel tc (seq_of (SSym (NS "begin") :: l)) = Some (seq_of (SSym (NS "begin") :: compiled_forms tc l)).
Proof.
  intros tc l B. unfold split_type_and_code_toplevel. change (seq_of (SSym (NS "begin") :: l)) with (SCons (SSym (NS "begin")) (seq_of l)).
  cbv beta iota zeta. change (is_sym "package" (SSym (NS "begin")) || is_sym "begin" (SSym (NS "begin"))) with true. cbv iota.
  set (k := fun body => _).
  assert (X : extract_typecheck_body (SCons (SSym (NS "begin")) (seq_of l)) k = keep (SSym (NS "begin")) (extract_typecheck_body (seq_of l) k)).
  { cbn [extract_typecheck_body]. destruct (seq_of l); reflexivity. }
  rewrite X. rewrite (extract_header l k (seq_of (generate_typecheck_code tc (map type_code (body l)) (code (body l)))) B).
  - unfold keep. rewrite seq_app. f_equal. change (seq_of (?a :: ?b)) with (SCons a (seq_of b)). f_equal. f_equal.
    unfold compiled_forms, generate_typecheck_code. destruct tc; [reflexivity|]. symmetry. apply code_header.
  - unfold k. rewrite split_forms. cbn [rev app]. now rewrite of_list_seq.
Qed.
Lemma split_package : forall tc p l, forallb (fun e => negb (bare e)) l = true ->
  split_type_and_code_toplevel tc (seq_of (SSym (NS "package") :: p :: l)) = Some (seq_of (SSym (NS "package") :: p :: compiled_forms tc l)).
Proof.
  intros tc p l B. unfold split_type_and_code_toplevel.
  change (seq_of (SSym (NS "package") :: p :: l)) with (SCons (SSym (NS "package")) (SCons p (seq_of l))).
  cbv beta iota zeta. change (is_sym "package" (SSym (NS "package")) || is_sym "begin" (SSym (NS "package"))) with true. cbv iota.
  set (k := fun body => _).
  assert (X : extract_typecheck_body (SCons (SSym (NS "package")) (SCons p (seq_of l))) k
    = keep (SSym (NS "package")) (keep p (extract_typecheck_body (seq_of l) k))).
  { reflexivity. }
  rewrite X. rewrite (extract_header l k (seq_of (generate_typecheck_code tc (map type_code (body l)) (code (body l)))) B).
  - unfold keep. rewrite seq_app.
    assert (Y : header l ++ generate_typecheck_code tc (map type_code (body l)) (code (body l)) = compiled_forms tc l).
    { unfold compiled_forms, generate_typecheck_code. destruct tc; [reflexivity|]. symmetry. apply code_header. }
    rewrite Y. reflexivity.
  - unfold k. rewrite split_forms. cbn [rev app]. now rewrite of_list_seq.
Qed.
Lemma split_single : forall tc e, headed "package" e = false -> headed "begin" e = false ->
  split_type_and_code_toplevel tc e =
    Some (seq_of (SSym (NS "begin") :: (if tc then [type_code e] else []) ++ code [e])).
Proof.
  intros tc e H1 H2. unfold split_type_and_code_toplevel. rewrite of_list_seq, split_forms. cbn [rev app map].
  rewrite of_list_seq.
  assert (X : SCons (ssym "begin") (seq_of (generate_typecheck_code tc [type_code e] (code [e]))) =
    seq_of (SSym (NS "begin") :: (if tc then [type_code e] else []) ++ code [e])).
  { unfold generate_typecheck_code. destruct tc; reflexivity. }
  rewrite X. destruct e as [z|x|s| | | |h t]; try reflexivity. destruct h as [z|[n|k]|s| | | |h1 h2]; try reflexivity.
  cbn [headed] in *. rewrite !is_sym_eq, H1, H2. reflexivity.
Qed.

(** * Imports *)
Lemma eager_step : forall e l, bare e = false ->
  handle_import_eagerly (seq_of (e :: l)) =
    if header_form e then (if headed "export" e then [] else match import_form e with Some p => [p] | None => [] end) ++ handle_import_eagerly (seq_of l)
    else [].
Proof.
  intros e l B. change (seq_of (e :: l)) with (SCons e (seq_of l)). cbn [handle_import_eagerly].
  assert (X : is_sym "package" e = false /\ is_sym "begin" e = false).
  { destruct e as [z|[s|j]|s| | | |h t]; try (split; reflexivity). cbn [bare] in B. apply orb_false_elim in B. exact B. }
  destruct X as (-> & ->).
  assert (Z : forall (A : Type) (s : sexp) (u : A), match s with SCons _ _ => u | _ => u end = u) by (intros A s u; destruct s; reflexivity).
  rewrite Z. clear Z. destruct e as [z|x|s| | | |h t]; try reflexivity.
  destruct h as [z|[n|j]|s| | | |h1 h2]; try reflexivity. unfold header_form. cbn [headed import_form]. rewrite !is_sym_eq.
  destruct (String.eqb_spec n "export") as [->|NE]; [reflexivity|].
  destruct (String.eqb n "import"), t as [| | | | | |p [| | | | | |]]; reflexivity.
Qed.
Lemma eager_forms : forall l, forallb (fun e => negb (bare e)) l = true -> handle_import_eagerly (seq_of l) = imported l.
Proof.
  induction l as [|e l IH]; intro B; [reflexivity|]. cbn [forallb] in B. apply andb_prop in B as (B1 & B2). apply negb_true_iff in B1.
  rewrite eager_step by auto. unfold imported in *. cbn [header]. destruct (header_form e); [|reflexivity].
  cbn [flat_map]. now rewrite IH.
Qed.
