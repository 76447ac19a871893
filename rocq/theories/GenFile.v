(** The functions of the C file and their addresses; the file runs as the
    machine does; what loading it leaves behind. *)
From Coq Require Import List ZArith Bool String Ascii Arith Lia.
From Verif Require Import Base StrModel ReaderModel EmitModel EmitProps CoreSpec CoreProofs TocModel TocSem TocMach CSpec CParse GenModel GenCond GenLex GenTree GenSem GenRun.
Import ListNotations.
Local Open Scope string_scope.
Local Open Scope list_scope.
Local Open Scope nat_scope.

Lemma fun_id_inj : forall m n, fun_id m = fun_id n -> m = n.
Proof.
  intros m n E. apply (f_equal list_ascii_of_string) in E. unfold fun_id in E. rewrite !list_ascii_of_string_of_list_ascii in E.
  apply app_inv_head in E. now apply decs_inj.
Qed.
Lemma flat_map_map : forall {A B C} (f : B -> list C) (g : A -> B) l, flat_map f (map g l) = flat_map (fun x => f (g x)) l.
Proof. induction l as [|a l IH]; [reflexivity|]. cbn. now rewrite IH. Qed.
Lemma flat_map_single : forall {A C} (g : A -> C) l, flat_map (fun x => [g x]) l = map g l.
Proof. induction l as [|a l IH]; [reflexivity|]. cbn. now rewrite IH. Qed.
Lemma flat_map_nil : forall {A C} (l : list A), flat_map (fun _ => @nil C) l = [].
Proof. induction l; auto. Qed.

Section File.
  Variable gs : nat -> bytes.
  Variable globals : list sexp.
  Variable fs : list func.
  Variable last : nat.
  Notation d := (a_file gs globals last (numbered fs)).
  Notation n := (List.length fs).

  Definition gfun (c : nat * func) : string * (list (ctype * string) * list cstmt) := (fun_id (fst c), (a_params, a_body gs globals (fst c) (snd c))).
  Definition gentry : string * (list (ctype * string) * list cstmt) :=
    ("entry", (a_params, CIf a_alloc a_alloc_body [] :: a_entry_rest globals last)).

  Lemma defs_file : defs d = map gfun (combine (seq 0 n) fs) ++ [gentry].
  Proof.
    unfold defs, a_file. cbn [flat_map app]. rewrite flat_map_app, flat_map_map. cbn [a_proto].
    rewrite flat_map_nil. cbn [app flat_map a_entry]. rewrite flat_map_map. cbn [a_fun].
    change (fun x : nat * func => [(fun_id (fst x), (a_params, a_body gs globals (fst x) (snd x)))]) with (fun x => [gfun x]).
    rewrite flat_map_single. cbn [rev]. unfold numbered. now rewrite <- map_rev, rev_involutive.
  Qed.
  Lemma map_fst_combine : forall {A B} (a : list A) (b : list B), List.length a = List.length b -> map fst (combine a b) = a.
  Proof. induction a as [|x a IH]; intros [|y b] E; try discriminate; [reflexivity|]. cbn in *. rewrite IH; congruence. Qed.
  Lemma names_file : map fst (defs d) = map fun_id (seq 0 n) ++ ["entry"].
  Proof.
    rewrite defs_file, map_app, map_map. unfold gfun. cbn [fst map gentry]. rewrite <- (map_map fst fun_id).
    now rewrite map_fst_combine by now rewrite seq_length.
  Qed.
  Lemma protos_file : protos d = map fun_id (rev (seq 0 n)).
  Proof.
    unfold protos, a_file. cbn [flat_map app]. rewrite flat_map_app, flat_map_map. cbn [a_proto flat_map a_entry app].
    rewrite flat_map_map. cbn [a_fun]. rewrite flat_map_nil, app_nil_r.
    rewrite (flat_map_single (fun x : nat * func => fun_id (fst x))). unfold numbered. rewrite <- (map_map fst fun_id), map_rev.
    now rewrite map_fst_combine by now rewrite seq_length.
  Qed.
  Lemma position_seq : forall k s i r, i < k -> position (fun_id (s + i)) (map fun_id (seq s k) ++ r) = Some i.
  Proof.
    induction k as [|k IH]; intros s i r H; [lia|]. cbn [seq map app position].
    destruct i as [|i].
    - rewrite Nat.add_0_r, String.eqb_refl. reflexivity.
    - destruct (String.eqb_spec (fun_id (s + S i)) (fun_id s)) as [E|E]; [apply fun_id_inj in E; lia|].
      replace (s + S i) with (S s + i) by lia. now rewrite IH by lia.
  Qed.
  Lemma address_file : forall lab, lab < n -> address d (fun_id lab) = Some lab.
  Proof.
    intros lab H. unfold address. rewrite protos_file, names_file.
    assert (I : in_names (fun_id lab) (map fun_id (rev (seq 0 n))) = true).
    { unfold in_names. apply existsb_exists. exists (fun_id lab). split; [|apply String.eqb_refl].
      apply in_map. rewrite <- in_rev. apply in_seq. lia. }
    rewrite I. apply (position_seq n 0 lab ["entry"] H).
  Qed.
  Lemma twins_file : no_twins (map fst (defs d)) = true.
  Proof.
    rewrite names_file. enough (W : forall k s, no_twins (map fun_id (seq s k) ++ ["entry"]) = true) by apply W.
    induction k as [|k IH]; intro s; [reflexivity|]. cbn [seq map app no_twins]. rewrite IH, andb_true_r.
    apply negb_true_iff. unfold in_names. rewrite existsb_app. apply orb_false_iff. split.
    - destruct (existsb _ _) eqn:E; [|reflexivity]. apply existsb_exists in E as (y & Iy & Ey). apply String.eqb_eq in Ey. subst y.
      apply in_map_iff in Iy as (j & Ej & Ij). apply fun_id_inj in Ej. apply in_seq in Ij. lia.
    - cbn [existsb]. now rewrite (fun_id_not s "entry" eq_refl).
  Qed.
  Lemma nth_combine : forall (l : list func) s i, nth_error (combine (seq s (List.length l)) l) i = option_map (fun F => (s + i, F)) (nth_error l i).
  Proof.
    induction l as [|F l IH]; intros s [|i]; try reflexivity; cbn [List.length seq combine nth_error]; [now rewrite Nat.add_0_r|].
    rewrite IH. destruct (nth_error l i); cbn; [|reflexivity]. now replace (S (s + i)) with (s + S i) by lia.
  Qed.
  Lemma nth_defs : forall a, nth_error (defs d) a =
    match nth_error fs a with Some F => Some (gfun (a, F)) | None => if a =? n then Some gentry else None end.
  Proof.
    intro a. rewrite defs_file. destruct (nth_error fs a) as [F|] eqn:E.
    - rewrite nth_error_app1.
      + rewrite nth_error_map, nth_combine, E. reflexivity.
      + rewrite map_length, combine_length, seq_length, Nat.min_id. apply nth_error_Some. congruence.
    - apply nth_error_None in E. rewrite nth_error_app2 by (rewrite map_length, combine_length, seq_length, Nat.min_id; lia).
      rewrite map_length, combine_length, seq_length, Nat.min_id. destruct (Nat.eqb_spec a n) as [->|N]; [now rewrite Nat.sub_diag|].
      destruct (a - n) as [|k] eqn:S; [lia|]. now destruct k.
  Qed.

  (** * Loading *)
  Hypothesis SY : forallb symbol_ok globals = true.
  Hypothesis LA : last < n.
  Definition row (s : sexp) : option name := Some (NS (match s with SSym (NS x) => x | _ => "" end)).
  Lemma e_symbols : forall l pre e, e_arr e = Some ("__symbolTable", map row pre ++ repeat None (List.length l)) ->
    forall r, e_stmts d (a_symbols (List.length pre) l ++ r) e =
      e_stmts d r (mkE (e_id e) (Some ("__symbolTable", map row (pre ++ l))) (e_pkg e) (e_fn e) (e_label e)).
  Proof.
    induction l as [|s l IH]; intros pre e E r.
    - cbn [a_symbols app List.length repeat] in *. rewrite app_nil_r in *. destruct e as [a b c f g]; cbn in *; now subst.
    - cbn [a_symbols app e_stmts]. unfold e_stmt. cbn [aco].
      change (String.eqb "bindSymbol" "bindSymbol" && String.eqb "co" "co" && String.eqb "intern" "intern") with true. cbn iota.
      rewrite E, natural_anum. change (String.eqb "__symbolTable" "__symbolTable") with true. cbn [andb].
      assert (Hk : (List.length pre <? List.length (map row pre ++ repeat (@None name) (List.length (s :: l)))) = true).
      { apply Nat.ltb_lt. rewrite app_length, map_length. cbn [List.length repeat]. lia. }
      rewrite Hk. cbn iota.
      replace (List.length pre + 1) with (List.length (pre ++ [s])) by (rewrite app_length; reflexivity).
      rewrite IH; cbn [e_arr e_id e_pkg e_fn e_label].
      + rewrite <- app_assoc. reflexivity.
      + f_equal. f_equal. rewrite firstn_app, skipn_app, map_length.
        rewrite (firstn_all2 (map row pre)) by (rewrite map_length; lia).
        rewrite (skipn_all2 (map row pre)) by (rewrite map_length; lia).
        rewrite Nat.sub_diag. replace (S (List.length pre) - List.length pre) with 1 by lia.
        cbn [firstn List.length repeat skipn app]. rewrite app_nil_r, map_app, <- app_assoc. reflexivity.
  Qed.
  Lemma bound_all : forall l, forallb symbol_ok l = true -> all_bound (map row l) = Some (table l).
  Proof.
    induction l as [|s l IH]; intro H; [reflexivity|]. cbn [forallb] in H. apply andb_true_iff in H as [H1 H2].
    cbn [map all_bound table]. unfold row at 1. rewrite (IH H2). unfold table. cbn [map]. destruct s as [|[x|]| | | | |]; try discriminate. reflexivity.
  Qed.
  Lemma e_step : forall t r s s1, e_stmt d t s = Some s1 -> e_stmts d (t :: r) s = e_stmts d r s1.
  Proof. intros t r s s1 E. cbn [e_stmts]. now rewrite E. Qed.
  Lemma load_file : c_load d = Some (table globals, last, 0).
  Proof.
    unfold c_load. rewrite twins_file, defs_file, rev_app_distr. cbn [rev app gentry].
    assert (F : find_in "packageID" (flat_map (fun x => match x with DVar (mkT t 0) x (XNum z) => if String.eqb t "int" then [(x, CInt z)] else [] | _ => [] end) d) = Some (CInt (-1)%Z)) by reflexivity.
    rewrite F. cbn [String.eqb Ascii.eqb Bool.eqb andb Z.eqb]. change (String.eqb "entry" "entry" && (-1 =? -1)%Z) with true. cbn iota.
    assert (EE : e_stmts d (CIf a_alloc a_alloc_body [] :: a_entry_rest globals last) (mkE false None None None None) =
      Some (mkE true (Some ("__symbolTable", map row globals)) (Some (map row globals)) (Some last) (Some 0))).
    { rewrite (e_step _ _ _ (mkE true None None None None)) by reflexivity. unfold a_entry_rest.
      rewrite (e_step _ _ _ (mkE true (Some ("__symbolTable", repeat None (List.length globals))) None None None))
        by (unfold e_stmt; now rewrite natural_anum).
      rewrite (e_symbols globals [] (mkE true (Some ("__symbolTable", repeat None (List.length globals))) None None None) eq_refl).
      cbn [app e_id e_pkg e_fn e_label].
      rewrite (e_step _ _ _ (mkE true (Some ("__symbolTable", map row globals)) (Some (map row globals)) None None)) by reflexivity.
      rewrite (e_step _ _ _ (mkE true (Some ("__symbolTable", map row globals)) (Some (map row globals)) (Some last) None))
        by (unfold e_stmt, afun; cbn [aco]; now rewrite (address_file last LA)).
      reflexivity. }
    rewrite EE.
    now rewrite bound_all.
  Qed.
End File.

Lemma names_inj : forall gs U, names_ok gs U = true ->
  (forall x, mem x U = true -> name_ok gs x = true) /\ (forall x y, mem x U = true -> mem y U = true -> cid gs x = cid gs y -> x = y).
Proof.
  intros gs U H. unfold names_ok in H. apply andb_true_iff in H as [H1 H2]. rewrite forallb_forall in H1, H2. split.
  - intros x Hx. apply H1. now apply mem_in.
  - intros x y Hx Hy E. apply mem_in in Hx, Hy. specialize (H2 x Hx). rewrite forallb_forall in H2. specialize (H2 y Hy).
    rewrite E, String.eqb_refl, orb_false_r in H2. now destruct (name_eqb_spec x y).
Qed.

Lemma numbered_cons : forall F fs, exists G bc, numbered (F :: fs) = (List.length fs, G) :: bc.
Proof.
  intros F fs. unfold numbered. destruct (exists_last (l := F :: fs)) as (l & G & E); [discriminate|].
  assert (Len : List.length fs = List.length l). { apply (f_equal (@List.length _)) in E. rewrite app_length in E. cbn in E. lia. }
  rewrite E, app_length. cbn [List.length]. rewrite Nat.add_1_r, seq_S. cbn [plus].
  assert (C : forall (a : list nat) (b : list func) x y, List.length a = List.length b -> combine (a ++ [x]) (b ++ [y]) = combine a b ++ [(x, y)]).
  { induction a as [|p a IH]; intros [|q b] x y H; try discriminate; [reflexivity|]. cbn in *. rewrite IH; congruence. }
  rewrite C by now rewrite seq_length. rewrite rev_app_distr, Len. cbn. eauto.
Qed.

Section Step.
  Variable gs : nat -> bytes.
  Variable globals : list sexp.
  Variable fs : list func.
  Variable last : nat.
  Hypothesis NMS : names_ok gs (local_names fs) = true.
  Hypothesis FO : forallb (func_ok globals (List.length fs) (local_names fs)) fs = true.
  Hypothesis SY : forallb symbol_ok globals = true.
  Notation d := (a_file gs globals last (numbered fs)).

  Lemma step_file : forall ar M, c_step ar d (table globals) M = mstep ar fs M.
  Proof.
    intros ar M. destruct (names_inj gs _ NMS) as (NM & INJ). unfold c_step, mstep. destruct (m_cur M) as [[c label R]|]; [|reflexivity].
    destruct c as [a|p|]; [|reflexivity|reflexivity].
    unfold c_turn. rewrite nth_defs. destruct (nth_error fs a) as [F|] eqn:E.
    - cbn [gfun fst snd a_params]. cbn [param]. 
      assert (SF : a < List.length fs) by (apply nth_error_Some; congruence).
      assert (HF : func_ok globals (List.length fs) (local_names fs) F = true).
      { rewrite forallb_forall in FO. apply FO. eapply nth_error_In; eauto. }
      exact (body_ok gs globals (List.length fs) (local_names fs) d ar NM INJ SY (address_file gs globals fs last) (m_res M) M a F label R SF HF).
    - destruct (a =? List.length fs); reflexivity.
  Qed.
  Lemma steps_file : forall ar k M, c_steps ar d (table globals) k M = msteps ar fs k M.
  Proof. intros ar. induction k as [|k IH]; intro M; [reflexivity|]. cbn [c_steps msteps]. rewrite step_file. now destruct (mstep ar fs M). Qed.
End Step.
