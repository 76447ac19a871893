(** Lemmas for RecProps.v. *)
From Coq Require Import List ZArith Bool String Arith Lia.
From Verif Require Import CoreSpec TocModel CoreProofs RecSpec RecModel.
Import ListNotations.
Local Open Scope list_scope.
Local Open Scope nat_scope.

(** * The evaluator, form by form *)
Definition rseq g env := fix rseq (l : sexp) (h : vheap) {struct l} : option (rv * vheap) :=
  match l with
  | SCons a d =>
      match reval g env a h with
      | Some (v, h) => match d with SNil => Some (v, h) | _ => rseq d h end
      | None => None
      end
  | _ => None
  end.
Definition rconj g env := fix rconj (l : sexp) (h : vheap) {struct l} : option (rv * vheap) :=
  match l with
  | SNil => Some (RTrue, h)
  | SCons a d =>
      match reval g env a h with
      | Some (RUndef, _) => None
      | Some (RTrue, h) => rconj d h
      | Some (_, h) => Some (RFalse, h)
      | None => None
      end
  | _ => None
  end.
Definition rall g env := fix rall (l : sexp) (h : vheap) {struct l} : option (list rv * vheap) :=
  match l with
  | SNil => Some ([], h)
  | SCons a d =>
      match reval g env a h with
      | Some (v, h) => match rall d h with Some (vs, h) => Some (v :: vs, h) | None => None end
      | None => None
      end
  | _ => None
  end.

Lemma reval_sym : forall g env x h, reval g env (SSym x) h = match lookup x env with Some v => Some (v, h) | None => None end.
Proof. reflexivity. Qed.
Lemma reval_num : forall g env z h, reval g env (SNum z) h = Some (RNum z, h).
Proof. reflexivity. Qed.
Lemma reval_quote : forall g env s h, reval g env (of_list [ssym "quote"; s]) h = Some (rquote s, h).
Proof. reflexivity. Qed.
Lemma reval_let : forall g env x a b h, reval g env (of_list [ssym "let"; SSym x; a; b]) h =
  match reval g env a h with Some (v, h) => reval g ((x, v) :: env) b h | None => None end.
Proof. reflexivity. Qed.
Lemma reval_begin : forall g env l h, reval g env (SCons (ssym "begin") l) h = rseq g env l h.
Proof. reflexivity. Qed.
Lemma reval_and : forall g env l h, reval g env (SCons (ssym "and") l) h = rconj g env l h.
Proof. reflexivity. Qed.

Definition special (s : string) : bool :=
  is_name "quote" (NS s) || is_name "let" (NS s) || is_name "begin" (NS s) || is_name "and" (NS s).
Lemma reval_app : forall g env s l h, special s = false -> lookup (NS s) env = None -> mem (NS s) g = false ->
  reval g env (SCons (ssym s) l) h = match rall g env l h with Some (vs, h) => rprim s vs h | None => None end.
Proof.
  intros g env s l h S L M. unfold special in S. apply orb_false_iff in S. destruct S as [S S4].
  apply orb_false_iff in S. destruct S as [S S3]. apply orb_false_iff in S. destruct S as [S1 S2].
  unfold ssym. cbn [reval]. rewrite S1, S2, S3, S4, L, M. reflexivity.
Qed.

Fixpoint dseq (l : sexp) (d : defs) {struct l} : option defs :=
  match l with
  | SCons a r => match define a d with Some d => dseq r d | None => None end
  | SNil => Some d
  | _ => None
  end.
Lemma define_begin : forall l d, define (SCons (ssym "begin") l) d = dseq l d.
Proof. reflexivity. Qed.
Lemma define_defun : forall f ps b d, define (of_list [ssym "defun"; SSym f; of_list (map SSym ps); b]) d = Some ((f, (ps, b)) :: d).
Proof.
  intros. cbn -[names_of]. assert (E : names_of (of_list (map SSym ps)) = Some ps)
    by (induction ps as [|p r IH]; cbn; [reflexivity|rewrite IH; reflexivity]). rewrite E. reflexivity.
Qed.

(** * Lists *)
Lemma list_of_of_list : forall l, list_of (of_list l) = Some l.
Proof. induction l as [|a r IH]; cbn; [reflexivity|rewrite IH; reflexivity]. Qed.
Lemma replace_length : forall {A} (l : list A) i v, List.length (replace l i v) = List.length l.
Proof. induction l as [|x r IH]; destruct i; cbn; intros; auto. Qed.
Lemma nth_replace_same : forall {A} (l : list A) i v, i < List.length l -> nth_error (replace l i v) i = Some v.
Proof. induction l as [|x r IH]; destruct i; cbn; intros; try lia; [reflexivity|apply IH; lia]. Qed.
Lemma nth_replace_other : forall {A} (l : list A) i j v, i <> j -> nth_error (replace l i v) j = nth_error l j.
Proof. induction l as [|x r IH]; destruct i, j; cbn; intros; try congruence; try reflexivity. apply IH. lia. Qed.
Lemma slot_of_nat : forall i n, i < n -> slot (Z.of_nat i) n = Some i.
Proof.
  intros i n H. unfold slot. destruct (Z.leb_spec 0 (Z.of_nat i)); [|lia]. destruct (Z.ltb_spec (Z.of_nat i) (Z.of_nat n)); [|lia].
  cbn. rewrite Nat2Z.id. reflexivity.
Qed.
Lemma lookup_in_nodup : forall {A} (l : list (name * A)) x v, NoDup (map fst l) -> In (x, v) l -> lookup x l = Some v.
Proof.
  induction l as [|[y w] r IH]; cbn; intros x v N I; [contradiction|]. inversion N; subst. destruct I as [E|I].
  - inversion E; subst. rewrite name_eqb_refl. reflexivity.
  - destruct (name_eqb_spec x y); [|auto]. subst. exfalso. apply H1. apply in_map_iff. exists (y, v). auto.
Qed.

Lemma name_eqb_sym : forall a b, name_eqb a b = name_eqb b a.
Proof. intros a b. destruct (name_eqb_spec a b), (name_eqb_spec b a); congruence. Qed.

(** * field-index *)
Definition index_of (x : name) (fs : list field) : option nat := index x (map fname fs).

Lemma head_field : forall f, exists r, field_sexp f = SCons (SSym (fname f)) r.
Proof. intros f. unfold field_sexp. destruct (getter f), (setter f); eexists; reflexivity. Qed.
Lemma field_index_h_spec : forall fs z x i, index_of x fs = Some i ->
  field_index_h z (SSym x) (of_list (map field_sexp fs)) = Some (z + Z.of_nat i)%Z.
Proof.
  unfold index_of. induction fs as [|f r IH]; intros z x i H; [discriminate|].
  cbn [map of_list]. destruct (head_field f) as [q ->]. cbn [field_index_h sexp_eqb]. cbn [map index] in H.
  rewrite name_eqb_sym. destruct (name_eqb x (fname f)).
  - inversion H; subst. f_equal. lia.
  - destruct (index x (map fname r)) as [j|] eqn:E; [|discriminate]. inversion H; subst.
    rewrite (IH _ _ _ E). f_equal. lia.
Qed.

(** * The expansion *)
Definition get_def (k i : nat) (g : name) : name * (list name * sexp) :=
  (g, ([NG k], of_list [ssym "vector-ref"; SSym (NG k); SNum (Z.of_nat i + 1)])).
Definition set_def (k i : nat) (s : name) : name * (list name * sexp) :=
  (s, ([NG k; NG (S k)], of_list [ssym "vector-set!"; SSym (NG k); SNum (Z.of_nat i + 1); SSym (NG (S k))])).
Definition fnames (l : list field) : list name := flat_map (fun f => opt (getter f) ++ opt (setter f)) l.

Lemma dseq_cons : forall a r d, dseq (SCons a r) d = match define a d with Some d => dseq r d | None => None end.
Proof. reflexivity. Qed.

Lemma rewrite_field_spec : forall all f k i, index_of (fname f) all = Some i -> (setter f <> None -> getter f <> None) ->
  exists e k' ds, rewrite_field_h (of_list (map field_sexp all)) (field_sexp f) k = Some (e, k') /\
    (forall d, define e d = Some (ds ++ d)) /\ map fst ds = rev (opt (getter f) ++ opt (setter f)) /\
    (forall g, getter f = Some g -> exists j, In (get_def j i g) ds) /\
    (forall s, setter f = Some s -> exists j, In (set_def j i s) ds).
Proof.
  intros all f k i I S. unfold rewrite_field_h.
  assert (FI : field_index (SSym (fname f)) (of_list (map field_sexp all)) = Some (Z.of_nat i))
    by (unfold field_index; rewrite (field_index_h_spec _ _ _ _ I); reflexivity).
  unfold field_sexp at 1.
  destruct (getter f) as [g|] eqn:G; [destruct (setter f) as [s|] eqn:E|]; rewrite list_of_of_list; cbv beta iota.
  - rewrite FI. do 2 eexists. exists [set_def k i s; get_def k i g]. split; [reflexivity|]. split; [reflexivity|].
    split; [reflexivity|]. split; intros x H; inversion H; subst; exists k; cbn; auto.
  - rewrite FI. do 2 eexists. exists [get_def k i g]. split; [reflexivity|]. split; [reflexivity|].
    split; [reflexivity|]. split; intros x H; inversion H; subst; exists k; cbn; auto.
  - destruct (setter f) eqn:E; [exfalso; apply S; congruence|]. do 2 eexists. exists []. split; [reflexivity|].
    split; [reflexivity|]. split; [reflexivity|]. split; intros x H; inversion H.
Qed.

Lemma rewrite_fields_spec : forall all fl k,
  (forall f, In f fl -> exists i, index_of (fname f) all = Some i) ->
  (forall f, In f fl -> setter f <> None -> getter f <> None) ->
  exists es k' ds, rewrite_fields (of_list (map field_sexp all)) (map field_sexp fl) k = Some (es, k') /\
    (forall d, dseq (of_list es) d = Some (ds ++ d)) /\ map fst ds = rev (fnames fl) /\
    forall f i, In f fl -> index_of (fname f) all = Some i ->
      (forall g, getter f = Some g -> exists j, In (get_def j i g) ds) /\
      (forall s, setter f = Some s -> exists j, In (set_def j i s) ds).
Proof.
  induction fl as [|f r IH]; intros k HI HS.
  - exists [], k, []. split; [reflexivity|]. split; [reflexivity|]. split; [reflexivity|]. intros f i [].
  - destruct (HI f (or_introl eq_refl)) as [i I].
    destruct (rewrite_field_spec all f k i I (HS f (or_introl eq_refl))) as (e & k1 & d1 & E1 & D1 & M1 & G1 & S1).
    destruct (IH k1) as (es & k2 & d2 & E2 & D2 & M2 & F2); [intros; apply HI; cbn; auto|intros f' ?; apply HS; cbn; auto|].
    exists (e :: es), k2, (d2 ++ d1). cbn [map rewrite_fields]. rewrite E1, E2. split; [reflexivity|].
    split. { intros d. cbn [of_list]. rewrite dseq_cons, D1, D2, app_assoc. reflexivity. }
    split. { rewrite map_app, M1, M2. change (fnames (f :: r)) with ((opt (getter f) ++ opt (setter f)) ++ fnames r). symmetry. apply rev_app_distr. }
    intros f' i' [<-|H] I'.
    + rewrite I in I'. inversion I'; subst i'. split; intros x X; [destruct (G1 x X) as [j J]|destruct (S1 x X) as [j J]]; exists j; apply in_or_app; auto.
    + destruct (F2 f' i' H I') as [GG SS]. split; intros x X; [destruct (GG x X) as [j J]|destruct (SS x X) as [j J]]; exists j; apply in_or_app; auto.
Qed.

Definition idx (x : name) (all : list field) : nat := match index_of x all with Some i => i | None => 0 end.
Definition init_set (ret : name) (all : list field) (x : name) : sexp :=
  of_list [ssym "vector-set!"; SSym ret; SNum (1 + Z.of_nat (idx x all)); SSym x].
Lemma init_record_spec : forall ret all il, (forall x, In x il -> exists i, index_of x all = Some i) ->
  init_record (SSym ret) (of_list (map field_sexp all)) (map SSym il) = Some (map (init_set ret all) il).
Proof.
  induction il as [|x r IH]; intros H; cbn [map init_record]; [reflexivity|].
  destruct (H x (or_introl eq_refl)) as [i I]. unfold field_index. rewrite (field_index_h_spec _ _ _ _ I).
  rewrite IH by (intros; apply H; cbn; auto). unfold init_set at 2, idx. rewrite I. rewrite Z.add_0_l. reflexivity.
Qed.

Definition size (t : rtype) : sexp := SNum (1 + Z.of_nat (List.length (fields t))).
Definition con_body (n : nat) (t : rtype) : sexp :=
  of_list [ssym "let"; SSym (NG n); of_list [ssym "vector"; size t];
    of_list ([ssym "begin"; of_list [ssym "vector-set!"; SSym (NG n); SNum 0; of_list [ssym "quote"; SSym (tname t)]]] ++
             map (init_set (NG n) (fields t)) (inits t) ++ [SSym (NG n)])].
Definition pred_body (a : name) (t : rtype) : sexp :=
  of_list [ssym "and"; of_list [ssym "vector?"; SSym a];
    of_list [ssym "="; of_list [ssym "vector-length"; SSym a]; size t];
    of_list [ssym "="; of_list [ssym "vector-ref"; SSym a; SNum 0]; of_list [ssym "quote"; SSym (tname t)]]].

Lemma index_some_in : forall x fs, In x (map fname fs) -> exists i, index_of x fs = Some i.
Proof. intros x fs H. apply index_in. exact H. Qed.

Lemma NoDup_rev_iff : forall {A} (l : list A), NoDup l -> NoDup (rev l).
Proof. intros. apply NoDup_rev. assumption. Qed.

Lemma expansion : forall n t, sensible n t ->
  exists e k d, rewrite_define_record (record_sexp t) n = Some (e, k) /\ define e [] = Some d /\
    map fst d = rev (defined t) /\
    lookup (con t) d = Some (inits t, con_body n t) /\
    (forall p, pred t = Some p -> lookup p d = Some ([NG (S n)], pred_body (NG (S n)) t)) /\
    (forall f i, In f (fields t) -> index_of (fname f) (fields t) = Some i ->
       (forall g, getter f = Some g -> exists j, lookup g d = Some (snd (get_def j i g))) /\
       (forall s, setter f = Some s -> exists j, lookup s d = Some (snd (set_def j i s)))).
Proof.
  intros n t S.
  destruct (rewrite_fields_spec (fields t) (fields t) (Datatypes.S (Datatypes.S n))) as (es & k & ds & E & D & M & F).
  { intros f H. apply index_some_in. apply in_map. exact H. }
  { apply (s_setter n t S). }
  set (pd := match pred t with Some p => [(p, ([NG (Datatypes.S n)], pred_body (NG (Datatypes.S n)) t))] | None => [] end).
  set (cd := (con t, (inits t, con_body n t))).
  assert (N : map fst (ds ++ pd ++ [cd]) = rev (defined t)).
  { rewrite !map_app, M. unfold defined. cbn [rev]. rewrite rev_app_distr, <- app_assoc. f_equal. unfold pd.
    destruct (pred t); reflexivity. }
  assert (ND : NoDup (map fst (ds ++ pd ++ [cd]))) by (rewrite N; apply NoDup_rev, (s_funs n t S)).
  eexists. exists k, (ds ++ pd ++ [cd]). split; [|split; [|split; [exact N|split; [|split]]]].
  - unfold rewrite_define_record, record_sexp. rewrite !list_of_of_list, map_length, E.
    rewrite init_record_spec by (intros x H; apply index_some_in, (s_incl n t S), H). reflexivity.
  - cbn [app]. change (of_list (?a :: ?b)) with (SCons a (of_list b)). rewrite define_begin.
    change (of_list (?a :: ?b :: ?c)) with (SCons a (SCons b (of_list c))). rewrite dseq_cons, define_defun, dseq_cons.
    unfold pd. destruct (pred t) as [p|].
    + cbn [sexp_eqb]. change (of_list [SSym (NG (Datatypes.S n))]) with (of_list (map SSym [NG (Datatypes.S n)])).
      rewrite define_defun, D. reflexivity.
    + cbn [sexp_eqb define]. rewrite D. reflexivity.
  - apply lookup_in_nodup; [exact ND|]. apply in_or_app. right. apply in_or_app. right. left. reflexivity.
  - intros p P. apply lookup_in_nodup; [exact ND|]. apply in_or_app. right. apply in_or_app. left. unfold pd. rewrite P. left. reflexivity.
  - intros f i H I. destruct (F f i H I) as [GG SS]. split; intros x X.
    + destruct (GG x X) as [j J]. exists j. apply lookup_in_nodup; [exact ND|]. apply in_or_app. left. exact J.
    + destruct (SS x X) as [j J]. exists j. apply lookup_in_nodup; [exact ND|]. apply in_or_app. left. exact J.
Qed.

(** * What the generated functions do *)
Definition clean (g : list name) : Prop := forall s, In s used -> mem (NS s) g = false.
Lemma clean_defined : forall n t (d : defs), sensible n t -> map fst d = rev (defined t) -> clean (map fst d).
Proof.
  intros n t d S E s H. destruct (mem_spec (NS s) (map fst d)); [|reflexivity]. exfalso. rewrite E, <- in_rev in i.
  apply (s_prims n t S _ i). apply in_map. exact H.
Qed.

Lemma eval_get : forall g j i a h l v, clean g -> nth_error h a = Some l -> nth_error l (S i) = Some v ->
  reval g [(NG j, RRef a)] (of_list [ssym "vector-ref"; SSym (NG j); SNum (Z.of_nat i + 1)]) h = Some (v, h).
Proof.
  intros g j i a h l v C H V. cbn [of_list]. rewrite reval_app; [|reflexivity|reflexivity|apply C; cbn; auto 10].
  cbn [rall reval lookup]. rewrite name_eqb_refl. cbn [rprim String.eqb Ascii.eqb Bool.eqb]. rewrite H.
  replace (Z.of_nat i + 1)%Z with (Z.of_nat (S i)) by lia.
  rewrite slot_of_nat by (apply nth_error_Some; congruence). rewrite V. reflexivity.
Qed.
Lemma eval_set : forall g j i a h l v, clean g -> nth_error h a = Some l -> S i < List.length l ->
  reval g [(NG j, RRef a); (NG (S j), v)] (of_list [ssym "vector-set!"; SSym (NG j); SNum (Z.of_nat i + 1); SSym (NG (S j))]) h
  = Some (v, replace h a (replace l (S i) v)).
Proof.
  intros g j i a h l v C H V. cbn [of_list]. rewrite reval_app; [|reflexivity|reflexivity|apply C; cbn; auto 10].
  cbn [rall reval lookup]. rewrite name_eqb_refl. cbn [name_eqb]. destruct (Nat.eqb_spec (S j) j); [lia|].
  rewrite Nat.eqb_refl. cbn [rprim String.eqb Ascii.eqb Bool.eqb]. rewrite H.
  replace (Z.of_nat i + 1)%Z with (Z.of_nat (S i)) by lia. rewrite slot_of_nat by exact V. reflexivity.
Qed.

(** The predicate, for every value. *)
Definition pred_val (t : rtype) (v : rv) (h : vheap) : option bool :=
  match v with
  | RUndef => None
  | RRef a =>
      match nth_error h a with
      | Some l =>
          if (List.length l =? S (List.length (fields t)))%nat then
            match l with x :: _ => req x (RSym (tname t)) | [] => None end
          else Some false
      | None => None
      end
  | _ => Some false
  end.
Lemma eval_pred : forall g j t v h, clean g ->
  reval g [(NG j, v)] (pred_body (NG j) t) h = match pred_val t v h with Some b => Some (rbool b, h) | None => None end.
Proof.
  intros g j t v h C. unfold pred_body. change (of_list (ssym "and" :: ?r)) with (SCons (ssym "and") (of_list r)). rewrite reval_and.
  assert (A : forall w, reval g [(NG j, w)] (of_list [ssym "vector?"; SSym (NG j)]) h = rprim "vector?" [w] h).
  { intros w. cbn [of_list]. rewrite reval_app; [|reflexivity|reflexivity|apply C; cbn; auto 10]. cbn [rall reval lookup]. rewrite name_eqb_refl. reflexivity. }
  cbn [of_list rconj]. cbn [of_list] in A. rewrite A. clear A.
  destruct v; try reflexivity. cbn [rprim String.eqb Ascii.eqb Bool.eqb pred_val].
  rewrite reval_app; [|reflexivity|reflexivity|apply C; cbn; auto 10]. cbn [rall].
  rewrite reval_app; [|reflexivity|reflexivity|apply C; cbn; auto 10]. cbn [rall].
  rewrite !reval_sym. cbn [lookup]. rewrite name_eqb_refl. cbn [rprim String.eqb Ascii.eqb Bool.eqb].
  destruct (nth_error h a) as [l|] eqn:L; [|reflexivity]. unfold size. rewrite reval_num. cbn [req].
  replace (Z.of_nat (List.length l) =? 1 + Z.of_nat (List.length (fields t)))%Z with (List.length l =? S (List.length (fields t)))
    by (destruct (Nat.eqb_spec (List.length l) (S (List.length (fields t)))), (Z.eqb_spec (Z.of_nat (List.length l)) (1 + Z.of_nat (List.length (fields t)))); lia).
  destruct (Nat.eqb_spec (List.length l) (S (List.length (fields t)))) as [E|E]; cbn [rbool]; [|reflexivity].
  rewrite reval_app; [|reflexivity|reflexivity|apply C; cbn; auto 10]. cbn [rall].
  rewrite reval_app; [|reflexivity|reflexivity|apply C; cbn; auto 10]. cbn [rall].
  rewrite !reval_sym. cbn [lookup]. rewrite name_eqb_refl.
  rewrite reval_num. cbn [rprim String.eqb Ascii.eqb Bool.eqb]. rewrite L.
  destruct l as [|x r]; [discriminate|]. change 0%Z with (Z.of_nat 0). rewrite slot_of_nat by (cbn; lia). cbn [nth_error].
  change (SCons (ssym "quote") (SCons (SSym (tname t)) SNil)) with (of_list [ssym "quote"; SSym (tname t)]). rewrite reval_quote.
  cbn [rprim String.eqb Ascii.eqb Bool.eqb rquote].
  destruct (req x (RSym (tname t))) as [[]|]; reflexivity.
Qed.

Lemma idx_inj : forall all x y i j, index_of x all = Some i -> index_of y all = Some j -> i = j -> x = y.
Proof. intros all x y i j X Y <-. apply index_some in X. apply index_some in Y. congruence. Qed.
Lemma index_lt : forall x all i, index_of x all = Some i -> i < List.length all.
Proof. intros x all i H. apply index_some in H. rewrite <- (map_length fname). apply nth_error_Some. congruence. Qed.
Lemma replace_replace : forall {A} (l : list A) i v w, replace (replace l i v) i w = replace l i w.
Proof. induction l as [|x r IH]; destruct i; cbn; intros; [reflexivity|reflexivity|reflexivity|f_equal; apply IH]. Qed.
Lemma replace_same : forall {A} (l : list A) i v, nth_error l i = Some v -> replace l i v = l.
Proof. induction l as [|x r IH]; destruct i; cbn; intros v H; try reflexivity; [congruence|f_equal; apply IH; exact H]. Qed.

Lemma eval_init : forall g env all ret a x v i h l, clean g -> lookup (NS "vector-set!") env = None ->
  lookup ret env = Some (RRef a) -> lookup x env = Some v -> index_of x all = Some i ->
  nth_error h a = Some l -> List.length l = S (List.length all) ->
  reval g env (init_set ret all x) h = Some (v, replace h a (replace l (S i) v)).
Proof.
  intros g env all ret a x v i h l C P R X I H L. unfold init_set. cbn [of_list].
  rewrite reval_app; [|reflexivity|exact P|apply C; cbn; auto 10]. cbn [rall]. rewrite !reval_sym, R, reval_num, reval_sym, X.
  cbn [rprim String.eqb Ascii.eqb Bool.eqb]. rewrite H. unfold idx. rewrite I.
  replace (1 + Z.of_nat i)%Z with (Z.of_nat (S i)) by lia. apply index_lt in I. rewrite slot_of_nat by lia. reflexivity.
Qed.

Lemma rseq_cons : forall g env a b r h, rseq g env (SCons a (SCons b r)) h =
  match reval g env a h with Some (v, h) => rseq g env (SCons b r) h | None => None end.
Proof. reflexivity. Qed.

Lemma eval_inits : forall g env all ret a, clean g -> lookup (NS "vector-set!") env = None ->
  lookup ret env = Some (RRef a) -> forall il h l,
  (forall x, In x il -> exists v i, lookup x env = Some v /\ index_of x all = Some i) ->
  nth_error h a = Some l -> List.length l = S (List.length all) ->
  exists l', rseq g env (of_list (map (init_set ret all) il ++ [SSym ret])) h = Some (RRef a, replace h a l') /\
    List.length l' = List.length l /\
    (forall x v, In x il -> lookup x env = Some v -> nth_error l' (S (idx x all)) = Some v) /\
    (forall j, (forall x, In x il -> j <> S (idx x all)) -> nth_error l' j = nth_error l j).
Proof.
  intros g env all ret a C P R. induction il as [|x r IH]; intros h l HI H L.
  - exists l. cbn [map app of_list rseq]. rewrite reval_sym, R. rewrite (replace_same h a l H).
    split; [reflexivity|]. split; [reflexivity|]. split; [intros x v []|reflexivity].
  - destruct (HI x (or_introl eq_refl)) as (v & i & X & I).
    assert (A : a < List.length h) by (apply nth_error_Some; congruence).
    destruct (IH (replace h a (replace l (S i) v)) (replace l (S i) v)) as (l' & E & LL & S1 & S2).
    { intros; apply HI; cbn; auto. } { apply nth_replace_same. exact A. } { rewrite replace_length. exact L. }
    exists l'. split.
    { cbn [map app]. change (of_list (?p :: ?q)) with (SCons p (of_list q)).
      destruct (map (init_set ret all) r ++ [SSym ret]) as [|b q] eqn:Q; [destruct (map (init_set ret all) r); discriminate|].
      cbn [of_list] in E |- *. rewrite rseq_cons, (eval_init _ _ _ _ _ _ _ _ _ _ C P R X I H L), E, replace_replace. reflexivity. }
    split; [rewrite LL; apply replace_length|].
    assert (IX : idx x all = i) by (unfold idx; rewrite I; reflexivity).
    split.
    + intros y w [<-|Y] W; [|apply S1; assumption]. rewrite X in W. inversion W; subst w.
      destruct (in_dec (fun a b => match name_eqb_spec a b with ReflectT _ p => left p | ReflectF _ p => right p end) x r) as [J|J]; [apply S1; assumption|].
      rewrite IX, S2.
      * apply nth_replace_same. apply index_lt in I. lia.
      * intros y Y E'. inversion E'. destruct (HI y (or_intror Y)) as (w & j & _ & IY). apply J.
        rewrite (idx_inj all x y i j I IY); [exact Y|]. rewrite H1. unfold idx. rewrite IY. reflexivity.
    + intros j J. rewrite S2 by (intros; apply J; cbn; auto). apply nth_replace_other. rewrite <- IX. intro E'. apply (J x); cbn; auto.
Qed.

Lemma lookup_combine_some : forall (ns : list name) (vs : list rv) x, List.length vs = List.length ns -> In x ns ->
  exists v, lookup x (combine ns vs) = Some v.
Proof.
  induction ns as [|n r IH]; intros [|v vs] x L I; try discriminate; [contradiction|]. cbn.
  destruct (name_eqb_spec x n); [eauto|]. destruct I as [E|I]; [congruence|]. apply IH; [cbn in L; lia|exact I].
Qed.
Lemma lookup_combine_none : forall (ns : list name) (vs : list rv) x, ~ In x ns -> lookup x (combine ns vs) = None.
Proof.
  induction ns as [|n r IH]; intros [|v vs] x I; try reflexivity. cbn. destruct (name_eqb_spec x n).
  - subst. exfalso. apply I. left. reflexivity.
  - apply IH. intro J. apply I. right. exact J.
Qed.
Lemma lookup_combine_nth : forall (ns : list name) (vs : list rv) i x v, NoDup ns -> nth_error ns i = Some x -> nth_error vs i = Some v ->
  lookup x (combine ns vs) = Some v.
Proof.
  induction ns as [|n r IH]; intros [|w vs] i x v N X V; try (destruct i; discriminate). inversion N; subst. cbn.
  destruct i; cbn in X, V.
  - inversion X; inversion V; subst. rewrite name_eqb_refl. reflexivity.
  - destruct (name_eqb_spec x n); [|eapply IH; eassumption]. subst. exfalso. apply H1. eapply nth_error_In. eassumption.
Qed.
Lemma nth_app_last : forall {A} (h : list A) l, nth_error (h ++ [l]) (List.length h) = Some l.
Proof. induction h as [|x r IH]; cbn; auto. Qed.
Lemma replace_last : forall {A} (h : list A) l l', replace (h ++ [l]) (List.length h) l' = h ++ [l'].
Proof. induction h as [|x r IH]; cbn; intros; [reflexivity|f_equal; apply IH]. Qed.

Lemma eval_con : forall n t g args h, sensible n t -> clean g -> List.length args = List.length (inits t) ->
  exists l, reval g (combine (inits t) args) (con_body n t) h = Some (RRef (List.length h), h ++ [RSym (tname t) :: l]) /\
    List.length l = List.length (fields t) /\
    (forall i x v j, nth_error (inits t) i = Some x -> nth_error args i = Some v -> index_of x (fields t) = Some j -> nth_error l j = Some v) /\
    (forall x j, ~ In x (inits t) -> index_of x (fields t) = Some j -> nth_error l j = Some RUndef).
Proof.
  intros n t g args h S C L. set (env := (NG n, RRef (List.length h)) :: combine (inits t) args).
  assert (NV : forall s, In s con_uses -> lookup (NS s) (combine (inits t) args) = None).
  { intros s I. apply lookup_combine_none. intro J. apply (s_used n t S _ J). apply in_map. exact I. }
  assert (FR : ~ In (NG n) (inits t)). { intro J. pose proof (s_old n t S _ J) as O. cbn in O. lia. }
  set (l0 := RSym (tname t) :: repeat RUndef (List.length (fields t))).
  assert (LE : forall x, In x (inits t) -> lookup x env = lookup x (combine (inits t) args)).
  { intros x I. unfold env. cbn [lookup]. destruct (name_eqb_spec x (NG n)); [subst; contradiction|reflexivity]. }
  assert (R0 : lookup (NG n) env = Some (RRef (List.length h))) by (unfold env; cbn [lookup]; rewrite name_eqb_refl; reflexivity).
  assert (P0 : lookup (NS "vector-set!") env = None) by (unfold env; cbn [lookup name_eqb]; apply NV; cbn; auto).
  destruct (eval_inits g env (fields t) (NG n) (List.length h) C P0 R0 (inits t) (h ++ [l0]) l0) as (l' & E & LL & S1 & S2).
  { intros x I. destruct (index_some_in x (fields t) (s_incl n t S x I)) as [i IX].
    destruct (lookup_combine_some (inits t) args x L I) as [v V]. exists v, i. rewrite LE by exact I. auto. }
  { apply nth_app_last. }
  { unfold l0. cbn. rewrite repeat_length. reflexivity. }
  unfold l0 in LL. cbn [List.length] in LL. rewrite repeat_length in LL.
  destruct l' as [|x0 l]; [discriminate|].
  assert (X0 : x0 = RSym (tname t)).
  { specialize (S2 0). cbn in S2. assert (Some x0 = Some (RSym (tname t))) by (apply S2; intros; discriminate). congruence. }
  subst x0. exists l. split; [|split; [cbn in LL; lia|split]].
  - unfold con_body. rewrite reval_let. unfold size.
    assert (V : reval g (combine (inits t) args) (of_list [ssym "vector"; SNum (1 + Z.of_nat (List.length (fields t)))]) h =
      Some (RRef (List.length h), h ++ [RUndef :: repeat RUndef (List.length (fields t))])).
    { cbn [of_list]. rewrite reval_app; [|reflexivity|apply NV; cbn; auto|apply C; cbn; auto 10]. cbn [rall]. rewrite reval_num.
      cbn [rprim String.eqb Ascii.eqb Bool.eqb]. destruct (Z.leb_spec 0 (1 + Z.of_nat (List.length (fields t)))); [|lia].
      replace (Z.to_nat (1 + Z.of_nat (List.length (fields t)))) with (Datatypes.S (List.length (fields t))) by lia. reflexivity. }
    rewrite V. fold env. cbn [app]. change (of_list (ssym "begin" :: ?r)) with (SCons (ssym "begin") (of_list r)). rewrite reval_begin.
    assert (T : reval g env (of_list [ssym "vector-set!"; SSym (NG n); SNum 0; of_list [ssym "quote"; SSym (tname t)]])
      (h ++ [RUndef :: repeat RUndef (List.length (fields t))]) = Some (RSym (tname t), h ++ [l0])).
    { remember (of_list [ssym "quote"; SSym (tname t)]) as q. cbn [of_list]. rewrite reval_app; [|reflexivity|exact P0|apply C; cbn; auto 10]. cbn [rall].
      rewrite reval_sym, R0, reval_num. subst q. rewrite reval_quote. cbn [rprim String.eqb Ascii.eqb Bool.eqb rquote].
      rewrite nth_app_last. change 0%Z with (Z.of_nat 0). rewrite slot_of_nat by (cbn; lia). cbn [replace]. rewrite replace_last. reflexivity. }
    destruct (map (init_set (NG n) (fields t)) (inits t) ++ [SSym (NG n)]) as [|b q] eqn:Q; [destruct (map (init_set (NG n) (fields t)) (inits t)); discriminate|].
    change (of_list (?u :: ?b :: ?q)) with (SCons u (SCons b (of_list q))). rewrite rseq_cons, T.
    change (SCons b (of_list q)) with (of_list (b :: q)). rewrite E, replace_last. reflexivity.
  - intros i x v j X V J.
    assert (I : In x (inits t)) by (eapply nth_error_In; eassumption).
    specialize (S1 x v I). rewrite LE in S1 by exact I. rewrite (lookup_combine_nth _ _ _ _ _ (s_inits n t S) X V) in S1.
    unfold idx in S1. rewrite J in S1. exact (S1 eq_refl).
  - intros x j X J. specialize (S2 (Datatypes.S j)). cbn [nth_error] in S2. rewrite S2.
    + unfold l0. cbn [nth_error]. apply nth_error_repeat. apply (index_lt _ _ _ J).
    + intros y Y E'. inversion E'. destruct (index_some_in y (fields t) (s_incl n t S y Y)) as [i IY].
      apply X. rewrite (idx_inj _ _ _ _ _ J IY); [exact Y|]. rewrite H0. unfold idx. rewrite IY. reflexivity.
Qed.
