(** C86: @seq with any number of parsers runs them in order. *)
From Coq Require Import List ZArith String Bool Lia.
From Verif Require Import CoreSpec TocModel NsModel MacroModel UmacModel UmacSpec MacroExp UmacProps PegSpec PegModel PegProps PegMacModel.
Import ListNotations.
Local Open Scope list_scope.
Local Open Scope nat_scope.

(** * Specification *)
(** the form a program writes *)
Definition seq_form (ps : list sexp) : sexp := of_list (SSym (NS "@seq") :: ps).

(** the expressions one after the other expand to ... *)
Inductive each {St} (macros : St -> table St) : list sexp -> St -> list sexp -> St -> Prop :=
| each_nil : forall s, each macros [] s [] s
| each_cons : forall p ps s p' s1 ps' s', Exp macros p s p' s1 -> each macros ps s1 ps' s' ->
    each macros (p :: ps) s (p' :: ps') s'.

(** the parser an expression stands for, given those the other expressions
    stand for: a call of the function @seq on two arguments is a sequence *)
Inductive stands (env : sexp -> peg -> Prop) : sexp -> peg -> Prop :=
| st_given : forall e p, env e p -> stands env e p
| st_seq : forall a b p q, stands env a p -> stands env b q -> stands env (SCons (SSym (NS "@seq")) (SCons a (SCons b SNil))) (PSeq p q).

(** a parser run on tokens *)
Definition gives (defs : nat -> option peg) (p : peg) (toks : list Z) (r : res) : Prop := exists n, parse defs n p toks = Some r.

(** the parsers run in order, each where the one before stopped *)
Inductive run_all (defs : nat -> option peg) : list peg -> list Z -> list val -> list Z -> Prop :=
| r_nil : forall t, run_all defs [] t [] t
| r_cons : forall p ps t v t1 vs t2, gives defs p t (Ok v t1) -> run_all defs ps t1 vs t2 -> run_all defs (p :: ps) t (v :: vs) t2.

(** (v1 v2 ... . vn) *)
Fixpoint dotted (v : val) (vs : list val) : val := match vs with [] => v | w :: r => VCons v (dotted w r) end.

Definition result (defs : nat -> option peg) (ps : list peg) (toks : list Z) (r : res) : Prop :=
  match r with
  | Ok v t => exists v1 vs, run_all defs ps toks (v1 :: vs) t /\ v = dotted v1 vs
  | r => exists pre p post vs t1, ps = pre ++ p :: post /\ run_all defs pre toks vs t1 /\ gives defs p t1 r
  end.

(** * Proofs *)
Fixpoint nest (p : sexp) (ps : list sexp) : sexp :=
  match ps with [] => p | q :: r => of_list [seq_sym; p; nest q r] end.
Fixpoint pnest (p : peg) (ps : list peg) : peg := match ps with [] => p | q :: r => PSeq p (pnest q r) end.

Lemma rewrite_nest : forall ps p q, rewrite_seq (of_list (p :: q :: ps)) = Some (nest p (q :: ps)).
Proof.
  induction ps as [|r ps IH]; intros p q; [reflexivity|].
  specialize (IH q r). cbn [of_list] in *. cbn [rewrite_seq] in *. rewrite IH. reflexivity.
Qed.

Lemma seq_not_special : ~ special seq_sym.
Proof. intros [H|[H|H]]; discriminate. Qed.

Lemma each_inv : forall St (macros : St -> table St) p ps p' ps' s s', each macros (p :: ps) s (p' :: ps') s' ->
  exists s1, Exp macros p s p' s1 /\ each macros ps s1 ps' s'.
Proof. intros St macros p ps p' ps' s s' E. inversion E; subst. eauto. Qed.

Lemma run_inv : forall defs p ps t v vs t2, run_all defs (p :: ps) t (v :: vs) t2 -> exists t1, gives defs p t (Ok v t1) /\ run_all defs ps t1 vs t2.
Proof. intros defs p ps t v vs t2 R. inversion R; subst. eauto. Qed.

Section E.
  Context {St : Type} (macros : St -> table St) (Hn : forall s, newest (macros s) seq_sym seq_macro).

  Lemma nest_exp : forall ps p s ps' s' p' s1, Exp macros p s p' s1 -> each macros ps s1 ps' s' -> Exp macros (nest p ps) s (nest p' ps') s'.
  Proof.
    induction ps as [|q ps IH]; intros p s ps' s' p' s1 H E; inversion E; subst; [exact H|].
    cbn [nest of_list]. apply X_same with (f := seq_macro) (s1 := s); [apply seq_not_special|apply Hn|reflexivity|].
    apply Xs_cons with (s1 := s); [apply X_atom; unfold atom; discriminate|]. apply Xs_cons with (s1 := s1); [exact H|].
    apply Xs_cons with (s1 := s'); [eapply IH; eauto|]. apply Xs_end. unfold atom. discriminate.
  Qed.

  Lemma seq_exp : forall p q ps p' q' ps' s s', each macros (p :: q :: ps) s (p' :: q' :: ps') s' ->
    Exp macros (seq_form (p :: q :: ps)) s (nest p' (q' :: ps')) s'.
  Proof.
    intros p q ps p' q' ps' s s' E. apply each_inv in E. destruct E as (s1 & H & H1). pose proof (nest_exp _ _ _ _ _ _ _ H H1) as X.
    destruct ps as [|r ps]; [exact X|]. unfold seq_form. cbn [of_list].
    apply X_macro with (f := seq_macro) (e1 := nest p (q :: r :: ps)) (s1 := s); [apply seq_not_special|apply Hn| | |exact X].
    - cbn [seq_macro]. change (SCons p (SCons q (SCons r (of_list ps)))) with (of_list (p :: q :: r :: ps)). now rewrite rewrite_nest.
    - cbn. discriminate.
  Qed.
End E.

Lemma pnest_stands : forall env es ps e p, stands env e p -> Forall2 (stands env) es ps -> stands env (nest e es) (pnest p ps).
Proof.
  intros env es. induction es as [|e1 es IH]; intros ps e p H F; inversion F; subst; [exact H|]. cbn. apply st_seq; [exact H|]. now apply IH.
Qed.

Lemma gives_seq : forall defs p q t r, gives defs (PSeq p q) t r <->
  match r with
  | Ok v t2 => exists v1 t1 v2, gives defs p t (Ok v1 t1) /\ gives defs q t1 (Ok v2 t2) /\ v = VCons v1 v2
  | r => gives defs p t r \/ exists v1 t1, gives defs p t (Ok v1 t1) /\ gives defs q t1 r
  end.
Proof.
  intros defs p q t r. split.
  - intros (n & H). destruct n as [|n]; [discriminate|]. cbn [parse] in H.
    destruct (parse defs n p t) as [[v1 t1|t1|]|] eqn:E1; try discriminate.
    + destruct (parse defs n q t1) as [[v2 t2|t2|]|] eqn:E2; try discriminate; injection H as <-.
      * exists v1, t1, v2. repeat split; [now exists n|now exists n].
      * right. exists v1, t1. split; now exists n.
      * right. exists v1, t1. split; now exists n.
    + injection H as <-. left. now exists n.
    + injection H as <-. left. now exists n.
  - assert (K : forall v1 t1 r2, gives defs p t (Ok v1 t1) -> gives defs q t1 r2 ->
       gives defs (PSeq p q) t (match r2 with Ok v2 t2 => Ok (VCons v1 v2) t2 | r2 => r2 end)).
    { intros v1 t1 r2 (n & A) (m & B). exists (S (n + m)). cbn [parse].
      rewrite (parse_mono defs n (n + m) _ _ _ ltac:(lia) A), (parse_mono defs m (n + m) _ _ _ ltac:(lia) B). now destruct r2. }
    assert (K1 : forall r1, gives defs p t r1 -> match r1 with Ok _ _ => True | _ => gives defs (PSeq p q) t r1 end).
    { intros [v t1|t1|] (n & A); [exact I| |]; exists (S n); cbn [parse]; now rewrite A. }
    destruct r as [v t2|t2|].
    + intros (v1 & t1 & v2 & A & B & ->). exact (K _ _ _ A B).
    + intros [A|(v1 & t1 & A & B)]; [exact (K1 _ A)|exact (K _ _ _ A B)].
    + intros [A|(v1 & t1 & A & B)]; [exact (K1 _ A)|exact (K _ _ _ A B)].
Qed.

Lemma gives_pnest : forall defs ps p t r, gives defs (pnest p ps) t r <-> result defs (p :: ps) t r.
Proof.
  intros defs ps. induction ps as [|q ps IH]; intros p t r.
  - cbn [pnest]. unfold result. destruct r as [v t1|t1|].
    + split.
      * intros H. exists v, []. split; [|reflexivity]. eapply r_cons; [exact H|constructor].
      * intros (v1 & vs & R & ->). apply run_inv in R. destruct R as (t2 & G & R). inversion R; subst. exact G.
    + split.
      * intros H. exists [], p, [], [], t. repeat split; [constructor|exact H].
      * intros (pre & p1 & post & vs & t2 & E & R & G). destruct pre as [|x pre]; [|destruct pre; discriminate].
        injection E as <- <-. inversion R; subst. exact G.
    + split.
      * intros H. exists [], p, [], [], t. repeat split; [constructor|exact H].
      * intros (pre & p1 & post & vs & t2 & E & R & G). destruct pre as [|x pre]; [|destruct pre; discriminate].
        injection E as <- <-. inversion R; subst. exact G.
  - cbn [pnest]. rewrite gives_seq.
    assert (B : forall r, (forall v t1, r <> Ok v t1) ->
      (gives defs p t r \/ (exists v1 t1, gives defs p t (Ok v1 t1) /\ result defs (q :: ps) t1 r)) <-> result defs (p :: q :: ps) t r).
    { intros r0 Nr. assert (RR : forall l t, result defs l t r0 <->
         exists pre p post vs t1, l = pre ++ p :: post /\ run_all defs pre t vs t1 /\ gives defs p t1 r0)
        by (intros; destruct r0; [now elim (Nr v toks)|reflexivity|reflexivity]).
      rewrite RR. split.
      - intros [A|(v1 & t1 & A & R)].
        + exists [], p, (q :: ps), [], t. repeat split; [constructor|exact A].
        + apply RR in R. destruct R as (pre & p1 & post & vs & t2 & E & R & G).
          exists (p :: pre), p1, post, (v1 :: vs), t2. rewrite E. repeat split; [|exact G]. eapply r_cons; eauto.
      - intros (pre & p1 & post & vs & t2 & E & R & G). destruct pre as [|x pre].
        + injection E as <- <-. inversion R; subst. now left.
        + injection E as <- E. inversion R; subst. right. eexists _, _. split; [eassumption|]. apply RR. exists pre, p1, post. eauto 6. }
    destruct r as [v t1|t1|].
    + unfold result. split.
      * intros (v1 & t2 & v2 & A & G & ->). apply IH in G. destruct G as (w & ws & R & ->).
        exists v1, (w :: ws). split; [|reflexivity]. eapply r_cons; eauto.
      * intros (v1 & vs & R & ->). apply run_inv in R. destruct R as (t2 & G & R). destruct vs as [|w ws]; [inversion R|].
        exists v1, t2, (dotted w ws). split; [exact G|]. split; [|reflexivity]. apply IH. exists w, ws. auto.
    + rewrite <- B by discriminate. split; intros [A|(v1 & t2 & A & G)]; auto; right; exists v1, t2; (split; [exact A|now apply IH]).
    + rewrite <- B by discriminate. split; intros [A|(v1 & t2 & A & G)]; auto; right; exists v1, t2; (split; [exact A|now apply IH]).
Qed.

(** * The theorems *)
(** However many parsers there are (two or more) and whatever macros occur in
    the expressions: [(@seq e1 ... en)] expands, and to an expression for a
    parser that runs those of [e1 ... en] in order.  It accepts with the values
    [(v1 ... . vn)] exactly when all accept, and rejects or errs like the first
    that does. *)
Theorem seq_of_many : forall St (macros : St -> table St) (env : sexp -> peg -> Prop) defs es ps s es' s',
  (forall s, newest (macros s) (SSym (NS "@seq")) seq_macro) -> 2 <= List.length es ->
  each macros es s es' s' -> Forall2 env es' ps ->
  exists e' p, (exists n, uboot macros n (seq_form es) s = Done e' s') /\ stands env e' p /\
    forall toks r, gives defs p toks r <-> result defs ps toks r.
Proof.
  intros St macros env defs es ps s es' s' Hn L E F.
  destruct es as [|e [|f es]]; cbn in L; try lia. destruct es' as [|e' [|f' es']];
    [inversion E|apply each_inv in E; destruct E as (s1 & _ & E); inversion E|]. destruct ps as [|p [|q ps]];
    [inversion F|inversion F; subst; match goal with H : Forall2 _ (_ :: _) [] |- _ => inversion H end|].
  inversion F as [|? ? ? ? Fe F1]; subst. inversion F1 as [|? ? ? ? Ff F2]; subst.
  exists (nest e' (f' :: es')), (pnest p (q :: ps)). split; [apply expand_right; apply (seq_exp macros Hn); exact E|]. split.
  - apply pnest_stands; [now apply st_given|]. constructor; [now apply st_given|].
    clear - F2. induction F2; constructor; auto. now apply st_given.
  - intros toks r. apply gives_pnest.
Qed.

(** With one parser, or none, it is an error. *)
Theorem seq_of_one_refuted : forall St (macros : St -> table St) s p n,
  newest (macros s) (SSym (NS "@seq")) seq_macro ->
  uboot macros (S n) (seq_form [p]) s = UmacModel.Error /\ uboot macros (S n) (seq_form []) s = UmacModel.Error.
Proof.
  intros St macros s p n (l1 & l2 & E & Hl). unfold seq_form. cbn [of_list uboot].
  change (is_protect (SSym (NS "@seq"))) with false. change (is_sym "lambda" (SSym (NS "@seq"))) with false.
  change (is_sym "quote" (SSym (NS "@seq"))) with false. cbv iota.
  assert (X : forall t, seq_macro (SCons (SSym (NS "@seq")) t) s = None -> expand1_u macros (SCons (SSym (NS "@seq")) t) s = None).
  { intros t Ht. unfold expand1_u. rewrite E. clear E. induction l1 as [|[k f] l1 IH]; cbn [app expand1_h fst snd].
    - now rewrite sexp_eqb_refl.
    - assert (Q : sexp_eqb (SSym (NS "@seq")) k = false) by (apply eqb_neq; intros <-; apply Hl; now left).
      rewrite Q. apply IH. intros H. apply Hl. now right. }
  now rewrite !X by reflexivity.
Qed.

(** A repeated parser at the end gives a proper list. *)
Example seq_ex : exists e', uboot (fun _ => [(seq_sym, seq_macro)]) 9 (seq_form [ssym "a"; ssym "b"; ssym "c"]) tt = Done e' tt /\
  e' = of_list [seq_sym; ssym "a"; of_list [seq_sym; ssym "b"; ssym "c"]] /\
  parse (fun _ => None) 9 (PSeq (PChar 97) (PSeq (PRange 48 57) (PStar (PChar 98)))) [97; 50; 98; 98; 99]%Z =
  Some (Ok (VCons (VTok 97) (VCons (VTok 50) (VCons (VTok 98) (VCons (VTok 98) VNil)))) [99%Z]).
Proof. eexists. split; [vm_compute; reflexivity|]. split; vm_compute; reflexivity. Qed.

Example seq_of_many_ex : let macros := fun _ : unit => [(SSym (NS "@seq"), seq_macro)] in
  let env := fun e p => e = ssym "a" /\ p = PChar 97 in
  (forall s, newest (macros s) (SSym (NS "@seq")) seq_macro) /\
  each macros [ssym "a"; ssym "a"; ssym "a"] tt [ssym "a"; ssym "a"; ssym "a"] tt /\
  Forall2 env [ssym "a"; ssym "a"; ssym "a"] [PChar 97; PChar 97; PChar 97] /\
  result (fun _ => None) [PChar 97; PChar 97; PChar 97] [97; 97; 98]%Z (Fail [98%Z]).
Proof.
  intros macros env. split; [intros s; exists [], []; split; [reflexivity|intros []]|].
  split; [repeat (eapply each_cons; [apply X_atom; unfold atom; discriminate|]); constructor|].
  split; [repeat constructor|]. exists [PChar 97; PChar 97], (PChar 97), [], [VTok 97; VTok 97], [98%Z].
  split; [reflexivity|]. split; [repeat (eapply r_cons; [exists 3; reflexivity|]); constructor|]. now exists 3.
Qed.

Print Assumptions seq_of_many.
Print Assumptions seq_of_one_refuted.
