(** C54: the parsers of lib/peg.cora are parsing expression grammars. *)
From Coq Require Import List ZArith String Bool Arith Lia.
From Verif Require Import PegSpec PegModel.
Import ListNotations.
Local Open Scope list_scope.
Local Open Scope nat_scope.

(** Parsers that never reject. *)
Fixpoint never (p : peg) : Prop :=
  match p with
  | PStar _ | PMaybe _ => True
  | POr _ q => never q
  | PSeq p1 p2 => never p1 /\ never p2
  | PMap p1 _ => never p1
  | PBind p1 f => never p1 /\ forall v, never (f v)
  | _ => False
  end.
(** Parsers that reject without having consumed anything; [L i]: the parser
    number [i] is one. *)
Fixpoint stays (L : nat -> Prop) (p : peg) : Prop :=
  match p with
  | PChar _ | PStr _ | PSat _ | PRange _ _ | PEof | PStar _ | PMaybe _ => True
  | PSeq p1 p2 => stays L p1 /\ never p2
  | POr p1 p2 => never p2 \/ stays L p1 /\ stays L p2
  | PPlus p1 | PMap p1 _ => stays L p1
  | PBind p1 f => stays L p1 /\ forall v, never (f v)
  | PNot _ => False
  | PRef i => L i
  end.
(** Parsers in which only such parsers are repeated, optional, tested, or the
    first of a choice. *)
Fixpoint neat (L : nat -> Prop) (p : peg) : Prop :=
  match p with
  | PChar _ | PStr _ | PSat _ | PRange _ _ | PEof | PRef _ => True
  | PSeq p1 p2 => neat L p1 /\ neat L p2
  | POr p1 p2 => neat L p1 /\ stays L p1 /\ neat L p2
  | PNot p1 | PPlus p1 | PStar p1 | PMaybe p1 => neat L p1 /\ stays L p1
  | PMap p1 _ => neat L p1
  | PBind p1 f => neat L p1 /\ forall v, neat L (f v)
  end.
Definition neat_defs (L : nat -> Prop) (defs : nat -> option peg) : Prop :=
  forall i p, defs i = Some p -> neat L p /\ (L i -> stays L p).

Lemma recur_result : forall defs n p k m toks acc r, recur_h m (parse defs n p) toks acc k = Some r ->
  r = Error \/ exists acc' t, r = k acc' t.
Proof.
  intros defs n p k. induction m as [|m IH]; cbn; [discriminate|]. intros toks acc r H.
  destruct (parse defs n p toks) as [[v t|t|]|]; [eauto| |left; congruence|discriminate]. injection H as <-. eauto.
Qed.
Lemma never_fail : forall defs n p toks t, never p -> parse defs n p toks = Some (Fail t) -> False.
Proof.
  intros defs. induction n as [|n IH]; [discriminate|]. intros p toks t N H. destruct p; cbn in N, H; try contradiction.
  - destruct N as (N1 & N2). destruct (parse defs n p1 toks) as [[v t1|t1|]|] eqn:E1; try discriminate.
    + destruct (parse defs n p2 t1) as [[v2 t2|t2|]|] eqn:E2; try discriminate. exact (IH _ _ _ N2 E2).
    + exact (IH _ _ _ N1 E1).
  - destruct (parse defs n p1 toks) as [[v t1|t1|]|] eqn:E1; try discriminate. exact (IH _ _ _ N H).
  - apply recur_result in H. destruct H as [H|(a & b & H)]; discriminate.
  - destruct (parse defs n p toks) as [[v t1|t1|]|]; discriminate.
  - destruct (parse defs n p toks) as [[v t1|t1|]|] eqn:E1; try discriminate. exact (IH _ _ _ N E1).
  - destruct N as (N1 & N2). destruct (parse defs n p toks) as [[v t1|t1|]|] eqn:E1; try discriminate.
    + exact (IH _ _ _ (N2 v) H).
    + exact (IH _ _ _ N1 E1).
Qed.

Section Neat.
  Variables (L : nat -> Prop) (defs : nat -> option peg).
  Hypothesis D : neat_defs L defs.

  Lemma recur_acc : forall n p m toks acc k r, recur_h m (parse defs n p) toks acc k = Some r ->
    (forall t0 t1, parse defs n p t0 = Some (Fail t1) -> t1 = t0) ->
    r = Error \/ (exists t, r = k acc toks /\ parse defs n p toks = Some (Fail t)) \/ exists v acc' t, r = k (acc' ++ v :: acc) t.
  Proof.
    intros n p. induction m as [|m IH]; cbn; [discriminate|]. intros toks acc k r H S.
    destruct (parse defs n p toks) as [[v t|t|]|] eqn:E; [| |left; congruence|discriminate].
    - destruct (IH _ _ _ _ H S) as [X|[(t1 & X & _)|(w & acc' & t1 & X)]]; [auto| |].
      + right. right. exists v, [], t. exact X.
      + right. right. exists v, (acc' ++ [w]), t1. rewrite <- app_assoc. exact X.
    - right. left. injection H as <-. rewrite (S _ _ E). eauto.
  Qed.
  Lemma stays_fail : forall n p toks t, stays L p -> parse defs n p toks = Some (Fail t) -> t = toks.
  Proof.
    induction n as [|n IH]; [discriminate|]. intros p toks t S H. destruct p; cbn in S; cbn -[Nat.ltb] in H; try contradiction.
    - destruct toks as [|h r]; [congruence|]. destruct (h =? c)%Z; congruence.
    - destruct (sub_list l toks) as [[r|]|]; congruence.
    - destruct toks as [|h r]; [congruence|]. destruct (f h); congruence.
    - destruct toks as [|h r]; [congruence|]. destruct (_ && _); congruence.
    - destruct toks as [|h r]; congruence.
    - destruct S as (S & N). destruct (parse defs n p1 toks) as [[v t1|t1|]|] eqn:E1; try discriminate.
      + destruct (parse defs n p2 t1) as [[v2 t2|t2|]|] eqn:E2; try discriminate. destruct (never_fail _ _ _ _ _ N E2).
      + injection H as ->. exact (IH _ _ _ S E1).
    - destruct (parse defs n p1 toks) as [[v t1|t1|]|] eqn:E1; try discriminate.
      destruct S as [N|(S1 & S2)]; [destruct (never_fail _ _ _ _ _ N H)|]. rewrite (IH _ _ _ S2 H). exact (IH _ _ _ S1 E1).
    - apply recur_acc in H; [|intros t0 t1; now apply IH]. destruct H as [H|[(t1 & H & _)|(v & acc & t1 & H)]]; [discriminate| |].
      + cbn in H. congruence.
      + destruct (0 <? _) eqn:E; [discriminate|]. apply Nat.ltb_ge in E. rewrite app_length in E. cbn in E. lia.
    - apply recur_result in H. destruct H as [H|(a & b & H)]; discriminate.
    - destruct (parse defs n p toks) as [[v t1|t1|]|]; discriminate.
    - destruct (parse defs n p toks) as [[v t1|t1|]|] eqn:E1; try discriminate. injection H as ->. exact (IH _ _ _ S E1).
    - destruct S as (S & N). destruct (parse defs n p toks) as [[v t1|t1|]|] eqn:E1; try discriminate.
      + destruct (never_fail _ _ _ _ _ (N v) H).
      + injection H as ->. exact (IH _ _ _ S E1).
    - destruct (defs i) as [q|] eqn:E; [|discriminate]. apply (IH q); [|exact H]. now apply (D i q).
  Qed.

  (** what the result of a parser says *)
  Definition agrees (p : peg) (toks : list Z) (r : res) : Prop :=
    match r with Ok v t => parses defs p toks (Some (v, t)) | Fail _ => parses defs p toks None | Error => True end.

  Lemma sub_list_spec : forall l toks,
    match sub_list l toks with Some (Some rem) => toks = l ++ rem | _ => forall rem, toks <> l ++ rem end.
  Proof.
    induction l as [|h l IH]; intros toks; cbn; [destruct toks; reflexivity|].
    destruct toks as [|h2 t2]; [discriminate|]. destruct (Z.eqb_spec h h2) as [->|N]; [|intros rem E; congruence].
    specialize (IH t2). destruct (sub_list l t2) as [[rem|]|]; [congruence| |]; intros rem E; injection E as E; exact (IH rem E).
  Qed.

  Lemma recur_many : forall n p, (forall toks r, parse defs n p toks = Some r -> agrees p toks r) -> stays L p ->
    forall m toks acc k r, recur_h m (parse defs n p) toks acc k = Some r ->
    r = Error \/ exists l t, many defs p toks l t /\ r = k (rev l ++ acc) t.
  Proof.
    intros n p A S. induction m as [|m IH]; cbn; [discriminate|]. intros toks acc k r H.
    destruct (parse defs n p toks) as [[v t|t|]|] eqn:E; [| |left; congruence|discriminate].
    - destruct (IH _ _ _ _ H) as [X|(l & t1 & M & X)]; [auto|]. right. exists (v :: l), t1. split.
      + econstructor; [exact (A _ _ E)|exact M].
      + cbn. rewrite <- app_assoc. exact X.
    - right. exists [], toks. pose proof (A _ _ E) as X. rewrite (stays_fail _ _ _ _ S E) in H. split; [now constructor|]. cbn. congruence.
  Qed.

  (** A parser that answers, answers as its grammar says. *)
  Lemma sound : forall n p toks r, neat L p -> parse defs n p toks = Some r -> agrees p toks r.
  Proof.
    induction n as [|n IH]; [discriminate|]. intros p toks r N H. destruct p; cbn in N, H.
    - injection H as <-. destruct toks as [|h r]; [constructor; discriminate|]. destruct (Z.eqb_spec h c) as [->|X]; [constructor|constructor; congruence].
    - injection H as <-. pose proof (sub_list_spec l toks) as X. destruct (sub_list l toks) as [[rem|]|]; cbn; [subst; constructor| |exact I].
      now constructor.
    - injection H as <-. destruct toks as [|h r]; [constructor|]. destruct (f h) eqn:E; now constructor.
    - injection H as <-. destruct toks as [|h r]; [constructor|]. destruct (_ && _) eqn:E; constructor; [|intro X]; lia.
    - injection H as <-. destruct toks as [|h r]; constructor.
    - destruct N as (N1 & N2). destruct (parse defs n p1 toks) as [[v t1|t1|]|] eqn:E1; try discriminate; pose proof (IH _ _ _ N1 E1) as A1.
      + destruct (parse defs n p2 t1) as [[v2 t2|t2|]|] eqn:E2; try discriminate; pose proof (IH _ _ _ N2 E2) as A2; injection H as <-; cbn in *.
        * econstructor; eauto.
        * eapply e_seq_no2; eauto.
        * exact I.
      + injection H as <-. now apply e_seq_no1.
      + injection H as <-. exact I.
    - destruct N as (N1 & S1 & N2). destruct (parse defs n p1 toks) as [[v t1|t1|]|] eqn:E1; try discriminate; pose proof (IH _ _ _ N1 E1) as A1.
      + injection H as <-. now apply e_or1.
      + rewrite (stays_fail _ _ _ _ S1 E1) in H. pose proof (IH _ _ _ N2 H) as A2. destruct r; cbn in *; [now apply e_or2|now apply e_or2|exact I].
      + injection H as <-. exact I.
    - destruct N as (N1 & S1). destruct (parse defs n p toks) as [[v t1|t1|]|] eqn:E1; try discriminate; pose proof (IH _ _ _ N1 E1) as A1; injection H as <-; cbn in *.
      + eapply e_not; eauto.
      + rewrite (stays_fail _ _ _ _ S1 E1). now apply e_not_ok.
      + exact I.
    - destruct N as (N1 & S1). destruct (recur_many n p (fun t r => IH p t r N1) S1 _ _ _ _ _ H) as [->|(l & t & M & ->)]; [exact I|].
      rewrite app_nil_r, rev_length, rev_involutive. destruct l as [|v l]; cbn.
      + apply e_plus_no. inversion M; assumption.
      + now apply (e_plus defs p toks v l t).
    - destruct N as (N1 & S1). destruct (recur_many n p (fun t r => IH p t r N1) S1 _ _ _ _ _ H) as [->|(l & t & M & ->)]; [exact I|].
      rewrite app_nil_r, rev_involutive. now apply e_star.
    - destruct N as (N1 & S1). destruct (parse defs n p toks) as [[v t1|t1|]|] eqn:E1; try discriminate; pose proof (IH _ _ _ N1 E1) as A1; injection H as <-; cbn in *.
      + now apply e_maybe.
      + rewrite (stays_fail _ _ _ _ S1 E1). now apply e_maybe_no.
      + exact I.
    - destruct (parse defs n p toks) as [[v t1|t1|]|] eqn:E1; try discriminate; pose proof (IH _ _ _ N E1) as A1; injection H as <-; cbn in *.
      + now apply e_map.
      + now apply e_map_no.
      + exact I.
    - destruct N as (N1 & N2). destruct (parse defs n p toks) as [[v t1|t1|]|] eqn:E1; try discriminate; pose proof (IH _ _ _ N1 E1) as A1.
      + pose proof (IH _ _ _ (N2 v) H) as A2. destruct r; cbn in *; [eapply e_bind; eauto|eapply e_bind; eauto|exact I].
      + injection H as <-. now apply e_bind_no.
      + injection H as <-. exact I.
    - destruct (defs i) as [q|] eqn:E; [|discriminate]. pose proof (IH q _ _ (proj1 (D _ _ E)) H) as A.
      destruct r; cbn in *; [eapply e_ref; eauto|eapply e_ref; eauto|exact I].
  Qed.
End Neat.

Theorem peg_sound_partial : forall L defs, neat_defs L defs -> forall n p toks r, neat L p -> parse defs n p toks = Some r ->
  match r with Ok v t => parses defs p toks (Some (v, t)) | Fail _ => parses defs p toks None | Error => True end.
Proof. intros L defs D n p toks r N H. exact (sound L defs D n p toks r N H). Qed.
Print Assumptions peg_sound_partial.

(** * The converse *)
Lemma recur_mono : forall p p' k, (forall t r, p t = Some r -> p' t = Some r) ->
  forall m m' toks acc r, m <= m' -> recur_h m p toks acc k = Some r -> recur_h m' p' toks acc k = Some r.
Proof.
  intros p p' k P. induction m as [|m IH]; [discriminate|]. intros [|m'] toks acc r Le H; [lia|]. cbn in *.
  destruct (p toks) as [[v t|t|]|] eqn:E; [| | |discriminate]; rewrite (P _ _ E); try exact H. apply IH; [lia|exact H].
Qed.
Lemma parse_mono : forall defs n n' p toks r, n <= n' -> parse defs n p toks = Some r -> parse defs n' p toks = Some r.
Proof.
  intros defs. induction n as [|n IH]; [discriminate|]. intros [|n'] p toks r Le H; [lia|].
  assert (M : forall p toks r, parse defs n p toks = Some r -> parse defs n' p toks = Some r) by (intros; apply IH; [lia|assumption]).
  destruct p; cbn in *; try exact H;
    try (destruct (parse defs n p toks) as [[v t1|t1|]|] eqn:E1; [| | |discriminate]; rewrite (M _ _ _ E1); try exact H; now apply M);
    try (destruct (defs i); [now apply M|discriminate]).
  - destruct (parse defs n p1 toks) as [[v t1|t1|]|] eqn:E1; [| | |discriminate]; rewrite (M _ _ _ E1); try exact H.
    destruct (parse defs n p2 t1) as [x|] eqn:E2; [|discriminate]. now rewrite (M _ _ _ E2).
  - destruct (parse defs n p1 toks) as [[v t1|t1|]|] eqn:E1; [| | |discriminate]; rewrite (M _ _ _ E1); try exact H. now apply M.
  - refine (recur_mono _ _ _ (M p) n n' _ _ _ _ H). lia.
  - refine (recur_mono _ _ _ (M p) n n' _ _ _ _ H). lia.
Qed.

Definition answers (o : option (val * list Z)) (r : res) : Prop :=
  r = Error \/ match o with Some (v, t) => r = Ok v t | None => exists t, r = Fail t end.
Definition ends (defs : nat -> option peg) p toks o : Prop := exists n r, parse defs n p toks = Some r /\ answers o r.

Section Complete.
  Variables (L : nat -> Prop) (defs : nat -> option peg).
  Hypothesis D : neat_defs L defs.

  Lemma both : forall p toks n1 r1 q t n2 r2, parse defs n1 p toks = Some r1 -> parse defs n2 q t = Some r2 ->
    exists n, parse defs n p toks = Some r1 /\ parse defs n q t = Some r2.
  Proof.
    intros p toks n1 r1 q t n2 r2 H1 H2. exists (Nat.max n1 n2).
    split; [apply (parse_mono defs n1)|apply (parse_mono defs n2)]; assumption || lia.
  Qed.
  Lemma complete : forall p toks o, parses defs p toks o -> neat L p -> ends defs p toks o.
  Proof.
    intros p0 toks0 o0 P0.
    apply (parses_mut defs (fun p toks o => neat L p -> ends defs p toks o)
      (fun p toks l t => neat L p -> stays L p -> forall acc, exists n, forall k, exists r,
         recur_h n (parse defs n p) toks acc k = Some r /\ (r = Error \/ r = k (rev l ++ acc) t))); try exact P0; clear p0 toks0 o0 P0; unfold ends.
    - intros c r _. exists 1. eexists. split; [cbn; now rewrite Z.eqb_refl|]. right. reflexivity.
    - intros c t N _. exists 1, (Fail t). split; [|right; eauto]. cbn. destruct t as [|h r]; [reflexivity|].
      destruct (Z.eqb_spec h c) as [->|X]; [destruct (N r eq_refl)|reflexivity].
    - intros l r _. exists 1. eexists. split; [reflexivity|]. pose proof (sub_list_spec l (l ++ r)) as X.
      destruct (sub_list l (l ++ r)) as [[rem|]|]; [|destruct (X r eq_refl)|destruct (X r eq_refl)].
      apply app_inv_head in X. subst. right. reflexivity.
    - intros l t N _. exists 1. eexists. split; [reflexivity|]. pose proof (sub_list_spec l t) as X.
      destruct (sub_list l t) as [[rem|]|]; [destruct (N rem X)|right; eauto|left; reflexivity].
    - intros f c r E _. exists 1. eexists. split; [cbn; rewrite E; reflexivity|]. right. reflexivity.
    - intros f c r E _. exists 1. eexists. split; [cbn; rewrite E; reflexivity|]. right. eauto.
    - intros f _. exists 1. eexists. split; [reflexivity|]. right. eauto.
    - intros a b c r E _. exists 1. eexists. split; [reflexivity|]. right. destruct (_ && _) eqn:X; [reflexivity|lia].
    - intros a b c r E _. exists 1. eexists. split; [reflexivity|]. right. destruct (_ && _) eqn:X; [lia|eauto].
    - intros a b _. exists 1. eexists. split; [reflexivity|]. right. eauto.
    - intros _. exists 1. eexists. split; [reflexivity|]. right. reflexivity.
    - intros c r _. exists 1. eexists. split; [reflexivity|]. right. eauto.
    - intros p q t v1 t1 v2 t2 _ IH1 _ IH2 (N1 & N2). destruct (IH1 N1) as (n1 & r1 & E1 & A1). destruct (IH2 N2) as (n2 & r2 & E2 & A2).
      destruct (both _ _ _ _ _ _ _ _ E1 E2) as (n & F1 & F2). exists (S n). cbn. rewrite F1.
      destruct A1 as [->| ->]; [eexists; split; [reflexivity|now left]|]. rewrite F2.
      destruct A2 as [->| ->]; eexists; (split; [reflexivity|]); [now left|now right].
    - intros p q t _ IH1 (N1 & N2). destruct (IH1 N1) as (n1 & r1 & E1 & A1). exists (S n1). cbn. rewrite E1.
      destruct A1 as [->|(t1 & ->)]; eexists; (split; [reflexivity|]); [now left|right; eauto].
    - intros p q t v1 t1 _ IH1 _ IH2 (N1 & N2). destruct (IH1 N1) as (n1 & r1 & E1 & A1). destruct (IH2 N2) as (n2 & r2 & E2 & A2).
      destruct (both _ _ _ _ _ _ _ _ E1 E2) as (n & F1 & F2). exists (S n). cbn. rewrite F1.
      destruct A1 as [->| ->]; [eexists; split; [reflexivity|now left]|]. rewrite F2.
      destruct A2 as [->|(t2 & ->)]; eexists; (split; [reflexivity|]); [now left|right; eauto].
    - intros p q t (v, t1) _ IH1 (N1 & _). destruct (IH1 N1) as (n1 & r1 & E1 & A1). exists (S n1). cbn. rewrite E1.
      destruct A1 as [->| ->]; eexists; (split; [reflexivity|]); [now left|now right].
    - intros p q t o _ IH1 _ IH2 (N1 & S1 & N2). destruct (IH1 N1) as (n1 & r1 & E1 & A1). destruct (IH2 N2) as (n2 & r2 & E2 & A2).
      destruct (both _ _ _ _ _ _ _ _ E1 E2) as (n & F1 & F2). exists (S n). cbn. rewrite F1.
      destruct A1 as [->|(t1 & ->)]; [eexists; split; [reflexivity|now left]|]. rewrite (stays_fail L defs D _ _ _ _ S1 F1). eauto.
    - intros p t (v, t1) _ IH1 (N1 & _). destruct (IH1 N1) as (n1 & r1 & E1 & A1). exists (S n1). cbn. rewrite E1.
      destruct A1 as [->| ->]; eexists; (split; [reflexivity|]); [now left|right; eauto].
    - intros p t _ IH1 (N1 & S1). destruct (IH1 N1) as (n1 & r1 & E1 & A1). exists (S n1). cbn. rewrite E1.
      destruct A1 as [->|(t1 & ->)]; [eexists; split; [reflexivity|now left]|]. rewrite (stays_fail L defs D _ _ _ _ S1 E1).
      eexists; (split; [reflexivity|]). now right.
    - intros p t l r _ IH (N1 & S1). destruct (IH N1 S1 []) as (n & H).
      destruct (H (fun acc toks1 => Ok (vlist (rev acc)) toks1)) as (x & E & A). exists (S n), x. split; [exact E|].
      destruct A as [->| ->]; [now left|]. right. now rewrite app_nil_r, rev_involutive.
    - intros p t v l r _ IH (N1 & S1). destruct (IH N1 S1 []) as (n & H).
      destruct (H (fun acc toks1 => if 0 <? List.length acc then Ok (vlist (rev acc)) toks1 else Fail toks1)) as (x & E & A).
      exists (S n), x. split; [exact E|]. destruct A as [->| ->]; [now left|]. right. rewrite app_nil_r, rev_length, rev_involutive. reflexivity.
    - intros p t _ IH1 (N1 & S1). destruct (IH1 N1) as (n1 & r1 & E1 & A1). exists (S (S n1)).
      change (parse defs (S (S n1)) (PPlus p) t) with (recur_h (S n1) (parse defs (S n1) p) t []
        (fun acc toks1 => if 0 <? List.length acc then Ok (vlist (rev acc)) toks1 else Fail toks1)). cbn [recur_h].
      rewrite (parse_mono defs n1 (S n1) _ _ _ (Nat.le_succ_diag_r _) E1).
      destruct A1 as [->|(t1 & ->)]; eexists; (split; [reflexivity|]); [now left|right; exists t1; reflexivity].
    - intros p t (v, t1) _ IH1 (N1 & _). destruct (IH1 N1) as (n1 & r1 & E1 & A1). exists (S n1). cbn. rewrite E1.
      destruct A1 as [->| ->]; eexists; (split; [reflexivity|]); [now left|now right].
    - intros p t _ IH1 (N1 & S1). destruct (IH1 N1) as (n1 & r1 & E1 & A1). exists (S n1). cbn. rewrite E1.
      destruct A1 as [->|(t1 & ->)]; [eexists; split; [reflexivity|now left]|]. rewrite (stays_fail L defs D _ _ _ _ S1 E1).
      eexists; (split; [reflexivity|]). now right.
    - intros p f t v r _ IH1 N1. destruct (IH1 N1) as (n1 & r1 & E1 & A1). exists (S n1). cbn. rewrite E1.
      destruct A1 as [->| ->]; eexists; (split; [reflexivity|]); [now left|now right].
    - intros p f t _ IH1 N1. destruct (IH1 N1) as (n1 & r1 & E1 & A1). exists (S n1). cbn. rewrite E1.
      destruct A1 as [->|(t1 & ->)]; eexists; (split; [reflexivity|]); [now left|right; eauto].
    - intros p f t v t1 o _ IH1 _ IH2 (N1 & N2). destruct (IH1 N1) as (n1 & r1 & E1 & A1). destruct (IH2 (N2 v)) as (n2 & r2 & E2 & A2).
      destruct (both _ _ _ _ _ _ _ _ E1 E2) as (n & F1 & F2). exists (S n). cbn. rewrite F1.
      destruct A1 as [->| ->]; [eexists; split; [reflexivity|now left]|]. eauto.
    - intros p f t _ IH1 (N1 & _). destruct (IH1 N1) as (n1 & r1 & E1 & A1). exists (S n1). cbn. rewrite E1.
      destruct A1 as [->|(t1 & ->)]; eexists; (split; [reflexivity|]); [now left|right; eauto].
    - intros i p t o E _ IH _. destruct (IH (proj1 (D _ _ E))) as (n & r & E1 & A). exists (S n), r. cbn. rewrite E. auto.
    - intros p t _ IH1 N1 S1 acc. destruct (IH1 N1) as (n1 & r1 & E1 & A1). exists (S n1). intro k. cbn [recur_h].
      rewrite (parse_mono defs n1 (S n1) _ _ _ (Nat.le_succ_diag_r _) E1).
      destruct A1 as [->|(t1 & ->)]; [eauto|]. rewrite (stays_fail L defs D _ _ _ _ S1 E1). eexists. split; [reflexivity|]. now right.
    - intros p t v t1 l r _ IH1 _ IH2 N1 S1 acc. destruct (IH1 N1) as (n1 & r1 & E1 & A1). destruct (IH2 N1 S1 (v :: acc)) as (n2 & H2).
      exists (S (Nat.max n1 n2)). intro k. cbn [recur_h].
      rewrite (parse_mono defs n1 (S (Nat.max n1 n2)) _ _ _ ltac:(lia) E1). destruct A1 as [->| ->]; [eauto|].
      destruct (H2 k) as (x & E2 & A2). exists x. split.
      + eapply recur_mono; [| |exact E2]; [intros ? ? X; eapply parse_mono; [|exact X]; lia|lia].
      + destruct A2 as [->| ->]; [now left|]. right. cbn. now rewrite <- app_assoc.
  Qed.
End Complete.

(** Whatever the grammar says about the tokens, the parser answers, or <string>
    has raised an error. *)
Theorem peg_complete_partial : forall L defs, neat_defs L defs -> forall p toks o, neat L p -> parses defs p toks o ->
  exists n r, parse defs n p toks = Some r /\
    (r = Error \/ match o with Some (v, t) => r = Ok v t | None => exists t, r = Fail t end).
Proof. intros L defs D p toks o N P. exact (complete L defs D p toks o P N). Qed.
Print Assumptions peg_complete_partial.

(** An error means that the input ends inside a string the parser asks for. *)
Inductive word_of (defs : nat -> option peg) (w : list Z) : peg -> Prop :=
| w_str : word_of defs w (PStr w)
| w_seq1 p q : word_of defs w p -> word_of defs w (PSeq p q)
| w_seq2 p q : word_of defs w q -> word_of defs w (PSeq p q)
| w_or1 p q : word_of defs w p -> word_of defs w (POr p q)
| w_or2 p q : word_of defs w q -> word_of defs w (POr p q)
| w_not p : word_of defs w p -> word_of defs w (PNot p)
| w_plus p : word_of defs w p -> word_of defs w (PPlus p)
| w_star p : word_of defs w p -> word_of defs w (PStar p)
| w_maybe p : word_of defs w p -> word_of defs w (PMaybe p)
| w_map p f : word_of defs w p -> word_of defs w (PMap p f)
| w_bind1 p f : word_of defs w p -> word_of defs w (PBind p f)
| w_bind2 p f v : word_of defs w (f v) -> word_of defs w (PBind p f)
| w_ref i p : defs i = Some p -> word_of defs w p -> word_of defs w (PRef i).
Definition suffix (s toks : list Z) : Prop := exists pre, toks = pre ++ s.
Definition cut_short (defs : nat -> option peg) (p : peg) (toks : list Z) : Prop :=
  exists w s c r, word_of defs w p /\ suffix s toks /\ w = s ++ c :: r.

Lemma suffix_refl : forall s, suffix s s.
Proof. intro s. now exists []. Qed.
Lemma suffix_trans : forall a b c, suffix a b -> suffix b c -> suffix a c.
Proof. intros a b c (x & ->) (y & ->). exists (y ++ x). now rewrite app_assoc. Qed.
Lemma suffix_tail : forall h t, suffix t (h :: t).
Proof. intros h t. now exists [h]. Qed.
Lemma sub_list_error : forall l toks, sub_list l toks = None -> exists c r, l = toks ++ c :: r.
Proof.
  induction l as [|h l IH]; intros toks H; [destruct toks; discriminate|]. destruct toks as [|h2 t2]; [cbn; eauto|].
  cbn in H. destruct (Z.eqb_spec h h2) as [->|N]; [|discriminate]. destruct (IH _ H) as (c & r & ->). cbn. eauto.
Qed.
Definition rest (r : res) (toks : list Z) : Prop := match r with Ok _ t | Fail t => suffix t toks | Error => True end.

Lemma recur_rest : forall p, (forall t r, p t = Some r -> rest r t) -> forall k m toks acc r,
  recur_h m p toks acc k = Some r -> r = Error \/ exists a t, r = k a t /\ suffix t toks.
Proof.
  intros p P k. induction m as [|m IH]; cbn; [discriminate|]. intros toks acc r H. destruct (p toks) as [[v t|t|]|] eqn:E; [| |left; congruence|discriminate].
  - apply P in E. destruct (IH _ _ _ H) as [X|(a & t1 & X & S)]; [auto|]. right. exists a, t1. split; [exact X|]. exact (suffix_trans _ _ _ S E).
  - apply P in E. injection H as <-. right. exists acc, t. auto.
Qed.
Lemma parse_rest : forall defs n p toks r, parse defs n p toks = Some r -> rest r toks.
Proof.
  intros defs. induction n as [|n IH]; [discriminate|]. intros p toks r H. destruct p; cbn -[Nat.ltb] in H.
  - injection H as <-. destruct toks as [|h t]; [apply suffix_refl|]. destruct (h =? c)%Z; [apply suffix_tail|apply suffix_refl].
  - injection H as <-. pose proof (sub_list_spec l toks) as X. destruct (sub_list l toks) as [[r|]|]; cbn; [exists l; exact X|apply suffix_refl|exact I].
  - injection H as <-. destruct toks as [|h t]; [apply suffix_refl|]. destruct (f h); [apply suffix_tail|apply suffix_refl].
  - injection H as <-. destruct toks as [|h t]; [apply suffix_refl|]. destruct (_ && _); [apply suffix_tail|apply suffix_refl].
  - injection H as <-. destruct toks as [|h t]; apply suffix_refl.
  - destruct (parse defs n p1 toks) as [[v t1|t1|]|] eqn:E1; try discriminate; pose proof (IH _ _ _ E1) as A1; cbn in A1.
    + destruct (parse defs n p2 t1) as [[v2 t2|t2|]|] eqn:E2; try discriminate; pose proof (IH _ _ _ E2) as A2; cbn in A2; injection H as <-;
        [exact (suffix_trans _ _ _ A2 A1)|exact (suffix_trans _ _ _ A2 A1)|exact I].
    + injection H as <-. exact A1.
    + injection H as <-. exact I.
  - destruct (parse defs n p1 toks) as [[v t1|t1|]|] eqn:E1; try discriminate; pose proof (IH _ _ _ E1) as A1; cbn in A1; try (injection H as <-; assumption).
    pose proof (IH _ _ _ H) as A2. destruct r; cbn in *; [exact (suffix_trans _ _ _ A2 A1)|exact (suffix_trans _ _ _ A2 A1)|exact I].
  - destruct (parse defs n p toks) as [[v t1|t1|]|] eqn:E1; try discriminate; pose proof (IH _ _ _ E1) as A1; injection H as <-; exact A1.
  - apply recur_rest in H; [|intros; eapply IH; eauto]. destruct H as [->|(a & t & -> & S)]; [exact I|]. destruct (0 <? List.length a); exact S.
  - apply recur_rest in H; [|intros; eapply IH; eauto]. destruct H as [->|(a & t & -> & S)]; [exact I|exact S].
  - destruct (parse defs n p toks) as [[v t1|t1|]|] eqn:E1; try discriminate; pose proof (IH _ _ _ E1) as A1; injection H as <-; exact A1.
  - destruct (parse defs n p toks) as [[v t1|t1|]|] eqn:E1; try discriminate; pose proof (IH _ _ _ E1) as A1; injection H as <-; exact A1.
  - destruct (parse defs n p toks) as [[v t1|t1|]|] eqn:E1; try discriminate; pose proof (IH _ _ _ E1) as A1; cbn in A1; try (injection H as <-; assumption).
    pose proof (IH _ _ _ H) as A2. destruct r; cbn in *; [exact (suffix_trans _ _ _ A2 A1)|exact (suffix_trans _ _ _ A2 A1)|exact I].
  - destruct (defs i); [eauto|discriminate].
Qed.
Lemma cut_in : forall defs p q t toks, suffix t toks -> (forall w, word_of defs w p -> word_of defs w q) -> cut_short defs p t -> cut_short defs q toks.
Proof. intros defs p q t toks S W (w & s & c & r & H & H1 & ->). exists (s ++ c :: r), s, c, r. split; [auto|]. split; [exact (suffix_trans _ _ _ H1 S)|reflexivity]. Qed.

Theorem peg_error : forall defs n p toks, parse defs n p toks = Some Error -> cut_short defs p toks.
Proof.
  intros defs. induction n as [|n IH]; [discriminate|].
  assert (R : forall p k, (forall a t, k a t <> Error) -> forall m toks acc, recur_h m (parse defs n p) toks acc k = Some Error -> cut_short defs p toks).
  { intros p k K. induction m as [|m IHm]; [discriminate|]. intros toks acc H. cbn in H.
    destruct (parse defs n p toks) as [[v t|t|]|] eqn:E; [| |exact (IH _ _ E)|discriminate].
    - pose proof (parse_rest _ _ _ _ _ E) as S. apply (cut_in defs p p t toks S); [auto|]. exact (IHm _ _ H).
    - injection H as H. destruct (K _ _ H). }
  intros p toks H. destruct p; cbn -[Nat.ltb] in H; try discriminate.
  - destruct toks as [|h t]; [discriminate|]. destruct (h =? c)%Z; discriminate.
  - destruct (sub_list l toks) as [[r|]|] eqn:E; try discriminate. destruct (sub_list_error _ _ E) as (c & r & X).
    exists l, toks, c, r. split; [constructor|]. split; [apply suffix_refl|exact X].
  - destruct toks as [|h t]; [discriminate|]. destruct (f h); discriminate.
  - destruct toks as [|h t]; [discriminate|]. destruct (_ && _); discriminate.
  - destruct toks as [|h t]; discriminate.
  - destruct (parse defs n p1 toks) as [[v t1|t1|]|] eqn:E1; try discriminate.
    + destruct (parse defs n p2 t1) as [[v2 t2|t2|]|] eqn:E2; try discriminate.
      eapply cut_in; [exact (parse_rest _ _ _ _ _ E1)|intro; apply w_seq2|exact (IH _ _ E2)].
    + eapply cut_in; [apply suffix_refl|intro; apply w_seq1|exact (IH _ _ E1)].
  - destruct (parse defs n p1 toks) as [[v t1|t1|]|] eqn:E1; try discriminate.
    + eapply cut_in; [exact (parse_rest _ _ _ _ _ E1)|intro; apply w_or2|exact (IH _ _ H)].
    + eapply cut_in; [apply suffix_refl|intro; apply w_or1|exact (IH _ _ E1)].
  - destruct (parse defs n p toks) as [[v t1|t1|]|] eqn:E1; try discriminate. eapply cut_in; [apply suffix_refl|intro; apply w_not|exact (IH _ _ E1)].
  - apply R in H; [|intros a t; destruct a; discriminate]. eapply cut_in; [apply suffix_refl|intro; apply w_plus|exact H].
  - apply R in H; [|discriminate]. eapply cut_in; [apply suffix_refl|intro; apply w_star|exact H].
  - destruct (parse defs n p toks) as [[v t1|t1|]|] eqn:E1; try discriminate. eapply cut_in; [apply suffix_refl|intro; apply w_maybe|exact (IH _ _ E1)].
  - destruct (parse defs n p toks) as [[v t1|t1|]|] eqn:E1; try discriminate. eapply cut_in; [apply suffix_refl|intro; apply w_map|exact (IH _ _ E1)].
  - destruct (parse defs n p toks) as [[v t1|t1|]|] eqn:E1; try discriminate.
    + eapply cut_in; [exact (parse_rest _ _ _ _ _ E1)|intro; apply w_bind2|exact (IH _ _ H)].
    + eapply cut_in; [apply suffix_refl|intro; apply w_bind1|exact (IH _ _ E1)].
  - destruct (defs i) as [q|] eqn:E; [|discriminate]. eapply cut_in; [apply suffix_refl|intros w; apply (w_ref defs w i q E)|exact (IH _ _ H)].
Qed.
Print Assumptions peg_error.

(** * Refutations *)
Definition none : nat -> option peg := fun _ => None.
Definition ab : peg := PSeq (PChar 97) (PChar 98).
Definition ac : peg := PSeq (PChar 97) (PChar 99).
Local Ltac no := let r := fresh in let H := fresh in intros r H; discriminate.

(** (@or (@seq a b) (@seq a c)) rejects "ac": the second alternative starts
    where the first one failed. *)
Theorem or_backtrack_refuted : exists p toks v t r, parses none p toks (Some (v, t)) /\ parse none 9 p toks = Some (Fail r).
Proof.
  exists (POr ab ac), [97; 99]%Z, (VCons (VTok 97) (VTok 99)), [], [99%Z]. split; [|vm_compute; reflexivity].
  apply e_or2; [eapply e_seq_no2; constructor; no|]. eapply e_seq; constructor.
Qed.
(** and it accepts "aac", which the grammar rejects *)
Theorem or_accepts_refuted : exists p toks v, parses none p toks None /\ parse none 9 p toks = Some (Ok v []).
Proof.
  exists (POr ab ac), [97; 97; 99]%Z, (VCons (VTok 97) (VTok 99)). split; [|vm_compute; reflexivity].
  apply e_or2; eapply e_seq_no2; constructor; no.
Qed.
(** (@* (@seq a b)) on "aba" loses the last a *)
Theorem star_loses_refuted : exists p toks v t, t <> [] /\ parses none p toks (Some (v, t)) /\ parse none 9 p toks = Some (Ok v []).
Proof.
  exists (PStar ab), [97; 98; 97]%Z, (vlist [VCons (VTok 97) (VTok 98)]), [97%Z]. split; [discriminate|]. split; [|vm_compute; reflexivity].
  apply e_star. eapply many_more; [eapply e_seq; constructor|]. apply many_stop. eapply e_seq_no2; constructor; no.
Qed.
(** (@? (@seq a b)) on "ac" loses the a *)
Theorem maybe_loses_refuted : exists p toks t v, parses none p toks (Some (v, toks)) /\ parse none 9 p toks = Some (Ok v t) /\ t <> toks.
Proof.
  exists (PMaybe ab), [97; 99]%Z, [99%Z], VNil. split; [|split; [vm_compute; reflexivity|discriminate]].
  apply e_maybe_no. eapply e_seq_no2; constructor; no.
Qed.
(** (<string> "ab") on "a" is an error instead of a rejection *)
Theorem string_error_refuted : exists p toks, parses none p toks None /\ parse none 9 p toks = Some Error.
Proof. exists (PStr [97; 98]%Z), [97%Z]. split; [constructor; no|vm_compute; reflexivity]. Qed.
Print Assumptions star_loses_refuted.

(** * Example: numbers separated by commas, parentheses nest *)
Definition digits : peg := PPlus (PRange 48 57).
Definition item : peg := POr digits (PSeq (PChar 40) (PSeq (PRef 0) (PChar 41))).
Definition items : nat -> option peg := fun i => if i =? 0 then Some (PSeq item (PMaybe (PMap (PChar 44) (fun v => v)))) else None.
Example items_neat : neat_defs (fun _ => False) items /\ neat (fun _ => False) item.
Proof.
  split.
  - intros i p. unfold items. destruct (i =? 0); [|discriminate]. intro H. injection H as <-. cbn. tauto.
  - cbn. tauto.
Qed.
(** "(12,)7" *)
Example items_demo : exists v, parse items 30 item [40; 49; 50; 44; 41; 55]%Z = Some (Ok v [55%Z]).
Proof. eexists. vm_compute. reflexivity. Qed.
(** a repeated choice of single tokens *)
Example letters : neat (fun _ => False) (PStar (POr (PChar 97) (PChar 98))) /\
  parse none 30 (PStar (POr (PChar 97) (PChar 98))) [97; 98; 99]%Z = Some (Ok (vlist [VTok 97; VTok 98]) [99%Z]).
Proof. split; [cbn; tauto|vm_compute; reflexivity]. Qed.
