(** The symbol table that the compiler collects: the global names that the
    program mentions and what it quotes, each once. *)
From Coq Require Import List ZArith Bool String Arith Lia.
From Verif Require Import CoreSpec CoreProofs TocModel TocSem TocClosure TocTail TocLive TocParse TocScope TocWhole.
Import ListNotations.
Local Open Scope list_scope.
Local Open Scope nat_scope.

(** * What a program mentions *)
Fixpoint mentioned (fuel : nat) (env : list name) (e : sexp) : list sexp :=
  match fuel with
  | O => []
  | S k =>
      match view e with
      | FConst c => match e with SCons _ _ => [c] | _ => [] end        (* quoted *)
      | FVar x => if mem x env then [] else [e]
      | FLam ps b => mentioned k (ps ++ env) b
      | FIf a b c => mentioned k env a ++ mentioned k env b ++ mentioned k env c
      | FDo a b => mentioned k env a ++ mentioned k env b
      | FLet x b c => mentioned k env b ++ mentioned k (x :: env) c
      | FApp f args =>
          match match f with SSym x => prim_of x | _ => None end with
          | Some _ => []
          | None => mentioned k env f
          end ++ flat_map (mentioned k env) args
      | FBad => []
      end
  end.

Lemma sexp_eqb_eq : forall a b, sexp_eqb a b = true <-> a = b.
Proof.
  induction a as [z|x|s| | | |a1 IH1 a2 IH2]; destruct b as [z'|x'|s'| | | |b1 b2]; cbn; try (split; intro E; (reflexivity || discriminate E)).
  - rewrite Z.eqb_eq. split; [intros ->; reflexivity|]. now injection 1.
  - destruct (name_eqb_spec x x') as [->|N]; split; intro E; try reflexivity; try discriminate. exfalso. apply N. now injection E.
  - rewrite String.eqb_eq. split; [intros ->; reflexivity|]. now injection 1.
  - rewrite andb_true_iff, IH1, IH2. split; [intros (-> & ->); reflexivity|]. injection 1. auto.
Qed.
Lemma add_symbol_in : forall c st s, In s (p_globals (add_symbol c st)) <-> In s (p_globals st) \/ s = c.
Proof.
  intros c st s. unfold add_symbol. destruct (existsb (sexp_eqb c) (p_globals st)) eqn:E; cbn.
  - apply existsb_exists in E as (y & Hy & E). apply sexp_eqb_eq in E. subst y. split; [auto|]. intros [H| ->]; assumption.
  - split; intros [H|H]; auto.
Qed.
Lemma add_symbol_once : forall c st, NoDup (p_globals st) -> NoDup (p_globals (add_symbol c st)).
Proof.
  intros c st H. unfold add_symbol. destruct (existsb (sexp_eqb c) (p_globals st)) eqn:E; cbn; [exact H|].
  constructor; [|exact H]. intro HI. assert (X : existsb (sexp_eqb c) (p_globals st) = true).
  { apply existsb_exists. exists c. split; [exact HI|]. now apply sexp_eqb_eq. }
  congruence.
Qed.

(** each once *)
Lemma parse_list_once : forall (p : pst -> sexp -> option (exp * pst)) l,
  (forall st x e st', p st x = Some (e, st') -> NoDup (p_globals st) -> NoDup (p_globals st')) ->
  forall st es st', parse_list p st l = Some (es, st') -> NoDup (p_globals st) -> NoDup (p_globals st').
Proof.
  intros p l H. induction l as [|x l IH]; intros st es st' E N.
  - apply parse_list_nil in E. destruct E as (_ & ->). exact N.
  - apply parse_list_app in E. destruct E as (e & st1 & es1 & A & B & _). eauto.
Qed.
Lemma parse_once : forall k env st x e st', parse k env st x = Some (e, st') -> NoDup (p_globals st) -> NoDup (p_globals st').
Proof.
  induction k as [|k IH]; intros env st x e st' E N; [discriminate|].
  assert (PL : forall env l st es st', parse_list (parse k env) st l = Some (es, st') -> NoDup (p_globals st) -> NoDup (p_globals st')).
  { intros env0 l. apply parse_list_once. intros. eapply IH; eauto. }
  cbn [parse] in E. destruct x; try (injection E as _ <-; exact N).
  - destruct (mem x env); injection E as _ <-; [exact N|now apply add_symbol_once].
  - destruct (slist (SCons x1 x2)) as [[|h r]|]; try discriminate.
    destruct (is_sym "quote" h).
    { destruct r as [|c [|? ?]]; try discriminate. injection E as _ <-. now apply add_symbol_once. }
    destruct (is_sym "lambda" h).
    { destruct r as [|ps [|b [|? ?]]]; try discriminate. destruct (names_of ps) as [xs|]; [|discriminate].
      destruct (existsb reserved xs); [discriminate|].
      destruct (parse k (xs ++ env) st b) as [(eb, st1)|] eqn:E1; [|discriminate]. injection E as _ <-. eauto. }
    destruct (is_sym "if" h).
    { destruct r as [|c [|a [|b [|? ?]]]]; try discriminate. destruct (headed "if" c).
      - eapply IH; [exact E|]. exact N.
      - destruct (parse_list (parse k env) st [c; a; b]) as [(es, st1)|] eqn:E1; [|discriminate].
        destruct es as [|? [|? [|? [|? ?]]]]; try discriminate. injection E as _ <-. eauto. }
    destruct (is_sym "do" h).
    { destruct r as [|a [|b [|? ?]]]; try discriminate.
      destruct (parse_list (parse k env) st [a; b]) as [(es, st1)|] eqn:E1; [|discriminate].
      destruct es as [|? [|? [|? ?]]]; try discriminate. injection E as _ <-. eauto. }
    destruct (is_sym "let" h).
    { destruct r as [|y [|b [|c [|? ?]]]]; try discriminate; destruct y; try discriminate.
      destruct (reserved x); [discriminate|].
      destruct (parse k env st b) as [(eb, st1)|] eqn:E1; [|discriminate].
      destruct (parse k (x :: env) st1 c) as [(ec, st2)|] eqn:E2; [|discriminate]. injection E as _ <-. eauto. }
    destruct (headed "lambda" h && match r with [a] => headed "if" a | _ => false end).
    { eapply IH; [exact E|]. exact N. }
    destruct (match h with SSym s => prim_of s | _ => None end) as [p|].
    { destruct (prim_arity p =? List.length r).
      - destruct (parse_list (parse k env) st r) as [(es, st1)|] eqn:E1; [|discriminate]. injection E as _ <-. eauto.
      - destruct (List.length r <? prim_arity p); [|discriminate]. cbn [temp_list] in E. eapply IH; [exact E|]. exact N. }
    destruct (parse_list (parse k env) st (h :: r)) as [(es, st1)|] eqn:E1; [|discriminate].
    destruct es; [discriminate|]. injection E as _ <-. eauto.
Qed.

(** * What parse collects *)
Section Table.
  Variable n0 : nat.
  (** two environments that agree on the names of the source *)
  Definition agree (env env0 : list name) : Prop := forall x, older n0 x = true -> (In x env <-> In x env0).
  Lemma agree_app : forall ps env env0, agree env env0 -> agree (ps ++ env) (ps ++ env0).
  Proof. intros ps env env0 H x Hx. rewrite !in_app_iff. specialize (H x Hx). tauto. Qed.
  Lemma agree_gen : forall i env env0, n0 <= i -> agree env env0 -> agree (NG i :: env) env0.
  Proof.
    intros i env env0 L H x Hx. specialize (H x Hx). cbn [In]. split; [|tauto]. intros [<-|HI]; [|tauto].
    cbn in Hx. apply Nat.ltb_lt in Hx. lia.
  Qed.
  Lemma agree_mem : forall env env0 x, agree env env0 -> older n0 x = true -> mem x env = mem x env0.
  Proof. intros env env0 x H O. specialize (H x O). destruct (mem_spec x env), (mem_spec x env0); tauto. Qed.

  Definition collects (st st' : pst) (l : list sexp) : Prop := forall s, In s (p_globals st') <-> In s (p_globals st) \/ In s l.
  Lemma collects_app : forall st st1 st2 l1 l2, collects st st1 l1 -> collects st1 st2 l2 -> collects st st2 (l1 ++ l2).
  Proof. intros st st1 st2 l1 l2 H1 H2 s. rewrite in_app_iff, (H2 s), (H1 s). tauto. Qed.
  Lemma collects_nil : forall st, collects st st [].
  Proof. intros st s. cbn. tauto. Qed.
  Lemma collects_swap : forall st st' l1 l2, collects st st' (l1 ++ l2) -> collects st st' (l2 ++ l1).
  Proof. intros st st' l1 l2 H s. specialize (H s). rewrite in_app_iff in *. tauto. Qed.

  Lemma list_collects : forall ks, (forall k env env0 st x e st', parse k env st x = Some (e, st') -> src_ok n0 ks x = true ->
      n0 <= p_gen st -> agree env env0 -> collects st st' (mentioned ks env0 x)) ->
    forall k env env0 l st es st', parse_list (parse k env) st l = Some (es, st') -> forallb (src_ok n0 ks) l = true ->
    n0 <= p_gen st -> agree env env0 -> collects st st' (flat_map (mentioned ks env0) l).
  Proof.
    intros ks IH k env env0 l. induction l as [|x l IHl]; intros st es st' E HS HN HA.
    - apply parse_list_nil in E. destruct E as (_ & ->). apply collects_nil.
    - apply parse_list_app in E. destruct E as (e & st1 & es1 & E1 & E2 & _). cbn in HS. apply andb_true_iff in HS as [HS1 HS2].
      pose proof (parse_mono _ _ _ _ _ _ E1) as L1. cbn. eapply collects_app; [eapply IH; eauto|].
      eapply IHl; eauto. lia.
  Qed.

  Lemma parse_collects : forall ks k env env0 st x e st', parse k env st x = Some (e, st') -> src_ok n0 ks x = true ->
    n0 <= p_gen st -> agree env env0 -> collects st st' (mentioned ks env0 x).
  Proof.
    induction ks as [|ks IH]; intros k env env0 st x e st' E HS HN HA; [discriminate|].
    assert (PL := list_collects ks IH).
    destruct k as [|k]; [discriminate|].
    cbn [parse] in E. cbn [src_ok] in HS. cbn [mentioned].
    destruct x as [z|y|s| | | |e1 e2]; cbn [view] in *; try (injection E as <- <-; apply collects_nil).
    - rewrite <- (agree_mem env env0 y HA HS). destruct (mem y env); injection E as <- <-; [apply collects_nil|].
      intro s. rewrite add_symbol_in. cbn. intuition.
    - destruct (slist (SCons e1 e2)) as [[|h l]|] eqn:Esl; try discriminate.
      destruct (is_sym "quote" h).
      { destruct l as [|c [|? ?]]; try discriminate. injection E as <- <-. intro s. rewrite add_symbol_in. cbn. intuition. }
      destruct (is_sym "lambda" h).
      { destruct l as [|ps [|b [|? ?]]]; try discriminate. unfold names_of in E.
        destruct (slist ps) as [lp|]; [|discriminate]. destruct (symbols lp) as [xs|]; [|discriminate].
        destruct (existsb reserved xs); [discriminate|].
        destruct (parse k (xs ++ env) st b) as [(eb, st1)|] eqn:E1; [|discriminate]. injection E as <- <-.
        apply andb_true_iff in HS as [HS1 HS2]. eapply IH; eauto. now apply agree_app. }
      destruct (is_sym "if" h).
      { destruct l as [|c [|a [|b [|? ?]]]]; try discriminate.
        apply andb_true_iff in HS as [HS HS3]. apply andb_true_iff in HS as [HS1 HS2].
        destruct (headed "if" c).
        - apply parse_nested_if in E.
          destruct E as (k1 & k2 & ea & eb & ec & st1 & st2 & P1 & P2 & P3 & _).
          pose proof (parse_mono _ _ _ _ _ _ P1) as L1. cbn [p_gen] in L1.
          pose proof (parse_mono _ _ _ _ _ _ P2) as L2.
          assert (A := fun H => IH _ _ env0 _ _ _ _ P1 HS2 H ltac:(apply agree_gen; [lia|exact HA])). specialize (A ltac:(cbn [p_gen]; lia)).
          assert (B := fun H => IH _ _ env0 _ _ _ _ P2 HS3 H ltac:(apply agree_gen; [lia|exact HA])). specialize (B ltac:(cbn [p_gen]; lia)).
          assert (C := fun H => IH _ _ env0 _ _ _ _ P3 HS1 H ltac:(apply agree_gen; [lia|exact HA])). specialize (C ltac:(cbn [p_gen]; lia)).
          apply collects_swap. eapply collects_app; [|exact C]. eapply collects_app; [exact A|exact B].
        - destruct (parse_list (parse k env) st [c; a; b]) as [(es, st1)|] eqn:E1; [|discriminate].
          assert (st1 = st') as ->.
          { destruct es as [|? [|? [|? [|? ?]]]]; try discriminate. now injection E. }
          eapply PL in E1; [|cbn; now rewrite HS1, HS2, HS3|exact HN|exact HA]. cbn in E1. now rewrite app_nil_r in E1. }
      destruct (is_sym "do" h).
      { destruct l as [|a [|b [|? ?]]]; try discriminate.
        apply andb_true_iff in HS as [HS1 HS2].
        destruct (parse_list (parse k env) st [a; b]) as [(es, st1)|] eqn:E1; [|discriminate].
        assert (st1 = st') as ->.
        { destruct es as [|? [|? [|? ?]]]; try discriminate. now injection E. }
        eapply PL in E1; [|cbn; now rewrite HS1, HS2|exact HN|exact HA]. cbn in E1. now rewrite app_nil_r in E1. }
      destruct (is_sym "let" h).
      { destruct l as [|y [|b [|c [|? ?]]]]; try discriminate; destruct y; try discriminate.
        apply andb_true_iff in HS as [HS HS3]. apply andb_true_iff in HS as [HS1 HS2].
        destruct (reserved x); [discriminate|].
        destruct (parse k env st b) as [(eb, st1)|] eqn:E1; [|discriminate].
        destruct (parse k (x :: env) st1 c) as [(ec, st2)|] eqn:E2; [|discriminate]. injection E as <- <-.
        pose proof (parse_mono _ _ _ _ _ _ E1) as L1.
        eapply collects_app; [eapply IH; eauto|]. eapply IH; [exact E2|exact HS3|lia|]. now apply (agree_app [x]). }
      apply andb_true_iff in HS as [HS1 HS2].
      destruct (headed "lambda" h && match l with [a] => headed "if" a | _ => false end) eqn:EH.
      { apply andb_true_iff in EH as [EH1 EH2]. destruct h; try discriminate.
        apply parse_redex_if in E. destruct E as (k1 & k2 & eh & st1 & es & P1 & P2 & _).
        pose proof (parse_mono _ _ _ _ _ _ P1) as L1. cbn [p_gen] in L1.
        eapply collects_app.
        - exact (IH _ _ env0 _ _ _ _ P1 HS1 ltac:(cbn [p_gen]; lia) HA).
        - eapply PL; [exact P2|exact HS2|lia|]. apply agree_gen; [lia|exact HA]. }
      destruct (match h with SSym s => prim_of s | _ => None end) as [p|] eqn:EPr.
      { rewrite HS1 in E. destruct (parse_list (parse k env) st l) as [(es, st1)|] eqn:P2; [|discriminate]. injection E as <- <-.
        cbn [app]. eapply PL; eauto. }
      destruct (parse_list (parse k env) st (h :: l)) as [(es, st1)|] eqn:P2; [|discriminate].
      destruct es as [|eh es]; [discriminate|]. injection E as <- <-.
      eapply (PL _ _ env0) in P2; [|cbn; now rewrite HS1, HS2|exact HN|exact HA]. exact P2.
  Qed.
End Table.

Theorem compile_table : forall n0 ks fuel e fs gl, src_ok n0 ks e = true -> compile fuel n0 e = Some (fs, gl) ->
  NoDup gl /\ forall s, In s gl <-> In s (mentioned ks [] e).
Proof.
  intros n0 ks fuel e fs gl HS E. unfold compile in E.
  destruct (parse fuel [] (mkP n0 []) e) as [(e1, st)|] eqn:EP; [|discriminate].
  destruct (tailify (closure_convert [] e1) KId (p_gen st)) as [(t, m')|]; [|discriminate]. injection E as _ <-.
  split; [eapply parse_once; [exact EP|constructor]|]. intro s.
  rewrite (parse_collects n0 ks fuel [] [] _ _ _ _ EP HS (le_n _) ltac:(intros x _; tauto) s). cbn. tauto.
Qed.
