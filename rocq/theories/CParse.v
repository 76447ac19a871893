(** The parser of CSpec.v on the tokens of a syntax tree gives the tree back. *)
From Coq Require Import List ZArith Bool String Ascii Arith Lia.
From Verif Require Import CSpec.
Import ListNotations.
Local Open Scope string_scope.
Local Open Scope list_scope.
Local Open Scope nat_scope.

Section CexpInd.
  Variable P : cexp -> Prop.
  Hypothesis HId : forall x, P (XId x).
  Hypothesis HNum : forall z, P (XNum z).
  Hypothesis HStr : forall s, P (XStr s).
  Hypothesis HSizeof : forall t, P (XSizeof t).
  Hypothesis HField : forall e f, P e -> P (XField e f).
  Hypothesis HArrow : forall e f, P e -> P (XArrow e f).
  Hypothesis HIdx : forall e i, P e -> P i -> P (XIdx e i).
  Hypothesis HCall : forall e args, P e -> Forall P args -> P (XCall e args).
  Hypothesis HEq : forall a b, P a -> P b -> P (XEq a b).
  Hypothesis HMul : forall a b, P a -> P b -> P (XMul a b).
  Fixpoint cexp_ind' (e : cexp) : P e :=
    match e with
    | XId x => HId x | XNum z => HNum z | XStr s => HStr s | XSizeof t => HSizeof t
    | XField e f => HField e f (cexp_ind' e)
    | XArrow e f => HArrow e f (cexp_ind' e)
    | XIdx e i => HIdx e i (cexp_ind' e) (cexp_ind' i)
    | XCall e args => HCall e args (cexp_ind' e)
        ((fix go (l : list cexp) : Forall P l :=
            match l with [] => Forall_nil P | a :: r => Forall_cons a (cexp_ind' a) (go r) end) args)
    | XEq a b => HEq a b (cexp_ind' a) (cexp_ind' b)
    | XMul a b => HMul a b (cexp_ind' a) (cexp_ind' b)
    end.
End CexpInd.

(** * Expressions *)
Fixpoint ux (e : cexp) : list tok :=
  let uxs := fix uxs (l : list cexp) : list tok :=
    match l with [] => [] | a :: r => ux a ++ (match r with [] => [] | _ => COMMA :: uxs r end) end in
  match e with
  | XId x => [KId x]
  | XNum z => if (z <? 0)%Z then [MINUS; KNum (- z)] else [KNum z]
  | XStr s => [KStr s]
  | XSizeof t => [KId "sizeof"; LP; KId t; RP]
  | XField e f => ux e ++ [DOT; KId f]
  | XArrow e f => ux e ++ [ARROW; KId f]
  | XIdx e i => ux e ++ LB :: ux i ++ [RB]
  | XCall e args => ux e ++ LP :: uxs args ++ [RP]
  | XEq a b => ux a ++ EQEQ :: ux b
  | XMul a b => ux a ++ STAR :: ux b
  end.
Fixpoint uxs (l : list cexp) : list tok :=
  match l with [] => [] | a :: r => ux a ++ (match r with [] => [] | _ => COMMA :: uxs r end) end.

Definition basis (e : cexp) : bool :=
  match e with XId _ | XField _ _ | XArrow _ _ | XIdx _ _ | XCall _ _ => true | _ => false end.
Fixpoint wfx (top : bool) (e : cexp) : bool :=
  match e with
  | XId x => usable x
  | XNum _ | XStr _ | XSizeof _ => true
  | XField e _ | XArrow e _ => basis e && wfx false e
  | XIdx e i => basis e && wfx false e && wfx true i
  | XCall e args => basis e && wfx false e && forallb (wfx true) args
  | XEq a b | XMul a b => top && wfx false a && wfx false b
  end.
Fixpoint fx (e : cexp) : nat :=
  match e with
  | XId _ | XNum _ | XStr _ | XSizeof _ => 2
  | XField e _ | XArrow e _ => S (fx e)
  | XIdx e i => 2 + fx e + fx i
  | XCall e args => 2 + fx e + list_sum (map (fun a => 3 + fx a) args)
  | XEq a b | XMul a b => fx a + fx b
  end.
Definition lfx (l : list cexp) : nat := list_sum (map (fun a => 3 + fx a) l).
Fixpoint depth (e : cexp) : nat :=
  match e with XField e _ | XArrow e _ | XIdx e _ | XCall e _ => S (depth e) | _ => 0 end.

Definition ends (r : list tok) : bool := match r with (DOT | ARROW | LB | LP) :: _ => false | _ => true end.
Definition stops (r : list tok) : bool := match r with (DOT | ARROW | LB | LP | STAR | EQEQ) :: _ => false | _ => true end.
Definition lstops (r : list tok) : bool := stops r && match r with COMMA :: _ => false | _ => true end.

Lemma stops_ends : forall r, stops r = true -> ends r = true.
Proof. intros [|[] r]; cbn; auto. Qed.

Lemma depth_fx : forall e, depth e + 2 <= fx e.
Proof. induction e using cexp_ind'; cbn [depth fx]; lia. Qed.

Lemma ux_len : forall e, fx e + 2 <= 4 * List.length (ux e).
Proof.
  induction e using cexp_ind'; cbn [fx].
  1,3,4: cbn; lia.
  - cbn. destruct (z <? 0)%Z; cbn; lia.
  - cbn [ux]. rewrite app_length. cbn [List.length]. lia.
  - cbn [ux]. rewrite app_length. cbn [List.length]. lia.
  - cbn [ux]. rewrite app_length. cbn [List.length]. rewrite app_length. cbn [List.length]. lia.
  - change (ux (XCall e args)) with (ux e ++ LP :: uxs args ++ [RP]).
    rewrite app_length. cbn [List.length]. rewrite app_length. cbn [List.length].
    assert (X : list_sum (map (fun a => 3 + fx a) args) <= 4 * List.length (uxs args) + 1).
    { clear IHe. induction H as [|a l Ha Hl IH]; [cbn; lia|].
      cbn [map list_sum fold_right uxs]. rewrite app_length. fold (list_sum (map (fun a => 3 + fx a) l)).
      destruct l as [|b l]; [cbn; lia|]. cbn [List.length]. lia. }
    lia.
  - cbn [ux]. rewrite app_length. cbn [List.length]. lia.
  - cbn [ux]. rewrite app_length. cbn [List.length]. lia.
Qed.
Lemma uxs_len : forall l, lfx l <= 4 * List.length (uxs l) + 1.
Proof.
  induction l as [|a l IH]; [cbn; lia|]. pose proof (ux_len a). unfold lfx in *.
  cbn [map list_sum fold_right uxs]. rewrite app_length. fold (list_sum (map (fun a => 3 + fx a) l)).
  destruct l as [|b l]; [cbn; lia|]. cbn [List.length]. lia.
Qed.

Lemma usable_not_sizeof : forall x, usable x = true -> String.eqb x "sizeof" = false.
Proof. intros x H. destruct (String.eqb_spec x "sizeof") as [->|]; [discriminate|reflexivity]. Qed.

Definition post_ok (e : cexp) : Prop := basis e = true -> wfx false e = true -> forall m r, fx e <= m ->
  p_post m (ux e ++ r) = p_suffix (m - 1 - depth e) e r.
Definition post_end (e : cexp) : Prop := wfx false e = true -> forall m r, fx e <= m -> ends r = true ->
  p_post m (ux e ++ r) = Some (e, r).
Definition exp_ok (e : cexp) : Prop := wfx true e = true -> forall m r, fx e + 1 <= m -> stops r = true ->
  p_exp m (ux e ++ r) = Some (e, r).

Lemma suffix_end : forall m e r, 1 <= m -> ends r = true -> p_suffix m e r = Some (e, r).
Proof.
  intros [|m] e r L H; [lia|]. destruct r as [|[] r]; try discriminate; reflexivity.
Qed.
Lemma post_to_end : forall e, basis e = true -> post_ok e -> post_end e.
Proof.
  intros e B A W m r L E. rewrite (A B W m r L). apply suffix_end; [|exact E]. pose proof (depth_fx e). lia.
Qed.
Lemma end_to_exp : forall e, wfx false e = true -> post_end e -> exp_ok e.
Proof.
  intros e W A _ m r L E. destruct m as [|m]; [lia|]. cbn [p_exp].
  rewrite (A W m r ltac:(lia) (stops_ends _ E)). destruct r as [|[] r]; try discriminate; reflexivity.
Qed.
Lemma list_ok : forall l, l <> [] -> Forall exp_ok l -> forallb (wfx true) l = true -> forall m r, lfx l <= m -> lstops r = true ->
  p_list m (uxs l ++ r) = Some (l, r).
Proof.
  induction l as [|a l IH]; intros NE F W m r L E; [contradiction|].
  inversion F as [|? ? Fa Fl]; subst. cbn [forallb] in W. apply andb_true_iff in W as [Wa Wl].
  unfold lfx in L. cbn [map list_sum fold_right] in L. fold (list_sum (map (fun a => 3 + fx a) l)) in L.
  apply andb_true_iff in E as [E1 E2].
  destruct m as [|m]; [lia|]. cbn [p_list uxs].
  destruct l as [|b l].
  - rewrite app_nil_r. rewrite (Fa Wa m r ltac:(lia) E1). destruct r as [|[] r]; try discriminate; reflexivity.
  - rewrite <- app_assoc. cbn [app]. rewrite (Fa Wa m _ ltac:(lia)) by reflexivity.
    rewrite (IH ltac:(discriminate) Fl Wl m r); [reflexivity|unfold lfx; lia|]. unfold lstops. now rewrite E1, E2.
Qed.

Lemma basis_head : forall e, basis e = true -> wfx false e = true -> exists x r, ux e = KId x :: r /\ usable x = true.
Proof.
  induction e using cexp_ind'; intros B W; try discriminate.
  - exists x, []. auto.
  - cbn [wfx] in W. apply andb_true_iff in W as [W1 W2]. destruct (IHe W1 W2) as (x & r & E & U).
    exists x, (r ++ [DOT; KId f]). cbn [ux]. rewrite E. auto.
  - cbn [wfx] in W. apply andb_true_iff in W as [W1 W2]. destruct (IHe W1 W2) as (x & r & E & U).
    exists x, (r ++ [ARROW; KId f]). cbn [ux]. rewrite E. auto.
  - cbn [wfx] in W. apply andb_true_iff in W as [W W3]. apply andb_true_iff in W as [W1 W2].
    destruct (IHe1 W1 W2) as (x & r & E & U). exists x, (r ++ LB :: ux e2 ++ [RB]). cbn [ux]. rewrite E. auto.
  - cbn [wfx] in W. apply andb_true_iff in W as [W W3]. apply andb_true_iff in W as [W1 W2].
    destruct (IHe W1 W2) as (x & r & E & U). exists x, (r ++ LP :: uxs args ++ [RP]).
    change (ux (XCall e args)) with (ux e ++ LP :: uxs args ++ [RP]). rewrite E. auto.
Qed.

Lemma exps_ok : forall e, post_ok e /\ post_end e /\ exp_ok e.
Proof.
  assert (LIFT : forall e, basis e = true -> (wfx true e = wfx false e) -> post_ok e -> post_ok e /\ post_end e /\ exp_ok e).
  { intros e B W A. split; [exact A|]. pose proof (post_to_end e B A) as Z. split; [exact Z|].
    intro Wt. apply end_to_exp; [congruence|exact Z|exact Wt]. }
  assert (ATOM : forall e, basis e = false -> wfx false e = true -> post_end e -> post_ok e /\ post_end e /\ exp_ok e).
  { intros e B W A. split; [intro; congruence|]. split; [exact A|]. now apply end_to_exp. }
  induction e using cexp_ind'.
  - apply LIFT; [reflexivity|reflexivity|]. intros _ W m r L. cbn [fx] in L. destruct m as [|m]; [lia|].
    cbn [ux app p_post depth]. rewrite (usable_not_sizeof x W). cbn [wfx] in W. rewrite W. f_equal. lia.
  - apply ATOM; [reflexivity|reflexivity|]. intros _ m r L E. cbn [fx] in L. destruct m as [|m]; [lia|].
    cbn [ux]. destruct (Z.ltb_spec z 0); cbn [app p_post]; [do 3 f_equal; lia|reflexivity].
  - apply ATOM; [reflexivity|reflexivity|]. intros _ m r L E. cbn [fx] in L. destruct m as [|m]; [lia|]. reflexivity.
  - apply ATOM; [reflexivity|reflexivity|]. intros _ m r L E. cbn [fx] in L. destruct m as [|m]; [lia|]. reflexivity.
  - apply LIFT; [reflexivity|reflexivity|]. intros _ W m r L. cbn [wfx] in W. apply andb_true_iff in W as [W1 W2].
    destruct IHe as (A & _). cbn [fx] in L. cbn [ux depth]. rewrite <- app_assoc. cbn [app].
    rewrite (A W1 W2 m) by lia. pose proof (depth_fx e).
    replace (m - 1 - depth e) with (S (m - 1 - S (depth e))) by lia. reflexivity.
  - apply LIFT; [reflexivity|reflexivity|]. intros _ W m r L. cbn [wfx] in W. apply andb_true_iff in W as [W1 W2].
    destruct IHe as (A & _). cbn [fx] in L. cbn [ux depth]. rewrite <- app_assoc. cbn [app].
    rewrite (A W1 W2 m) by lia. pose proof (depth_fx e).
    replace (m - 1 - depth e) with (S (m - 1 - S (depth e))) by lia. reflexivity.
  - apply LIFT; [reflexivity|reflexivity|]. intros _ W m r L. cbn [wfx] in W.
    apply andb_true_iff in W as [W W3]. apply andb_true_iff in W as [W1 W2].
    destruct IHe1 as (A & _). destruct IHe2 as (_ & _ & B). cbn [fx] in L. cbn [ux depth]. rewrite <- app_assoc. cbn [app].
    rewrite (A W1 W2 m) by lia. pose proof (depth_fx e1).
    replace (m - 1 - depth e1) with (S (m - 1 - S (depth e1))) by lia. cbn [p_suffix].
    rewrite <- app_assoc. cbn [app].
    rewrite (B W3) by (try reflexivity; lia). reflexivity.
  - apply LIFT; [reflexivity|reflexivity|]. intros _ W m r L. cbn [wfx] in W.
    apply andb_true_iff in W as [W W3]. apply andb_true_iff in W as [W1 W2].
    destruct IHe as (A & _). cbn [fx] in L.
    change (ux (XCall e args)) with (ux e ++ LP :: uxs args ++ [RP]). cbn [depth]. rewrite <- app_assoc. cbn [app].
    rewrite (A W1 W2 m) by lia. pose proof (depth_fx e).
    replace (m - 1 - depth e) with (S (m - 1 - S (depth e))) by lia. rewrite <- app_assoc. cbn [app].
    destruct args as [|a l]; [reflexivity|].
    assert (NR : exists t ts, uxs (a :: l) = t :: ts /\ t <> RP).
    { cbn [uxs]. destruct a; cbn [forallb wfx] in W3; cbn [ux];
        try (eexists; eexists; split; [reflexivity|discriminate]).
      - destruct (z <? 0)%Z; eexists; eexists; (split; [reflexivity|discriminate]).
      - apply andb_true_iff in W3 as [W3 _]. apply andb_true_iff in W3 as [X1 X2].
        destruct (basis_head _ X1 X2) as (x & r0 & E & _). rewrite E. eexists; eexists; split; [reflexivity|discriminate].
      - apply andb_true_iff in W3 as [W3 _]. apply andb_true_iff in W3 as [X1 X2].
        destruct (basis_head _ X1 X2) as (x & r0 & E & _). rewrite E. eexists; eexists; split; [reflexivity|discriminate].
      - apply andb_true_iff in W3 as [W3 _]. apply andb_true_iff in W3 as [W3 _]. apply andb_true_iff in W3 as [X1 X2].
        destruct (basis_head _ X1 X2) as (x & r0 & E & _). rewrite E. eexists; eexists; split; [reflexivity|discriminate].
      - apply andb_true_iff in W3 as [W3 _]. apply andb_true_iff in W3 as [W3 _]. apply andb_true_iff in W3 as [X1 X2].
        destruct (basis_head _ X1 X2) as (x & r0 & E & _). rewrite E. eexists; eexists; split; [reflexivity|discriminate].
      - apply andb_true_iff in W3 as [W3 _]. apply andb_true_iff in W3 as [W3 _]. cbn [andb] in W3.
        destruct (basis a1) eqn:B1.
        + destruct (basis_head _ B1 W3) as (x & r0 & E & _). rewrite E. eexists; eexists; split; [reflexivity|discriminate].
        + destruct a1; try discriminate; cbn [ux]; try (eexists; eexists; split; [reflexivity|discriminate]).
          destruct (z <? 0)%Z; eexists; eexists; (split; [reflexivity|discriminate]).
      - apply andb_true_iff in W3 as [W3 _]. apply andb_true_iff in W3 as [W3 _]. cbn [andb] in W3.
        destruct (basis a1) eqn:B1.
        + destruct (basis_head _ B1 W3) as (x & r0 & E & _). rewrite E. eexists; eexists; split; [reflexivity|discriminate].
        + destruct a1; try discriminate; cbn [ux]; try (eexists; eexists; split; [reflexivity|discriminate]).
          destruct (z <? 0)%Z; eexists; eexists; (split; [reflexivity|discriminate]). }
    assert (PL : p_list (m - 1 - S (depth e)) (uxs (a :: l) ++ RP :: r) = Some (a :: l, RP :: r)).
    { apply list_ok; [discriminate| |exact W3| |reflexivity].
      - eapply Forall_impl; [|exact H]. intros b (_ & _ & Q). exact Q.
      - unfold lfx. lia. }
    destruct NR as (t & ts & E & N). rewrite E in *. cbn [app p_suffix] in *. rewrite PL.
    destruct t; try reflexivity. contradiction.
  - split; [intro; discriminate|]. split; [intro; discriminate|].
    intros W m r L E. cbn [wfx] in W. apply andb_true_iff in W as [W W2]. cbn [andb] in W.
    destruct IHe1 as (_ & A & _). destruct IHe2 as (_ & B & _). cbn [fx] in L. destruct m as [|m]; [lia|].
    cbn [p_exp ux]. rewrite <- app_assoc. cbn [app]. pose proof (depth_fx e1). pose proof (depth_fx e2).
    rewrite (A W) by (try reflexivity; lia).
    rewrite (B W2) by (try (now apply stops_ends); lia). reflexivity.
  - split; [intro; discriminate|]. split; [intro; discriminate|].
    intros W m r L E. cbn [wfx] in W. apply andb_true_iff in W as [W W2]. cbn [andb] in W.
    destruct IHe1 as (_ & A & _). destruct IHe2 as (_ & B & _). cbn [fx] in L. destruct m as [|m]; [lia|].
    cbn [p_exp ux]. rewrite <- app_assoc. cbn [app]. pose proof (depth_fx e1). pose proof (depth_fx e2).
    rewrite (A W) by (try reflexivity; lia).
    rewrite (B W2) by (try (now apply stops_ends); lia). reflexivity.
Qed.

Lemma p_exp_ok : forall e, wfx true e = true -> forall m r, fx e + 1 <= m -> stops r = true -> p_exp m (ux e ++ r) = Some (e, r).
Proof. intro e. apply exps_ok. Qed.
Lemma p_list_ok : forall l, l <> [] -> forallb (wfx true) l = true -> forall m r, lfx l <= m -> lstops r = true ->
  p_list m (uxs l ++ r) = Some (l, r).
Proof.
  intros l NE W m r L E. apply list_ok; auto. apply Forall_forall. intros a _. apply exps_ok.
Qed.

(** * Statements *)
Definition utype (t : ctype) : list tok :=
  (if in_names (t_name t) typedefs || in_names (t_name t) ["void"; "int"] then [KId (t_name t)] else [KId "struct"; KId (t_name t)])
  ++ repeat STAR (t_stars t).

Fixpoint us (s : cstmt) : list tok :=
  let uss := fix uss (l : list cstmt) : list tok := match l with [] => [] | a :: r => us a ++ uss r end in
  match s with
  | CDecl t x e => utype t ++ KId x :: ASSIGN :: ux e ++ [SEMI]
  | CArray t x z es => utype t ++ KId x :: LB :: KNum z :: RB :: ASSIGN :: LC :: uxs es ++ [RC; SEMI]
  | CAssign l e => ux l ++ ASSIGN :: ux e ++ [SEMI]
  | CExp e => ux e ++ [SEMI]
  | CIf c a b => KId "if" :: LP :: ux c ++ RP :: LC :: uss a ++ RC :: KId "else" :: LC :: uss b ++ [RC]
  | CSwitch e cases =>
      KId "switch" :: LP :: ux e ++ RP :: LC ::
      (fix ucs (l : list (Z * list cstmt)) : list tok :=
         match l with [] => [] | (z, b) :: r => KId "case" :: KNum z :: COLON :: LC :: uss b ++ RC :: ucs r end) cases ++ [RC]
  | CReturn => [KId "return"; SEMI]
  end.
Fixpoint uss (l : list cstmt) : list tok := match l with [] => [] | a :: r => us a ++ uss r end.
Fixpoint ucs (l : list (Z * list cstmt)) : list tok :=
  match l with [] => [] | (z, b) :: r => KId "case" :: KNum z :: COLON :: LC :: uss b ++ RC :: ucs r end.

Definition obj_type (t : ctype) : bool := in_names (t_name t) typedefs.
Fixpoint wfs (s : cstmt) : bool :=
  match s with
  | CDecl t x e => obj_type t && usable x && wfx true e
  | CArray t x z es => obj_type t && usable x && (match es with [] => false | _ => true end) && forallb (wfx true) es
  | CAssign l e => basis l && wfx false l && wfx true e
  | CExp e => basis e && wfx false e
  | CIf c a b => wfx true c && forallb wfs a && forallb wfs b
  | CSwitch e cases => wfx true e && forallb (fun c => forallb wfs (snd c)) cases
  | CReturn => true
  end.
Fixpoint fst_ (s : cstmt) : nat :=
  match s with
  | CDecl _ _ e => 2 + fx e
  | CArray _ _ _ es => 2 + lfx es
  | CAssign l e => 2 + fx l + fx e
  | CExp e => 2 + fx e
  | CIf c a b => 5 + fx c + list_sum (map (fun s => 1 + fst_ s) a) + list_sum (map (fun s => 1 + fst_ s) b)
  | CSwitch e cases => 3 + fx e + list_sum (map (fun c => 2 + list_sum (map (fun s => 1 + fst_ s) (snd c))) cases)
  | CReturn => 1
  end.
Definition lfs (l : list cstmt) : nat := 1 + list_sum (map (fun s => 1 + fst_ s) l).
Definition cfs (l : list (Z * list cstmt)) : nat := 1 + list_sum (map (fun c => 1 + lfs (snd c)) l).

Section CstmtInd.
  Variable P : cstmt -> Prop.
  Hypothesis H1 : forall t x e, P (CDecl t x e).
  Hypothesis H2 : forall t x z es, P (CArray t x z es).
  Hypothesis H3 : forall l e, P (CAssign l e).
  Hypothesis H4 : forall e, P (CExp e).
  Hypothesis H5 : forall c a b, Forall P a -> Forall P b -> P (CIf c a b).
  Hypothesis H6 : forall e cases, Forall (fun c => Forall P (snd c)) cases -> P (CSwitch e cases).
  Hypothesis H7 : P CReturn.
  Fixpoint cstmt_ind' (s : cstmt) : P s :=
    let go := fix go (l : list cstmt) : Forall P l :=
      match l with [] => Forall_nil P | a :: r => Forall_cons a (cstmt_ind' a) (go r) end in
    match s with
    | CDecl t x e => H1 t x e
    | CArray t x z es => H2 t x z es
    | CAssign l e => H3 l e
    | CExp e => H4 e
    | CIf c a b => H5 c a b (go a) (go b)
    | CSwitch e cases => H6 e cases
        ((fix gc (l : list (Z * list cstmt)) : Forall (fun c => Forall P (snd c)) l :=
            match l with [] => Forall_nil _ | c :: r => Forall_cons c (go (snd c)) (gc r) end) cases)
    | CReturn => H7
    end.
End CstmtInd.

Lemma stars_repeat : forall n r, match r with STAR :: _ => False | _ => True end -> stars (repeat STAR n ++ r) = (n, r).
Proof.
  induction n as [|n IH]; intros r H; [destruct r as [|[] r]; try reflexivity; contradiction|].
  cbn [repeat app stars]. now rewrite IH.
Qed.
Lemma p_type_ok : forall t r, match r with STAR :: _ => False | _ => True end -> p_type (utype t ++ r) = Some (t, r) \/ t_name t = "struct".
Proof.
  intros (s, n) r H. unfold utype. cbn [t_name t_stars].
  destruct (in_names s typedefs || in_names s ["void"; "int"]) eqn:E.
  - cbn [app p_type]. destruct (String.eqb s "struct") eqn:Es; [right; cbn; now apply String.eqb_eq|left].
    rewrite orb_comm, E. now rewrite stars_repeat.
  - left. cbn [app p_type]. change (String.eqb "struct" "struct") with true. cbn [app]. now rewrite stars_repeat.
Qed.

Definition stmt_ok (s : cstmt) : Prop := wfs s = true -> forall m r, fst_ s <= m -> p_stmt m (us s ++ r) = Some (s, r).

Lemma us_head : forall s, wfs s = true -> exists x r, us s = KId x :: r.
Proof.
  destruct s; intro W; cbn [wfs] in W; cbn [us].
  - apply andb_true_iff in W as [W _]. apply andb_true_iff in W as [W _]. unfold utype.
    unfold obj_type in W. rewrite W. cbn. eauto.
  - apply andb_true_iff in W as [W _]. apply andb_true_iff in W as [W _]. apply andb_true_iff in W as [W _]. unfold utype.
    unfold obj_type in W. rewrite W. cbn. eauto.
  - apply andb_true_iff in W as [W _]. apply andb_true_iff in W as [W1 W2].
    destruct (basis_head _ W1 W2) as (x & r & E & _). rewrite E. cbn. eauto.
  - apply andb_true_iff in W as [W1 W2]. destruct (basis_head _ W1 W2) as (x & r & E & _). rewrite E. cbn. eauto.
  - eauto.
  - eauto.
  - eauto.
Qed.

Lemma stmts_ok : forall l, Forall stmt_ok l -> forallb wfs l = true -> forall m r, lfs l <= m ->
  p_stmts m (uss l ++ RC :: r) = Some (l, r).
Proof.
  induction l as [|s l IH]; intros F W m r L; unfold lfs in L; cbn [map list_sum fold_right] in L.
  - destruct m; [lia|]. reflexivity.
  - inversion F as [|? ? Fs Fl]; subst. cbn [forallb] in W. apply andb_true_iff in W as [Ws Wl].
    fold (list_sum (map (fun s => 1 + fst_ s) l)) in L.
    destruct m as [|m]; [lia|]. cbn [uss]. rewrite <- app_assoc.
    destruct (us_head s Ws) as (x & r0 & E).
    assert (PS : p_stmt m (us s ++ uss l ++ RC :: r) = Some (s, uss l ++ RC :: r)) by (apply Fs; [exact Ws|lia]).
    rewrite E in *. cbn [app p_stmts] in *. rewrite PS. rewrite (IH Fl Wl m r); [reflexivity|unfold lfs; lia].
Qed.
Lemma cases_ok : forall l, Forall (fun c => Forall stmt_ok (snd c)) l -> forallb (fun c => forallb wfs (snd c)) l = true ->
  forall m r, cfs l <= m -> p_cases m (ucs l ++ RC :: r) = Some (l, r).
Proof.
  induction l as [|(z, b) l IH]; intros F W m r L; unfold cfs in L; cbn [map list_sum fold_right snd] in L.
  - destruct m; [lia|]. reflexivity.
  - inversion F as [|? ? Fs Fl]; subst. cbn [forallb snd] in *. apply andb_true_iff in W as [Ws Wl].
    fold (list_sum (map (fun c : Z * list cstmt => 1 + lfs (snd c)) l)) in L.
    destruct m as [|m]; [lia|]. cbn [ucs app p_cases]. change (String.eqb "case" "case") with true. cbn iota.
    rewrite <- app_assoc. cbn [app]. rewrite (stmts_ok b Fs Ws m) by lia.
    rewrite (IH Fl Wl m r); [reflexivity|unfold cfs; lia].
Qed.

Lemma usable_plain : forall x, usable x = true ->
  String.eqb x "return" = false /\ String.eqb x "if" = false /\ String.eqb x "switch" = false /\ in_names x typedefs = false.
Proof.
  intros x H.
  assert (N : forall s, usable s = false -> String.eqb x s = false).
  { intros s E. destruct (String.eqb_spec x s) as [->|]; [congruence|reflexivity]. }
  repeat split; try (apply N; reflexivity). unfold usable in H. destruct (in_names x typedefs); [|reflexivity]. rewrite orb_true_r in H. discriminate.
Qed.
Lemma typedef_plain : forall x, in_names x typedefs = true ->
  String.eqb x "return" = false /\ String.eqb x "if" = false /\ String.eqb x "switch" = false /\ String.eqb x "struct" = false.
Proof.
  intros x H.
  assert (N : forall s, in_names s typedefs = false -> String.eqb x s = false).
  { intros s E. destruct (String.eqb_spec x s) as [->|]; [congruence|reflexivity]. }
  repeat split; apply N; reflexivity.
Qed.

Lemma all_stmts_ok : forall s, stmt_ok s.
Proof.
  induction s using cstmt_ind'; intros W m r L; cbn [fst_] in L; (destruct m as [|m]; [lia|]); cbn [wfs] in W.
  - apply andb_true_iff in W as [W W3]. apply andb_true_iff in W as [W1 W2]. unfold obj_type in W1.
    destruct (typedef_plain _ W1) as (E1 & E2 & E3 & E4).
    cbn [us]. rewrite <- app_assoc. cbn [app]. rewrite <- app_assoc. cbn [app].
    destruct (p_type_ok t (KId x :: ASSIGN :: ux e ++ SEMI :: r) I) as [PT|X]; [|rewrite X in W1; discriminate].
    unfold utype in *. rewrite W1 in *. cbn [orb app] in *. cbn [p_stmt]. rewrite E1, E2, E3, W1, PT, W2.
    rewrite (p_exp_ok e W3 m) by (try reflexivity; lia). reflexivity.
  - apply andb_true_iff in W as [W W4]. apply andb_true_iff in W as [W W3]. apply andb_true_iff in W as [W1 W2]. unfold obj_type in W1.
    destruct (typedef_plain _ W1) as (E1 & E2 & E3 & E4).
    cbn [us]. rewrite <- app_assoc. cbn [app]. rewrite <- app_assoc. cbn [app].
    destruct (p_type_ok t (KId x :: LB :: KNum z :: RB :: ASSIGN :: LC :: uxs es ++ RC :: SEMI :: r) I) as [PT|X]; [|rewrite X in W1; discriminate].
    unfold utype in *. rewrite W1 in *. cbn [orb app] in *. cbn [p_stmt]. rewrite E1, E2, E3, W1, PT, W2.
    rewrite (p_list_ok es ltac:(intro; subst; discriminate) W4 m) by (try reflexivity; lia). reflexivity.
  - apply andb_true_iff in W as [W W3]. apply andb_true_iff in W as [W1 W2].
    assert (W2t : wfx true l = true) by (destruct l; try discriminate; exact W2).
    cbn [us]. rewrite <- app_assoc. cbn [app]. rewrite <- app_assoc. cbn [app].
    pose proof (p_exp_ok l W2t m (ASSIGN :: ux e ++ SEMI :: r) ltac:(lia) eq_refl) as P1.
    destruct (basis_head _ W1 W2) as (x & r0 & E & U). destruct (usable_plain _ U) as (E1 & E2 & E3 & E4).
    rewrite E in *. cbn [app] in *. cbn [p_stmt]. rewrite E1, E2, E3, E4, P1.
    rewrite (p_exp_ok e W3 m) by (try reflexivity; lia). reflexivity.
  - apply andb_true_iff in W as [W1 W2].
    assert (W2t : wfx true e = true) by (destruct e; try discriminate; exact W2).
    cbn [us]. rewrite <- app_assoc. cbn [app].
    pose proof (p_exp_ok e W2t m (SEMI :: r) ltac:(lia) eq_refl) as P1.
    destruct (basis_head _ W1 W2) as (x & r0 & E & U). destruct (usable_plain _ U) as (E1 & E2 & E3 & E4).
    rewrite E in *. cbn [app] in *. cbn [p_stmt]. now rewrite E1, E2, E3, E4, P1.
  - apply andb_true_iff in W as [W W3]. apply andb_true_iff in W as [W1 W2].
    change (us (CIf c a b)) with (KId "if" :: LP :: ux c ++ RP :: LC :: uss a ++ RC :: KId "else" :: LC :: uss b ++ [RC]).
    cbn [app p_stmt]. change (String.eqb "if" "return") with false. change (String.eqb "if" "if") with true. cbn iota.
    rewrite <- app_assoc. cbn [app]. rewrite (p_exp_ok c W1 m) by (try reflexivity; lia).
    rewrite <- app_assoc. cbn [app]. rewrite (stmts_ok a H W2 m) by (unfold lfs; lia).
    change (String.eqb "else" "else") with true. cbn iota.
    rewrite <- app_assoc. cbn [app]. now rewrite (stmts_ok b H0 W3 m) by (unfold lfs; lia).
  - apply andb_true_iff in W as [W1 W2].
    change (us (CSwitch e cases)) with (KId "switch" :: LP :: ux e ++ RP :: LC :: ucs cases ++ [RC]).
    cbn [app p_stmt]. change (String.eqb "switch" "return") with false. change (String.eqb "switch" "if") with false.
    change (String.eqb "switch" "switch") with true. cbn iota.
    rewrite <- app_assoc. cbn [app]. rewrite (p_exp_ok e W1 m) by (try reflexivity; lia).
    rewrite <- app_assoc. cbn [app].
    assert (LC : cfs cases <= m).
    { unfold cfs. cut (list_sum (map (fun c : Z * list cstmt => 1 + lfs (snd c)) cases) =
         list_sum (map (fun c : Z * list cstmt => 2 + list_sum (map (fun s => 1 + fst_ s) (snd c))) cases)); [lia|].
      reflexivity. }
    now rewrite (cases_ok cases H W2 m r LC).
  - reflexivity.
Qed.

Lemma p_stmts_ok : forall l, forallb wfs l = true -> forall m r, lfs l <= m -> p_stmts m (uss l ++ RC :: r) = Some (l, r).
Proof. intros. apply stmts_ok; auto. apply Forall_forall. intros s _. apply all_stmts_ok. Qed.

Lemma us_len : forall s, wfs s = true -> fst_ s + 1 <= 4 * List.length (us s).
Proof.
  assert (LL : forall l, Forall (fun s => wfs s = true -> fst_ s + 1 <= 4 * List.length (us s)) l -> forallb wfs l = true ->
             list_sum (map (fun s => 1 + fst_ s) l) <= 4 * List.length (uss l)).
  { induction 1 as [|s l Hs Hl IH]; intro W; [cbn; lia|]. cbn [forallb] in W. apply andb_true_iff in W as [Ws Wl].
    cbn [map list_sum fold_right uss]. rewrite app_length. fold (list_sum (map (fun s => 1 + fst_ s) l)).
    specialize (Hs Ws). specialize (IH Wl). lia. }
  induction s using cstmt_ind'; intro W; cbn [fst_]; cbn [wfs] in W.
  - cbn [us]. rewrite app_length. cbn [List.length]. rewrite app_length. cbn [List.length]. pose proof (ux_len e). lia.
  - cbn [us]. rewrite app_length. cbn [List.length]. rewrite app_length. cbn [List.length]. pose proof (uxs_len es). lia.
  - cbn [us]. rewrite app_length. cbn [List.length]. rewrite app_length. cbn [List.length]. pose proof (ux_len e). pose proof (ux_len l). lia.
  - cbn [us]. rewrite app_length. cbn [List.length]. pose proof (ux_len e). lia.
  - apply andb_true_iff in W as [W W3]. apply andb_true_iff in W as [W1 W2].
    change (us (CIf c a b)) with (KId "if" :: LP :: ux c ++ RP :: LC :: uss a ++ RC :: KId "else" :: LC :: uss b ++ [RC]).
    cbn [List.length]. rewrite app_length. cbn [List.length]. rewrite app_length. cbn [List.length]. rewrite app_length. cbn [List.length].
    pose proof (ux_len c). pose proof (LL a H W2). pose proof (LL b H0 W3). lia.
  - apply andb_true_iff in W as [W1 W2].
    change (us (CSwitch e cases)) with (KId "switch" :: LP :: ux e ++ RP :: LC :: ucs cases ++ [RC]).
    cbn [List.length]. rewrite app_length. cbn [List.length]. rewrite app_length. cbn [List.length]. pose proof (ux_len e).
    cut (list_sum (map (fun c : Z * list cstmt => 2 + list_sum (map (fun s => 1 + fst_ s) (snd c))) cases) <= 4 * List.length (ucs cases)); [lia|].
    clear W1. induction H as [|(z, b) l Hs Hl IH]; [cbn; lia|]. cbn [forallb snd] in *. apply andb_true_iff in W2 as [Ws Wl].
    cbn [map list_sum fold_right ucs snd List.length]. rewrite app_length. cbn [List.length].
    fold (list_sum (map (fun c : Z * list cstmt => 2 + list_sum (map (fun s => 1 + fst_ s) (snd c))) l)).
    fold (list_sum (map (fun s => 1 + fst_ s) b)). pose proof (LL b Hs Ws). specialize (IH Wl). lia.
  - cbn; lia.
Qed.
Lemma uss_len : forall l, forallb wfs l = true -> lfs l <= 4 * List.length (uss l) + 1.
Proof.
  unfold lfs. induction l as [|s l IH]; intro W; [cbn; lia|]. cbn [forallb] in W. apply andb_true_iff in W as [Ws Wl].
  cbn [map list_sum fold_right uss]. rewrite app_length. fold (list_sum (map (fun s => 1 + fst_ s) l)).
  pose proof (us_len s Ws). specialize (IH Wl). lia.
Qed.
