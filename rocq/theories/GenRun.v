(** Running and loading the C file. *)
From Coq Require Import List ZArith Bool String Ascii Arith Lia.
From Verif Require Import Base StrModel ReaderModel EmitModel EmitProps CoreSpec CoreProofs TocModel TocSem TocMach CSpec CParse GenModel GenCond GenLex GenTree GenSem.
Import ListNotations.
Local Open Scope string_scope.
Local Open Scope list_scope.
Local Open Scope nat_scope.

(** * Lookup in a list with distinct names *)
Lemma lookup_in : forall (l : list (name * lval)) x v, NoDup (map fst l) -> (lookup x l = Some v <-> In (x, v) l).
Proof.
  induction l as [|(y, w) l IH]; intros x v ND; [cbn; split; [discriminate|contradiction]|].
  cbn [map fst] in ND. inversion ND as [|? ? N1 N2]; subst. cbn [lookup In]. destruct (name_eqb_spec x y) as [->|N].
  - split.
    + intro E. injection E as ->. now left.
    + intros [E|I]; [now injection E as ->|]. elim N1. now apply (in_map fst) in I.
  - rewrite (IH x v N2). split; [now right|]. intros [E|I]; [injection E as -> ->; contradiction|assumption].
Qed.
Lemma lookup_perm : forall (l l' : list (name * lval)) x, NoDup (map fst l) -> NoDup (map fst l') ->
  (forall p, In p l <-> In p l') -> lookup x l = lookup x l'.
Proof.
  intros l l' x N N' E. destruct (lookup x l) as [v|] eqn:A.
  - apply lookup_in in A; [|assumption]. apply E in A. symmetry. now apply lookup_in.
  - destruct (lookup x l') as [v|] eqn:B; [|reflexivity]. apply lookup_in in B; [|assumption]. apply E in B.
    apply lookup_in in B; [|assumption]. congruence.
Qed.
Lemma distinct_nodup : forall l, distinct l = true -> NoDup l.
Proof.
  induction l as [|x l IH]; intro H; [constructor|]. cbn [distinct] in H. apply andb_true_iff in H as [H1 H2].
  constructor; [|now apply IH]. intro I. apply mem_in in I. rewrite I in H1. discriminate.
Qed.
Lemma recover_names : forall l R sl, recover l R = Some sl -> map fst sl = l.
Proof.
  induction l as [|x l IH]; intros R sl E; cbn [recover] in E; [now injection E as <-|].
  destruct R as [|[v|] R]; try discriminate. destruct (recover l R) as [s|] eqn:A; [|discriminate]. injection E as <-. cbn. now rewrite (IH R).
Qed.

Section Run.
  Variable gs : nat -> bytes.
  Variable globals : list sexp.
  Variable nfuns : nat.
  Variable U : list name.
  Variable d : list cdecl.
  Variable ar : arith.
  Hypothesis NM : forall x, mem x U = true -> name_ok gs x = true.
  Hypothesis INJ : forall x y, mem x U = true -> mem y U = true -> cid gs x = cid gs y -> x = y.
  Hypothesis SY : forallb symbol_ok globals = true.
  Hypothesis AD : forall lab, lab < nfuns -> address d (fun_id lab) = Some lab.
  Variable res : lval.
  Notation execs := (c_execs d (table globals) res ar).
  Notation Rel := (rel gs U (fun _ => True)).

  Lemma fresh_more : forall seen seen' s, (forall x, mem x seen' = false -> mem x seen = false) ->
    fresh_scope gs U seen s -> fresh_scope gs U seen' s.
  Proof. intros seen seen' s H (A & B). split; auto. Qed.

  Lemma declare_ok : forall x e st s0 r0 sg seen v rest, mem x U = true -> mem x seen = false ->
    c_env st = s0 :: r0 -> Rel sg (c_env st) -> fresh_scope gs U seen s0 ->
    c_init d (table globals) res (((cid gs x, CRaw) :: s0) :: r0) (c_R st) (c_G st) ar e = option_map (fun v => (v, c_G st)) v ->
    match v with
    | None => execs (CDecl obj (cid gs x) e :: rest) st = None
    | Some v => exists s1, execs (CDecl obj (cid gs x) e :: rest) st = execs rest (with_env st (s1 :: r0)) /\
                  Rel ((x, v) :: sg) (s1 :: r0) /\ fresh_scope gs U (x :: seen) s1
    end.
  Proof.
    intros x e st s0 r0 sg seen v rest Hx Hs ENV RL FR E. cbn [c_execs]. cbn [c_exec obj t_name t_stars].
    change (String.eqb "Obj" "Obj" && (0 =? 0)) with true. cbn iota. unfold declare. rewrite ENV in *.
    rewrite (proj2 FR x Hx Hs), E. destruct v as [v|]; cbn [option_map]; [|reflexivity].
    exists ((cid gs x, CObj v) :: s0). split; [reflexivity|]. split; [now apply rel_bind|now apply fresh_add].
  Qed.

  Lemma recover_ok : forall l acc st s0 r0 sg seen rest, forallb (fun x => mem x U) l = true -> distinct l = true ->
    (forall x, In x l -> mem x seen = false) -> c_env st = s0 :: r0 -> Rel sg (c_env st) -> fresh_scope gs U seen s0 ->
    match recover l (skipn acc (c_R st)) with
    | None => execs (a_recover gs acc l ++ rest) st = None
    | Some sl => exists s1, execs (a_recover gs acc l ++ rest) st = execs rest (with_env st (s1 :: r0)) /\
                   Rel (rev sl ++ sg) (s1 :: r0) /\ fresh_scope gs U (rev l ++ seen) s1
    end.
  Proof.
    induction l as [|x l IH]; intros acc st s0 r0 sg seen rest HU HD HN ENV RL FR.
    - cbn [recover a_recover app]. exists s0. split; [destruct st; cbn in *; now subst|]. split; [now rewrite <- ENV|exact FR].
    - cbn [forallb distinct] in *. apply andb_true_iff in HU as [U1 U2]. apply andb_true_iff in HD as [D1 D2].
      apply negb_true_iff in D1. pose proof (HN x (or_introl eq_refl)) as N1.
      cbn [a_recover app].
      assert (EI : c_init d (table globals) res (((cid gs x, CRaw) :: s0) :: r0) (c_R st) (c_G st) ar (XIdx (XId "R") (anum acc)) =
                   option_map (fun v => (v, c_G st)) (match nth_error (c_R st) acc with Some o => o | None => None end)).
      { rewrite ENV in RL. pose proof (rel_raw gs U NM INJ x CRaw s0 r0 sg U1 RL) as RR. unfold c_init. cbn [c_eval].
        rewrite (frame_ok gs U _ sg _ RR), natural_anum. destruct (nth_error (c_R st) acc) as [[v|]|]; reflexivity. }
      pose proof (declare_ok x (XIdx (XId "R") (anum acc)) st s0 r0 sg seen _ (a_recover gs (acc + 1) l ++ rest) U1 N1 ENV RL FR EI) as DD.
      assert (SK : skipn acc (c_R st) = match nth_error (c_R st) acc with Some o => o :: skipn (acc + 1) (c_R st) | None => [] end).
      { rewrite Nat.add_1_r. generalize (c_R st). clear. induction acc as [|a IHa]; intros [|o R]; try reflexivity. cbn [skipn nth_error]. apply IHa. }
      rewrite SK. destruct (nth_error (c_R st) acc) as [[v|]|]; cbn [recover]; [|exact DD|exact DD].
      destruct DD as (s1 & E1 & R1 & F1).
      pose proof (IH (acc + 1) (with_env st (s1 :: r0)) s1 r0 ((x, v) :: sg) (x :: seen) rest U2 D2) as Q.
      cbn [c_env c_R with_env] in Q. rewrite E1.
      destruct (recover l (skipn (acc + 1) (c_R st))) as [sl|]; cbn [rev].
      + destruct Q as (s2 & E2 & R2 & F2); [|reflexivity|exact R1|exact F1|].
        * intros y Iy. cbn [mem existsb]. destruct (name_eqb_spec y x) as [->|]; [apply mem_in in Iy; congruence|]. apply HN. now right.
        * exists s2. split; [exact E2|]. rewrite <- !app_assoc. cbn [app]. split; assumption.
      + apply Q; [|reflexivity|exact R1|exact F1].
        intros y Iy. cbn [mem existsb]. destruct (name_eqb_spec y x) as [->|]; [apply mem_in in Iy; congruence|]. apply HN. now right.
  Qed.
  Lemma mem_rev : forall x l m, mem x (l ++ m) = false -> mem x (rev l ++ m) = false.
  Proof.
    intros x l m H. destruct (mem x (rev l ++ m)) eqn:E; [|reflexivity]. apply mem_in in E.
    assert (mem x (l ++ m) = true); [|congruence]. apply mem_in. rewrite in_app_iff in *. now rewrite <- in_rev in E.
  Qed.

  (** * A case of the switch *)
  Definition frame_env (label : nat) : list scope := [[("co", CCo); ("label", CInt (Z.of_nat label)); ("R", CFrame)]].
  Lemma frame_rel : forall label, Rel [] (frame_env label).
  Proof.
    intro label. split.
    - split; [reflexivity|]. split; [reflexivity|]. split.
      + intros y Hy. assert (A : forallb (fun y => negb (String.eqb y "co") && negb (String.eqb y "label") && negb (String.eqb y "R")) outer = true)
          by (vm_compute; reflexivity).
        rewrite forallb_forall in A. apply in_names_in in Hy. apply A in Hy. apply andb_true_iff in Hy as [Hy H3]. apply andb_true_iff in Hy as [H1 H2].
        apply negb_true_iff in H1, H2, H3. unfold frame_env. cbn [find find_in]. now rewrite H1, H2, H3.
      + intro n. unfold frame_env. cbn [find find_in]. now rewrite !fun_id_not by reflexivity.
    - intros x Hx _. unfold frame_env. cbn [find find_in lookup].
      rewrite (cid_not_r gs U NM x "co" Hx eq_refl), (cid_not_r gs U NM x "R" Hx eq_refl). destruct (String.eqb (cid gs x) "label"); reflexivity.
  Qed.

  Definition st0 (label : nat) (R : slots) (G : store lcode) : cst := mkC (frame_env label) R G [] false None.

  Lemma first_ok : forall self label F R G, self < nfuns -> func_ok globals nfuns U F = true ->
    agrees R self (blk globals d ar res (a_recover gs 1 (f_ps F) ++ a_stm gs globals self (f_first F)) (st0 label R G))
      (match recover (f_ps F) (tl R) with Some sg => block ar sg R (f_first F) G | None => None end).
  Proof.
    intros self label F R G SF H. unfold func_ok in H. apply andb_true_iff in H as [H _]. apply andb_true_iff in H as [H H2]. apply andb_true_iff in H as [H1 H0].
    apply agrees_blk.
    pose proof (recover_ok (f_ps F) 1 (with_env (st0 label R G) ([] :: frame_env label)) [] (frame_env label) [] []
      (a_stm gs globals self (f_first F)) H1 H0 (fun _ _ => eq_refl) eq_refl (rel_block _ _ _ _ _ (frame_rel label)) (fresh_nil gs U)) as Q.
    change (c_env (st0 label R G)) with (frame_env label).
    change (c_R (with_env (st0 label R G) ([] :: frame_env label))) with R in Q. replace (tl R) with (skipn 1 R) by (destruct R; reflexivity).
    destruct (recover (f_ps F) (skipn 1 R)) as [sl|] eqn:E; [|exact Q].
    destruct Q as (s1 & -> & R1 & F1).
    pose proof (recover_names _ _ _ E) as NA. pose proof (distinct_nodup _ H0) as ND. rewrite <- NA in ND.
    assert (RL : Rel sl (s1 :: frame_env label)).
    { destruct R1 as (B & C). split; [exact B|]. intros x Hx _. rewrite (C x Hx I). rewrite app_nil_r.
      apply lookup_perm; [rewrite map_rev; now apply NoDup_rev|exact ND|]. intro p. now rewrite <- in_rev. }
    apply (stm_sem gs globals nfuns U d ar NM INJ SY AD res self (f_first F) (f_ps F) sl
             (with_env (st0 label R G) (s1 :: frame_env label)) s1 (frame_env label) SF H2 eq_refl RL); [|reflexivity|reflexivity].
    eapply fresh_more; [|exact F1]. intros x Hx. apply mem_rev. now rewrite app_nil_r.
  Qed.

  Lemma cont_case : forall self label k R G, self < nfuns -> cont_ok globals nfuns U k = true ->
    agrees R self (blk globals d ar res (a_cont gs globals self k) (st0 label R G))
      (match recover (k_live k) (tl R) with Some sg => block ar ((k_var k, res) :: sg) R (k_body k) G | None => None end).
  Proof.
    intros self label k R G SF H. unfold cont_ok in H. apply andb_true_iff in H as [H H3]. apply andb_true_iff in H as [H1 H2].
    pose proof (distinct_nodup _ H2) as ND. cbn [forallb distinct] in H1, H2. apply andb_true_iff in H1 as [H0 H1]. apply andb_true_iff in H2 as [N1 N2].
    apply negb_true_iff in N1.
    apply agrees_blk. unfold a_cont.
    assert (EI : c_init d (table globals) res (((cid gs (k_var k), CRaw) :: []) :: frame_env label) R G ar (XArrow aco "res") =
                 option_map (fun v => (v, G)) (Some res)).
    { pose proof (rel_raw gs U NM INJ (k_var k) CRaw [] (frame_env label) [] H0 (rel_block _ _ _ _ _ (frame_rel label))) as RR.
      unfold c_init. cbn [c_eval]. rewrite (co_ok gs U _ [] _ RR). reflexivity. }
    pose proof (declare_ok (k_var k) (XArrow aco "res") (with_env (st0 label R G) ([] :: frame_env label)) [] (frame_env label) [] [] (Some res)
       (a_recover gs 1 (k_live k) ++ a_stm gs globals self (k_body k)) H0 eq_refl eq_refl (rel_block _ _ _ _ _ (frame_rel label)) (fresh_nil gs U) EI) as DD.
    cbn iota in DD. destruct DD as (s0 & E0 & R0 & F0).
    change (c_env (st0 label R G)) with (frame_env label). rewrite E0.
    pose proof (recover_ok (k_live k) 1 (with_env (with_env (st0 label R G) ([] :: frame_env label)) (s0 :: frame_env label)) s0 (frame_env label) [(k_var k, res)] [k_var k]
      (a_stm gs globals self (k_body k)) H1 N2) as Q.
    cbn [c_R with_env st0 c_env] in Q. replace (tl R) with (skipn 1 R) by (destruct R; reflexivity).
    assert (HN : forall x, In x (k_live k) -> mem x [k_var k] = false).
    { intros x Ix. cbn [mem existsb]. destruct (name_eqb_spec x (k_var k)) as [->|]; [apply mem_in in Ix; congruence|reflexivity]. }
    specialize (Q HN eq_refl R0 F0).
    destruct (recover (k_live k) (skipn 1 R)) as [sl|] eqn:E; [|exact Q].
    destruct Q as (s1 & -> & R1 & F1).
    pose proof (recover_names _ _ _ E) as NA. rewrite <- NA in ND.
    assert (ND2 : NoDup (map fst (rev sl ++ [(k_var k, res)]))).
    { change (rev sl ++ [(k_var k, res)]) with (rev ((k_var k, res) :: sl)). rewrite map_rev. now apply NoDup_rev. }
    assert (RL : Rel ((k_var k, res) :: sl) (s1 :: frame_env label)).
    { destruct R1 as (B & C). split; [exact B|]. intros x Hx _. rewrite (C x Hx I).
      apply lookup_perm; [exact ND2|exact ND|]. intro p. change (rev sl ++ [(k_var k, res)]) with (rev ((k_var k, res) :: sl)). now rewrite <- in_rev. }
    apply (stm_sem gs globals nfuns U d ar NM INJ SY AD res self (k_body k) (k_var k :: k_live k) ((k_var k, res) :: sl)
             (with_env (st0 label R G) (s1 :: frame_env label)) s1 (frame_env label) SF H3 eq_refl RL); [|reflexivity|reflexivity].
    eapply fresh_more; [|exact F1]. intros x Hx. apply mem_rev.
    destruct (mem x (k_live k ++ [k_var k])) eqn:M; [|reflexivity]. apply mem_in in M. rewrite <- Hx. symmetry. apply mem_in.
    rewrite in_app_iff in M. cbn in *. tauto.
  Qed.

  Lemma agrees_stop : forall R self o x (f : cst -> option (bool * cst)), agrees R self o x ->
    agrees R self (match o with Some (true, s1) => Some (true, s1) | Some (false, s1) => f s1 | None => None end) x.
  Proof.
    intros R self o x f H. destruct x as [[[v|g vs|saved lab g vs] G]|]; cbn [agrees] in *.
    - destruct H as (s & -> & A). eauto.
    - destruct H as (s & -> & A). eauto.
    - destruct (save 1 saved R) as [R1|]; [destruct H as (s & -> & A); eauto|now rewrite H].
    - now rewrite H.
  Qed.

  Lemma from_conts : forall self label R G l acc, self < nfuns -> forallb (cont_ok globals nfuns U) l = true -> acc <= label ->
    match nth_error l (label - acc) with
    | Some k => agrees R self (from globals d ar res (Z.of_nat label) false (a_conts gs globals self acc l) (st0 label R G))
        (match recover (k_live k) (tl R) with Some sg => block ar ((k_var k, res) :: sg) R (k_body k) G | None => None end)
    | None => from globals d ar res (Z.of_nat label) false (a_conts gs globals self acc l) (st0 label R G) = Some (false, st0 label R G)
    end.
  Proof.
    induction l as [|k l IH]; intros acc SF H A; cbn [a_conts from].
    - destruct (label - acc); reflexivity.
    - cbn [forallb] in H. apply andb_true_iff in H as [H1 H2]. cbn [orb].
      destruct (Z.eqb_spec (Z.of_nat acc) (Z.of_nat label)) as [E|E].
      + apply Nat2Z.inj in E. subst acc. rewrite Nat.sub_diag. cbn [nth_error]. apply agrees_stop. now apply cont_case.
      + replace (label - acc) with (S (label - (acc + 1))) by lia. cbn [nth_error]. apply IH; auto. lia.
  Qed.

  (** * One turn *)
  Lemma turn_finish : forall M self R o x, agrees R self o x ->
    match match o with Some (_, s) => Some s | None => None end with Some s => c_finish M s | None => None end =
    match x with Some (x, G) => m_finish M self R x G | None => None end.
  Proof.
    intros M self R o x H. destruct x as [[[v|g vs|saved lab g vs] G]|]; cbn [agrees] in *.
    - destruct H as (s & -> & A & B & C). unfold c_finish. rewrite A, B, C. reflexivity.
    - destruct H as (s & -> & A & B & C & D). unfold c_finish. rewrite A, B, C, D. reflexivity.
    - cbn [m_finish]. destruct (save 1 saved R) as [R1|]; [|now rewrite H].
      destruct H as (s & -> & A & B & C). unfold c_finish. rewrite A, B, C, orb_true_r. reflexivity.
    - now rewrite H.
  Qed.

  Lemma body_ok : forall M self F label R, self < nfuns -> func_ok globals nfuns U F = true ->
    match match execs (a_body gs globals self F) (st0 label R (m_G M)) with Some (_, s) => Some s | None => None end with
    | Some s => c_finish M s | None => None end =
    match enter_case F label R res with
    | Some (sg, t) => match block ar sg R t (m_G M) with Some (x, G) => m_finish M self R x G | None => None end
    | None => None
    end.
  Proof.
    intros M self F label R SF H. unfold a_body. cbn [c_execs]. rewrite exec_switch. cbn [c_env st0 frame_env find find_in].
    change (String.eqb "label" "co") with false. change (String.eqb "label" "label") with true. cbn iota.
    change (mkC _ R (m_G M) [] false None) with (st0 label R (m_G M)).
    assert (W : forall o : option (bool * cst), match o with Some (true, s1) => Some (true, s1) | Some (false, s1) => Some (false, s1) | None => None end = o)
      by (intros [[[] ?]|]; reflexivity).
    rewrite W. cbn [from]. destruct label as [|i].
    - change (false || (0 =? Z.of_nat 0)%Z) with true. cbn iota.
      rewrite (turn_finish M self R _ _ (agrees_stop R self _ _ _ (first_ok self 0 F R (m_G M) SF H))).
      cbn [enter_case]. destruct (recover (f_ps F) (tl R)) as [sg|]; reflexivity.
    - change (false || (0 =? Z.of_nat (S i))%Z) with false. cbn iota.
      unfold func_ok in H. apply andb_true_iff in H as [_ H].
      pose proof (from_conts self (S i) R (m_G M) (f_conts F) 1 SF H ltac:(lia)) as Q.
      replace (S i - 1) with i in Q by lia. cbn [enter_case].
      destruct (nth_error (f_conts F) i) as [k|].
      + rewrite (turn_finish M self R _ _ Q). destruct (recover (k_live k) (tl R)) as [sg|]; reflexivity.
      + rewrite Q. reflexivity.
  Qed.
End Run.
