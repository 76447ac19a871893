(** The machine of TocMach.v is the virtual machine: replacing values by
    runtime objects and code by what it does, every run of a compiled program
    is a run of VmSpec.v. *)
From Coq Require Import List ZArith Bool String Arith Lia.
From Verif Require Import CoreSpec TocModel TocSem TocMach.
From Verif Require VmModel VmSpec.
Import ListNotations.
Local Open Scope list_scope.
Local Open Scope nat_scope.

Definition prim_index (p : prim) : nat :=
  match p with
  | PSet => 0 | PCar => 1 | PCdr => 2 | PCons => 3 | PIsCons => 4 | PAdd => 5 | PSub => 6 | PMul => 7 | PDiv => 8
  | PEq => 9 | PGt => 10 | PLt => 11 | PGensym => 12 | PIsSymbol => 13 | PNot => 14 | PIsInt => 15 | PIsStr => 16
  end.

Section Erase.
  (** addresses of symbols and strings *)
  Context (sym : name -> Z) (str : string -> Z).

  Definition e_code (c : mcode) : VmModel.code :=
    match c with
    | MUser lab => VmModel.CUser (2 * lab)
    | MPrim p => VmModel.CUser (2 * prim_index p + 1)
    | MCurry => VmModel.CCurry
    end.

  (** the object for a value *)
  Fixpoint emb (v : lval) : VmModel.obj :=
    match v with
    | VNum z => VmModel.OImm (4 * z)
    | VTrue => VmModel.OImm 1
    | VFalse => VmModel.OImm 5
    | VSym x => VmModel.OImm (4 * sym x + 2)
    | VStr s => VmModel.OImm (4 * str s + 3)
    | VNil => VmModel.ONil
    | VCons a d => VmModel.OCons (emb a) (emb d)
    | VClo c vs => VmModel.ONative (e_code (MUser (l_lab c))) (l_nframe c) (l_nargs c) (map emb vs)
    | VPrim p => VmModel.ONative (e_code (MPrim p)) (S (prim_arity p)) (prim_arity p) []
    | VPap f a =>
        match emb f with
        | VmModel.ONative _ nf rq _ => VmModel.ONative VmModel.CCurry nf (rq - List.length a) (emb f :: map emb a)
        | o => o
        end
    end.

  Definition e_slots (R : slots) : list (option VmModel.obj) := map (option_map emb) R.
  Definition e_act (a : mact) : VmSpec.act := VmSpec.mkA (e_code (ma_code a)) (ma_label a) (e_slots (ma_slots a)).
  Definition e_item (i : mitem) : VmSpec.item :=
    match i with MAct a => VmSpec.IAct (e_act a) | MArgs l => VmSpec.IArgs (map emb l) end.
  Definition erase (M : mst) : VmSpec.sst :=
    VmSpec.mkS (option_map e_act (m_cur M)) (map e_item (m_pend M)) (option_map (map emb) (m_wait M)) (emb (m_res M))
      (fun _ => None) 0.

  (** what a turn does to the machine *)
  Definition x_acts (x : xfer) : list VmModel.action :=
    match x with
    | XRet v => [VmModel.ARet (emb v)]
    | XTail f args => [VmModel.ATail (emb f) (map emb args)]
    | XCall saved label f args =>
        map (fun p => VmModel.AWrite (fst p) (emb (snd p))) (combine (seq 1 (List.length saved)) saved) ++
        [VmModel.ACall label (emb f) (map emb args)]
    end.
  Definition idle : list VmModel.action := [VmModel.ARet (VmModel.OImm 0)].   (* not looked at *)
  Definition turn_acts (ar : arith) (fs : list func) (M : mst) : list VmModel.action :=
    match m_cur M with
    | Some (mkMA (MUser lab) label R) =>
        match nth_error fs lab with
        | Some F =>
            match enter_case F label R (m_res M) with
            | Some (sg, t) => match block ar sg R t (m_G M) with Some (x, _) => x_acts x | None => [] end
            | None => []
            end
        | None => []
        end
    | Some (mkMA (MPrim p) _ R) =>
        match present (tl R) (prim_arity p) with
        | Some args => match prim_sem ar p args (m_G M) with Some (v, _) => [VmModel.ARet (emb v)] | None => [] end
        | None => []
        end
    | _ => idle
    end.
  Fixpoint trace (ar : arith) (fs : list func) (k : nat) (M : mst) : list VmModel.action :=
    match k with
    | O => []
    | S k' => turn_acts ar fs M ++ match mstep ar fs M with Some M1 => trace ar fs k' M1 | None => [] end
    end.

  Lemma emb_fn : forall f c nf rq, fn_of f = Some (c, nf, rq) ->
    exists d, emb f = VmModel.ONative (e_code c) nf rq d.
  Proof.
    induction f; intros c0 nf rq E; cbn [fn_of] in E; try discriminate.
    - injection E as <- <- <-. cbn [emb]. eauto.
    - destruct (fn_of f) as [((c1, nf1), rq1)|]; [|discriminate]. injection E as <- <- <-.
      destruct (IHf _ _ _ eq_refl) as (d & E1). cbn [emb]. rewrite E1. cbn [e_code]. eauto.
    - injection E as <- <- <-. cbn [emb]. eauto.
  Qed.

  Lemma erase_return : forall M v, VmSpec.s_return (erase M) (emb v) = Some (erase (m_return M v)).
  Proof. intros [c [|[a|l] p] w r G] v; reflexivity. Qed.

  Lemma e_fresh : forall fn args nf, VmSpec.fresh_slots (emb fn) (map emb args) nf = e_slots (m_fresh fn args nf).
  Proof.
    intros fn args nf. unfold VmSpec.fresh_slots, m_fresh, e_slots. rewrite map_app, map_length. f_equal.
    - cbn. f_equal. now rewrite !map_map.
    - induction (nf - S (List.length args)); cbn; congruence.
  Qed.

  Lemma erase_call : forall M f args M1, m_call M f args = Some M1 ->
    VmSpec.s_call (erase M) (emb f) (map emb args) = Some (erase M1).
  Proof.
    intros M f args M1 E. unfold m_call in E. destruct (fn_of f) as [((c, nf), rq)|] eqn:EF; [|discriminate].
    destruct (emb_fn _ _ _ _ EF) as (d & Ed). rewrite Ed. cbn [VmSpec.s_call]. rewrite map_length.
    destruct (List.length args <? rq).
    - injection E as <-. rewrite <- erase_return. f_equal. destruct args as [|a l]; [now symmetry|].
      cbn [emb map]. now rewrite Ed.
    - injection E as <-. rewrite firstn_map, skipn_map. rewrite <- Ed, e_fresh. unfold erase. cbn.
      f_equal. f_equal. destruct (skipn rq args); reflexivity.
  Qed.

  Lemma upd_split : forall {A} (l : list A) i x, i < List.length l -> VmSpec.upd l i x = firstn i l ++ x :: skipn (S i) l.
  Proof.
    induction l as [|y l IH]; intros i x L; cbn in L; [lia|]. destruct i as [|i]; [reflexivity|]. cbn [VmSpec.upd firstn app].
    rewrite IH by lia. reflexivity.
  Qed.

  Lemma erase_writes : forall saved i R R1 lab label p r k nk, save i saved R = Some R1 ->
    VmSpec.s_steps (VmSpec.mkS (Some (VmSpec.mkA (VmModel.CUser lab) label (e_slots R))) p None r k nk)
      (map (fun q => VmModel.AWrite (fst q) (emb (snd q))) (combine (seq i (List.length saved)) saved)) =
    Some (VmSpec.mkS (Some (VmSpec.mkA (VmModel.CUser lab) label (e_slots R1))) p None r k nk).
  Proof.
    induction saved as [|v saved IH]; intros i R R1 lab label p r k nk E; cbn [save] in E.
    - injection E as <-. reflexivity.
    - destruct (Nat.ltb_spec i (List.length R)) as [L|]; [|discriminate].
      cbn [List.length seq combine map VmSpec.s_steps VmSpec.s_step VmSpec.s_cur fst snd].
      assert (L2 : List.length (e_slots R) = List.length R) by apply map_length.
      rewrite L2. rewrite (proj2 (Nat.ltb_lt _ _) L). cbn [VmSpec.s_pend VmSpec.s_res VmSpec.s_k VmSpec.s_nextk].
      rewrite upd_split by lia. rewrite <- (IH _ _ _ lab label p r k nk E). f_equal.
      unfold e_slots. now rewrite map_app, map_cons, firstn_map, skipn_map.
  Qed.

  Lemma s_steps_app : forall l1 l2 S S1, VmSpec.s_steps S l1 = Some S1 -> VmSpec.s_steps S (l1 ++ l2) = VmSpec.s_steps S1 l2.
  Proof.
    induction l1 as [|a l1 IH]; intros l2 S S1 E; cbn in *; [congruence|].
    destruct (VmSpec.s_step S a); [|discriminate]. now apply IH.
  Qed.

  (** In a state of the machine nothing waits while something runs. *)
  Definition tidy (M : mst) : Prop := m_cur M <> None -> m_wait M = None.
  Lemma tidy_return : forall M v, tidy (m_return M v).
  Proof. intros [c [|[a|l] p] w r G] v; cbn; unfold tidy; cbn; congruence. Qed.
  Lemma tidy_call : forall M f args M1, m_call M f args = Some M1 -> tidy M1.
  Proof.
    intros M f args M1 E. unfold m_call in E. destruct (fn_of f) as [((c, nf), rq)|]; [|discriminate].
    destruct (List.length args <? rq); injection E as <-; [apply tidy_return|unfold tidy; reflexivity].
  Qed.
  Lemma tidy_step : forall ar fs M M1, mstep ar fs M = Some M1 -> tidy M1.
  Proof.
    intros ar fs M M1 E. unfold mstep in E. destruct (m_cur M) as [[[lab|p|] label R]|].
    - destruct (nth_error fs lab) as [F|]; [|discriminate]. destruct (enter_case F label R (m_res M)) as [(sg, t)|]; [|discriminate].
      destruct (block ar sg R t (m_G M)) as [(x, G)|]; [|discriminate]. destruct x; cbn in E.
      + injection E as <-. apply tidy_return.
      + eapply tidy_call; eauto.
      + destruct (save 1 saved R); [|discriminate]. eapply tidy_call; eauto.
    - destruct (present (tl R) (prim_arity p)); [|discriminate]. destruct (prim_sem ar p l (m_G M)) as [(v, G)|]; [|discriminate].
      injection E as <-. apply tidy_return.
    - destruct R as [|[[]|] R]; try discriminate. destruct (fn_of _) as [((? & ?) & ?)|]; [|discriminate].
      destruct (fn_of _) as [((? & ?) & ?)|]; [|discriminate]. injection E as <-. unfold tidy. reflexivity.
    - destruct (m_wait M); [|discriminate]. eapply tidy_call; eauto.
  Qed.

  Theorem erase_step : forall ar fs M M1, tidy M -> mstep ar fs M = Some M1 ->
    VmSpec.s_steps (erase M) (turn_acts ar fs M) = Some (erase M1).
  Proof.
    intros ar fs [cur pend wait res G] M1 HT E. unfold tidy in HT. cbn [m_cur m_wait] in HT.
    destruct cur as [[[lab|p|] label R]|].
    - rewrite HT in * by discriminate. unfold mstep in E. cbn [m_cur m_res m_G] in E.
      unfold turn_acts. cbn [m_cur m_res m_G].
      destruct (nth_error fs lab) as [F|]; [|discriminate].
      destruct (enter_case F label R res) as [(sg, t)|]; [|discriminate].
      destruct (block ar sg R t G) as [([v|f args|saved l f args], G1)|]; [| | |discriminate]; cbn [m_finish m_cur m_pend m_res] in E.
      + injection E as <-. pose proof (erase_return (mkM (Some (mkMA (MUser lab) label R)) pend None res G1) v) as Q.
        cbn [x_acts VmSpec.s_steps]. change (erase (mkM (Some (mkMA (MUser lab) label R)) pend None res G)) with
          (erase (mkM (Some (mkMA (MUser lab) label R)) pend None res G1)).
        cbn [VmSpec.s_step erase m_cur option_map e_act ma_code ma_label ma_slots e_code VmSpec.s_cur].
        change (VmSpec.mkS _ _ _ _ _ _) with (erase (mkM (Some (mkMA (MUser lab) label R)) pend None res G1)). now rewrite Q.
      + pose proof (erase_call _ _ _ _ E) as Q.
        cbn [x_acts VmSpec.s_steps]. change (erase (mkM (Some (mkMA (MUser lab) label R)) pend None res G)) with
          (erase (mkM (Some (mkMA (MUser lab) label R)) pend None res G1)).
        cbn [VmSpec.s_step erase m_cur option_map e_act ma_code ma_label ma_slots e_code VmSpec.s_cur].
        change (VmSpec.mkS _ _ _ _ _ _) with (erase (mkM (Some (mkMA (MUser lab) label R)) pend None res G1)). now rewrite Q.
      + destruct (save 1 saved R) as [R1|] eqn:ES; [|discriminate].
        pose proof (erase_call _ _ _ _ E) as Q. cbn [x_acts].
        rewrite (s_steps_app _ _ _ _ (erase_writes saved 1 R R1 (2 * lab) label (map e_item pend) (emb res) (fun _ => None) 0 ES)).
        cbn [VmSpec.s_steps VmSpec.s_step VmSpec.s_cur VmSpec.with_pend VmSpec.s_pend VmSpec.s_wait VmSpec.s_res VmSpec.s_k VmSpec.s_nextk].
        assert (Q2 : forall S0 S1 f args, VmSpec.s_pend S0 = VmSpec.s_pend S1 -> VmSpec.s_res S0 = VmSpec.s_res S1 ->
          VmSpec.s_k S0 = VmSpec.s_k S1 -> VmSpec.s_nextk S0 = VmSpec.s_nextk S1 -> VmSpec.s_call S0 f args = VmSpec.s_call S1 f args).
        { clear. intros S0 S1 f args H1 H2 H3 H4. unfold VmSpec.s_call, VmSpec.s_return. rewrite H1, H2, H3, H4. reflexivity. }
        rewrite (Q2 _ (erase (mkM (Some (mkMA (MUser lab) label R)) (MAct (mkMA (MUser lab) l R1) :: pend) None res G1))) by reflexivity.
        now rewrite Q.
    - rewrite HT in * by discriminate. unfold mstep in E. cbn [m_cur m_res m_G m_pend] in E.
      unfold turn_acts. cbn [m_cur m_res m_G]. destruct (present (tl R) (prim_arity p)) as [args|]; [|discriminate].
      destruct (prim_sem ar p args G) as [(v, G1)|]; [|discriminate]. injection E as <-.
      pose proof (erase_return (mkM (Some (mkMA (MPrim p) label R)) pend None res G1) v) as Q.
      cbn [VmSpec.s_steps]. change (erase (mkM (Some (mkMA (MPrim p) label R)) pend None res G)) with
          (erase (mkM (Some (mkMA (MPrim p) label R)) pend None res G1)).
      cbn [VmSpec.s_step erase m_cur option_map e_act ma_code ma_label ma_slots e_code VmSpec.s_cur].
      change (VmSpec.mkS _ _ _ _ _ _) with (erase (mkM (Some (mkMA (MPrim p) label R)) pend None res G1)). now rewrite Q.
    - rewrite HT in * by discriminate. unfold mstep in E. cbn [m_cur m_res m_G m_pend] in E.
      destruct R as [|[[]|] R]; try discriminate. destruct (fn_of (VPap f args)) as [((c0, nf), rq)|] eqn:E1; [|discriminate].
      destruct (fn_of f) as [((c, nf1), rq1)|] eqn:E2; [|discriminate]. injection E as <-.
      cbn [fn_of] in E1. rewrite E2 in E1. injection E1 as <- <- <-.
      destruct (emb_fn _ _ _ _ E2) as (d & Ed).
      unfold turn_acts, idle. cbn [m_cur VmSpec.s_steps]. unfold erase. cbn [m_cur m_pend m_wait m_res option_map].
      unfold e_act at 1. cbn [ma_code ma_label ma_slots e_code].
      unfold e_slots at 1. cbn [map option_map emb]. rewrite Ed. cbn [VmSpec.s_step VmSpec.s_cur VmSpec.s_pend VmSpec.s_res VmSpec.s_k VmSpec.s_nextk].
      f_equal. f_equal. unfold e_act. cbn [ma_code ma_label ma_slots]. do 2 f_equal.
      unfold e_slots. cbn [map app option_map]. rewrite Ed. f_equal. rewrite !map_app, !map_map. f_equal.
      rewrite firstn_map. f_equal. cbn [List.length]. rewrite map_length.
      induction (nf1 - _) as [|q IHq]; cbn; congruence.
    - unfold mstep in E. cbn [m_cur m_wait m_pend m_res m_G] in E. destruct wait as [l|]; [|discriminate].
      pose proof (erase_call _ _ _ _ E) as Q. unfold turn_acts, idle. cbn [m_cur VmSpec.s_steps].
      change (VmSpec.s_step (erase (mkM None pend (Some l) res G)) (VmModel.ARet (VmModel.OImm 0))) with
        (VmSpec.s_call (erase (mkM None pend None res G)) (emb res) (map emb l)).
      now rewrite Q.
  Qed.

  Theorem erase_steps : forall ar fs k M M1, tidy M -> msteps ar fs k M = Some M1 ->
    VmSpec.s_steps (erase M) (trace ar fs k M) = Some (erase M1).
  Proof.
    intros ar fs. induction k as [|k IH]; intros M M1 HT E; cbn in *; [congruence|].
    destruct (mstep ar fs M) as [M2|] eqn:E2; [|discriminate].
    rewrite (s_steps_app _ _ _ _ (erase_step ar fs M M2 HT E2)). apply IH; [eapply tidy_step; eauto|exact E].
  Qed.

  Theorem erase_start : forall fs nf G M, m_start fs nf G = Some M ->
    VmSpec.s_start (emb (VClo (mkL (List.length fs - 1) 0 nf) [])) = Some (erase M) /\ tidy M.
  Proof.
    intros fs nf G M E. unfold m_start in E. split; [|eapply tidy_call; eauto].
    pose proof (erase_call _ _ _ _ E) as Q. exact Q.
  Qed.
End Erase.
