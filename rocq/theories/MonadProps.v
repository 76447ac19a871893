(** C72: the state monad, the continuation monad with shift and reset, and
    multiple values compute what their names promise. *)
From Coq Require Import List ZArith Bool String Arith Lia.
From Verif Require Import CoreSpec TocModel CoreProofs MacroModel NsProps LoopProofs LoopProps MonadModel MonadProofs.
Import ListNotations.
Local Open Scope string_scope.
Local Open Scope list_scope.
Local Open Scope nat_scope.

(** * The library is what its text says *)
Definition monad_names : list string := ["state-return"; "state-bind"; "cont-return"; "cont-bind"; "id"; "run-cc"; "reset"].
Definition with_monad (G : store scode) : store scode :=
  fold_left (fun G x => g_set G (NS (in_monad x)) (monad_fun x)) monad_names
    (g_set G (NS (in_monad "*ns-export*")) (VCons (VSym (NS "state-bind")) (VCons (VSym (NS "state-return")) VNil))).
Lemma sets_other : forall (h : string -> sval) y l G, ~ In y (map (fun x => NS (in_monad x)) l) ->
  g_val (fold_left (fun G x => g_set G (NS (in_monad x)) (h x)) l G) y = g_val G y.
Proof.
  intros h y l. induction l as [|x l IH]; intros G N; cbn [fold_left]; [reflexivity|]. cbn [map In] in N. rewrite IH by tauto.
  unfold g_set. cbn [g_val]. destruct (name_eqb_spec y (NS (in_monad x))); [exfalso; apply N; auto|reflexivity].
Qed.
Theorem monad_loads : forall ar G, exists v, evals ar [] monad_core G v (with_monad G) /\
  (forall x, In x monad_names -> is_fun (monad_fun x) = true /\ g_val (with_monad G) (NS (in_monad x)) = Some (monad_fun x)) /\
  (forall y, ~ In y (map (fun x => NS (in_monad x)) ("*ns-export*" :: monad_names)) -> g_val (with_monad G) y = g_val G y).
Proof.
  intros ar G. eexists. split; [exists 20; vm_compute; reflexivity|]. split.
  - intros x I. cbn in I. repeat (destruct I as [<-|I]; [split; vm_compute; reflexivity|]). destruct I.
  - intros y N. unfold with_monad. cbn [map In] in N. rewrite sets_other by (cbn [map In]; tauto).
    unfold g_set. cbn [g_val]. destruct (name_eqb_spec y (NS (in_monad "*ns-export*"))); [exfalso; apply N; auto|reflexivity].
Qed.
Print Assumptions monad_loads.

Section Monads.
  Context (ar : arith).
  Notation evals := (evals ar).
  Notation evals_list := (evals_list ar).
  Notation applies := (applies ar).

  (** ** State.  Calling [f] with [args], the last of which is a state, ends in
      state [s1] with result [x]: whatever function [k] is given then, the
      outcome is that of (k s1 x). *)
  Definition does (f : sval) (args : list sval) (G : store scode) (s1 x : sval) (G1 : store scode) : Prop :=
    exists w G0, applies f args G w G0 /\ forall k v G', applies w [k] G0 v G' <-> applies k [s1; x] G1 v G'.

  Theorem state_return_right : forall x G, exists m, applies (monad_fun "state-return") [x] G m G /\
    (forall s k G v G', applies m [s; k] G v G' <-> applies k [s; x] G v G') /\
    (forall s G, does m [s] G s x G).
  Proof.
    intros x G. set (rho := [(NS "x", x)]).
    set (m := VClo (mkSC [NS "s"; NS "k"] (of_list [ssym "k"; ssym "s"; ssym "x"]) (map fst rho)) (map snd rho)).
    exists m. split; [|].
    { apply (applies_exact ar [NS "x"] _ [] [x]); [reflexivity|]. apply (evals_lam ar _ _ [NS "s"; NS "k"] (of_list [ssym "k"; ssym "s"; ssym "x"])); [reflexivity|]. auto. }
    assert (A : forall s k G v G', applies m [s; k] G v G' <-> applies k [s; x] G v G').
    { intros s k G0 v G'. unfold m. rewrite applies_exact by reflexivity. cbn [combine app].
      apply (call_two ar _ (NS "k") (NS "s") (NS "x")); reflexivity. }
    split; [exact A|]. intros s G0. exists (VPap m [s]), G0. split.
    - apply (applies_few ar m 2); [reflexivity|cbn; lia|auto].
    - intros k v G'. rewrite (applies_later ar m 2) by (reflexivity || (cbn; lia)). apply A.
  Qed.

  Theorem state_bind_right : forall m f G, exists b, applies (monad_fun "state-bind") [m; f] G b G /\
    (forall s, exists K, (forall s1 x G v G', applies K [s1; x] G v G' <-> applies f [x; s1] G v G') /\
       forall G v G', applies b [s] G v G' <-> exists w G1, applies m [s] G w G1 /\ applies w [K] G1 v G') /\
    (forall s G s1 x G1 s2 y G2, does m [s] G s1 x G1 -> does f [x; s1] G1 s2 y G2 -> does b [s] G s2 y G2).
  Proof.
    intros m f G. set (rho := [(NS "m", m); (NS "f", f)]).
    set (kb := of_list [ssym "f"; ssym "v"; ssym "s1"]).
    set (kl := of_list [ssym "lambda"; of_list [ssym "s1"; ssym "v"]; kb]).
    set (bb := of_list [of_list [ssym "m"; ssym "s"]; kl]).
    set (b := VClo (mkSC [NS "s"] bb (map fst rho)) (map snd rho)).
    exists b. split.
    { apply (applies_exact ar [NS "m"; NS "f"] _ [] [m; f]); [reflexivity|]. apply (evals_lam ar _ _ [NS "s"] bb); [reflexivity|]. auto. }
    assert (U : forall s, exists K, (forall s1 x G v G', applies K [s1; x] G v G' <-> applies f [x; s1] G v G') /\
       forall G v G', applies b [s] G v G' <-> exists w G1, applies m [s] G w G1 /\ applies w [K] G1 v G').
    { intros s. set (r := (NS "s", s) :: rho). exists (VClo (mkSC [NS "s1"; NS "v"] kb (map fst r)) (map snd r)). split.
      - intros s1 x G0 v G'. rewrite applies_exact by reflexivity. cbn [combine app]. apply (call_two ar _ (NS "f") (NS "v") (NS "s1")); reflexivity.
      - intros G0 v G'. unfold b. rewrite applies_exact by reflexivity. cbn [combine app]. fold r.
        rewrite (evals_app ar r bb (of_list [ssym "m"; ssym "s"]) [kl]) by reflexivity. split.
        + intros (w & G1 & vs & G2 & A & B & C). apply list_one in B as (u & -> & B).
          apply (evals_lam ar _ _ [NS "s1"; NS "v"] kb) in B as [-> ->]; [|reflexivity].
          apply (call_one ar r (NS "m") (NS "s") m s) in A; try reflexivity. eauto.
        + intros (w & G1 & A & C). exists w, G1, [VClo (mkSC [NS "s1"; NS "v"] kb (map fst r)) (map snd r)], G1.
          split; [apply (call_one ar r (NS "m") (NS "s") m s); try reflexivity; exact A|]. split; [|exact C].
          apply list_one. eexists. split; [reflexivity|]. apply (evals_lam ar _ _ [NS "s1"; NS "v"] kb); [reflexivity|]. auto. }
    split; [exact U|]. intros s G0 s1 x G1 s2 y G2 (w & Gw & A & W) (w' & Gw' & A' & W'). destruct (U s) as (K & HK & HB).
    exists w', Gw'. split; [|exact W']. apply HB. exists w, Gw. split; [exact A|]. apply W, HK, A'.
  Qed.

  (** the function given to state-bind may take the state, and what comes
      after it, along with the result, or return an action *)
  Theorem does_curried : forall f x s G s1 y G1 n, need (fun c => List.length (sc_ps c)) f = Some n -> 1 <= n <= 3 ->
    (does f [x; s] G s1 y G1 <-> exists m G', applies f [x] G m G' /\ does m [s] G' s1 y G1).
  Proof.
    intros f x s G s1 y G1 n N L. assert (C : n = 1 \/ n = 2 \/ n = 3) by lia. destruct C as [->|[->| ->]].
    - split.
      + intros (w & G0 & A & W). change [x; s] with ([x] ++ [s]) in A. apply (applies_more ar f 1 [x] [s]) in A as (m & G' & A & B); [|exact N|reflexivity|discriminate].
        exists m, G'. split; [exact A|]. exists w, G0. auto.
      + intros (m & G' & A & w & G0 & B & W). exists w, G0. split; [|exact W]. change [x; s] with ([x] ++ [s]).
        apply (applies_more ar f 1 [x] [s]); [exact N|reflexivity|discriminate|]. eauto.
    - assert (F : forall m G', applies f [x] G m G' <-> m = VPap f [x] /\ G' = G) by (intros; apply (applies_few ar f 2); [exact N|cbn; lia]).
      split.
      + intros (w & G0 & A & W). exists (VPap f [x]), G. split; [apply F; auto|]. exists w, G0. split; [|exact W].
        apply (applies_later ar f 2); [exact N|cbn; lia|cbn; lia|exact A].
      + intros (m & G' & A & w & G0 & B & W). apply F in A as [-> ->]. exists w, G0. split; [|exact W].
        apply (applies_later ar f 2) in B; [exact B|exact N|cbn; lia|cbn; lia].
    - assert (F : forall m G', applies f [x] G m G' <-> m = VPap f [x] /\ G' = G) by (intros; apply (applies_few ar f 3); [exact N|cbn; lia]).
      assert (F2 : forall m G', applies f [x; s] G m G' <-> m = VPap f [x; s] /\ G' = G) by (intros; apply (applies_few ar f 3); [exact N|cbn; lia]).
      assert (N2 : need (fun c => List.length (sc_ps c)) (VPap f [x]) = Some 2) by (cbn [need]; rewrite N; reflexivity).
      assert (F3 : forall m G', applies (VPap f [x]) [s] G m G' <-> m = VPap (VPap f [x]) [s] /\ G' = G) by (intros; apply (applies_few ar (VPap f [x]) 2); [exact N2|cbn; lia]).
      assert (Q : forall k v G', applies (VPap (VPap f [x]) [s]) [k] G v G' <-> applies (VPap f [x; s]) [k] G v G').
      { intros k v G'. rewrite (applies_later ar (VPap f [x]) 2 [s] [k]) by (exact N2 || (cbn; lia)). cbn [app].
        rewrite (applies_later ar f 3 [x] [s; k]) by (exact N || (cbn; lia)).
        rewrite (applies_later ar f 3 [x; s] [k]) by (exact N || (cbn; lia)). reflexivity. }
      split.
      + intros (w & G0 & A & W). apply F2 in A as [-> ->]. exists (VPap f [x]), G. split; [apply F; auto|].
        exists (VPap (VPap f [x]) [s]), G. split; [apply F3; auto|]. intros k v G'. rewrite Q. apply W.
      + intros (m & G' & A & w & G0 & B & W). apply F in A as [-> ->]. apply F3 in B as [-> ->]. exists (VPap f [x; s]), G.
        split; [apply F2; auto|]. intros k v G'. rewrite <- Q. apply W.
  Qed.

  (** A chain of any number of steps runs them one after the other. *)
  Inductive steps_do : sval -> sval -> store scode -> list sval -> sval -> sval -> store scode -> Prop :=
  | sd_end : forall s x G, steps_do s x G [] s x G
  | sd_step : forall s x G f s1 y G1 fs s2 z G2, does f [x; s] G s1 y G1 -> steps_do s1 y G1 fs s2 z G2 -> steps_do s x G (f :: fs) s2 z G2.
  Inductive chained (G : store scode) : sval -> list sval -> sval -> Prop :=
  | ch_end : forall m, chained G m [] m
  | ch_step : forall m f b fs c, applies (monad_fun "state-bind") [m; f] G b G -> chained G b fs c -> chained G m (f :: fs) c.
  Lemma bind_pure : forall m f G b G', applies (monad_fun "state-bind") [m; f] G b G' -> G' = G /\
    (forall s G s1 x G1 s2 y G2, does m [s] G s1 x G1 -> does f [x; s1] G1 s2 y G2 -> does b [s] G s2 y G2).
  Proof.
    intros m f G b G' H. destruct (state_bind_right m f G) as (b' & A & _ & L). assert (E : b = b' /\ G' = G).
    { destruct H as [n H], A as [k A]. apply (apply_le ar n (max n k)) in H; [|lia]. apply (apply_le ar k (max n k)) in A; [|lia].
      rewrite H in A. inversion A. auto. }
    destruct E as [-> ->]. auto.
  Qed.
  Theorem state_chain_right : forall G fs m c, chained G m fs c -> forall s G0 s1 x G1 s2 y G2,
    does m [s] G0 s1 x G1 -> steps_do s1 x G1 fs s2 y G2 -> does c [s] G0 s2 y G2.
  Proof.
    intros G fs m c H. induction H as [m|m f b fs c B C IH]; intros s G0 s1 x G1 s2 y G2 M S; inversion S; subst; [exact M|].
    apply bind_pure in B as [_ L]. eapply IH; [eapply L; eassumption|assumption].
  Qed.

  (** ** Continuations.  Calling [f] with [args] and a continuation delivers [x]:
      the outcome is that of (k x) for every continuation k. *)
  Definition delivers (f : sval) (args : list sval) (G : store scode) (x : sval) (G1 : store scode) : Prop :=
    forall k v G', applies f (args ++ [k]) G v G' <-> applies k [x] G1 v G'.

  Theorem cont_return_right : forall x G, exists m, applies (monad_fun "cont-return") [x] G m G /\ forall G, delivers m [] G x G.
  Proof.
    intros x G. set (rho := [(NS "x", x)]). exists (VClo (mkSC [NS "k"] (of_list [ssym "k"; ssym "x"]) (map fst rho)) (map snd rho)). split.
    - apply (applies_exact ar [NS "x"] _ [] [x]); [reflexivity|]. apply (evals_lam ar _ _ [NS "k"] (of_list [ssym "k"; ssym "x"])); [reflexivity|]. auto.
    - intros G0 k v G'. cbn [app]. rewrite applies_exact by reflexivity. cbn [combine app]. apply (call_one ar _ (NS "k") (NS "x")); reflexivity.
  Qed.
  Theorem cont_bind_right : forall m f G, exists b, applies (monad_fun "cont-bind") [m; f] G b G /\
    (forall k, exists K, (forall r G v G', applies K [r] G v G' <-> applies f [r; k] G v G') /\
       forall G v G', applies b [k] G v G' <-> applies m [K] G v G') /\
    (forall G x G1 y G2, delivers m [] G x G1 -> delivers f [x] G1 y G2 -> delivers b [] G y G2).
  Proof.
    intros m f G. set (rho := [(NS "m", m); (NS "f", f)]).
    set (kb := of_list [ssym "f"; ssym "res"; ssym "k"]). set (kl := of_list [ssym "lambda"; of_list [ssym "res"]; kb]). set (bb := of_list [ssym "m"; kl]).
    set (b := VClo (mkSC [NS "k"] bb (map fst rho)) (map snd rho)). exists b. split.
    { apply (applies_exact ar [NS "m"; NS "f"] _ [] [m; f]); [reflexivity|]. apply (evals_lam ar _ _ [NS "k"] bb); [reflexivity|]. auto. }
    assert (U : forall k, exists K, (forall r G v G', applies K [r] G v G' <-> applies f [r; k] G v G') /\
       forall G v G', applies b [k] G v G' <-> applies m [K] G v G').
    { intros k. set (r := (NS "k", k) :: rho). exists (VClo (mkSC [NS "res"] kb (map fst r)) (map snd r)). split.
      - intros x G0 v G'. rewrite applies_exact by reflexivity. cbn [combine app]. apply (call_two ar _ (NS "f") (NS "res") (NS "k")); reflexivity.
      - intros G0 v G'. unfold b. rewrite applies_exact by reflexivity. cbn [combine app]. fold r.
        rewrite (evals_app ar r bb (ssym "m") [kl]) by reflexivity. split.
        + intros (w & G1 & vs & G2 & A & B & C). apply (evals_var ar r _ (NS "m") m) in A as [-> ->]; try reflexivity.
          apply list_one in B as (u & -> & B). apply (evals_lam ar _ _ [NS "res"] kb) in B as [-> ->]; [exact C|reflexivity].
        + intros C. exists m, G0, [VClo (mkSC [NS "res"] kb (map fst r)) (map snd r)], G0.
          split; [apply (evals_var ar r _ (NS "m") m); auto|]. split; [|exact C].
          apply list_one. eexists. split; [reflexivity|]. apply (evals_lam ar _ _ [NS "res"] kb); [reflexivity|]. auto. }
    split; [exact U|]. intros G0 x G1 y G2 M F k v G'. destruct (U k) as (K & HK & HB). cbn [app]. rewrite HB. rewrite (M K v G').
    rewrite HK. apply (F k v G').
  Qed.

  (** ** shift and reset *)
  Theorem run_cc_right : forall c k G v G', applies (monad_fun "run-cc") [c; k] G v G' <-> applies c [k] G v G'.
  Proof.
    intros. change (monad_fun "run-cc") with (VClo (mkSC [NS "c"; NS "k"] (of_list [ssym "c"; ssym "k"]) (map fst (@nil (name * sval)))) (map snd (@nil (name * sval)))).
    rewrite applies_exact by reflexivity. cbn [combine app]. apply (call_one ar _ (NS "c") (NS "k")); reflexivity.
  Qed.
  Theorem id_right : forall x G v G', applies (monad_fun "id") [x] G v G' <-> v = x /\ G' = G.
  Proof.
    intros. change (monad_fun "id") with (VClo (mkSC [NS "x"] (ssym "x") (map fst (@nil (name * sval)))) (map snd (@nil (name * sval)))).
    rewrite applies_exact by reflexivity. cbn [combine app]. apply (evals_var ar _ _ (NS "x")); reflexivity.
  Qed.
  (** the library has been loaded and not been redefined *)
  Definition loaded_in (G : store scode) : Prop :=
    g_val G (NS (in_monad "run-cc")) = Some (monad_fun "run-cc") /\ g_val G (NS (in_monad "id")) = Some (monad_fun "id").
  Theorem reset_right : forall c G v G', loaded_in G ->
    (applies (monad_fun "reset") [c] G v G' <-> applies c [monad_fun "id"] G v G').
  Proof.
    intros c G v G' [R I].
    change (monad_fun "reset") with (VClo (mkSC [NS "cc"] (of_list [ssym (in_monad "run-cc"); ssym "cc"; ssym (in_monad "id")]) (map fst (@nil (name * sval)))) (map snd (@nil (name * sval)))).
    rewrite applies_exact by reflexivity. cbn [combine app].
    rewrite (evals_app ar _ _ (ssym (in_monad "run-cc")) [ssym "cc"; ssym (in_monad "id")]) by reflexivity. rewrite <- run_cc_right. split.
    - intros (w & G1 & vs & G2 & A & B & C). apply (evals_global ar _ (NS (in_monad "run-cc")) (monad_fun "run-cc")) in A as [-> ->]; [|reflexivity|exact R].
      apply list_two in B as (u & G3 & u' & -> & B & D). apply (evals_var ar _ _ (NS "cc") c) in B as [-> ->]; try reflexivity.
      apply (evals_global ar _ (NS (in_monad "id")) (monad_fun "id")) in D as [-> ->]; [exact C|reflexivity|exact I].
    - intros C. exists (monad_fun "run-cc"), G, [c; monad_fun "id"], G. split; [apply (evals_global ar _ (NS (in_monad "run-cc")) (monad_fun "run-cc")); auto|].
      split; [|exact C]. apply list_two. exists c, G, (monad_fun "id"). split; [reflexivity|]. split; [apply (evals_var ar _ _ (NS "cc") c); auto|].
      apply (evals_global ar _ (NS (in_monad "id")) (monad_fun "id")); auto.
  Qed.
  (** what a reset computation delivers is its value *)
  Theorem reset_delivers : forall c x G G1, loaded_in G -> delivers c [] G x G1 ->
    forall v G', applies (monad_fun "reset") [c] G v G' <-> v = x /\ G' = G1.
  Proof. intros c x G G1 L D v G'. rewrite reset_right by exact L. rewrite (D (monad_fun "id") v G'). apply id_right. Qed.

  (** (reset (cont-bind (shift k body) f)) is body, in which k is the rest of
      the computation up to the reset *)
  Theorem shift_right : forall k body e rho f G, rewrite_shift (of_list [ssym "shift"; SSym k; body]) = Some e -> loaded_in G ->
    exists m b C, evals rho e G m G /\ applies (monad_fun "cont-bind") [m; f] G b G /\
      (forall r G v G', applies C [r] G v G' <-> applies f [r; monad_fun "id"] G v G') /\
      forall v G', applies (monad_fun "reset") [b] G v G' <-> evals ((k, C) :: rho) body G v G'.
  Proof.
    intros k body e rho f G E L. cbn in E. injection E as <-.
    set (m := VClo (mkSC [k] body (map fst rho)) (map snd rho)). destruct (cont_bind_right m f G) as (b & B & U & _).
    destruct (U (monad_fun "id")) as (C & HC & HB). exists m, b, C. split; [apply (evals_lam ar _ _ [k] body); [reflexivity|auto]|].
    split; [exact B|]. split; [exact HC|]. intros v G'. rewrite reset_right by exact L. rewrite HB. unfold m. rewrite applies_exact by reflexivity. reflexivity.
  Qed.
End Monads.

(** ** Multiple values *)
Section Values.
  Context (ar : arith).
  Notation evals := (evals ar).
  Notation evals_list := (evals_list ar).
  Notation applies := (applies ar).

  Theorem call_with_values_right : forall m k G v G', applies (sys_fun "call-with-values") [m; k] G v G' <-> applies m [k] G v G'.
  Proof.
    intros. change (sys_fun "call-with-values") with (VClo (mkSC [NS "m"; NS "k"] (of_list [ssym "m"; ssym "k"]) (map fst (@nil (name * sval)))) (map snd (@nil (name * sval)))).
    rewrite applies_exact by reflexivity. cbn [combine app]. apply (call_one ar _ (NS "m") (NS "k")); reflexivity.
  Qed.
  Lemma length_vs : forall rho es G vs G', evals_list rho es G vs G' -> List.length vs = List.length es.
  Proof. induction 1; cbn; congruence. Qed.

  (** the environment in which the values are computed: the scope of the form
      and one name no program can write *)
  Definition while_giving (n : nat) (xs : list name) (body : sexp) (rho : senv) : senv :=
    (NG n, VClo (mkSC xs body (map fst rho)) (map snd rho)) :: rho.
  Definition cwv : sexp := ssym (in_sys "call-with-values").
  (** (let-values (x ...) (values e ...) body): the name of the function is the
      one imported from cora/lib/sys *)
  Theorem let_values_right : forall xs es body n m, List.length es = List.length xs ->
    rewrite_values (SCons (ssym "values") (of_list es)) n = Some m ->
    exists l, rewrite_let_values (of_list [ssym "let-values"; of_list (map SSym xs); m; body]) = Some (of_list [ssym "call-with-values"; m; l]) /\
      forall rho G v G', lookup (NS (in_sys "call-with-values")) rho = None ->
        g_val G (NS (in_sys "call-with-values")) = Some (sys_fun "call-with-values") ->
        (evals rho (of_list [cwv; m; l]) G v G' <->
         exists vs G1, evals_list (while_giving n xs body rho) es G vs G1 /\ evals (combine xs vs ++ rho) body G1 v G').
  Proof.
    intros xs es body n m L E. cbn in E. injection E as <-. eexists. split; [reflexivity|]. intros rho G v G' N H.
    set (m := SCons (ssym "lambda") _). set (l := SCons (ssym "lambda") (SCons (of_list (map SSym xs)) _)).
    set (K := VClo (mkSC xs body (map fst rho)) (map snd rho)).
    assert (VL : view l = FLam xs body) by (apply (view_lambda xs body)).
    assert (VM : view m = FLam [NG n] (of_list (SSym (NG n) :: es))) by (apply (view_lambda [NG n])).
    assert (OP : op_prim rho cwv = None).
    { unfold op_prim, cwv, ssym. rewrite N. reflexivity. }
    rewrite (evals_app ar rho (of_list [cwv; m; l]) cwv [m; l]); [|reflexivity|exact OP].
    assert (A : forall G v G', applies (VClo (mkSC [NG n] (of_list (SSym (NG n) :: es)) (map fst rho)) (map snd rho)) [K] G v G' <->
      exists vs G1, evals_list (while_giving n xs body rho) es G vs G1 /\ evals (combine xs vs ++ rho) body G1 v G').
    { intros G0 w G2. rewrite applies_exact by reflexivity. cbn [combine app]. fold K. change ((NG n, K) :: rho) with (while_giving n xs body rho).
      assert (LK : lookup (NG n) (while_giving n xs body rho) = Some K) by (cbn [while_giving lookup]; rewrite name_eqb_refl; reflexivity).
      rewrite (evals_app ar _ _ (SSym (NG n)) es);
        [|apply view_app; intros x X; injection X as <-; intros I; cbn in I; repeat (destruct I as [I|I]; [discriminate|]); destruct I
         |cbn [op_prim]; rewrite LK; reflexivity].
      split.
      - intros (u & G3 & vs & G4 & A & B & C). apply (evals_var ar _ _ (NG n) K) in A as [-> ->]; [|reflexivity|exact LK].
        exists vs, G4. split; [exact B|]. apply applies_exact in C; [exact C|]. rewrite <- L. eapply length_vs. exact B.
      - intros (vs & G4 & B & C). exists K, G0, vs, G4. split; [apply (evals_var ar _ _ (NG n) K); auto|]. split; [exact B|].
        apply applies_exact; [|exact C]. rewrite <- L. eapply length_vs. exact B. }
    rewrite <- A. rewrite <- call_with_values_right. split.
    - intros (u & G3 & vs & G4 & F & B & C). apply (evals_global ar _ (NS (in_sys "call-with-values")) (sys_fun "call-with-values")) in F as [-> ->]; [|exact N|exact H].
      apply list_two in B as (u & G3 & u' & -> & B & D). apply (evals_lam ar _ _ _ _ _ _ _ VM) in B as [-> ->].
      apply (evals_lam ar _ _ _ _ _ _ _ VL) in D as [-> ->]. exact C.
    - intros C. do 4 eexists. split; [apply (evals_global ar _ (NS (in_sys "call-with-values")) (sys_fun "call-with-values")); auto|].
      split; [|exact C]. apply list_two. do 3 eexists. split; [reflexivity|]. split; [apply (evals_lam ar _ _ _ _ _ _ _ VM); auto|].
      apply (evals_lam ar _ _ _ _ _ _ _ VL); auto.
  Qed.
End Values.

Theorem sys_loads : forall ar G, exists v G', evals ar [] sys_core G v G' /\
  g_val G' (NS (in_sys "call-with-values")) = Some (sys_fun "call-with-values").
Proof.
  intros ar G. do 2 eexists. split; [exists 20; vm_compute; reflexivity|]. vm_compute. reflexivity.
Qed.
Print Assumptions sys_loads.
Print Assumptions state_return_right.
Print Assumptions state_bind_right.
Print Assumptions does_curried.
Print Assumptions state_chain_right.
Print Assumptions cont_return_right.
Print Assumptions cont_bind_right.
Print Assumptions reset_delivers.
Print Assumptions shift_right.
Print Assumptions let_values_right.

(** * What does not hold *)
Definition with_values : store scode := g_set G0 (NS (in_sys "call-with-values")) (sys_fun "call-with-values").
Definition fn (ps : list string) (b : sexp) : sexp := of_list [ssym "lambda"; of_list (map ssym ps); b].
Definition call (f : string) (es : list sexp) : sexp := of_list (ssym f :: es).
Definition letx (x : string) (a b : sexp) : sexp := of_list [ssym "let"; ssym x; a; b].

(** The expressions of a values form are evaluated not when it is, but each
    time its values are received: received twice, (values (gensym)) gives two
    different symbols. *)
Theorem values_twice_refuted : exists m e v G',
  rewrite_values (of_list [ssym "values"; of_list [ssym "gensym"]]) 5 = Some m /\
  e = letx "m" m (call "=" [of_list [cwv; ssym "m"; fn ["a"] (ssym "a")]; of_list [cwv; ssym "m"; fn ["a"] (ssym "a")]]) /\
  evals no_arith [] e with_values v G' /\ v = VFalse.
Proof. do 4 eexists. split; [reflexivity|]. split; [reflexivity|]. split; [exists 20; vm_compute; reflexivity|reflexivity]. Qed.
Theorem values_delayed_refuted : forall ar rho e n m, rewrite_values (of_list [ssym "values"; e]) n = Some m ->
  forall G, exists v, evals ar rho m G v G.
Proof.
  intros ar rho e n m H G. cbn in H. injection H as <-. eexists. apply (evals_lam ar rho _ [NG n] (of_list [SSym (NG n); e])); [reflexivity|]. split; reflexivity.
Qed.
Print Assumptions values_twice_refuted.
Print Assumptions values_delayed_refuted.
(** Receiving two values where one is given is no error: the answer is a
    function that waits for the second. *)
Theorem let_values_count_refuted : exists m e v G',
  rewrite_values (of_list [ssym "values"; SNum 1]) 5 = Some m /\
  rewrite_let_values (of_list [ssym "let-values"; of_list [ssym "a"; ssym "b"]; m; ssym "a"]) = Some (of_list [ssym "call-with-values"; m; e]) /\
  evals no_arith [] (of_list [cwv; m; e]) with_values v G' /\ is_fun v = true.
Proof. do 4 eexists. split; [reflexivity|]. split; [reflexivity|]. split; [exists 20; vm_compute; reflexivity|reflexivity]. Qed.
Print Assumptions let_values_count_refuted.

(** lib/monad.cora:3 exports the state monad only: in a package that imports
    the library, cont-return is a name of that package. *)
Definition monad_exports (p : string) : list name := if String.eqb p "cora/lib/monad" then [NS "state-bind"; NS "state-return"] else [].
Definition user_source : string := "(package ""p"" (import ""cora/lib/monad"") (list (state-return 1) (cont-return 1)))".
Fixpoint names_of (e : sexp) : list name :=
  match e with SSym x => [x] | SCons a d => names_of a ++ names_of d | _ => [] end.
Theorem cont_not_exported_refuted : exists imports e e' n,
  PreModel.preprocess false 200 (ReaderProps.str user_source) = Some (Base.Ok (imports, e)) /\
  macroexpand gname monad_exports 100 e 1 = Some (e', n) /\
  In (NS "cora/lib/monad#state-return") (names_of e') /\ In (NS "p#cont-return") (names_of e') /\ ~ In (NS "cora/lib/monad#cont-return") (names_of e').
Proof.
  do 4 eexists. split; [vm_compute; reflexivity|]. split; [vm_compute; reflexivity|].
  split; [vm_compute; auto 20|]. split; [vm_compute; auto 20|]. vm_compute. intros H. repeat (destruct H as [H|H]; [discriminate|]). exact H.
Qed.
Print Assumptions cont_not_exported_refuted.

(** * Examples *)
(** a counter: tick gives the state and adds one to it.  Three ticks from 5. *)
Definition tick : sexp := fn ["s"; "k"] (call "k" [call "+" [ssym "s"; SNum 1]; ssym "s"]).
Definition ticks : sexp :=
  letx "tick" tick (letx "more" (fn ["x"] (ssym "tick"))
    (letx "m" (call (in_monad "state-bind") [ssym "tick"; ssym "more"])
      (of_list [call (in_monad "state-bind") [ssym "m"; ssym "more"]; SNum 5; fn ["s"; "v"] (call "cons" [ssym "s"; ssym "v"])]))).
Example ticks_example : exists G', evals TocProps.std [] ticks (with_monad G0) (VCons (VNum 8) (VNum 7)) G'.
Proof. eexists. exists 40. vm_compute. reflexivity. Qed.
(** tick is a step in the sense of the theorems *)
Example tick_does : forall s G, does TocProps.std (VClo (mkSC [NS "s"; NS "k"] (call "k" [call "+" [ssym "s"; SNum 1]; ssym "s"]) []) []) [VNum s] G (VNum (s + 1)) (VNum s) G.
Proof.
  intros s G. eexists _, G. split; [apply (applies_few _ _ 2); [reflexivity|cbn; lia|split; reflexivity]|].
  intros k v G'. rewrite (applies_later _ _ 2) by (reflexivity || (cbn; lia)). cbn [app].
  rewrite (applies_exact _ _ _ []) by reflexivity. cbn [combine app].
  rewrite (evals_app _ _ _ (ssym "k") [call "+" [ssym "s"; SNum 1]; ssym "s"]) by reflexivity. split.
  - intros (w & G1 & vs & G2 & A & B & C). apply (evals_var _ _ _ (NS "k") k) in A as [-> ->]; try reflexivity.
    apply list_two in B as (u & G3 & u' & -> & B & D). apply (evals_var _ _ _ (NS "s") (VNum s)) in D as [-> ->]; try reflexivity.
    destruct (evals_det _ _ _ _ _ _ (VNum (s + 1)) G B) as [-> ->]; [exists 3; reflexivity|]. exact C.
  - intros C. exists k, G, [VNum (s + 1); VNum s], G. split; [apply (evals_var _ _ _ (NS "k") k); split; reflexivity || reflexivity|].
    split; [|exact C]. apply list_two. exists (VNum (s + 1)), G, (VNum s). split; [reflexivity|]. split; [exists 3; reflexivity|].
    apply (evals_var _ _ _ (NS "s") (VNum s)); auto.
Qed.
(** the example of lib/monad.cora:76-79, with its binding written out, and a
    continuation that is used twice *)
Definition shifted (body : sexp) : option sexp :=
  match rewrite_shift (of_list [ssym "shift"; ssym "k"; body]) with
  | Some m => Some (call (in_monad "reset") [call (in_monad "cont-bind") [m; fn ["v"] (call (in_monad "cont-return") [call "+" [ssym "v"; SNum 42]])]])
  | None => None
  end.
Example shift_example : exists e1 e2 G1 G2,
  shifted (call "k" [SNum 666]) = Some e1 /\ evals TocProps.std [] e1 (with_monad G0) (VNum 708) G1 /\
  shifted (call "k" [call "k" [SNum 1]]) = Some e2 /\ evals TocProps.std [] e2 (with_monad G0) (VNum 85) G2.
Proof.
  do 4 eexists. split; [reflexivity|]. split; [exists 40; vm_compute; reflexivity|].
  split; [reflexivity|exists 40; vm_compute; reflexivity].
Qed.
Example monad_loaded : loaded_in (with_monad G0).
Proof. split; vm_compute; reflexivity. Qed.
Example let_values_example : exists m l G',
  rewrite_values (of_list [ssym "values"; SNum 3; call "+" [SNum 1; SNum 1]]) 5 = Some m /\
  rewrite_let_values (of_list [ssym "let-values"; of_list [ssym "a"; ssym "b"]; m; call "-" [ssym "a"; ssym "b"]]) = Some (of_list [ssym "call-with-values"; m; l]) /\
  evals TocProps.std [] (of_list [cwv; m; l]) with_values (VNum 1) G'.
Proof. do 3 eexists. split; [reflexivity|]. split; [reflexivity|]. exists 40. vm_compute. reflexivity. Qed.
