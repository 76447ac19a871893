(** C75: opening connections; C76: what the system is asked to report, and what is handed on. *)
From Coq Require Import ZArith Bool List Ascii Lia.
From Verif Require Import Base StrModel SockModel SockSpec.
Import ListNotations.
Local Open Scope Z_scope.
Local Open Scope out_scope.

(** * Host and port *)
(** The text before the first colon is the host, the rest the port; without a colon there is
    neither. *)
Theorem split_right : forall s,
  (forall h p, ~ In colon h -> s = h ++ colon :: p -> splitHostAndPort s = Some (h, p)) /\
  (~ In colon s <-> splitHostAndPort s = None).
Proof.
  assert (A : forall h p, ~ In colon h -> find_colon (h ++ colon :: p) = length h).
  { induction h as [|c h IH]; intros p N; cbn [app find_colon length].
    - now rewrite Ascii.eqb_refl.
    - destruct (Ascii.eqb_spec c colon) as [->|_]; [exfalso; apply N; now left|].
      f_equal. apply IH. intro I. apply N. now right. }
  assert (B : forall s, ~ In colon s -> find_colon s = length s).
  { induction s as [|c s IH]; intros N; cbn [find_colon length]; [reflexivity|].
    destruct (Ascii.eqb_spec c colon) as [->|_]; [exfalso; apply N; now left|].
    f_equal. apply IH. intro I. apply N. now right. }
  assert (C : forall h p, ~ In colon h -> splitHostAndPort (h ++ colon :: p) = Some (h, p)).
  { intros h p N. unfold splitHostAndPort. rewrite (A h p N), app_length. cbn [length].
    destruct (Nat.eqb_spec (length h) (length h + S (length p))); [lia|].
    rewrite firstn_app, Nat.sub_diag, firstn_all. cbn [firstn]. rewrite app_nil_r.
    replace (h ++ colon :: p) with ((h ++ [colon]) ++ p) by (rewrite <- app_assoc; reflexivity).
    replace (length h + 1)%nat with (length (h ++ [colon])) by (rewrite app_length; reflexivity).
    rewrite skipn_app, Nat.sub_diag, skipn_all. reflexivity. }
  intros s. split; [intros h p N ->; now apply C|]. split.
  - intros N. unfold splitHostAndPort. rewrite (B s N), Nat.eqb_refl. reflexivity.
  - intros H I. apply in_split in I. destruct I as (h & p & ->).
    assert (F : exists h' p', ~ In colon h' /\ h ++ colon :: p = h' ++ colon :: p').
    { clear. induction h as [|c h IH]; [exists [], p; auto|].
      destruct (Ascii.eqb_spec c colon) as [->|N]; [exists [], (h ++ colon :: p); auto|].
      destruct IH as (h' & p' & N' & E). exists (c :: h'), p'. split.
      - intros [->|I]; [now apply N|contradiction].
      - cbn [app]. now rewrite E. }
    destruct F as (h' & p' & N & E). rewrite E, (C h' p' N) in H. discriminate.
Qed.
Print Assumptions split_right.

Lemma digit_code : forall d, (d < 10)%nat -> digit (ascii_of_nat (48 + d)) = Some (Z.of_nat d) /\
  space (ascii_of_nat (48 + d)) = false /\ Ascii.eqb (ascii_of_nat (48 + d)) NUL = false /\
  Ascii.eqb (ascii_of_nat (48 + d)) (ascii_of_nat 45) = false /\ Ascii.eqb (ascii_of_nat (48 + d)) (ascii_of_nat 43) = false.
Proof. intros d H. do 10 (destruct d as [|d]; [vm_compute; repeat split; reflexivity|]). lia. Qed.
Lemma numeral_value : forall s v, numeral s v -> forall acc t,
  digits_value acc (s ++ t) = digits_value (acc * 10 ^ Z.of_nat (length s) + v) t /\ upto_nul s = s /\
  exists d r, s = ascii_of_nat (48 + d) :: r /\ (d < 10)%nat.
Proof.
  induction 1 as [d Hd|s v d Hn IH Hd]; intros acc t; destruct (digit_code d Hd) as (D1 & D2 & D3 & D4 & D5).
  - split; [|split; [cbn [upto_nul]; now rewrite D3|eauto]].
    cbn [app digits_value length]. rewrite D1. f_equal.
  - destruct (IH acc ([ascii_of_nat (48 + d)] ++ t)) as (E1 & E2 & d0 & r & E3 & L). split; [|split].
    + rewrite <- app_assoc, E1. cbn [app digits_value]. rewrite D1. f_equal.
      rewrite app_length. cbn [length]. rewrite Nat2Z.inj_add, Z.pow_add_r by lia. change (10 ^ Z.of_nat 1) with 10. lia.
    + clear - E2 D3. induction s as [|c s IH]; cbn [app upto_nul] in *.
      * now rewrite D3.
      * destruct (Ascii.eqb c NUL); [discriminate|]. injection E2 as E2. f_equal. auto.
    + exists d0, (r ++ [ascii_of_nat (48 + d)]). rewrite E3. split; [reflexivity|exact L].
Qed.
Lemma atoi_numeral : forall s v, numeral s v -> v < 2^31 -> 0 <= v -> atoi s = Ok v.
Proof.
  intros s v H B P. destruct (numeral_value s v H 0 []) as (E1 & E2 & d & r & E3 & L).
  rewrite app_nil_r in E1. cbn [digits_value] in E1.
  unfold atoi. rewrite E2. destruct (digit_code d L) as (D1 & D2 & D3 & D4 & D5).
  rewrite E3 in E1 |- *. cbn [skip_spaces]. rewrite D2, D4, D5, E1. cbn [Z.mul Z.add].
  destruct (Z.leb_spec (- 2^31) v); [|lia]. destruct (Z.ltb_spec v (2^31)); [|lia]. reflexivity.
Qed.
Lemma numeral_pos : forall s v, numeral s v -> 0 <= v.
Proof. induction 1; lia. Qed.

(** * C75 *)
(** net-listen on a port number: the descriptor that comes back, and only that one, is open,
    bound to the port on every interface, listening and non-blocking; an answer of () means
    nothing listens. *)
Theorem listen_right_partial : forall h p v fd b l, ~ In colon h -> numeral p v -> v < 2^16 -> -1 <= fd ->
  exists e x, netListen (h ++ colon :: p) fd b l = Ok (e, x) /\
  match x with
  | Some fd' => fd' = fd /\ e = [ESocket fd; EBind fd v; EListen fd; ENonBlock fd] /\ open_after [] e = [fd]
  | None => (fd = -1 \/ b = false \/ l = false) /\ forall fd', ~ In (EListen fd') e
  end.
Proof.
  intros h p v fd b l N H B F. unfold netListen.
  rewrite (proj1 (split_right _) h p N eq_refl). pose proof (numeral_pos _ _ H).
  rewrite (atoi_numeral p v H) by lia. cbn [obind]. unfold htons. rewrite Z.mod_small by lia.
  destruct (Z.eqb_spec fd (-1)) as [->|N1]; cbn [negb andb].
  - eexists _, None. split; [reflexivity|]. split; [auto|]. intros fd' [].
  - destruct b; [destruct l|].
    + eexists _, (Some fd). split; [reflexivity|]. repeat split.
    + eexists _, None. split; [reflexivity|]. split; [auto|]. intros fd' [I|[I|[]]]; discriminate.
    + eexists _, None. split; [reflexivity|]. split; [auto|]. unfold opened. destruct (Z.eqb_spec fd (-1)); [contradiction|].
      intros fd' [I|[]]; discriminate.
Qed.
Print Assumptions listen_right_partial.
Definition text (s : list nat) : bytes := map ascii_of_nat s.
Example listen_ex : netListen (text [58; 56; 48; 56; 48]%nat) 5 true true =
  Ok ([ESocket 5; EBind 5 8080; EListen 5; ENonBlock 5], Some 5) /\ numeral (text [56; 48; 56; 48]%nat) 8080.
Proof.
  split; [vm_compute; reflexivity|].
  change (text [56; 48; 56; 48]%nat) with ((([ascii_of_nat (48 + 8)] ++ [ascii_of_nat (48 + 0)]) ++ [ascii_of_nat (48 + 8)]) ++ [ascii_of_nat (48 + 0)]).
  apply (num_more _ 808 0); [|lia]. apply (num_more _ 80 8); [|lia]. apply (num_more _ 8 0); [|lia]. apply (num_one 8); lia.
Qed.

(** Spaces and a plus before the number and anything after it are accepted; a
    minus makes another port of it. *)
Theorem listen_lenient : forall h sp p v t fd b l, ~ In colon h -> Forall (fun c => c = " "%char \/ c = ascii_of_nat 9) sp -> numeral p v -> v < 2^16 ->
  match t with [] => True | c :: _ => digit c = None end ->
  netListen (h ++ colon :: sp ++ p ++ t) fd b l = netListen (h ++ colon :: p) fd b l /\
  netListen (h ++ colon :: sp ++ "+"%char :: p ++ t) fd b l = netListen (h ++ colon :: p) fd b l /\
  (0 < v -> 0 <= fd -> netListen (h ++ colon :: sp ++ "-"%char :: p ++ t) fd true true =
     Ok ([ESocket fd; EBind fd (2^16 - v); EListen fd; ENonBlock fd], Some fd)).
Proof.
  intros h sp p v t fd b l N S H B T. pose proof (numeral_pos _ _ H) as P0.
  assert (U : forall x, upto_nul (p ++ x) = p ++ upto_nul x).
  { destruct (numeral_value p v H 0 []) as (_ & E & _). clear - E. intro x. induction p as [|c p IH]; [reflexivity|]. cbn [app upto_nul] in *.
    destruct (Ascii.eqb c NUL); [discriminate|]. injection E as E. now rewrite IH. }
  assert (V : digits_value 0 (p ++ upto_nul t) = v).
  { destruct (numeral_value p v H 0 (upto_nul t)) as (-> & _). cbn [Z.mul Z.add]. destruct t as [|c t]; [reflexivity|]. cbn [upto_nul].
    destruct (Ascii.eqb c NUL); [reflexivity|]. cbn [digits_value]. now rewrite T. }
  assert (K : forall x, atoi (sp ++ x) = atoi x).
  { intro x. unfold atoi. replace (skip_spaces (upto_nul (sp ++ x))) with (skip_spaces (upto_nul x)); [reflexivity|].
    clear - S. induction S as [|c sp C S IH]; [reflexivity|]. destruct C as [->| ->]; exact IH. }
  destruct (numeral_value p v H 0 []) as (_ & _ & d & r & E & L). destruct (digit_code d L) as (D1 & D2 & D3 & D4 & D5).
  assert (I31 : (- 2^31 <=? v) && (v <? 2^31) = true) by (apply andb_true_intro; split; [apply Z.leb_le|apply Z.ltb_lt]; lia).
  assert (A0 : atoi (sp ++ p ++ t) = Ok v).
  { rewrite K. unfold atoi. rewrite U. rewrite E in *. cbn [app skip_spaces] in *. rewrite D2, D4, D5, V, I31. reflexivity. }
  assert (A1 : atoi (sp ++ "+"%char :: p ++ t) = Ok v).
  { rewrite K. unfold atoi. change (upto_nul ("+"%char :: p ++ t)) with ("+"%char :: upto_nul (p ++ t)). rewrite U.
    change (skip_spaces ("+"%char :: p ++ upto_nul t)) with ("+"%char :: p ++ upto_nul t).
    cbv iota beta zeta. change (Ascii.eqb "+" (ascii_of_nat 45)) with false. change (Ascii.eqb "+" (ascii_of_nat 43)) with true. cbv iota. now rewrite V, I31. }
  assert (A2 : atoi (sp ++ "-"%char :: p ++ t) = Ok (- v)).
  { rewrite K. unfold atoi. change (upto_nul ("-"%char :: p ++ t)) with ("-"%char :: upto_nul (p ++ t)). rewrite U.
    change (skip_spaces ("-"%char :: p ++ upto_nul t)) with ("-"%char :: p ++ upto_nul t).
    cbv iota beta zeta. change (Ascii.eqb "-" (ascii_of_nat 45)) with true. cbv iota. rewrite V.
    replace ((- 2^31 <=? - v) && (- v <? 2^31)) with true; [reflexivity|]. symmetry. apply andb_true_intro; split; [apply Z.leb_le|apply Z.ltb_lt]; lia. }
  unfold netListen. rewrite !(fun x => proj1 (split_right _) h x N eq_refl), A0, A1, A2, (atoi_numeral p v H) by lia.
  split; [reflexivity|]. split; [reflexivity|]. intros P F. cbn [obind]. destruct (Z.eqb_spec fd (-1)); [lia|]. cbn [negb andb].
  unfold htons. replace ((- v) mod 2^16) with (2^16 - v); [reflexivity|]. apply (Z.mod_unique_pos _ _ (-1)); lia.
Qed.
Print Assumptions listen_lenient.
Example lenient_ex : netListen (text [58; 32; 43; 56; 48; 120]%nat) 5 true true = netListen (text [58; 56; 48]%nat) 5 true true /\
  netListen (text [58; 45; 49]%nat) 5 true true = Ok ([ESocket 5; EBind 5 65535; EListen 5; ENonBlock 5], Some 5).
Proof. split; vm_compute; reflexivity. Qed.

(** The host of the address is not used: "127.0.0.1:80" is open to every interface. *)
Theorem listen_host_refuted : forall h h' p fd b l, ~ In colon h -> ~ In colon h' ->
  netListen (h ++ colon :: p) fd b l = netListen (h' ++ colon :: p) fd b l.
Proof.
  intros h h' p fd b l N N'. unfold netListen.
  now rewrite (proj1 (split_right _) h p N eq_refl), (proj1 (split_right _) h' p N' eq_refl).
Qed.
(** A port that is no port number is not rejected: 65616 becomes 80, a name becomes 0. *)
Theorem listen_port_refuted :
  (exists p, numeral p 65616 /\ netListen (colon :: p) 5 true true = Ok ([ESocket 5; EBind 5 80; EListen 5; ENonBlock 5], Some 5)) /\
  netListen (text [58; 104; 116; 116; 112]%nat) 5 true true = Ok ([ESocket 5; EBind 5 0; EListen 5; ENonBlock 5], Some 5).
Proof.
  split; [|vm_compute; reflexivity]. exists (text [54; 53; 54; 49; 54]%nat). split; [|vm_compute; reflexivity].
  change (text [54; 53; 54; 49; 54]%nat) with (((([ascii_of_nat (48 + 6)] ++ [ascii_of_nat (48 + 5)]) ++ [ascii_of_nat (48 + 6)]) ++ [ascii_of_nat (48 + 1)]) ++ [ascii_of_nat (48 + 6)]).
  apply (num_more _ 6561 6); [|lia]. apply (num_more _ 656 1); [|lia]. apply (num_more _ 65 6); [|lia].
  apply (num_more _ 6 5); [|lia]. apply (num_one 6); lia.
Qed.
(** A failed bind or listen leaves the descriptor open, and the program does not know it. *)
Theorem listen_leak_refuted : forall h p v fd b l, ~ In colon h -> numeral p v -> v < 2^16 -> 0 <= fd -> b = false \/ l = false ->
  exists e, netListen (h ++ colon :: p) fd b l = Ok (e, None) /\ open_after [] e = [fd].
Proof.
  intros h p v fd b l N H B F D. unfold netListen. rewrite (proj1 (split_right _) h p N eq_refl).
  pose proof (numeral_pos _ _ H). rewrite (atoi_numeral p v H) by lia. cbn [obind]. unfold opened.
  destruct (Z.eqb_spec fd (-1)); [lia|]. cbn [negb andb].
  destruct b; [destruct l; [destruct D; discriminate|]|]; eexists; split; reflexivity.
Qed.
Print Assumptions listen_host_refuted.
Print Assumptions listen_port_refuted.
Print Assumptions listen_leak_refuted.
(** a port number outside int is undefined *)
Theorem listen_huge_port_refuted : exists s, netListen s 5 true true = UB.
Proof. exists (text [58; 57; 57; 57; 57; 57; 57; 57; 57; 57; 57]%nat). vm_compute. reflexivity. Qed.
Print Assumptions listen_huge_port_refuted.

(** net-dial: the answer is the descriptor of the first address that can be reached; it is
    connected and non-blocking, and every other descriptor opened on the way is closed;
    () means that no address could be reached, and then nothing stays open. *)
Lemma dial_loop_right : forall addrs o, 
  let (e, x) := dial_loop addrs in
  match x with
  | Some fd => exists a, first_reached addrs a fd /\ In (EConnect fd a) e /\ open_after o e = fd :: o
  | None => (forall a fd, ~ first_reached addrs a fd) /\ open_after o e = o
  end.
Proof.
  induction addrs as [|[[a fd] ok] r IH]; intros o; cbn [dial_loop].
  - split; [intros a fd H; inversion H|reflexivity].
  - destruct (Z.eqb_spec fd (-1)) as [->|N].
    + specialize (IH o). destruct (dial_loop r) as [e [x|]].
      * destruct IH as (a' & F & I & O). exists a'. split; [|auto]. apply reach_later; auto.
      * destruct IH as (F & O). split; [|exact O]. intros a' fd' H. inversion H; subst; [congruence|]. eapply F; eauto.
    + destruct ok.
      * exists a. split; [now constructor|]. split; [now right; left|reflexivity].
      * specialize (IH o). destruct (dial_loop r) as [e [x|]].
        -- destruct IH as (a' & F & I & O). exists a'. split; [apply reach_later; auto|]. split; [now right; right|].
           cbn [open_after drop_one]. rewrite Z.eqb_refl. exact O.
        -- destruct IH as (F & O). split.
           ++ intros a' fd' H. inversion H; subst. eapply F; eauto.
           ++ cbn [open_after drop_one]. rewrite Z.eqb_refl. exact O.
Qed.
Lemma open_after_app : forall e1 e2 o, open_after o (e1 ++ e2) = open_after (open_after o e1) e2.
Proof. induction e1 as [|[] e1 IH]; intros e2 o; cbn [app open_after]; auto. Qed.
Theorem dial_right : forall h p resolve, ~ In colon h ->
  let (e, x) := netDial (h ++ colon :: p) resolve in
  match resolve (upto_nul h) (upto_nul p) with
  | None => e = [] /\ x = None
  | Some addrs =>
      match x with
      | Some fd => exists a, first_reached addrs a fd /\ In (EConnect fd a) e /\ In (ENonBlock fd) e /\ In EFree e /\ open_after [] e = [fd]
      | None => (forall a fd, ~ first_reached addrs a fd) /\ open_after [] e = []
      end
  end.
Proof.
  intros h p resolve N. unfold netDial. rewrite (proj1 (split_right _) h p N eq_refl).
  destruct (resolve (upto_nul h) (upto_nul p)) as [addrs|]; [|auto].
  pose proof (dial_loop_right addrs []) as H. destruct (dial_loop addrs) as [e [fd|]].
  - destruct H as (a & F & I & O). exists a. split; [exact F|]. split; [right; apply in_or_app; now left|].
    split; [right; apply in_or_app; right; now right; left|]. split; [right; apply in_or_app; right; now left|].
    cbn [open_after]. rewrite open_after_app, O. reflexivity.
  - destruct H as (F & O). split; [exact F|exact O].
Qed.
Print Assumptions dial_right.
Example dial_ex : netDial (text [97; 58; 56]%nat) (fun _ _ => Some [(100, -1, false); (101, 4, false); (102, 4, true); (103, 5, true)]) =
  ([EResolved; ESocket 4; EClose 4; ESocket 4; EConnect 4 102; EFree; ENonBlock 4], Some 4).
Proof. vm_compute. reflexivity. Qed.
(** When no address can be reached, the list of addresses is never freed. *)
Theorem dial_leak_refuted : forall h p resolve addrs, ~ In colon h -> resolve (upto_nul h) (upto_nul p) = Some addrs ->
  (forall a fd, ~ first_reached addrs a fd) ->
  In EResolved (fst (netDial (h ++ colon :: p) resolve)) /\ ~ In EFree (fst (netDial (h ++ colon :: p) resolve)).
Proof.
  intros h p resolve addrs N R F. unfold netDial. rewrite (proj1 (split_right _) h p N eq_refl), R.
  assert (X : forall l, ~ In EFree (fst (dial_loop l))).
  { induction l as [|[[a fd] ok] r IH]; cbn [dial_loop]; [intros []|].
    destruct (fd =? -1); [exact IH|]. destruct ok; cbn.
    - intros [I|[I|[]]]; discriminate.
    - destruct (dial_loop r). cbn in *. intros [I|[I|I]]; [discriminate|discriminate|auto]. }
  pose proof (dial_loop_right addrs []) as H. specialize (X addrs). destruct (dial_loop addrs) as [e [fd|]].
  - destruct H as (a & F' & _). destruct (F _ _ F').
  - split; [now left|]. cbn in *. intros [I|I]; [discriminate|auto].
Qed.
Print Assumptions dial_leak_refuted.
Theorem accept_right : forall fd, -1 <= fd -> 
  match netAccept fd with
  | (e, Some fd') => fd' = fd /\ In (ENonBlock fd) e /\ open_after [] e = [fd]
  | (e, None) => fd = -1 /\ open_after [] e = []
  end.
Proof.
  intros fd H. unfold netAccept. destruct (Z.ltb_spec fd 0); [split; [lia|reflexivity]|].
  split; [reflexivity|]. split; [now right; left|reflexivity].
Qed.
Print Assumptions accept_right.
Example accept_ex : netAccept 7 = ([ESocket 7; ENonBlock 7], Some 7).
Proof. reflexivity. Qed.

(** * C76 *)
(** With epoll, changing the modes of a registered descriptor asks for exactly the modes
    listed, whatever was asked before. *)
Theorem epoll_mod_exact : forall l conn a b c,
  exists rd wr, epollMod l conn (Some (a, b, c)) = Some (rd, wr, conn) /\
    (rd = true <-> In MRead l) /\ (wr = true <-> In MWrite l).
Proof.
  intros l conn a b c. exists (has MRead l), (has MWrite l). split; [reflexivity|].
  split; unfold has; rewrite existsb_exists; split.
  - intros (x & I & E). destruct x; try discriminate. exact I.
  - intros I. exists MRead. auto.
  - intros (x & I & E). destruct x; try discriminate. exact I.
  - intros I. exists MWrite. auto.
Qed.
Print Assumptions epoll_mod_exact.
Example epoll_mod_ex : epollMod [MWrite] 9 (Some (true, false, 8)) = Some (false, true, 9).
Proof. reflexivity. Qed.

Inductive pop := PAdd (m : mode) (conn : Z) | PMod (l : list mode) (conn : Z) | PDel.
Definition epoll_step (r : reg) (o : pop) : reg :=
  match o with PAdd m c => epollAdd m c r | PMod l c => epollMod l c r | PDel => epollDel r end.
Definition kqueue_step (k : kreg) (o : pop) : outcome kreg :=
  match o with PAdd m c => Ok (kqueueAdd m c k) | PMod l c => kqueueMod l c k | PDel => Ok (kqueueDel k) end.
Fixpoint kqueue_run (k : kreg) (os : list pop) : outcome kreg :=
  match os with [] => Ok k | o :: os' => do! k1 <- kqueue_step k o; kqueue_run k1 os' end.
(** the two hold the same *)
Definition same (r : reg) (k : kreg) : Prop :=
  match r with
  | None => k = (None, None)
  | Some (a, b, c) => k = (if a then Some c else None, if b then Some c else None)
  end.
(** additions are of something new, changes keep what is there, deletions are of something
    registered for reading *)
Definition growing (r : reg) (o : pop) : Prop :=
  match o, r with
  | PAdd m _, None => m <> MOther
  | PAdd m _, Some _ => m = MOther
  | PMod l c, Some (a, b, _) => (a = true -> In MRead l) /\ (b = true -> In MWrite l) /\
      (length l <= 2)%nat
  | PMod _ _, None => False
  | PDel, Some (a, _, _) => a = true
  | PDel, None => True
  end.
Fixpoint all_growing (r : reg) (os : list pop) : Prop :=
  match os with [] => True | o :: os' => growing r o /\ all_growing (epoll_step r o) os' end.
(** On those histories the two ways of waiting are the same. *)
Theorem kqueue_agrees_partial : forall os r k, same r k -> all_growing r os ->
  exists k', kqueue_run k os = Ok k' /\ same (fold_left epoll_step os r) k'.
Proof.
  induction os as [|o os IH]; intros r k S G; cbn [kqueue_run fold_left]; [eauto|].
  destruct G as [G1 G2].
  assert (X : exists k1, kqueue_step k o = Ok k1 /\ same (epoll_step r o) k1).
  { destruct o as [m c|l c|]; cbn [kqueue_step epoll_step growing] in *.
    - eexists. split; [reflexivity|]. destruct r as [[[a b] c0]|]; cbn [same] in S; subst k.
      + subst m. destruct a, b; reflexivity.
      + destruct m; [reflexivity|reflexivity|congruence].
    - destruct r as [[[a b] c0]|]; [|contradiction]. cbn [same] in S. subst k.
      destruct G1 as (G3 & G4 & G5). unfold kqueueMod. cbn [epollMod same].
      destruct l as [|m1 [|m2 [|m3 l]]]; cbn [length] in G5; try lia.
      + destruct a; [destruct (G3 eq_refl)|]. destruct b; [destruct (G4 eq_refl)|]. eexists; split; reflexivity.
      + destruct m1; cbn [kqueueMod_loop has existsb orb In] in *;
          destruct a; destruct b; try (destruct (G3 eq_refl) as [E|[]]; discriminate);
          try (destruct (G4 eq_refl) as [E|[]]; discriminate); eexists; split; reflexivity.
      + destruct m1, m2; cbn [kqueueMod_loop has existsb orb In] in *;
          destruct a; destruct b; try (destruct (G3 eq_refl) as [E|[E|[]]]; discriminate);
          try (destruct (G4 eq_refl) as [E|[E|[]]]; discriminate); eexists; split; reflexivity.
    - eexists. split; [reflexivity|]. destruct r as [[[a b] c0]|]; cbn [same] in S; subst k; [subst a|]; reflexivity. }
  destruct X as (k1 & E & S1). rewrite E. cbn [obind]. apply IH; assumption.
Qed.
Print Assumptions kqueue_agrees_partial.
Example kqueue_agrees_ex : all_growing None [PAdd MRead 7; PMod [MRead; MWrite] 7; PDel; PAdd MWrite 8] /\
  kqueue_run (None, None) [PAdd MRead 7; PMod [MRead; MWrite] 7; PDel; PAdd MWrite 8] = Ok (None, Some 8).
Proof. split; [|reflexivity]. cbn. repeat split; auto; congruence. Qed.

(** Outside: with kqueue a mode that is no longer listed stays, deleting a descriptor
    registered for writing only keeps it, and three modes write behind an array. *)
Theorem kqueue_mod_refuted :
  (exists l c r k, same r k /\ ~ In MWrite l /\ exists x, kqueueMod l c k = Ok (x, Some c) /\ epollMod l c r = Some (true, false, c)) /\
  (forall c, kqueueDel (None, Some c) = (None, Some c)) /\
  (forall c k, kqueueMod [MRead; MWrite; MRead] c k = UB).
Proof.
  split; [|split; reflexivity].
  exists [MRead], 5, (Some (true, true, 5)), (Some 5, Some 5). split; [reflexivity|].
  split; [intros [H|[]]; discriminate|]. exists (Some 5). split; reflexivity.
Qed.
Print Assumptions kqueue_mod_refuted.

(** The list that net-poll gives: one entry for each report of readability and one for each
    of writability, last report first. *)
Theorem poll_list_exact : forall l,
  epollList l [] = rev (flat_map (fun r => let '(rd, wr, c) := r in
     (if rd : bool then [(c, MRead)] else []) ++ (if wr : bool then [(c, MWrite)] else [])) l).
Proof.
  assert (G : forall l ret, epollList l ret = rev (flat_map (fun r => let '(rd, wr, c) := r in
     (if rd : bool then [(c, MRead)] else []) ++ (if wr : bool then [(c, MWrite)] else [])) l) ++ ret).
  { induction l as [|[[rd wr] c] l IH]; intros ret; cbn [epollList flat_map]; [reflexivity|].
    rewrite IH, rev_app_distr, <- app_assoc. f_equal. destruct rd, wr; reflexivity. }
  intros l. rewrite G. apply app_nil_r.
Qed.
Print Assumptions poll_list_exact.
Example poll_list_ex : epollList [(true, false, 4); (true, true, 5); (false, false, 6)] [] = [(5, MWrite); (5, MRead); (4, MRead)].
Proof. reflexivity. Qed.
(** A descriptor on which only an error is reported is not handed to the program. *)
Theorem poll_error_refuted : forall c, epollList [(false, false, c)] [] = [].
Proof. reflexivity. Qed.
Print Assumptions poll_error_refuted.
