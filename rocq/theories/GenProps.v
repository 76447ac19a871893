(** Theorems of record about the C file that the compiler writes (C66). *)
From Coq Require Import List ZArith Bool String Ascii Arith Lia.
From Verif Require Import Base StrModel ReaderModel EmitModel EmitProps CoreSpec CoreProofs TocModel TocSem TocMach TocClosure TocTail TocParseSim TocWhole TocProps
  CSpec GenModel GenCond GenLex GenTree GenSem GenRun GenFile GenSource TocScope.
Import ListNotations.
Local Open Scope string_scope.
Local Open Scope list_scope.
Local Open Scope nat_scope.

(** * C66 *)

(** If the functions are [writable] - local names are distinct C identifiers
    that are not words of C or of the runtime, constants are numbers up to
    2^53, strings without backslash and NUL or symbols, the names of globals
    are printable without quote and backslash, no name is declared twice in a
    block - then a text is written, the text is a C file, loading it puts the
    globals in the symbol table and makes the last function the current one,
    and from any state of the runtime one call from the trampoline into a
    function of the C file does what a step of the machine does with the
    functions. *)
Theorem written_file_runs : forall gs fs globals, writable gs fs globals = true ->
  exists text d names, generate_c gs fs globals = Ok text /\ c_file text = Some d /\
    globals = map SSym names /\ c_load d = Some (names, List.length fs - 1, 0) /\
    (forall ar M, c_step ar d names M = mstep ar fs M) /\
    (forall ar k M, c_steps ar d names k M = msteps ar fs k M).
Proof.
  intros gs fs globals H. unfold writable in H. apply andb_true_iff in H as [H H4]. apply andb_true_iff in H as [H H3]. apply andb_true_iff in H as [H1 H2].
  destruct fs as [|F fs]; [discriminate|]. clear H1. destruct (numbered_cons F fs) as (G & bc & EN).
  destruct (names_inj gs _ H2) as (NM & _).
  assert (FO : forallb (fun c => func_ok globals (List.length (F :: fs)) (local_names (F :: fs)) (snd c)) ((List.length fs, G) :: bc) = true).
  { rewrite <- EN. apply forallb_forall. intros (i, f) I. unfold numbered in I. apply in_rev, in_combine_r in I.
    rewrite forallb_forall in H3. now apply H3. }
  destruct (file_text gs globals (List.length (F :: fs)) (local_names (F :: fs)) NM (List.length fs) G bc FO H4) as (b & E1 & E2).
  exists b, (a_file gs globals (List.length fs) (numbered (F :: fs))), (table globals).
  split; [unfold generate_c; now rewrite EN|]. split; [now rewrite EN|]. split; [|split; [|split]].
  - clear - H4. induction globals as [|s l IH]; [reflexivity|]. cbn [forallb] in H4. apply andb_true_iff in H4 as [A B].
    unfold table in *. cbn [map]. rewrite <- (IH B). destruct s as [|[x|]| | | | |]; try discriminate. reflexivity.
  - rewrite load_file; [|exact H4|cbn [List.length]; lia]. cbn [List.length]. now rewrite Nat.sub_succ, Nat.sub_0_r.
  - intros. now apply step_file.
  - intros. now apply steps_file.
Qed.

(** With the theorem of C34: a legal source program whose compiled functions
    are writable gives a C file, and running that file ends with the value and
    the globals of the source program. *)
Theorem compile_to_c_partial : forall ar gs n0 ks fuel e fs gl B n g v G nf,
  legal n0 ks e = true -> compile fuel n0 e = Some (fs, gl) -> writable gs fs gl = true ->
  program ar true n e (init B g) = Some (v, G) -> top_frame fs <= nf ->
  exists text d names a M0 k M1, generate_c gs fs gl = Ok text /\ c_file text = Some d /\ c_load d = Some (names, a, 0) /\
    m_call (mkM None [] None (VNum 0) (init B g)) (VClo (mkL a 0 nf) []) [] = Some M0 /\
    c_steps ar d names k M0 = Some M1 /\ finished M1 = true /\
    looks s_arity l_nargs v (m_res M1) /\ same_globals s_arity l_nargs G (m_G M1).
Proof.
  intros ar gs n0 ks fuel e fs gl B n g v G nf HL HC HW EV HT.
  destruct (compile_correct_partial ar n0 ks fuel e fs gl B n g v G nf HL HC EV HT) as (M0 & k & M1 & A1 & A2 & A3 & A4 & A5).
  destruct (written_file_runs gs fs gl HW) as (text & d & names & B1 & B2 & _ & B3 & _ & B4).
  exists text, d, names, (List.length fs - 1), M0, k, M1. rewrite B4. auto 10.
Qed.

Definition demo_gs (k : nat) : bytes := ch 120 :: dec_nat (9221120237041090560 + Z.of_nat (1000 + k)).

Example compile_to_c_example :
  legal 0 20 demo = true /\
  (match compile 30 0 demo with
   | Some (fs, gl) => writable demo_gs fs gl = true /\ top_frame fs <= 3 /\ List.length fs = 5 /\ gl = [SSym (NS "fact")] /\
       match generate_c demo_gs fs gl with
       | Ok text => (1500 <? List.length text) = true /\
           match c_file text, m_start fs 3 (init no_globals 0) with
           | Some d, Some M0 => c_load d = Some ([NS "fact"], 4, 0) /\
               match c_steps std d [NS "fact"] 20 M0 with
               | Some M1 => finished M1 = true /\ m_res M1 = VCons (VNum 123) (VCons (VNum 4) VNil)
               | None => False
               end
           | _, _ => False
           end
       | _ => False
       end
   | None => False
   end).
Proof. vm_compute. repeat split; repeat constructor. Qed.

(** The same with the condition on the source program: every number in it is at
    most 2^53 in size, no string has a backslash or NUL, every local name is
    [local_ok], and every name in the symbol table is [symbol_ok].  The texts
    of gensyms are those of src/types.c:184. *)
Theorem source_writable_partial : forall gs n0 ks fuel e fs gl, legal n0 ks e = true -> compile fuel n0 e = Some (fs, gl) ->
  literals e = true -> forallb local_ok (locals ks e) = true -> forallb symbol_ok gl = true -> gensym_texts gs (local_names fs) ->
  writable gs fs gl = true.
Proof. exact source_writable. Qed.

Theorem source_to_c_partial : forall ar gs n0 ks fuel e fs gl B n g v G nf,
  legal n0 ks e = true -> compile fuel n0 e = Some (fs, gl) ->
  literals e = true -> forallb local_ok (locals ks e) = true -> forallb symbol_ok gl = true -> gensym_texts gs (local_names fs) ->
  program ar true n e (init B g) = Some (v, G) -> top_frame fs <= nf ->
  exists text d names a M0 k M1, generate_c gs fs gl = Ok text /\ c_file text = Some d /\ c_load d = Some (names, a, 0) /\
    m_call (mkM None [] None (VNum 0) (init B g)) (VClo (mkL a 0 nf) []) [] = Some M0 /\
    c_steps ar d names k M0 = Some M1 /\ finished M1 = true /\
    looks s_arity l_nargs v (m_res M1) /\ same_globals s_arity l_nargs G (m_G M1).
Proof.
  intros. eapply compile_to_c_partial; eauto. eapply source_writable; eauto.
Qed.

Example source_to_c_example :
  match compile 30 0 demo with
  | Some (fs, gl) => literals demo = true /\ locals 20 demo <> [] /\ forallb local_ok (locals 20 demo) = true /\ forallb symbol_ok gl = true /\
      gensym_texts demo_gs (local_names fs) /\ exists k, In (NG k) (local_names fs)
  | None => False
  end.
Proof.
  destruct (compile 30 0 demo) as [(fs, gl)|] eqn:E; [|vm_compute in E; discriminate].
  assert (X : gl = [SSym (NS "fact")] /\ forallb (fun x => match x with NG k => k <? 100 | _ => true end) (local_names fs) = true /\
              existsb (fun x => match x with NG _ => true | _ => false end) (local_names fs) = true).
  { vm_compute in E. injection E as <- <-. repeat split. }
  clear E. destruct X as (-> & X & Y).
  split; [reflexivity|]. split; [discriminate|]. split; [reflexivity|]. split; [reflexivity|]. split.
  - exists (fun k => 9221120237041090560 + Z.of_nat (1000 + k))%Z. rewrite forallb_forall in X. split.
    + intros k HK. specialize (X _ HK). cbn beta iota in X. apply Nat.ltb_lt in X. split; [|reflexivity].
      change (2 ^ 63)%Z with 9223372036854775808%Z. change (2 ^ 62)%Z with 4611686018427387904%Z. lia.
    + intros i j _ _ H. lia.
  - apply existsb_exists in Y as (x & Hx & Y). destruct x as [|k]; [discriminate|]. exists k. exact Hx.
Qed.

Print Assumptions written_file_runs.
Print Assumptions source_writable_partial.
Print Assumptions source_to_c_partial.
Print Assumptions compile_to_c_partial.

(** * Without the condition *)
Local Notation Y s := (SSym (NS s)).
Local Notation N z := (SNum z%Z).
Local Notation "'L' l" := (of_list l) (at level 9, l at level 0).
Local Notation Q s := (of_list [SSym (NS "quote"); s]).

(** [file_of e P]: [e] is legal, the compiler turns it into functions, the
    machine runs them to the value of the source program, and [P] holds of
    what the generator does with them and the state the machine starts from. *)
Definition file_of (e : sexp) (P : outcome bytes -> mst -> Prop) : Prop :=
  legal 0 20 e = true /\
  exists fs gl M0 k M1 n v G, compile 50 0 e = Some (fs, gl) /\ program std true n e (init no_globals 0) = Some (v, G) /\
    m_start fs (top_frame fs) (init no_globals 0) = Some M0 /\ msteps std fs k M0 = Some M1 /\ finished M1 = true /\
    looks s_arity l_nargs v (m_res M1) /\ P (generate_c demo_gs fs gl) M0.
Ltac shows n k :=
  split; [reflexivity|]; do 3 eexists; exists k; eexists; exists n; do 2 eexists;
  split; [vm_compute; reflexivity|]; split; [vm_compute; reflexivity|]; split; [vm_compute; reflexivity|];
  split; [vm_compute; reflexivity|]; split; [reflexivity|]; split; [cbn; repeat constructor|].

(** the C file of [e] ends with [w] *)
Definition c_gives (w : lval) (o : outcome bytes) (M0 : mst) : Prop :=
  exists text d names a k M1, o = Ok text /\ c_file text = Some d /\ c_load d = Some (names, a, 0) /\
    c_steps std d names k M0 = Some M1 /\ finished M1 = true /\ m_res M1 = w.
(** the C compiler rejects the file: it is not C, or a function of it has no
    meaning although the runtime calls it *)
Definition not_c (o : outcome bytes) (M0 : mst) : Prop := exists text, o = Ok text /\ c_file text = None.
Definition no_meaning (o : outcome bytes) (M0 : mst) : Prop :=
  exists text d names a k M1, o = Ok text /\ c_file text = Some d /\ c_load d = Some (names, a, 0) /\
    c_steps std d names k M0 = Some M1 /\ finished M1 = false /\ c_step std d names M1 = None.
Definition no_file (o : outcome bytes) (M0 : mst) : Prop := forall text, o <> Ok text.

(** a parameter named Nil is what () means: ((lambda (Nil) ()) 5) gives () in
    the language and 5 in C *)
Theorem local_named_nil_refuted : file_of (L [L [Y "lambda"; L [Y "Nil"]; SNil]; N 5]) (c_gives (VNum 5)).
Proof. shows 20 2. do 4 eexists. exists 2. eexists. repeat (split; [vm_compute; reflexivity|]). reflexivity. Qed.

(** a parameter named True is what a condition is compared with:
    ((lambda (True b) (if b 1 2)) 5 true) gives 1 in the language and 2 in C *)
Theorem local_named_true_refuted :
  file_of (L [L [Y "lambda"; L [Y "True"; Y "b"]; L [Y "if"; Y "b"; N 1; N 2]]; N 5; STrue]) (c_gives (VNum 2)).
Proof. shows 20 2. do 4 eexists. exists 2. eexists. repeat (split; [vm_compute; reflexivity|]). reflexivity. Qed.

(** a parameter named like a keyword: ((lambda (int) int) 5) *)
Theorem local_named_int_refuted : file_of (L [L [Y "lambda"; L [Y "int"]; Y "int"]; N 5]) not_c.
Proof. shows 20 2. eexists. split; [vm_compute; reflexivity|vm_compute; reflexivity]. Qed.

(** a parameter named co hides the pointer every call needs: ((lambda (co) co) 5) *)
Theorem local_named_co_refuted : file_of (L [L [Y "lambda"; L [Y "co"]; Y "co"]; N 5]) no_meaning.
Proof. shows 20 2. do 4 eexists. exists 1. eexists. repeat (split; [vm_compute; reflexivity|]). vm_compute; reflexivity. Qed.

(** a parameter named like the text of a gensym: in
    ((lambda (x9221120237041091560) (if true (+ x9221120237041091560 (+ 1 2)) 0)) 5)
    the inner sum is put in a
    variable of its own, which hides the parameter when the gensym happens to
    print so; 8 in the language, 6 in C *)
Theorem local_named_gensym_refuted :
  file_of (L [L [Y "lambda"; L [Y "x9221120237041091560"]; L [Y "if"; STrue; L [Y "+"; Y "x9221120237041091560"; L [Y "+"; N 1; N 2]]; N 0]]; N 5]) (c_gives (VNum 6)).
Proof. shows 20 2. do 4 eexists. exists 2. eexists. repeat (split; [vm_compute; reflexivity|]). reflexivity. Qed.

(** the parameter label of the C functions is not needed after the switch, and x1
    is too short for a gensym: ((lambda (label x1) (+ label (+ x1 1))) 5 6) *)
Example local_named_label :
  file_of (L [L [Y "lambda"; L [Y "label"; Y "x1"]; L [Y "+"; Y "label"; L [Y "+"; Y "x1"; N 1]]]; N 5; N 6]) (c_gives (VNum 12)) /\
  forallb local_ok [NS "label"; NS "x1"] = true /\ existsb local_ok [NS "co"; NS "R"; NS "x9221120237041091560"] = false.
Proof.
  split; [|split; reflexivity].
  shows 20 2. do 4 eexists. exists 2. eexists. repeat (split; [vm_compute; reflexivity|]). reflexivity.
Qed.

(** a symbol with a quote in its name is not written as a C string *)
Theorem quote_in_symbol_refuted : file_of (Q (Y "a""b")) not_c.
Proof. shows 20 1. eexists. split; [vm_compute; reflexivity|vm_compute; reflexivity]. Qed.

(** (quote 5) is 5, but the generator asks for the name of the symbol 5 *)
Theorem quoted_number_refuted : file_of (Q (N 5)) no_file.
Proof. shows 20 1. intro text. vm_compute. discriminate. Qed.
