(** C68: the compiler accepts every legal program, and its symbol table is what
    the program mentions. *)
From Coq Require Import List ZArith Bool String Ascii Arith Lia.
From Verif Require Import Base CoreSpec CoreProofs TocModel TocSem TocMach TocParse TocParseSim TocScope TocWhole TocProps TocTotal TocTable
  EmitModel CSpec GenModel GenCond GenSource GenProps.
Import ListNotations.
Local Open Scope list_scope.
Local Open Scope nat_scope.

(** A legal program whose local variables are not called like a form compiles;
    the result does not depend on the fuel. *)
Theorem legal_compiles : forall n0 ks e, legal n0 ks e = true -> forallb no_form (locals ks e) = true ->
  exists fs gl, forall fuel, 4 * ks < fuel -> compile fuel n0 e = Some (fs, gl).
Proof. exact compile_total. Qed.

Theorem compile_deterministic : forall k k' n e r r', compile k n e = Some r -> compile k' n e = Some r' -> r = r'.
Proof.
  intros k k' n e r r' E E'. apply (compile_more _ (max k k')) in E; [|lia]. apply (compile_more _ (max k k')) in E'; [|lia]. congruence.
Qed.

(** The symbol table: the global names and the quoted data that the program
    mentions, each once; a primitive that is called is not in it. *)
Theorem symbol_table : forall n0 ks fuel e fs gl, legal n0 ks e = true -> compile fuel n0 e = Some (fs, gl) ->
  NoDup gl /\ forall s, In s gl <-> In s (mentioned ks [] e).
Proof.
  intros n0 ks fuel e fs gl HL. apply compile_table. unfold legal in HL. rewrite !andb_true_iff in HL. apply HL.
Qed.

(** From the source to the run of the C file, without a hypothesis on the
    result of the compiler other than how gensyms are printed: all conditions
    are on the source. *)
Theorem legal_to_c_partial : forall ar n0 ks e B n g v G,
  legal n0 ks e = true -> forallb no_form (locals ks e) = true ->
  literals e = true -> forallb local_ok (locals ks e) = true -> forallb symbol_ok (mentioned ks [] e) = true ->
  program ar true n e (init B g) = Some (v, G) ->
  exists fs gl, (forall fuel, 4 * ks < fuel -> compile fuel n0 e = Some (fs, gl)) /\
    forall gs nf, gensym_texts gs (local_names fs) -> top_frame fs <= nf ->
    exists text d names a M0 k M1, generate_c gs fs gl = Ok text /\ c_file text = Some d /\ c_load d = Some (names, a, 0) /\
      m_call (mkM None [] None (VNum 0) (init B g)) (VClo (mkL a 0 nf) []) [] = Some M0 /\
      c_steps ar d names k M0 = Some M1 /\ finished M1 = true /\
      looks s_arity l_nargs v (m_res M1) /\ same_globals s_arity l_nargs G (m_G M1).
Proof.
  intros ar n0 ks e B n g v G HL HN LI LO HM EP. destruct (compile_total n0 ks e HL HN) as (fs & gl & EC).
  exists fs, gl. split; [exact EC|]. intros gs nf GS HF.
  pose proof (EC (S (4 * ks)) (Nat.lt_succ_diag_r _)) as E1.
  apply (source_to_c_partial ar gs n0 ks _ e fs gl B n g v G nf HL E1 LI LO); auto.
  destruct (symbol_table _ _ _ _ _ _ HL E1) as (_ & T). rewrite forallb_forall in HM |- *. intros s Hs. apply HM. now apply T.
Qed.

Example legal_to_c_example :
  legal 0 20 demo = true /\ forallb no_form (locals 20 demo) = true /\ literals demo = true /\
  forallb local_ok (locals 20 demo) = true /\ forallb symbol_ok (mentioned 20 [] demo) = true /\
  List.length (locals 20 demo) = 7 /\ mentioned 20 [] demo = [SSym (NS "fact"); SSym (NS "fact"); SSym (NS "fact")] /\
  match compile 81 0 demo with Some (fs, gl) => List.length fs = 5 /\ gl = [SSym (NS "fact")] | None => False end.
Proof. vm_compute. repeat split; reflexivity. Qed.

Print Assumptions legal_compiles.
Print Assumptions compile_deterministic.
Print Assumptions symbol_table.
Print Assumptions legal_to_c_partial.

(** * Without the conditions *)

(** (lambda (return) (return 1)): refused by the model, because inside the
    compiler the call would be taken for a statement. *)
Local Notation Y s := (SSym (NS s)).
Theorem form_local_refuted : exists e, legal 0 10 e = true /\ forall fuel, compile fuel 0 e = None.
Proof.
  exists (of_list [Y "lambda"; of_list [Y "return"]; of_list [Y "return"; SNum 1]]). split; [reflexivity|].
  intros [|fuel]; reflexivity.
Qed.

(** A primitive with too many arguments is refused. *)
Theorem too_many_refuted : exists e, forallb no_form (locals 10 e) = true /\ forall fuel, compile fuel 0 e = None.
Proof.
  exists (of_list [Y "+"; SNum 1; SNum 2; SNum 3]). split; [reflexivity|]. intros [|fuel]; reflexivity.
Qed.
