(** A test beside written_file_runs (C66) that needs none of its proofs: a
    function that calls one of five parameters and needs two variables after the
    call, run from the C file and by the machine. *)
From Coq Require Import List ZArith Bool String Ascii Arith.
From Verif Require Import Base StrModel ReaderModel EmitModel CoreSpec TocModel TocSem TocMach TocClosure TocTail TocParseSim TocWhole TocProps
  CSpec GenModel GenCond.
Import ListNotations.
Local Open Scope string_scope.
Local Open Scope list_scope.
Local Open Scope nat_scope.

Local Notation Y s := (SSym (NS s)).
Local Notation "'L' l" := (of_list l) (at level 9, l at level 0).
Definition five_gs (k : nat) : bytes := ascii_of_nat 120 :: dec_nat (9221120237041090560 + Z.of_nat (1000 + k)).
Definition five : sexp :=
  L [Y "do"; L [Y "set"; L [Y "quote"; Y "f5"]; L [Y "lambda"; L [Y "a"; Y "b"; Y "c"; Y "d"; Y "e"]; L [Y "+"; Y "a"; Y "e"]]];
     L [Y "do"; L [Y "set"; L [Y "quote"; Y "g"]; L [Y "lambda"; L [Y "x"; Y "y"];
                   L [Y "+"; L [Y "f5"; Y "x"; Y "y"; SNum 3; SNum 4; SNum 5]; L [Y "-"; Y "x"; Y "y"]]]];
        L [Y "g"; SNum 20; SNum 7]]].
Definition shown (o : option mst) : option (bool * lval) := match o with Some M => Some (finished M, m_res M) | None => None end.

Example five_runs :
  match compile 40 0 five with
  | Some (fs, gl) => writable five_gs fs gl = true /\
      match generate_c five_gs fs gl with
      | Ok text =>
          match c_file text, m_start fs 8 (init no_globals 0) with
          | Some d, Some M0 =>
              match c_load d with
              | Some (names, _, _) =>
                  List.map (fun k => shown (c_steps std d names k M0)) [1; 2; 3; 4] =
                  List.map (fun k => shown (msteps std fs k M0)) [1; 2; 3; 4] /\
                  shown (c_steps std d names 4 M0) = Some (true, VNum 38)
              | None => False
              end
          | _, _ => False
          end
      | _ => False
      end
  | None => False
  end.
Proof. vm_compute. repeat split. Qed.
