(** What opening a connection should do, in terms of what the system sees. *)
From Coq Require Import ZArith Bool List Ascii.
From Verif Require Import SockModel.
Import ListNotations.
Local Open Scope Z_scope.

(** the descriptors open after a list of events *)
Fixpoint drop_one (fd : Z) (l : list Z) : list Z :=
  match l with [] => [] | x :: r => if Z.eqb x fd then r else x :: drop_one fd r end.
Fixpoint open_after (o : list Z) (e : list event) : list Z :=
  match e with
  | [] => o
  | ESocket fd :: e' => open_after (fd :: o) e'
  | EClose fd :: e' => open_after (drop_one fd o) e'
  | _ :: e' => open_after o e'
  end.

(** decimal numerals and their values *)
Inductive numeral : list ascii -> Z -> Prop :=
| num_one d : (d < 10)%nat -> numeral [ascii_of_nat (48 + d)] (Z.of_nat d)
| num_more s v d : numeral s v -> (d < 10)%nat -> numeral (s ++ [ascii_of_nat (48 + d)]) (10 * v + Z.of_nat d).

(** the address that the first successful attempt reaches, and its descriptor *)
Inductive first_reached : list (Z * Z * bool) -> Z -> Z -> Prop :=
| reach_now a fd r : fd <> -1 -> first_reached ((a, fd, true) :: r) a fd
| reach_later a' fd' ok r a fd : fd' = -1 \/ ok = false -> first_reached r a fd -> first_reached ((a', fd', ok) :: r) a fd.
