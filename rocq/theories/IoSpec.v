(** Files, streams and commands as the system gives them to a program. *)
From Coq Require Import List ZArith Bool Ascii Arith.
Import ListNotations.
Local Open Scope list_scope.
Local Open Scope nat_scope.

Notation byte_string := (list ascii).

(** The C string that starts where the bytes start. *)
Fixpoint cstr (s : byte_string) : byte_string :=
  match s with
  | [] => []
  | c :: r => if Ascii.eqb c Ascii.zero then [] else c :: cstr r
  end.

(** The parts of a string between a separator. *)
Fixpoint parts (sep : ascii) (s : byte_string) : list byte_string :=
  match s with
  | [] => [[]]
  | c :: r =>
      if Ascii.eqb c sep then [] :: parts sep r
      else match parts sep r with [] => [[c]] | x :: l => (c :: x) :: l end
  end.

Definition nonempty (x : byte_string) : bool := match x with [] => false | _ => true end.
Definition names (s : byte_string) : list byte_string := filter nonempty (parts "/" s).
(** Where a path leads: from the root or from the working directory, and the
    names on the way. *)
Definition place := (bool * list byte_string)%type.
Definition absolute (s : byte_string) : bool := match s with "/"%char :: _ => true | _ => false end.
Definition locate (s : byte_string) : place := (absolute s, names s).

Definition place_dec : forall p q : place, {p = q} + {p <> q}.
Proof. decide equality; [apply (list_eq_dec (list_eq_dec ascii_dec))|apply bool_dec]. Defined.

Record filesys := mkFs { dirs : list place; files : list (place * byte_string) }.

Definition parent (p : place) : place := (fst p, removelast (snd p)).
(** The root and the working directory exist. *)
Definition is_dir (fs : filesys) (p : place) : bool :=
  match snd p with [] => true | _ => if in_dec place_dec p (dirs fs) then true else false end.
Fixpoint content (l : list (place * byte_string)) (p : place) : option byte_string :=
  match l with
  | [] => None
  | (q, c) :: r => if place_dec p q then Some c else content r p
  end.
Definition is_file (fs : filesys) (p : place) : bool := match content (files fs) p with Some _ => true | None => false end.

Definition mkdir (fs : filesys) (path : byte_string) : filesys * bool :=
  let p := locate path in
  if nonempty path && negb (is_dir fs p) && negb (is_file fs p) && is_dir fs (parent p)
  then (mkFs (p :: dirs fs) (files fs), true) else (fs, false).

(** fopen(path, "w"): the file is made or emptied. *)
Definition fopen_w (fs : filesys) (path : byte_string) : option place * filesys :=
  let p := locate path in
  if nonempty path && negb (Ascii.eqb (last path Ascii.zero) "/") && negb (is_dir fs p) && is_dir fs (parent p)
  then (Some p, mkFs (dirs fs) ((p, []) :: files fs)) else (None, fs).

Record instream := mkIn { i_rest : byte_string; i_error : option nat; i_eof : bool }.
Record outstream := mkOut { o_data : byte_string; o_room : option nat }.

(** The shell takes the words of a command apart at the spaces, when it is
    made of spaces and characters without a meaning of their own. *)
Definition plain (c : ascii) : Prop :=
  let n := nat_of_ascii c in
  48 <= n <= 57 \/ 65 <= n <= 90 \/ 97 <= n <= 122 \/ In c ["_"; "."; "/"; "-"; "+"; ","; ":"; "@"; "%"]%char.
Definition shell_words (cmd : byte_string) : list byte_string := filter nonempty (parts " " cmd).
