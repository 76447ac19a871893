(** Several machines (struct Cora) in one process that load the same libraries:
    src/runtime.c:317-323 and 1109-1116, src/runtime.h:189-192, and what
    lib/toc.cora:569-590 makes every library do when it is entered.

    Simplifications: arrays are lists (C74 has their memory); a symbol is its name
    (C14); numbers of packages stay below the limits of int. *)
From Coq Require Import ZArith Bool List.
From Verif Require Import Base StrModel TrieModel.
Import ListNotations.
Local Open Scope list_scope.
Local Open Scope out_scope.

(** src/runtime.h: struct Binding *)
Definition binding : Type := bytes * nat.

(** the parts of struct Cora that matter: env and globals, and pkgs *)
Record machine := mkM { m_genv : genv; m_pkgs : list (option (list binding)) }.

(** [p_next] src/runtime.c:317; [p_id] the variable packageID of each library
    (lib/toc.cora:595), None for -1; machines and libraries are numbered *)
Record process := mkP { p_next : nat; p_id : nat -> option nat; p_mach : nat -> machine }.
Definition process0 : process := mkP 0 (fun _ => None) (fun _ => mkM genv_empty []).

Definition set_at {A} (f : nat -> A) (i : nat) (x : A) : nat -> A := fun j => if Nat.eqb j i then x else f j.

(** lib/toc.cora:575-583: the table of a library, in the order of its names *)
Fixpoint bind_all (g : genv) (names : list bytes) : genv * list binding :=
  match names with
  | [] => (g, [])
  | n :: r => let (g1, i) := bindSymbol g n in let (g2, t) := bind_all g1 r in (g2, (n, i) :: t)
  end.

Fixpoint put {A} (l : list (option A)) (i : nat) (x : A) : list (option A) :=
  match i, l with
  | O, [] => [Some x]
  | O, _ :: r => Some x :: r
  | S i', [] => None :: put [] i' x
  | S i', y :: r => y :: put r i' x
  end.
(** src/runtime.c:1109-1116: the array is filled up with NULL *)
Definition addPackage (m : machine) (id : nat) (t : list binding) : machine := mkM (m_genv m) (put (m_pkgs m) id t).

(** src/runtime.c:319-323 and lib/toc.cora:571 *)
Definition package_id (p : process) (lib : nat) : process * nat :=
  match p_id p lib with
  | Some i => (p, i)
  | None => (mkP (S (p_next p)) (set_at (p_id p) lib (Some (p_next p))) (p_mach p), p_next p)
  end.

Section Libraries.
  (** the names of the global variables and quoted symbols of each library *)
  Variable names : nat -> list bytes.

  (** lib/toc.cora:569-584: machine [k] enters library [lib] *)
  Definition enter (p : process) (k lib : nat) : process :=
    let (p1, id) := package_id p lib in
    let (g, t) := bind_all (m_genv (p_mach p1 k)) (names lib) in
    mkP (p_next p1) (p_id p1) (set_at (p_mach p1) k (addPackage (mkM g (m_pkgs (p_mach p1 k))) id t)).

  (** src/runtime.h:189-192; the code of a library runs in machine [k] *)
  Definition getBinding (p : process) (k lib slot : nat) : outcome binding :=
    match p_id p lib with
    | None => UB
    | Some id =>
        match nth_error (m_pkgs (p_mach p k)) id with
        | Some (Some t) => match nth_error t slot with Some b => Ok b | None => UB end
        | _ => UB
        end
    end.

  (** lib/toc.cora:303-306 *)
  Definition read_global (p : process) (k lib slot : nat) : outcome Z :=
    do! b <- getBinding p k lib slot; globalRef (m_genv (p_mach p k)) (snd b).
  (** lib/toc.cora:312-315 *)
  Definition const_symbol (p : process) (k lib slot : nat) : outcome bytes :=
    do! b <- getBinding p k lib slot; Ok (fst b).

  (** [set], src/runtime.c:204-210 *)
  Definition set_global (p : process) (k : nat) (n : bytes) (v : Z) : outcome process :=
    do! g <- primSet (m_genv (p_mach p k)) n v;
    Ok (mkP (p_next p) (p_id p) (set_at (p_mach p) k (mkM g (m_pkgs (p_mach p k))))).
End Libraries.

(** src/runtime.c:321: "TODO: thread safe".  Two procs that enter two new
    libraries at once both read the counter before either stores it. *)
Definition package_id_race (p : process) (lib1 lib2 : nat) : process :=
  mkP (S (p_next p)) (set_at (set_at (p_id p) lib1 (Some (p_next p))) lib2 (Some (p_next p))) (p_mach p).
