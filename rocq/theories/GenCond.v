(** When the C file of lib/toc.cora:591-605 can be expected to mean what the
    functions it is written from mean: conditions on the functions, all
    decidable.  GenProps.v shows by example what goes wrong without them. *)
From Coq Require Import List ZArith Bool Ascii String Arith.
From Verif Require Import Base StrModel CoreSpec TocModel EmitModel EmitProps CSpec GenModel.
Import ListNotations.
Local Open Scope string_scope.
Local Open Scope list_scope.
Local Open Scope nat_scope.

(** the identifier begins like the name of a generated function *)
Fixpoint starts_with (p s : string) : bool :=
  match p, s with
  | EmptyString, _ => true
  | String a p', String b s' => Ascii.eqb a b && starts_with p' s'
  | _, EmptyString => false
  end.

(** identifiers the generated code or the macros it calls rely on *)
Definition taken : list string :=
  ["co"; "R"; "packageID"; "getBinding"; "globalRef"; "closureRef"; "makeNative"; "makeCString"; "__args";
   "Nil"; "True"; "False"; "ptr"; "scmCons"; "iscons"; "eq"; "fixnum"; "makeNumber"; "MAKE_NUMBER";
   "primSet"; "PRIM_CAR"; "PRIM_CDR"; "makeCons"; "PRIM_ISCONS"; "PRIM_ADD"; "PRIM_SUB"; "PRIM_MUL"; "primDiv";
   "PRIM_EQ"; "PRIM_GT"; "PRIM_LT"; "primGenSym"; "primIsSymbol"; "primNot"; "primIsNumber"; "primIsString";
   "coraReturn"; "saveCont"; "coraCall"; "coraCall0"; "coraCall1"; "coraCall2"; "coraCall3"; "coraCall4"].

Definition ident (b : bytes) : bool := match b with c :: r => idstart c && forallb idchar r | [] => false end.

(** a string without backslash and NUL (see C40) *)
Definition stringb (s : bytes) : bool := forallb (fun c => negb (Ascii.eqb c BSL) && negb (Ascii.eqb c NUL)) s.
(** printable, neither quote nor backslash *)
Definition namecharb (c : ascii) : bool := printableb c && negb (Ascii.eqb c BSL) && negb (Ascii.eqb c QUO).

Definition mem (x : name) (l : list name) : bool := existsb (name_eqb x) l.
Fixpoint distinct (l : list name) : bool := match l with [] => true | x :: r => negb (mem x r) && distinct r end.

Section Cond.
  Variable gs : nat -> bytes.
  Variable globals : list sexp.
  Variable nfuns : nat.
  Variable U : list name.                    (* the local names of the program *)

  (** the C identifier of a local name *)
  Definition cid (x : name) : string :=
    string_of_list_ascii (match gsym gs x with Ok b => b | _ => [] end).
  Definition name_ok (x : name) : bool :=
    match gsym gs x with Ok b => ident b | _ => false end &&
    usable (cid x) && negb (in_names (cid x) taken) && negb (starts_with "clofun" (cid x)).

  Definition global_ok (x : name) : bool := existsb (sexp_eqb (SSym x)) globals.
  Definition const_ok (c : sexp) : bool :=
    match c with
    | SSym x => global_ok x
    | SNum z => (Z.abs z <=? 2 ^ 53)%Z
    | SStr s => stringb (list_ascii_of_string s)
    | SNil | STrue | SFalse => true
    | SCons _ _ => false
    end.
  Definition capture_ok (s : simple) : bool := match s with SmVar x => mem x U | SmRef _ => true | _ => false end.
  Definition simple_ok (s : simple) : bool :=
    match s with
    | SmVar x => mem x U
    | SmConst c => const_ok c
    | SmGlob x => global_ok x
    | SmRef _ => true
    | SmClo _ _ _ => false
    | SmLab label _ _ frees => (label <? nfuns) && forallb capture_ok frees
    end.
  (** the name occurs in the operand *)
  Definition mentions (x : name) (s : simple) : bool :=
    let here s := match s with SmVar y => name_eqb x y | _ => false end in
    match s with SmLab _ _ _ frees => existsb here frees | _ => here s end.

  (** [seen]: the names declared so far in the innermost block *)
  Fixpoint stm_ok (seen : list name) (t : stm) : bool :=
    match t with
    | TRet s => simple_ok s
    | TTail f args => simple_ok f && forallb simple_ok args
    | TJump f args _ live => simple_ok f && forallb simple_ok args && forallb (fun x => mem x U) live
    | TCall _ _ _ _ _ => false
    | TLet x s k =>
        mem x U && negb (mem x seen) && simple_ok s && negb (mentions x s) && stm_ok (x :: seen) k
    | TPrim x p args k =>
        mem x U && negb (mem x seen) && forallb simple_ok args && negb (existsb (mentions x) args) &&
        (List.length args =? prim_arity p) && stm_ok (x :: seen) k
    | TIf s a b => simple_ok s && stm_ok [] a && stm_ok [] b
    | TDo s k => simple_ok s && stm_ok seen k
    end.
  Definition func_ok (F : func) : bool :=
    forallb (fun x => mem x U) (f_ps F) && distinct (f_ps F) && stm_ok (f_ps F) (f_first F) &&
    forallb (fun k => forallb (fun x => mem x U) (k_var k :: k_live k) && distinct (k_var k :: k_live k) &&
                      stm_ok (k_var k :: k_live k) (k_body k)) (f_conts F).

  (** different names have different identifiers *)
  Definition names_ok : bool :=
    forallb name_ok U && forallb (fun x => forallb (fun y => name_eqb x y || negb (String.eqb (cid x) (cid y))) U) U.

  Definition symbol_ok (s : sexp) : bool :=
    match s with
    | SSym (NS x) => forallb namecharb (list_ascii_of_string x) && (String.length x + 1 <? 256)
    | _ => false
    end.
End Cond.

(** the local names of a list of functions *)
Definition simple_names (s : simple) : list name :=
  match s with
  | SmVar x => [x]
  | SmLab _ _ _ frees => flat_map (fun s => match s with SmVar x => [x] | _ => [] end) frees
  | _ => []
  end.
Fixpoint stm_names (t : stm) : list name :=
  match t with
  | TRet s => simple_names s
  | TTail f args => simple_names f ++ flat_map simple_names args
  | TJump f args _ live => live ++ simple_names f ++ flat_map simple_names args
  | TCall _ _ _ _ _ => []
  | TLet x s k => x :: simple_names s ++ stm_names k
  | TPrim x _ args k => x :: flat_map simple_names args ++ stm_names k
  | TIf s a b => simple_names s ++ stm_names a ++ stm_names b
  | TDo s k => simple_names s ++ stm_names k
  end.
Definition func_names (F : func) : list name :=
  f_ps F ++ stm_names (f_first F) ++ flat_map (fun k => k_var k :: k_live k ++ stm_names (k_body k)) (f_conts F).
Definition local_names (fs : list func) : list name := flat_map func_names fs.

(** The condition. *)
Definition writable (gs : nat -> bytes) (fs : list func) (globals : list sexp) : bool :=
  match fs with [] => false | _ => true end &&
  names_ok gs (local_names fs) &&
  forallb (func_ok globals (List.length fs) (local_names fs)) fs &&
  forallb symbol_ok globals.
