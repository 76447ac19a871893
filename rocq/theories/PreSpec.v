(** Source files (C67): which text is which sequence of forms, which forms are
    type annotations, what a package form means.  Written from the language,
    without reference to the compiler. *)
From Coq Require Import List ZArith Bool String Ascii Arith.
From Verif Require Import Base StrModel ReaderModel ReaderSpec CoreSpec NsSpec SurfSpec.
Import ListNotations.
Local Open Scope list_scope.

(** what may follow the last form: layout, and a comment that the end of the
    file ends *)
Definition layout_end (w : bytes) : Prop :=
  exists w1 w2, w = w1 ++ w2 /\ layout w1 /\ (w2 = [] \/ exists t, w2 = cSC :: t /\ ~ In cNL t).

(** [file_text t l]: the text [t] consists of the forms [l] *)
Inductive file_text : bytes -> list datum -> Prop :=
| ft_end : forall w, layout_end w -> file_text w []
| ft_form : forall w t d b r l, layout w -> reads t d b -> (b = true -> delimited r) -> file_text r l ->
    file_text (w ++ t ++ r) (d :: l).

(** a datum as the compiler sees it: symbols and strings by their characters *)
Fixpoint form_of (d : datum) : sexp :=
  match d with
  | DNum z => SNum z
  | DSym n => SSym (NS (string_of_list_ascii n))
  | DStr s => SStr (string_of_list_ascii s)
  | DTrue => STrue | DFalse => SFalse | DNil => SNil
  | DCons a d => SCons (form_of a) (form_of d)
  end.

Definition headed (s : string) (e : sexp) : bool :=
  match e with SCons (SSym (NS t)) _ => String.eqb t s | _ => false end.
(** (:type ...) and (:declare ...) are annotations; the other forms are code *)
Definition annotation (e : sexp) : bool := headed ":type" e || headed ":declare" e.
Definition code (l : list sexp) : list sexp := filter (fun e => negb (annotation e)) l.

(** (import "p") and (export x ...), when nothing else stands before them *)
Definition import_form (e : sexp) : option sexp :=
  match e with
  | SCons (SSym (NS t)) (SCons p SNil) => if String.eqb t "import" then Some p else None
  | _ => None
  end.
Definition header_form (e : sexp) : bool :=
  headed "export" e || match import_form e with Some _ => true | None => false end.
(** the forms a file starts with, and the rest *)
Fixpoint header (l : list sexp) : list sexp :=
  match l with x :: r => if header_form x then x :: header r else [] | [] => [] end.
Fixpoint body (l : list sexp) : list sexp :=
  match l with x :: r => if header_form x then body r else l | [] => [] end.
(** the packages that a header imports *)
Definition imported (l : list sexp) : list sexp :=
  flat_map (fun e => if headed "export" e then [] else match import_form e with Some p => [p] | None => [] end) (header l).

(** * Packages *)
Inductive clause := Import (p : string) | Export (xs : list string).
Record package := mkPackage { pk_name : string; pk_header : list clause; pk_body : list src }.
Definition pk_imports (l : list clause) : list string := flat_map (fun c => match c with Import p => [p] | Export _ => [] end) l.
Definition pk_exports (l : list clause) : list string := flat_map (fun c => match c with Export xs => xs | Import _ => [] end) l.

Section Show.
  Local Notation Y s := (SSym (NS s)).
  Definition show_clause (c : clause) : sexp :=
    match c with
    | Import p => seq_of [Y "import"; SStr p]
    | Export xs => seq_of (Y "export" :: map (fun x => Y x) xs)
    end.
  (** (package "p" (import "q") ... (export x ...) ... body ...) *)
  Definition show_package (p : package) : sexp :=
    seq_of (Y "package" :: SStr (pk_name p) :: map show_clause (pk_header p) ++ map show (pk_body p)).
End Show.

(** What it means: in the package, with cora/init and the imported packages at
    hand, the imports are made, the list of what the package exports is
    recorded, and the body is evaluated. *)
Definition package_src (p : package) : src :=
  let imports := pk_imports (pk_header p) in
  XNs (pk_name p) ("cora/init"%string :: imports)
    (XBegin (map (fun q => XApp (XVar "import") [XLit (SStr q)]) imports ++
             XDef "*ns-export*" (XBack (match pk_exports (pk_header p) with
                                        | [] => TData SNil
                                        | xs => TList (map (fun x => TSym (NS x)) xs)
                                        end)) :: pk_body p)).

(** * What a file is compiled as *)

(** no form of the file is just the word package or begin *)
Definition bare (e : sexp) : bool :=
  match e with SSym (NS t) => String.eqb t "package" || String.eqb t "begin" | _ => false end.

(** what is done about the types of a form: the contents of an annotation are
    evaluated, other forms are checked *)
Definition type_code (e : sexp) : sexp :=
  let Y s := SSym (NS s) in
  match e with
  | SCons (SSym (NS t)) x =>
      if String.eqb t ":type" then SCons (Y "begin"%string) x
      else if String.eqb t ":declare" then SCons (Y "declare"%string) x
      else seq_of [Y "cora/lib/infer#check-type!"%string; seq_of [Y "macroexpand"%string; seq_of [Y "backquote"%string; e]];
                   seq_of [Y "cora/lib/infer#tvar"%string]]
  | _ => seq_of [Y "cora/lib/infer#check-type!"%string; seq_of [Y "macroexpand"%string; seq_of [Y "backquote"%string; e]];
                 seq_of [Y "cora/lib/infer#tvar"%string]]
  end.

(** The forms that are compiled.  Without type checking: those that are not
    annotations, in order.  With it: the header, what is to be done about the
    types of the others, in order, and then those that are not annotations. *)
Definition compiled_forms (typecheck : bool) (l : list sexp) : list sexp :=
  if typecheck then header l ++ map type_code (body l) ++ code (body l) else code l.

(** * Which program a file is *)
Definition sequence (xs : list src) : src := match xs with [x] => x | _ => XBegin xs end.
(** at most one export clause, and a body that does not begin like a header *)
Definition proper (p : package) : bool :=
  (List.length (filter (fun c => match c with Export _ => true | Import _ => false end) (pk_header p)) <=? 1)%nat &&
  match pk_body p with x :: _ => negb (header_form (show x)) | [] => false end.

(** [file_means l x]: the file that consists of the forms [l] is the program
    [x]; annotations do not count *)
Inductive file_means : list sexp -> src -> Prop :=
| fm_forms : forall l xs, (2 <= List.length l)%nat -> forallb (fun e => negb (bare e)) l = true ->
    code l = map show xs -> xs <> [] -> file_means l (sequence xs)
| fm_single : forall x, headed "package" (show x) = false -> headed "begin" (show x) = false -> annotation (show x) = false ->
    file_means [show x] x
| fm_begin : forall l xs, forallb (fun e => negb (bare e)) l = true ->
    code l = map show xs -> xs <> [] -> file_means [seq_of (SSym (NS "begin") :: l)] (sequence xs)
| fm_package : forall l p, forallb (fun e => negb (bare e)) l = true ->
    code l = map show_clause (pk_header p) ++ map show (pk_body p) -> proper p = true ->
    file_means [seq_of (SSym (NS "package") :: SStr (pk_name p) :: l)] (package_src p).
