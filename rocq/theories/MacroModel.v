(** init.cora: the macros of the language and the macro expander.

    Simplifications.
    - The macro table holds the macros of init.cora; for macros that a program adds
      with defmacro see UmacModel.v.
    - gensym is a counter; *protect-symbol* is the first symbol it makes.
    - A run-time error of a macro, and lack of fuel, are [None].
    - Numbers and strings are compared by value, lists by structure. *)
From Coq Require Import List ZArith Bool String Arith.
From Verif Require Import CoreSpec TocModel NsModel.
Import ListNotations.
Local Open Scope list_scope.
Local Open Scope nat_scope.

Definition ocar (e : sexp) : option sexp := match e with SCons a _ => Some a | _ => None end.
Definition ocdr (e : sexp) : option sexp := match e with SCons _ d => Some d | _ => None end.
Definition ocadr (e : sexp) : option sexp := match ocdr e with Some d => ocar d | None => None end.
Definition ocddr (e : sexp) : option sexp := match ocdr e with Some d => ocdr d | None => None end.
Definition ocaddr (e : sexp) : option sexp := match ocddr e with Some d => ocar d | None => None end.
Definition ocdddr (e : sexp) : option sexp := match ocddr e with Some d => ocdr d | None => None end.
Definition ocadddr (e : sexp) : option sexp := match ocdddr e with Some d => ocar d | None => None end.

(** init.cora:13-19 *)
Fixpoint rcons (e : sexp) : sexp :=
  match e with SCons a d => of_list [ssym "cons"; a; rcons d] | _ => SNil end.

(** init.cora:118-124 *)
Fixpoint rewrite_let (e : sexp) : option sexp :=
  match e with
  | SCons a d =>
      match d with
      | SNil => Some a
      | SCons b r => match rewrite_let r with Some x => Some (of_list [ssym "let"; a; b; x]) | None => None end
      | _ => None
      end
  | _ => None
  end.

(** init.cora:129-135 *)
Definition rewrite_cond (e : sexp) : option sexp :=
  match ocdr e with
  | Some SNil => Some (of_list [ssym "error"; SStr "no cond match"])
  | Some (SCons curr r) =>
      match ocar curr, ocadr curr with
      | Some a, Some b => Some (of_list [ssym "if"; a; b; SCons (ssym "cond") r])
      | _, _ => None
      end
  | _ => None
  end.

(** init.cora:137-145 *)
Fixpoint rewrite_or (l : sexp) : option sexp :=
  match l with
  | SNil => Some SFalse
  | SCons a d =>
      if sexp_eqb a STrue then Some STrue
      else
        match rewrite_or d with
        | Some more => if sexp_eqb more STrue then Some STrue else Some (of_list [ssym "if"; a; STrue; more])
        | None => None
        end
  | _ => None
  end.
(** init.cora:150-158 *)
Fixpoint rewrite_and (l : sexp) : option sexp :=
  match l with
  | SNil => Some STrue
  | SCons a d =>
      if sexp_eqb a SFalse then Some SFalse
      else
        match rewrite_and d with
        | Some more => if sexp_eqb more SFalse then Some SFalse else Some (of_list [ssym "if"; a; more; SFalse])
        | None => None
        end
  | _ => None
  end.

(** init.cora:165-168 *)
Fixpoint rcons1 (e : sexp) : option sexp :=
  match e with
  | SCons a SNil => Some a
  | SCons a d => match rcons1 d with Some x => Some (of_list [ssym "cons"; a; x]) | None => None end
  | _ => None
  end.

(** * match *)

(** init.cora:175-201: match1 and match-cons-expander.  [cc] is the symbol
    bound to the rest of the rules. *)
Fixpoint match1 (pat expr body : sexp) (cc : name) : option sexp :=
  match pat with
  | SNum _ | SStr _ | STrue | SFalse | SNil =>
      if sexp_eqb pat expr then Some body
      else Some (of_list [ssym "if"; of_list [ssym "="; pat; expr]; body; of_list [SSym cc]])
  | SSym _ => Some (of_list [ssym "let"; pat; expr; body])
  | SCons h t =>
      if is_sym "quote" h then
        Some (of_list [ssym "if"; of_list [ssym "="; pat; expr]; body; of_list [SSym cc]])
      else if is_sym "cons" h then
        match t with
        | SCons x (SCons y _) =>
            if headed "cons" expr then
              match ocadr expr, ocaddr expr with
              | Some e1, Some e2 =>
                  match match1 y e2 body cc with
                  | Some m => match1 x e1 m cc
                  | None => None
                  end
              | _, _ => None
              end
            else
              match match1 y (of_list [ssym "cdr"; expr]) body cc with
              | Some m =>
                  match match1 x (of_list [ssym "car"; expr]) m cc with
                  | Some m2 => Some (of_list [ssym "if"; of_list [ssym "cons?"; expr]; m2; of_list [SSym cc]])
                  | None => None
                  end
              | None => None
              end
        | _ => None
        end
      else None
  end.

(** init.cora:203-210 *)
Definition rule_action (action : sexp) (cc : name) : option sexp :=
  if headed "where" action then
    match ocadr action, ocaddr action with
    | Some p, Some a => Some (of_list [ssym "if"; p; a; of_list [SSym cc]])
    | _, _ => None
    end
  else Some action.

(** init.cora:212-222; [mx] is macroexpand *)
Fixpoint match_helper (mx : sexp -> nat -> option (sexp * nat)) (value rules : sexp) (n : nat) : option (sexp * nat) :=
  match rules with
  | SNil => Some (of_list [ssym "error"; SStr "no match-help found!"], n)
  | SCons pat (SCons act rest) =>
      let cc := NG n in
      match rule_action act cc with
      | Some action =>
          match mx pat (S n) with
          | Some (pat1, n1) =>
              match match1 pat1 value action cc with
              | Some curr =>
                  match match_helper mx value rest n1 with
                  | Some (r, n2) => Some (of_list [ssym "let"; SSym cc; of_list [ssym "lambda"; SNil; r]; curr], n2)
                  | None => None
                  end
              | None => None
              end
          | None => None
          end
      | None => None
      end
  | _ => None
  end.

(** init.cora:224-231 *)
Definition rewrite_match (mx : sexp -> nat -> option (sexp * nat)) (e : sexp) (n : nat) : option (sexp * nat) :=
  match ocadr e, ocddr e with
  | Some v, Some rules =>
      match mx v n with
      | Some (value, n1) =>
          if match value with SCons h _ => negb (is_sym "cons" h) | _ => false end then
            let val := NG n1 in
            match match_helper mx (SSym val) rules (S n1) with
            | Some (c, n2) => Some (of_list [ssym "let"; SSym val; value; c], n2)
            | None => None
            end
          else match_helper mx value rules n1
      | None => None
      end
  | _, _ => None
  end.

(** * func *)

(** init.cora:238-247; the accumulators are kept in the same, reversed, order *)
Fixpoint extract_rules1 (input : sexp) (current result : list sexp) : option (list sexp) :=
  match input with
  | SNil => Some (rev result)
  | SCons h t =>
      if is_sym "=>" h then
        match t with
        | SCons act u =>
            let pat := SCons (ssym "list") (of_list (rev current)) in
            match u with
            | SCons w (SCons pred remain) =>
                if is_sym "where" w then
                  extract_rules1 remain [] (of_list [ssym "where"; pred; act] :: pat :: result)
                else extract_rules1 u [] (act :: pat :: result)
            | _ => extract_rules1 u [] (act :: pat :: result)
            end
        | _ => extract_rules1 t (h :: current) result
        end
      else extract_rules1 t (h :: current) result
  | _ => None
  end.

(** init.cora:252-255 *)
Fixpoint rules_patterns (rules : list sexp) : option (list sexp) :=
  match rules with
  | [] => Some []
  | p :: _ :: r => match rules_patterns r with Some l => Some (p :: l) | None => None end
  | _ => None
  end.
(** init.cora:280-288 *)
Definition rules_arg_count (rules : list sexp) : option nat :=
  match rules_patterns rules with
  | Some (p :: ps) =>
      let len e := List.length (match e with SCons _ d => cells d | _ => [] end) in
      if forallb (fun q => len q =? len p) ps then Some (len p) else None
  | _ => None
  end.
(** init.cora:290-301 *)
Definition rewrite_func (e : sexp) (n : nat) : option (sexp * nat) :=
  match ocadr e, ocddr e with
  | Some f, Some input =>
      match extract_rules1 input [] [] with
      | Some body =>
          match rules_arg_count body with
          | Some k =>
              let args := of_list (map (fun i => SSym (NG i)) (seq n k)) in
              Some (of_list [ssym "defun"; f; args; SCons (ssym "match") (SCons (SCons (ssym "list") args) (of_list body))], n + k)
          | None => None
          end
      | None => None
      end
  | _, _ => None
  end.

(** * The rest *)

(** init.cora:318-321 *)
Fixpoint rewrite_begin (e : sexp) : option sexp :=
  match e with
  | SCons x SNil => Some x
  | SCons x (SCons y SNil) => Some (of_list [ssym "do"; x; y])
  | SCons x y => match rewrite_begin y with Some r => Some (of_list [ssym "do"; x; r]) | None => None end
  | _ => None
  end.

(** init.cora:326-330; with [tail], what map makes of the rest of a list *)
Fixpoint backquote (tail : bool) (e : sexp) : sexp :=
  match e with
  | SCons a d =>
      if tail then SCons (backquote false a) (backquote true d)
      else
        match is_sym "unquote" a, d with
        | true, SCons x SNil => x
        | _, _ => SCons (ssym "list") (SCons (backquote false a) (backquote true d))
        end
  | SSym _ => if tail then SNil else of_list [ssym "quote"; e]
  | _ => if tail then SNil else e
  end.

(** init.cora:335-338 *)
Fixpoint fold_apply (fn : sexp) (l : sexp) : option sexp :=
  match l with
  | SCons a (SCons b SNil) => Some (of_list [fn; a; b])
  | SCons a d => match fold_apply fn d with Some r => Some (of_list [fn; a; r]) | None => None end
  | _ => None
  end.

(** init.cora:345-351 *)
Fixpoint parse_package (data : sexp) (imports : list sexp) (exports : sexp) : list sexp * sexp * sexp :=
  match data with
  | SCons (SCons i (SCons lib SNil)) rest =>
      if is_sym "import" i then parse_package rest (lib :: imports) exports
      else if is_sym "export" i then parse_package rest imports (SCons lib SNil)
      else (rev imports, exports, data)
  | SCons (SCons i more) rest =>
      if is_sym "export" i then parse_package rest imports more else (rev imports, exports, data)
  | _ => (rev imports, exports, data)
  end.
(** init.cora:353-359 *)
Definition rewrite_package (e : sexp) : option sexp :=
  match ocadr e, ocddr e with
  | Some path, Some data =>
      let '(imports, exports, body) := parse_package data [] SNil in
      Some (of_list [ssym "ns"; path; SCons (SStr "cora/init") (of_list imports);
                     SCons (ssym "begin")
                       (fold_right SCons
                          (SCons (of_list [ssym "def"; ssym "*ns-export*"; of_list [ssym "backquote"; exports]]) body)
                          (map (fun i => of_list [ssym "import"; i]) imports))])
  | _, _ => None
  end.

(** init.cora:96-100 *)
Definition rewrite_defmacro (e : sexp) : option sexp :=
  match ocadr e, ocaddr e, ocdddr e with
  | Some f, Some a, Some b =>
      Some (of_list [ssym "cora/init#add-to-*macros*"; of_list [ssym "quote"; f]; SCons (ssym "lambda") (SCons a b)])
  | _, _, _ => None
  end.
(** init.cora:104-107 *)
Definition rewrite_defun (e : sexp) : option sexp :=
  match ocadr e, ocaddr e, ocadddr e with
  | Some f, Some a, Some b => Some (of_list [ssym "def"; f; of_list [ssym "lambda"; a; b]])
  | _, _, _ => None
  end.

(** * The expander *)
Inductive macro :=
| MPackage | MFoldApply | MBackquote | MBegin | MFunc | MMatch | MListRest | MAnd | MOr | MCond | MLet | MDefun | MList | MDefmacro.
(** *macros* at the end of init.cora, last definition first *)
Definition macros : list (string * macro) :=
  [("package", MPackage); ("fold-apply", MFoldApply); ("backquote", MBackquote); ("begin", MBegin); ("func", MFunc);
   ("match", MMatch); ("list-rest", MListRest); ("and", MAnd); ("or", MOr); ("cond", MCond); ("let", MLet);
   ("defun", MDefun); ("list", MList); ("defmacro", MDefmacro)]%string.
Definition macro_of (x : name) : option macro := match x with NS s => assoc_str s macros | NG _ => None end.

Definition pure (n : nat) (r : option sexp) : option (sexp * nat) :=
  match r with Some e => Some (e, n) | None => None end.
Definition expand (m : macro) (mx : sexp -> nat -> option (sexp * nat)) (e : sexp) (n : nat) : option (sexp * nat) :=
  match m with
  | MPackage => pure n (rewrite_package e)
  | MFoldApply => pure n (match ocadr e, ocddr e with Some f, Some l => fold_apply f l | _, _ => None end)
  | MBackquote => pure n (match ocadr e with Some x => Some (backquote false x) | None => None end)
  | MBegin => pure n (match ocdr e with Some x => rewrite_begin x | None => None end)
  | MFunc => rewrite_func e n
  | MMatch => rewrite_match mx e n
  | MListRest => pure n (match ocdr e with Some x => rcons1 x | None => None end)
  | MAnd => pure n (match ocdr e with Some x => rewrite_and x | None => None end)
  | MOr => pure n (match ocdr e with Some x => rewrite_or x | None => None end)
  | MCond => pure n (rewrite_cond e)
  | MLet => pure n (match ocdr e with Some x => rewrite_let x | None => None end)
  | MDefun => pure n (rewrite_defun e)
  | MList => pure n (match ocdr e with Some x => Some (rcons x) | None => None end)
  | MDefmacro => pure n (rewrite_defmacro e)
  end.

(** init.cora:46-62: macroexpand1 *)
Definition expand1 (mx : sexp -> nat -> option (sexp * nat)) (e : sexp) (n : nat) : option (sexp * nat) :=
  match e with
  | SCons (SSym x) _ => match macro_of x with Some m => expand m mx e n | None => Some (e, n) end
  | _ => Some (e, n)
  end.

Definition protect : name := NG 0.
Definition is_protect (e : sexp) : bool := match e with SSym x => name_eqb x protect | _ => false end.

(** map, with the counter passed from each element to the next *)
Fixpoint map_gen (f : sexp -> nat -> option (sexp * nat)) (l : list sexp) (n : nat) : option (list sexp * nat) :=
  match l with
  | [] => Some ([], n)
  | x :: r =>
      match f x n with
      | Some (y, n1) => match map_gen f r n1 with Some (ys, n2) => Some (y :: ys, n2) | None => None end
      | None => None
      end
  end.

Section Boot.
  Context (gt : nat -> string) (exports : string -> list name).

  (** init.cora:74-88 *)
  Fixpoint boot (fuel : nat) (e : sexp) (n : nat) : option (sexp * nat) :=
    match fuel with
    | O => None
    | S k =>
        match e with
        | SCons h t =>
            if is_protect h then Some (t, n)
            else if is_sym "lambda" h then
              match ocadr e, ocaddr e with
              | Some ps, Some b =>
                  match boot k b n with
                  | Some (b1, n1) => Some (of_list [ssym "lambda"; ps; b1], n1)
                  | None => None
                  end
              | _, _ => None
              end
            else if is_sym "quote" h then Some (e, n)
            else
              (* macroexpand, init.cora:307-312, with cora/init#peval the identity *)
              let mx x m :=
                match boot k x m with
                | Some (y, m1) => match nsparse gt exports k [] "" [] y with Some z => Some (z, m1) | None => None end
                | None => None
                end in
              match expand1 mx e n with
              | Some (e1, n1) =>
                  if sexp_eqb e1 e then
                    match map_gen (boot k) (cells e1) n1 with
                    | Some (l, n2) => Some (of_list l, n2)
                    | None => None
                    end
                  else boot k e1 n1
              | None => None
              end
        | _ => Some (e, n)
        end
    end.

  Definition macroexpand (fuel : nat) (e : sexp) (n : nat) : option (sexp * nat) :=
    match boot fuel e n with
    | Some (e1, n1) => match nsparse gt exports fuel [] "" [] e1 with Some e2 => Some (e2, n1) | None => None end
    | None => None
    end.
End Boot.
