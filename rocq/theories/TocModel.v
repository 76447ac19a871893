(** lib/toc.cora: the compiler from macro-expanded S-expressions to C.

    The passes are modelled one function at a time.  Simplifications.
    - The compiler's intermediate forms are lists headed by a keyword; here
      they are constructors.  The two agree as long as no local variable is
      called like a keyword ([reserved]); [parse] refuses such a binder.
    - A special form with the wrong number of parts, which the compiler lets
      fall through to an ordinary call, is refused ([None]).
    - gensym is a counter, so that the names it makes are [NG k].
    - The emission of C text is modelled in EmitModel.v; here a C function is
      the statement it is generated from, see TocExec.v for its meaning. *)
From Coq Require Import List ZArith Bool String Arith.
From Verif Require Import CoreSpec.
Import ListNotations.
Local Open Scope list_scope.
Local Open Scope nat_scope.

(** * Sets of names as lists *)
Definition mem (x : name) (l : list name) : bool := existsb (name_eqb x) l.

(** toc.cora:87-90 *)
Fixpoint union (s1 s2 : list name) : list name :=
  match s1 with
  | [] => s2
  | x :: y => if mem x s2 then union y s2 else x :: union y s2
  end.
(** toc.cora:92-95 *)
Fixpoint diff (s1 s2 : list name) : list name :=
  match s1 with
  | [] => []
  | x :: y => if mem x s2 then diff y s2 else x :: diff y s2
  end.
(** toc.cora:15-21; [None] is -1 *)
Fixpoint index (x : name) (l : list name) : option nat :=
  match l with
  | [] => None
  | y :: r => if name_eqb x y then Some 0 else match index x r with Some i => Some (S i) | None => None end
  end.
(** (foldl union [] l), toc.cora:11-13 *)
Definition unions (l : list (list name)) : list name := fold_left union l [].

(** * Expressions, before and after closure conversion *)
Inductive exp :=
| EConst (s : sexp)                                  (* (%const x) *)
| EGlob (x : name)                                   (* (%global x) *)
| EVar (x : name)
| ERef (i : nat)                                     (* (%closure-ref i) *)
| ELam (ps : list name) (b : exp)                    (* (lambda ps b) *)
| EClo (ps : list name) (b : exp) (frees : list exp) (* (%closure (lambda ps b) . frees) *)
| EIf (a b c : exp) | EDo (a b : exp) | ELet (x : name) (b c : exp)
| EPrim (p : prim) (args : list exp)                 (* ((%builtin p) . args) *)
| EApp (f : exp) (args : list exp).

Local Open Scope string_scope.
Definition reserved_names : list name :=
  List.map NS ["quote"; "lambda"; "if"; "do"; "let"; "%const"; "%global"; "%builtin"; "%closure-ref";
               "%closure"; "return"; "call"; "tailcall"; "continuation"; "%continuation"].
Local Close Scope string_scope.
Definition reserved (x : name) : bool := mem x reserved_names.

Fixpoint sexp_eqb (a b : sexp) : bool :=
  match a, b with
  | SNum x, SNum y => Z.eqb x y
  | SSym x, SSym y => name_eqb x y
  | SStr x, SStr y => String.eqb x y
  | STrue, STrue | SFalse, SFalse | SNil, SNil => true
  | SCons a1 d1, SCons a2 d2 => sexp_eqb a1 a2 && sexp_eqb d1 d2
  | _, _ => false
  end.

(** gensym counter; the symbol table collected for the package *)
Record pst := mkP { p_gen : nat; p_globals : list sexp }.

(** toc.cora:257-261 *)
Definition add_symbol (x : sexp) (st : pst) : pst :=
  if existsb (sexp_eqb x) (p_globals st) then st else mkP (p_gen st) (x :: p_globals st).

(** (temp-list k ()), toc.cora:50-52 *)
Definition temp_list (k : nat) (st : pst) : list name * pst :=
  (rev (List.map NG (seq (p_gen st) k)), mkP (p_gen st + k) (p_globals st)).

Fixpoint of_list (l : list sexp) : sexp :=
  match l with [] => SNil | a :: r => SCons a (of_list r) end.
Definition ssym (s : string) : sexp := SSym (NS s).

(** (map (parse env globals) l) *)
Fixpoint parse_list (ps : pst -> sexp -> option (exp * pst)) (st : pst) (l : list sexp)
  : option (list exp * pst) :=
  match l with
  | [] => Some ([], st)
  | x :: r =>
      match ps st x with
      | None => None
      | Some (e, st1) =>
          match parse_list ps st1 r with
          | None => None
          | Some (es, st2) => Some (e :: es, st2)
          end
      end
  end.

Definition names_of (s : sexp) : option (list name) :=
  match slist s with Some l => symbols l | None => None end.

Definition headed (s : string) (e : sexp) : bool :=
  match e with SCons h _ => is_sym s h | _ => false end.

(** toc.cora:54-85; [None]: out of fuel, refused, or an error *)
Fixpoint parse (fuel : nat) (env : list name) (st : pst) (x : sexp) : option (exp * pst) :=
  match fuel with
  | O => None
  | S k =>
      match x with
      | SNum _ | SStr _ | STrue | SFalse | SNil => Some (EConst x, st)                      (* :55 *)
      | SSym s => if mem s env then Some (EVar s, st) else Some (EGlob s, add_symbol x st)  (* :57-60 *)
      | SCons _ _ =>
          match slist x with
          | Some (h :: r) =>
              if is_sym "quote" h then                                                       (* :56 *)
                match r with [c] => Some (EConst c, add_symbol c st) | _ => None end
              else if is_sym "lambda" h then                                                 (* :61 *)
                match r with
                | [ps; b] =>
                    match names_of ps with
                    | Some xs =>
                        if existsb reserved xs then None
                        else match parse k (xs ++ env) st b with
                             | Some (e, st1) => Some (ELam xs e, st1)
                             | None => None
                             end
                    | None => None
                    end
                | _ => None
                end
              else if is_sym "if" h then
                match r with
                | [c; a; b] =>
                    if headed "if" c then                                                    (* :63-66 *)
                      let f := SSym (NG (p_gen st)) in
                      let v := SSym (NG (S (p_gen st))) in
                      parse k env (mkP (S (S (p_gen st))) (p_globals st))
                        (of_list [ssym "let"; f;
                                  of_list [ssym "lambda"; of_list [v]; of_list [ssym "if"; v; a; b]];
                                  of_list [f; c]])
                    else                                                                     (* :67 *)
                      match parse_list (parse k env) st r with
                      | Some ([ec; ea; eb], st1) => Some (EIf ec ea eb, st1)
                      | _ => None
                      end
                | _ => None
                end
              else if is_sym "do" h then                                                     (* :68 *)
                match r with
                | [a; b] =>
                    match parse_list (parse k env) st r with
                    | Some ([ea; eb], st1) => Some (EDo ea eb, st1)
                    | _ => None
                    end
                | _ => None
                end
              else if is_sym "let" h then                                                    (* :69 *)
                match r with
                | [SSym y; b; c] =>
                    if reserved y then None
                    else
                      match parse k env st b with
                      | Some (eb, st1) =>
                          match parse k (y :: env) st1 c with
                          | Some (ec, st2) => Some (ELet y eb ec, st2)
                          | None => None
                          end
                      | None => None
                      end
                | _ => None
                end
              else if headed "lambda" h && match r with [a] => headed "if" a | _ => false end then  (* :71-73 *)
                let f := SSym (NG (p_gen st)) in
                parse k env (mkP (S (p_gen st)) (p_globals st))
                  (of_list [ssym "let"; f; h; of_list (f :: r)])
              else
                match match h with SSym s => prim_of s | _ => None end with
                | Some p =>                                                                  (* :74-84 *)
                    let provided := List.length r in
                    if prim_arity p =? provided then
                      match parse_list (parse k env) st r with
                      | Some (es, st1) => Some (EPrim p es, st1)
                      | None => None
                      end
                    else if provided <? prim_arity p then
                      let '(tmp, st1) := temp_list (prim_arity p - provided) st in
                      let ts := List.map SSym tmp in
                      parse k env st1 (of_list [ssym "lambda"; of_list ts; of_list ((h :: r) ++ ts)])
                    else None
                | None =>                                                                    (* :85 *)
                    match parse_list (parse k env) st (h :: r) with
                    | Some (ef :: es, st1) => Some (EApp ef es, st1)
                    | _ => None
                    end
                end
          | _ => None
          end
      end
  end.

(** * Closure conversion *)

(** toc.cora:106-121 *)
Fixpoint free_vars (e : exp) : list name :=
  match e with
  | EConst _ | EGlob _ | ERef _ => []
  | EVar x => [x]
  | ELam ps b => diff (free_vars b) ps
  | EIf a b c => unions [free_vars a; free_vars b; free_vars c]
  | EDo a b => unions [free_vars a; free_vars b]
  | ELet x b c => union (free_vars b) (diff (free_vars c) [x])
  | EClo ps b frees => unions (diff (free_vars b) ps :: List.map free_vars frees)
  | EPrim _ args => unions ([] :: List.map free_vars args)
  | EApp f args => unions (free_vars f :: List.map free_vars args)
  end.

Definition convert_var (fvs : list name) (x : name) : exp :=
  match index x fvs with None => EVar x | Some i => ERef i end.

(** toc.cora:123-136 *)
Fixpoint closure_convert (fvs : list name) (e : exp) : exp :=
  match e with
  | EConst _ | EGlob _ | ERef _ => e
  | EVar x => convert_var fvs x
  | ELam ps b =>
      let fvs1 := free_vars (ELam ps b) in
      EClo ps (closure_convert fvs1 b) (List.map (convert_var fvs) fvs1)
  | EClo ps b frees => e                                   (* does not occur *)
  | EIf a b c => EIf (closure_convert fvs a) (closure_convert fvs b) (closure_convert fvs c)
  | EDo a b => EDo (closure_convert fvs a) (closure_convert fvs b)
  | ELet x b c => ELet x (closure_convert fvs b) (closure_convert fvs c)
  | EPrim p args => EPrim p (List.map (closure_convert fvs) args)
  | EApp f args => EApp (closure_convert fvs f) (List.map (closure_convert fvs) args)
  end.

(** * Statements *)

(** what stands in an operand position after tailify, and the statements *)
Inductive simple :=
| SmVar (x : name) | SmConst (s : sexp) | SmGlob (x : name) | SmRef (i : nat)
| SmClo (ps : list name) (b : stm) (frees : list simple)
| SmLab (label nargs nframe : nat) (frees : list simple)     (* (%closure label nargs nframe . frees) *)
with stm :=
| TRet (s : simple)                                          (* (return s) *)
| TTail (f : simple) (args : list simple)                    (* (tailcall (f . args)) *)
| TCall (f : simple) (args : list simple) (v : name) (k : stm) (live : option (list name))
                                                             (* (call (f . args) (continuation (v) k)), then
                                                                (... (%continuation (v) k . live)) *)
| TJump (f : simple) (args : list simple) (label : nat) (live : list name)
                                                             (* (call (f . args) label . live) *)
| TLet (x : name) (s : simple) (k : stm)                     (* (let x s k) *)
| TPrim (x : name) (p : prim) (args : list simple) (k : stm) (* (let x ((%builtin p) . args) k) *)
| TIf (s : simple) (a b : stm) | TDo (s : simple) (k : stm).

(** the argument [next] of tailify: the function id, or another one *)
Inductive kont := KId | KFun (f : simple -> nat -> option (stm * nat)).
Definition apply_k (k : kont) (s : simple) (n : nat) : option (stm * nat) :=
  match k with KId => Some (TRet s, n) | KFun f => f s n end.

Fixpoint simples (l : list exp) : option (list simple) :=
  match l with
  | [] => Some []
  | EVar x :: r => match simples r with Some ss => Some (SmVar x :: ss) | None => None end
  | ERef i :: r => match simples r with Some ss => Some (SmRef i :: ss) | None => None end
  | _ => None
  end.

Definition with_stm (mk : stm -> stm) (r : option (stm * nat)) : option (stm * nat) :=
  match r with Some (s, n) => Some (mk s, n) | None => None end.

(** toc.cora:143-157, with tailify-list (:159-167) and wrap-var (:238-241) inside;
    the number is the gensym counter *)
Fixpoint tailify (e : exp) (next : kont) (n : nat) {struct e} : option (stm * nat) :=
  let tailify_list :=
    fix tailify_list (l : list exp) (acc : list simple) (fin : list simple -> nat -> option (stm * nat)) (n : nat)
      {struct l} : option (stm * nat) :=
      match l with
      | [] => fin (rev acc) n
      | hd :: tl => tailify hd (KFun (fun hd1 n => tailify_list tl (hd1 :: acc) fin n)) n
      end in
  match e with
  | EVar x => apply_k next (SmVar x) n
  | EConst s => apply_k next (SmConst s) n
  | EGlob x => apply_k next (SmGlob x) n
  | ERef i => apply_k next (SmRef i) n
  | EIf a b c =>
      tailify a (KFun (fun ra n =>
        match tailify b next n with
        | Some (sb, n1) =>
            match tailify c next n1 with
            | Some (sc, n2) => Some (TIf ra sb sc, n2)
            | None => None
            end
        | None => None
        end)) n
  | EDo a b =>
      tailify a (KFun (fun ra n =>
        match ra with
        | SmVar _ => tailify b next n
        | _ => with_stm (TDo ra) (tailify b next n)
        end)) n
  | ELet x b c =>
      tailify b (KFun (fun rb n => with_stm (TLet x rb) (tailify c next n))) n
  | EClo ps b frees =>
      match tailify b KId n, simples frees with
      | Some (sb, n1), Some ss => apply_k next (SmClo ps sb ss) n1
      | _, _ => None
      end
  | ELam _ _ => None                                      (* does not occur *)
  | EPrim p args =>
      tailify_list args [] (fun ss n =>
        with_stm (TPrim (NG n) p ss) (apply_k next (SmVar (NG n)) (S n))) n
  | EApp f args =>
      tailify f (KFun (fun f1 n =>
        tailify_list args [] (fun ss n =>
          match next with
          | KId => Some (TTail f1 ss, n)
          | KFun g => with_stm (fun k => TCall f1 ss (NG n) k None) (g (SmVar (NG n)) (S n))
          end) n)) n
  end.

(** * Liveness *)

(** free-vars again, on statements *)
Fixpoint fv_simple (s : simple) : list name :=
  match s with
  | SmVar x => [x]
  | SmConst _ | SmGlob _ | SmRef _ | SmLab _ _ _ _ => []
  | SmClo ps b frees => unions (diff (fv_stm b) ps :: List.map fv_simple frees)
  end
with fv_stm (t : stm) : list name :=
  match t with
  | TRet s => fv_simple s
  | TTail f args => unions (fv_simple f :: List.map fv_simple args)
  | TCall f args v k _ =>
      unions [unions (fv_simple f :: List.map fv_simple args); diff (fv_stm k) [v]]
  | TJump f args _ live => unions (fv_simple f :: List.map fv_simple args)  (* does not occur *)
  | TLet x s k => union (fv_simple s) (diff (fv_stm k) [x])
  | TPrim x _ args k => union (unions ([] :: List.map fv_simple args)) (diff (fv_stm k) [x])
  | TIf s a b => unions [fv_simple s; fv_stm a; fv_stm b]
  | TDo s k => unions [fv_simple s; fv_stm k]
  end.

(** toc.cora:172-184 *)
Fixpoint live_simple (s : simple) : simple :=
  match s with
  | SmClo ps b frees => SmClo ps (live_stm b) (List.map live_simple frees)
  | _ => s
  end
with live_stm (t : stm) : stm :=
  match t with
  | TRet s => TRet (live_simple s)
  | TTail f args => TTail (live_simple f) (List.map live_simple args)
  | TCall f args v k _ =>
      TCall (live_simple f) (List.map live_simple args) v (live_stm k) (Some (diff (fv_stm k) [v]))
  | TJump f args l live => t                              (* does not occur *)
  | TLet x s k => TLet x (live_simple s) (live_stm k)
  | TPrim x p args k => TPrim x p (List.map live_simple args) (live_stm k)
  | TIf s a b => TIf (live_simple s) (live_stm a) (live_stm b)
  | TDo s k => TDo (live_simple s) (live_stm k)
  end.

(** * Collecting continuations and functions *)

(** (lambda ps first . conts); a continuation is (%continuation (v) body . live) *)
Record cont := mkCont { k_var : name; k_body : stm; k_live : list name }.
Record func := mkF { f_ps : list name; f_first : stm; f_conts : list cont }.

(** toc.cora:186-200 *)
Fixpoint collect_cont (t : stm) (conts : list cont) : stm * list cont :=
  match t with
  | TCall f args v k live =>
      let live := match live with Some l => l | None => [] end in
      let '(k1, conts1) := collect_cont k conts in
      (TJump f args (List.length conts1 + 1) live, mkCont v k1 live :: conts1)
  | TLet x s k => let '(k1, c1) := collect_cont k conts in (TLet x s k1, c1)
  | TPrim x p args k => let '(k1, c1) := collect_cont k conts in (TPrim x p args k1, c1)
  | TIf s a b =>
      let '(a1, c1) := collect_cont a conts in
      let '(b1, c2) := collect_cont b c1 in
      (TIf s a1 b1, c2)
  | TDo s k => let '(k1, c1) := collect_cont k conts in (TDo s k1, c1)
  | TRet _ | TTail _ _ | TJump _ _ _ _ => (t, conts)
  end.

(** toc.cora:201-204 *)
Definition rewrite_lambda_final (ps : list name) (body : stm) : func :=
  let '(b, conts) := collect_cont body [] in mkF ps b (rev conts).

(** toc.cora:207-214 *)
Definition lambda_frame_size (f : func) : nat :=
  fold_left (fun acc x => let len := List.length (k_live x) + 1 in if acc <? len then len else acc)
    (f_conts f) (List.length (f_ps f) + 1).

(** the vector [count list], toc.cora:230-236; the n-th element of the list
    here is the function with label n *)
Definition append_result (v : list func) (f : func) : list func := v ++ [f].

(** toc.cora:218-228 *)
Fixpoint cl_simple (v : list func) (s : simple) {struct s} : simple * list func :=
  match s with
  | SmClo ps b frees =>
      let '(b1, v1) := cl_stm v b in
      let cur := List.length v1 in
      let b2 := rewrite_lambda_final ps b1 in
      (SmLab cur (List.length ps) (lambda_frame_size b2) frees, append_result v1 b2)
  | _ => (s, v)
  end
with cl_stm (v : list func) (t : stm) {struct t} : stm * list func :=
  let cl_list :=
    fix cl_list (v : list func) (l : list simple) : list simple * list func :=
      match l with
      | [] => ([], v)
      | x :: r => let '(y, v1) := cl_simple v x in let '(ys, v2) := cl_list v1 r in (y :: ys, v2)
      end in
  match t with
  | TRet s => let '(s1, v1) := cl_simple v s in (TRet s1, v1)
  | TTail f args =>
      let '(f1, v1) := cl_simple v f in
      let '(a1, v2) := cl_list v1 args in
      (TTail f1 a1, v2)
  | TCall f args x k live =>
      let '(f1, v1) := cl_simple v f in
      let '(a1, v2) := cl_list v1 args in
      let '(k1, v3) := cl_stm v2 k in
      (TCall f1 a1 x k1 live, v3)
  | TJump f args l live => (t, v)
  | TLet x s k =>
      let '(s1, v1) := cl_simple v s in
      let '(k1, v2) := cl_stm v1 k in
      (TLet x s1 k1, v2)
  | TPrim x p args k =>
      let '(a1, v1) := cl_list v args in
      let '(k1, v2) := cl_stm v1 k in
      (TPrim x p a1 k1, v2)
  | TIf s a b =>
      let '(s1, v1) := cl_simple v s in
      let '(a1, v2) := cl_stm v1 a in
      let '(b1, v3) := cl_stm v2 b in
      (TIf s1 a1 b1, v3)
  | TDo s k =>
      let '(s1, v1) := cl_simple v s in
      let '(k1, v2) := cl_stm v1 k in
      (TDo s1 k1, v2)
  end.

(** toc.cora:507-515: the top level becomes the last function *)
Definition collect_lambda_pass (t : stm) : list func :=
  let '(e1, v) := cl_stm [] t in
  append_result v (rewrite_lambda_final [] e1).

(** * The whole compiler, toc.cora:495-532 *)
Definition compile (fuel n : nat) (e : sexp) : option (list func * list sexp) :=
  match parse fuel [] (mkP n []) e with
  | None => None
  | Some (e1, st) =>
      match tailify (closure_convert [] e1) KId (p_gen st) with
      | None => None
      | Some (t, _) => Some (collect_lambda_pass (live_stm t), p_globals st)
      end
  end.
