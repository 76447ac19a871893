(** Running the C functions that lib/toc.cora generates.

    A compiled program is the list of functions of TocModel.v.  The machine
    below is the call discipline of VmSpec.v (activations that own their
    slots) over the values of CoreSpec.v, together with what each generated C
    function does: load its local variables from the frame or from co->res,
    run to the next call, tail call or return (lib/toc.cora:295-432, 539-565).
    TocErase.v shows that forgetting the code gives runs of VmSpec.v, hence of
    the machine of VmModel.v.

    Simplifications.  Local C variables are a list of names and values.  A
    quoted list has no C text (lib/toc.cora:313-326) and is stuck here.  A
    global that is not set is stuck (the C code reads Undef).  The values are
    trees; see the Gc files for their storage. *)
From Coq Require Import List ZArith Bool String Arith.
From Verif Require Import CoreSpec TocModel TocSem.
Import ListNotations.
Local Open Scope list_scope.
Local Open Scope nat_scope.

(** makeNative(co->gc, nframe, clofun<label>, nargs, ...), toc.cora:355-369 *)
Record lcode := mkL { l_lab : nat; l_nargs : nat; l_nframe : nat }.
Notation lval := (val lcode).
Definition slots := list (option lval).

(** closureRef(R[0], i), toc.cora:309-312 *)
Definition captured (R : slots) (i : nat) : option lval :=
  match R with
  | Some (VClo _ vs) :: _ => nth_error vs i
  | _ => None
  end.

Definition has_text (s : sexp) : bool := match s with SCons _ _ => false | _ => true end.

Definition free_x (sg : list (name * lval)) (R : slots) (s : simple) : option lval :=
  match s with
  | SmVar x => lookup x sg
  | SmRef i => captured R i
  | _ => None
  end.

(** the C expression for an operand, toc.cora:299-326, 355-369 *)
Definition x_simple (sg : list (name * lval)) (R : slots) (s : simple) (G : store lcode) : option lval :=
  match s with
  | SmVar x => lookup x sg
  | SmConst c => if has_text c then Some (quoted c) else None
  | SmGlob x => g_val G x
  | SmRef i => captured R i
  | SmClo _ _ _ => None
  | SmLab lab na nf frees =>
      match opts (free_x sg R) frees with
      | Some vs => Some (VClo (mkL lab na nf) vs)
      | None => None
      end
  end.

(** How a turn of the trampoline ends: coraReturn, coraCallN after
    co->ctx.sp = R, coraCallN after save-to-frame and saveCont. *)
Inductive xfer :=
| XRet (v : lval)
| XTail (f : lval) (args : list lval)
| XCall (saved : list lval) (label : nat) (f : lval) (args : list lval).

(** the statements of one case of the C function, toc.cora:327-411 *)
Fixpoint block (ar : arith) (sg : list (name * lval)) (R : slots) (t : stm) (G : store lcode)
  : option (xfer * store lcode) :=
  match t with
  | TRet s => match x_simple sg R s G with Some v => Some (XRet v, G) | None => None end
  | TTail f args =>
      match x_simple sg R f G, opts (fun s => x_simple sg R s G) args with
      | Some fv, Some vs => Some (XTail fv vs, G)
      | _, _ => None
      end
  | TJump f args label live =>
      match opts (fun x => lookup x sg) live, x_simple sg R f G, opts (fun s => x_simple sg R s G) args with
      | Some saved, Some fv, Some vs => Some (XCall saved label fv vs, G)
      | _, _, _ => None
      end
  | TCall _ _ _ _ _ => None
  | TLet x s k =>
      match x_simple sg R s G with
      | Some v => block ar ((x, v) :: sg) R k G
      | None => None
      end
  | TPrim x p args k =>
      match opts (fun s => x_simple sg R s G) args with
      | Some vs =>
          match prim_sem ar p vs G with
          | Some (v, G1) => block ar ((x, v) :: sg) R k G1
          | None => None
          end
      | None => None
      end
  | TIf s a b =>
      match x_simple sg R s G with
      | Some VTrue => block ar sg R a G
      | Some _ => block ar sg R b G
      | None => None
      end
  | TDo s k =>
      match x_simple sg R s G with
      | Some _ => block ar sg R k G
      | None => None
      end
  end.

(** recover-from-frame: Obj x = R[1]; ..., toc.cora:285-294 *)
Fixpoint recover (xs : list name) (R : slots) : option (list (name * lval)) :=
  match xs, R with
  | [], _ => Some []
  | x :: r, Some v :: R1 => match recover r R1 with Some l => Some ((x, v) :: l) | None => None end
  | _, _ => None
  end.

(** save-to-frame: R[1] = x; ..., toc.cora:275-283 *)
Fixpoint save (i : nat) (vs : list lval) (R : slots) : option slots :=
  match vs with
  | [] => Some R
  | v :: r => if i <? List.length R then save (S i) r (firstn i R ++ Some v :: skipn (S i) R) else None
  end.

(** switch (label), toc.cora:539-565 and 423-432 *)
Definition enter_case (F : func) (label : nat) (R : slots) (res : lval) : option (list (name * lval) * stm) :=
  match label with
  | O => match recover (f_ps F) (tl R) with Some sg => Some (sg, f_first F) | None => None end
  | S i =>
      match nth_error (f_conts F) i with
      | Some k => match recover (k_live k) (tl R) with Some sg => Some ((k_var k, res) :: sg, k_body k) | None => None end
      | None => None
      end
  end.

(** * The machine *)
Inductive mcode := MUser (lab : nat) | MPrim (p : prim) | MCurry.
Record mact := mkMA { ma_code : mcode; ma_label : nat; ma_slots : slots }.
Inductive mitem := MAct (a : mact) | MArgs (rest : list lval).
Record mst := mkM {
  m_cur : option mact;
  m_pend : list mitem;
  m_wait : option (list lval);
  m_res : lval;
  m_G : store lcode }.

(** the function a closure points to, its frame size, how many arguments it
    wants; a builtin is registered with a frame for its arguments
    (src/runtime.c:1021), a partial application has the frame size of its
    function (src/runtime.c:133-147) *)
Fixpoint fn_of (f : lval) : option (mcode * nat * nat) :=
  match f with
  | VClo c _ => Some (MUser (l_lab c), l_nframe c, l_nargs c)
  | VPrim p => Some (MPrim p, S (prim_arity p), prim_arity p)
  | VPap g a => match fn_of g with Some (_, nf, rq) => Some (MCurry, nf, rq - List.length a) | None => None end
  | _ => None
  end.

Definition m_return (M : mst) (v : lval) : mst :=
  match m_pend M with
  | [] => mkM None [] None v (m_G M)
  | MAct a :: p => mkM (Some a) p None v (m_G M)
  | MArgs l :: p => mkM None p (Some l) v (m_G M)
  end.

Definition m_fresh (fn : lval) (args : list lval) (nframe : nat) : slots :=
  map Some (fn :: args) ++ repeat None (nframe - S (List.length args)).

Definition m_call (M : mst) (fn : lval) (args : list lval) : option mst :=
  match fn_of fn with
  | None => None
  | Some (c, nf, rq) =>
      if List.length args <? rq then Some (m_return M (match args with [] => fn | _ => VPap fn args end))
      else
        let now := firstn rq args in
        let later := skipn rq args in
        let p := match later with [] => m_pend M | _ => MArgs later :: m_pend M end in
        Some (mkM (Some (mkMA c 0 (m_fresh fn now nf))) p None (m_res M) (m_G M))
  end.

Definition m_finish (M : mst) (lab : nat) (R : slots) (x : xfer) (G : store lcode) : option mst :=
  let M1 := mkM (m_cur M) (m_pend M) None (m_res M) G in
  match x with
  | XRet v => Some (m_return M1 v)
  | XTail f args => m_call M1 f args
  | XCall saved label f args =>
      match save 1 saved R with
      | Some R1 => m_call (mkM (m_cur M) (MAct (mkMA (MUser lab) label R1) :: m_pend M) None (m_res M) G) f args
      | None => None
      end
  end.

(** the arguments of a builtin are in R[1], R[2] *)
Fixpoint present (R : slots) (n : nat) {struct n} : option (list lval) :=
  match n, R with
  | O, _ => Some []
  | S n', Some v :: R1 => match present R1 n' with Some l => Some (v :: l) | None => None end
  | _, _ => None
  end.

Definition mstep (ar : arith) (fs : list func) (M : mst) : option mst :=
  match m_cur M with
  | None =>
      match m_wait M with
      | None => None                                    (* finished *)
      | Some l => m_call (mkM None (m_pend M) None (m_res M) (m_G M)) (m_res M) l
      end
  | Some (mkMA (MUser lab) label R) =>
      match nth_error fs lab with
      | Some F =>
          match enter_case F label R (m_res M) with
          | Some (sg, t) =>
              match block ar sg R t (m_G M) with
              | Some (x, G) => m_finish M lab R x G
              | None => None
              end
          | None => None
          end
      | None => None
      end
  | Some (mkMA (MPrim p) _ R) =>
      match present (tl R) (prim_arity p) with
      | Some args =>
          match prim_sem ar p args (m_G M) with
          | Some (v, G) => Some (m_return (mkM (m_cur M) (m_pend M) None (m_res M) G) v)
          | None => None
          end
      | None => None
      end
  | Some (mkMA MCurry _ (Some (VPap f xs) :: R)) =>
      match fn_of (VPap f xs), fn_of f with
      | Some (_, nf, rq), Some (c, _, _) =>
          Some (mkM (Some (mkMA c 0 (map Some (f :: xs) ++ firstn rq R ++ repeat None (nf - (S (List.length xs) + rq)))))
                    (m_pend M) None (m_res M) (m_G M))
      | _, _ => None
      end
  | Some (mkMA MCurry _ _) => None
  end.

Fixpoint msteps (ar : arith) (fs : list func) (k : nat) (M : mst) : option mst :=
  match k with
  | O => Some M
  | S k' => match mstep ar fs M with Some M1 => msteps ar fs k' M1 | None => None end
  end.

(** generate-entry (toc.cora:567-586) makes the last function the current
    one.  load-so (src/runtime.c:341-350) runs it in load-so's own frame, which
    has three slots; here the frame has [nf] slots and the first holds a
    closure of the function, which has nothing captured. *)
Definition m_start (fs : list func) (nf : nat) (G : store lcode) : option mst :=
  m_call (mkM None [] None (VNum 0) G) (VClo (mkL (List.length fs - 1) 0 nf) []) [].

Definition finished (M : mst) : bool :=
  match m_cur M, m_wait M, m_pend M with None, None, [] => true | _, _, _ => false end.
