(** What the expander makes of a program: [ex], and that it is what
    macroexpand-boot computes. *)
From Coq Require Import List ZArith Bool String Arith Lia.
From Verif Require Import CoreSpec TocModel TocSem CoreProofs TocParse NsSpec NsModel NsProofs MacroModel SurfSpec.
Import ListNotations.
Local Open Scope list_scope.
Local Open Scope nat_scope.

Local Notation Y s := (SSym (NS s)).
Local Notation "'L' l" := (of_list l) (at level 9, l at level 0).

(** * Induction over programs *)
Definition on_guard (P : src -> Prop) (g : option src) : Prop := match g with Some g => P g | None => True end.
Section Ind.
  Context (P : src -> Prop) (T : tmpl -> Prop).
  Hypothesis HLit : forall s, P (XLit s).
  Hypothesis HQuote : forall s, P (XQuote s).
  Hypothesis HVar : forall x, P (XVar x).
  Hypothesis HLam : forall ps b, P b -> P (XLam ps b).
  Hypothesis HIf : forall a b c, P a -> P b -> P c -> P (XIf a b c).
  Hypothesis HDo : forall a b, P a -> P b -> P (XDo a b).
  Hypothesis HApp : forall f args, P f -> Forall P args -> P (XApp f args).
  Hypothesis HLet : forall bs b, Forall (fun q => P (snd q)) bs -> P b -> P (XLet bs b).
  Hypothesis HCond : forall cs, Forall (fun q => P (fst q) /\ P (snd q)) cs -> P (XCond cs).
  Hypothesis HAnd : forall l, Forall P l -> P (XAnd l).
  Hypothesis HOr : forall l, Forall P l -> P (XOr l).
  Hypothesis HBegin : forall l, Forall P l -> P (XBegin l).
  Hypothesis HList : forall l, Forall P l -> P (XList l).
  Hypothesis HListRest : forall l t, Forall P l -> P t -> P (XListRest l t).
  Hypothesis HBack : forall t, T t -> P (XBack t).
  Hypothesis HMatch : forall v cs, P v -> Forall (fun q => on_guard P (snd (fst q)) /\ P (snd q)) cs -> P (XMatch v cs).
  Hypothesis HDef : forall x e, P e -> P (XDef x e).
  Hypothesis HDefun : forall f ps b, P b -> P (XDefun f ps b).
  Hypothesis HFunc : forall f cs, Forall (fun q => on_guard P (snd (fst q)) /\ P (snd q)) cs -> P (XFunc f cs).
  Hypothesis HNs : forall p imports b, P b -> P (XNs p imports b).
  Hypothesis HTData : forall s, T (TData s).
  Hypothesis HTSym : forall x, T (TSym x).
  Hypothesis HTUnquote : forall e, P e -> T (TUnquote e).
  Hypothesis HTList : forall l, Forall T l -> T (TList l).

  Fixpoint src_ind' (x : src) : P x :=
    let each := fix each (l : list src) : Forall P l :=
      match l with [] => Forall_nil _ | x :: r => Forall_cons x (src_ind' x) (each r) end in
    match x with
    | XLit s => HLit s | XQuote s => HQuote s | XVar x => HVar x
    | XLam ps b => HLam ps b (src_ind' b)
    | XIf a b c => HIf a b c (src_ind' a) (src_ind' b) (src_ind' c)
    | XDo a b => HDo a b (src_ind' a) (src_ind' b)
    | XApp f args => HApp f args (src_ind' f) (each args)
    | XLet bs b =>
        HLet bs b ((fix go (l : list (string * src)) : Forall (fun q => P (snd q)) l :=
                      match l with [] => Forall_nil _ | q :: r => Forall_cons q (src_ind' (snd q)) (go r) end) bs) (src_ind' b)
    | XCond cs =>
        HCond cs ((fix go (l : list (src * src)) : Forall (fun q => P (fst q) /\ P (snd q)) l :=
                     match l with
                     | [] => Forall_nil _
                     | q :: r => Forall_cons q (conj (src_ind' (fst q)) (src_ind' (snd q))) (go r)
                     end) cs)
    | XAnd l => HAnd l (each l) | XOr l => HOr l (each l) | XBegin l => HBegin l (each l)
    | XList l => HList l (each l)
    | XListRest l t => HListRest l t (each l) (src_ind' t)
    | XBack t => HBack t (tmpl_ind' t)
    | XMatch v cs =>
        HMatch v cs (src_ind' v)
          ((fix go (l : list (pat * option src * src)) : Forall (fun q => on_guard P (snd (fst q)) /\ P (snd q)) l :=
              match l with
              | [] => Forall_nil _
              | q :: r =>
                  Forall_cons q
                    (conj (match snd (fst q) as g return on_guard P g with Some g => src_ind' g | None => I end)
                          (src_ind' (snd q))) (go r)
              end) cs)
    | XDef x e => HDef x e (src_ind' e)
    | XDefun f ps b => HDefun f ps b (src_ind' b)
    | XFunc f cs =>
        HFunc f cs
          ((fix go (l : list (list pat * option src * src)) : Forall (fun q => on_guard P (snd (fst q)) /\ P (snd q)) l :=
              match l with
              | [] => Forall_nil _
              | q :: r =>
                  Forall_cons q
                    (conj (match snd (fst q) as g return on_guard P g with Some g => src_ind' g | None => I end)
                          (src_ind' (snd q))) (go r)
              end) cs)
    | XNs p imports b => HNs p imports b (src_ind' b)
    end
  with tmpl_ind' (t : tmpl) : T t :=
    match t with
    | TData s => HTData s | TSym x => HTSym x | TUnquote e => HTUnquote e (src_ind' e)
    | TList l =>
        HTList l ((fix go (l : list tmpl) : Forall T l :=
                     match l with [] => Forall_nil _ | t :: r => Forall_cons t (tmpl_ind' t) (go r) end) l)
    end.
End Ind.

(** * Patterns *)
Inductive cpat := CVar (x : string) | CLit (s : sexp) | CQuote (s : sexp) | CCons (p q : cpat).
Fixpoint desugar (p : pat) : cpat :=
  match p with
  | QVar x => CVar x
  | QLit s => CLit s
  | QQuote s => CQuote s
  | QCons p q => CCons (desugar p) (desugar q)
  | QList l => fold_right (fun p r => CCons (desugar p) r) (CLit SNil) l
  | QListRest l q => fold_right (fun p r => CCons (desugar p) r) (desugar q) l
  end.
Fixpoint csexp (p : cpat) : sexp :=
  match p with
  | CVar x => Y x
  | CLit s => s
  | CQuote s => L [Y "quote"; s]
  | CCons p q => L [Y "cons"; csexp p; csexp q]
  end.
(** what match1 makes of them *)
Fixpoint m1 (p : cpat) (expr body : sexp) (cc : name) : sexp :=
  match p with
  | CVar x => L [Y "let"; Y x; expr; body]
  | CLit s => if sexp_eqb s expr then body else L [Y "if"; L [Y "="; s; expr]; body; L [SSym cc]]
  | CQuote s => L [Y "if"; L [Y "="; L [Y "quote"; s]; expr]; body; L [SSym cc]]
  | CCons p q =>
      match (if headed "cons" expr then match ocadr expr, ocaddr expr with Some a, Some b => Some (a, b) | _, _ => None end else None) with
      | Some (e1, e2) => m1 p e1 (m1 q e2 body cc) cc
      | None => L [Y "if"; L [Y "cons?"; expr]; m1 p (L [Y "car"; expr]) (m1 q (L [Y "cdr"; expr]) body cc) cc; L [SSym cc]]
      end
  end.

(** * The expansion *)
Section Gens.
  Context {A B : Type} (f : A -> nat -> B * nat).
  Fixpoint gens (l : list A) (n : nat) : list B * nat :=
    match l with
    | [] => ([], n)
    | x :: r => let (y, n1) := f x n in let (ys, n2) := gens r n1 in (y :: ys, n2)
    end.
End Gens.
Definition no_match : sexp := L [Y "error"; SStr "no match-help found!"].
Definition no_cond : sexp := L [Y "error"; SStr "no cond match"].
Section Rules.
  Context {P : Type} (ds : P -> cpat) (f : src -> nat -> sexp * nat) (val : sexp).
  Definition gen_action (g : option src) (b : src) (cc : name) (n : nat) : sexp * nat :=
    match g with
    | None => f b n
    | Some g => let (g1, n1) := f g n in let (b1, n2) := f b n1 in (L [Y "if"; g1; b1; L [SSym cc]], n2)
    end.
  Fixpoint gen_rules (cs : list (P * option src * src)) (i n : nat) : sexp * nat :=
    match cs with
    | [] => (no_match, n)
    | q :: r =>
        let (rest, n1) := gen_rules r (S i) n in
        let (act, n2) := gen_action (snd (fst q)) (snd q) (NG i) n1 in
        (L [Y "let"; SSym (NG i); L [Y "lambda"; SNil; rest]; m1 (ds (fst (fst q))) val act (NG i)], n2)
    end.
End Rules.
Definition conses (l : list sexp) (t : sexp) : sexp := fold_right (fun a r => L [Y "cons"; a; r]) t l.
Fixpoint dos (l : list sexp) : sexp :=
  match l with [] => SNil | [x] => x | x :: r => L [Y "do"; x; dos r] end.
Definition lam (ps : list name) (b : sexp) : sexp := L [Y "lambda"; L (map SSym ps); b].
Definition rules_arity (cs : list (list pat * option src * src)) : nat :=
  match cs with (ps, _, _) :: _ => List.length ps | [] => 0 end.

Definition lets (l : list (string * sexp)) (b : sexp) : sexp := fold_right (fun q r => L [Y "let"; Y (fst q); snd q; r]) b l.
Definition ifs (l : list (sexp * sexp)) : sexp := fold_right (fun q r => L [Y "if"; fst q; snd q; r]) no_cond l.
Definition ands (l : list sexp) : sexp := fold_right (fun a r => L [Y "if"; a; r; SFalse]) STrue l.
Definition ors (l : list sexp) : sexp := fold_right (fun a r => L [Y "if"; a; STrue; r]) SFalse l.

Fixpoint ex (x : src) (n : nat) {struct x} : sexp * nat :=
  match x with
  | XLit s => (s, n)
  | XQuote s => (L [Y "quote"; s], n)
  | XVar x => (Y x, n)
  | XLam ps b => let (b1, n1) := ex b n in (lam (map NS ps) b1, n1)
  | XIf a b c =>
      let (a1, n1) := ex a n in let (b1, n2) := ex b n1 in let (c1, n3) := ex c n2 in (L [Y "if"; a1; b1; c1], n3)
  | XDo a b => let (a1, n1) := ex a n in let (b1, n2) := ex b n1 in (L [Y "do"; a1; b1], n2)
  | XApp f args => let (f1, n1) := ex f n in let (l, n2) := gens ex args n1 in (L (f1 :: l), n2)
  | XLet bs b =>
      let (l, n1) := gens (fun q n => let (e, m) := ex (snd q) n in ((fst q, e), m)) bs n in
      let (b1, n2) := ex b n1 in
      (lets l b1, n2)
  | XCond cs =>
      let (l, n1) := gens (fun q n => let (a, n1) := ex (fst q) n in let (b, n2) := ex (snd q) n1 in ((a, b), n2)) cs n in
      (ifs l, n1)
  | XAnd l => let (l1, n1) := gens ex l n in (ands l1, n1)
  | XOr l => let (l1, n1) := gens ex l n in (ors l1, n1)
  | XBegin l => let (l1, n1) := gens ex l n in (dos l1, n1)
  | XList l => let (l1, n1) := gens ex l n in (conses l1 SNil, n1)
  | XListRest l t => let (l1, n1) := gens ex l n in let (t1, n2) := ex t n1 in (conses l1 t1, n2)
  | XBack t => ext t n
  | XMatch v cs =>
      let (v1, n1) := ex v n in
      if computed v then
        let (c, n2) := gen_rules desugar ex (SSym (NG n1)) cs (S n1) (S n1 + List.length cs) in
        (L [Y "let"; SSym (NG n1); v1; c], n2)
      else gen_rules desugar ex v1 cs n1 (n1 + List.length cs)
  | XDef x e => let (e1, n1) := ex e n in (L [Y "def"; Y x; e1], n1)
  | XDefun f ps b => let (b1, n1) := ex b n in (L [Y "def"; Y f; lam (map NS ps) b1], n1)
  | XFunc f cs =>
      let k := rules_arity cs in
      let args := map NG (seq n k) in
      let (c, n1) := gen_rules (fun ps => desugar (QList ps)) ex (conses (map SSym args) SNil) cs (n + k) (n + k + List.length cs) in
      (L [Y "def"; Y f; lam args c], n1)
  | XNs p imports b => let (b1, n1) := ex b n in (L [Y "ns"; SStr p; L (map SStr imports); b1], n1)
  end
with ext (t : tmpl) (n : nat) {struct t} : sexp * nat :=
  match t with
  | TData s => (s, n)
  | TSym x => (L [Y "quote"; SSym x], n)
  | TUnquote e => ex e n
  | TList l => let (l1, n1) := gens ext l n in (conses l1 SNil, n1)
  end.

(** * The expander computes it *)
Lemma sexp_eqb_refl : forall a, sexp_eqb a a = true.
Proof.
  induction a as [z|x|s| | | |a IHa d IHd]; cbn; auto.
  - apply Z.eqb_refl.
  - apply name_eqb_refl.
  - apply String.eqb_refl.
  - now rewrite IHa, IHd.
Qed.
Lemma sexp_eqb_eq : forall a b, sexp_eqb a b = true -> a = b.
Proof.
  induction a as [z|x|s| | | |a IHa d IHd]; intros [z'|x'|s'| | | |a' d'] H; cbn in H; try discriminate; auto.
  - apply Z.eqb_eq in H. congruence.
  - destruct (name_eqb_spec x x'); congruence.
  - apply String.eqb_eq in H. congruence.
  - apply andb_prop in H as (H1 & H2). now rewrite (IHa _ H1), (IHd _ H2).
Qed.
Lemma seq_of_list : forall l, seq_of l = of_list l.
Proof. unfold seq_of. induction l; cbn; congruence. Qed.

Section Exp.
  Context (gt : nat -> string) (exports : string -> list name).
  Notation boot := (boot gt exports).
  Notation mx := (macroexpand gt exports).
  Notation np := (nsparse gt exports).

  Lemma boot_S : forall k h t n,
    boot (S k) (SCons h t) n =
    if is_protect h then Some (t, n)
    else if is_sym "lambda" h then
      match ocadr (SCons h t), ocaddr (SCons h t) with
      | Some ps, Some b =>
          match boot k b n with
          | Some (b1, n1) => Some (of_list [ssym "lambda"; ps; b1], n1)
          | None => None
          end
      | _, _ => None
      end
    else if is_sym "quote" h then Some (SCons h t, n)
    else
      match expand1 (mx k) (SCons h t) n with
      | Some (e1, n1) =>
          if sexp_eqb e1 (SCons h t) then
            match map_gen (boot k) (cells e1) n1 with
            | Some (l, n2) => Some (of_list l, n2)
            | None => None
            end
          else boot k e1 n1
      | None => None
      end.
  Proof. reflexivity. Qed.

  (** with enough fuel, [e] expands to [r] *)
  Definition BX (e : sexp) (n : nat) (r : sexp * nat) : Prop := exists m, forall k, m <= k -> boot k e n = Some r.
  Definition BXs (l : list sexp) (n : nat) (r : list sexp * nat) : Prop :=
    exists m, forall k, m <= k -> map_gen (boot k) l n = Some r.
  (** with enough fuel, [e] is renamed to itself, outside every package *)
  Definition NX (env : list name) (e : sexp) : Prop := exists m, forall k, m <= k -> np k env "" [] e = Some e.

  Lemma bxs_nil : forall n, BXs [] n ([], n).
  Proof. intro n. exists 0. reflexivity. Qed.
  Lemma bxs_cons : forall e l n e1 n1 l1 n2, BX e n (e1, n1) -> BXs l n1 (l1, n2) -> BXs (e :: l) n (e1 :: l1, n2).
  Proof.
    intros e l n e1 n1 l1 n2 (m1' & H1) (m2 & H2). exists (max m1' m2). intros k Hk. cbn [map_gen].
    rewrite H1 by lia. rewrite H2 by lia. reflexivity.
  Qed.

  Definition still (f : sexp) (args : list sexp) : Prop :=
    is_protect f = false /\ is_sym "lambda" f = false /\ is_sym "quote" f = false /\
    forall mx n, expand1 mx (L (f :: args)) n = Some (L (f :: args), n).
  Lemma bx_call : forall f args n l n', still f args -> BXs (f :: args) n (l, n') -> BX (L (f :: args)) n (L l, n').
  Proof.
    intros f args n l n' (H1 & H2 & H3 & H4) (m & H). exists (S m). intros [|k] Hk; [lia|].
    change (L (f :: args)) with (SCons f (L args)) at 1. rewrite boot_S, H1, H2, H3.
    change (SCons f (L args)) with (L (f :: args)). rewrite H4, sexp_eqb_refl, cells_of_list, H by lia. reflexivity.
  Qed.
  Lemma bx_flat : forall e n, match e with SCons _ _ => False | _ => True end -> BX e n (e, n).
  Proof. intros e n H. exists 1. intros [|k] Hk; [lia|]. destruct e; try reflexivity. contradiction. Qed.
  Lemma bx_sym : forall x n, BX (SSym x) n (SSym x, n).
  Proof. intros. apply bx_flat. exact I. Qed.
  Lemma bx_quote : forall s n, BX (L [Y "quote"; s]) n (L [Y "quote"; s], n).
  Proof. intros s n. exists 1. intros [|k] Hk; [lia|]. reflexivity. Qed.
  Lemma bx_lam : forall ps b n b1 n1, BX b n (b1, n1) -> BX (L [Y "lambda"; ps; b]) n (L [Y "lambda"; ps; b1], n1).
  Proof.
    intros ps b n b1 n1 (m & H). exists (S m). intros [|k] Hk; [lia|]. cbn [of_list]. rewrite boot_S.
    cbn [is_protect name_eqb protect is_sym String.eqb Ascii.eqb Bool.eqb ocadr ocaddr ocddr ocdr ocar]. rewrite H by lia. reflexivity.
  Qed.
  (** a macro that rewrites its call to something else *)
  Lemma bx_macro : forall s m t n e1 n1 r, macro_of (NS s) = Some m -> is_sym "lambda" (Y s) = false -> is_sym "quote" (Y s) = false ->
    (exists m0, forall k, m0 <= k -> expand m (mx k) (SCons (Y s) t) n = Some (e1, n1)) ->
    headed s e1 = false -> BX e1 n1 r -> BX (SCons (Y s) t) n r.
  Proof.
    intros s m t n e1 n1 r HM Q1 Q2 (m0 & HE) HH (m2 & H). exists (S (max m0 m2)). intros [|k] Hk; [lia|].
    rewrite boot_S, Q1, Q2. unfold expand1. rewrite HM. cbn [is_protect name_eqb protect]. rewrite HE by lia.
    destruct (sexp_eqb e1 (SCons (Y s) t)) eqn:E; [|apply H; lia].
    apply sexp_eqb_eq in E. subst e1. cbn [headed is_sym] in HH. now rewrite name_eqb_refl in HH.
  Qed.

  (** * What is already expanded *)
  Definition good (q : bool) (e : sexp) : Prop := (forall n, BX e n (e, n)) /\ (q = true -> forall env, NX env e).
  Definition goods (q : bool) (l : list sexp) : Prop := Forall (good q) l.
  Lemma goods_bx : forall q l n, goods q l -> BXs l n (l, n).
  Proof. intros q l n H. induction H as [|e l (HE & _) _ IH]; [apply bxs_nil|]. eapply bxs_cons; [apply HE|exact IH]. Qed.
  Lemma goods_nx : forall l env, goods true l -> exists m, forall k, m <= k -> map_opt (np k env "" []) l = Some l.
  Proof.
    intros l env H. induction H as [|e l (_ & HE) _ (m & IH)]; [exists 0; reflexivity|].
    destruct (HE eq_refl env) as (m1' & H1). exists (max m m1'). intros k Hk. cbn [map_opt]. rewrite H1, IH by lia. reflexivity.
  Qed.
  Lemma good_sub : forall q e, good q e -> good false e.
  Proof. intros q e (H & _). split; [exact H|discriminate]. Qed.
  Lemma good_weak : forall q1 q2 e, (q2 = true -> q1 = true) -> good q1 e -> good q2 e.
  Proof. intros q1 q2 e H (H1 & H2). split; [exact H1|]. intro E. apply H2, H, E. Qed.

  Lemma good_flat : forall q e, is_atom e = true -> good q e.
  Proof.
    intros q e H. split; [intro n; apply bx_flat; destruct e; try discriminate; exact I|].
    intros _ env. exists 1. intros [|k] Hk; [lia|]. destruct e; try discriminate; reflexivity.
  Qed.
  Lemma good_sym : forall q x, good q (SSym x).
  Proof.
    intros q x. split; [intro n; apply bx_sym|]. intros _ env. exists 1. intros [|k] Hk; [lia|]. cbn [nsparse lookup_var var_with_ns String.eqb].
    destruct (mem x env); [reflexivity|]. destruct (builtin x); reflexivity.
  Qed.
  Lemma good_quote : forall q s, good q (L [Y "quote"; s]).
  Proof.
    intros q s. split; [intro n; apply bx_quote|]. intros _ env. exists 1. intros [|k] Hk; [lia|]. apply np_quote.
  Qed.
  Lemma good_lam : forall q ps b, good q b -> good q (lam ps b).
  Proof.
    intros q ps b (H1 & H2). split; [intro n; apply bx_lam, H1|]. intros E env. destruct (H2 E (ps ++ env)) as (m & H).
    exists (S m). intros [|k] Hk; [lia|]. unfold lam. fold (ssym "lambda"). rewrite np_lam, H by lia. reflexivity.
  Qed.
  Ltac gl := unfold goods; repeat first [apply Forall_nil | apply Forall_cons; [first [assumption | apply good_sym | apply good_flat; reflexivity | apply good_quote]|]].
  Lemma still_if : forall a b c, still (Y "if") [a; b; c].
  Proof. repeat split. Qed.
  Lemma still_do : forall a b, still (Y "do") [a; b].
  Proof. repeat split. Qed.
  Lemma still_let : forall x a b, still (Y "let") [SSym x; a; b].
  Proof. repeat split. Qed.
  Lemma good_if : forall q a b c, good q a -> good q b -> good q c -> good q (L [Y "if"; a; b; c]).
  Proof.
    intros q a b c Ha Hb Hc. split.
    - intro n. apply bx_call; [apply still_if|]. apply (goods_bx q). gl.
    - intros -> env. destruct (goods_nx [a; b; c] env) as (m & H); [gl|].
      exists (S m). intros [|k] Hk; [lia|]. fold (ssym "if"). rewrite np_if. specialize (H k ltac:(lia)). cbn [map_opt] in H.
      destruct (np k env "" [] a), (np k env "" [] b), (np k env "" [] c); try discriminate. congruence.
  Qed.
  Lemma good_do : forall q a b, (q = true -> import_of a = None) -> good q a -> good q b -> good q (L [Y "do"; a; b]).
  Proof.
    intros q a b HI Ha Hb. split.
    - intro n. apply bx_call; [apply still_do|]. apply (goods_bx q). gl.
    - intros -> env. destruct (goods_nx [a; b] env) as (m & H); [gl|].
      exists (S m). intros [|k] Hk; [lia|]. fold (ssym "do"). rewrite np_do by auto. specialize (H k ltac:(lia)). cbn [map_opt] in H.
      destruct (np k env "" [] a), (np k env "" [] b); try discriminate. congruence.
  Qed.
  Lemma good_let : forall q x a b, good q a -> good q b -> good q (L [Y "let"; SSym x; a; b]).
  Proof.
    intros q x a b Ha Hb. split.
    - intro n. apply bx_call; [apply still_let|]. apply (goods_bx q). gl.
    - intros -> env. destruct Ha as (_ & Ha). destruct Hb as (_ & Hb).
      destruct (Ha eq_refl env) as (m1' & H1). destruct (Hb eq_refl (x :: env)) as (m2 & H2).
      exists (S (max m1' m2)). intros [|k] Hk; [lia|]. fold (ssym "let"). rewrite np_let, H1, H2 by lia. reflexivity.
  Qed.
  (** the operators of calls *)
  Definition head (f : sexp) : Prop :=
    match f with SSym (NS s) => operator s = true | SSym (NG k) => k <> 0 | _ => True end.
  Lemma head_still : forall f args, head f -> still f args.
  Proof.
    intros [z|[s|k]|s| | | |a d] args H; try (repeat split; reflexivity).
    - cbn in H. unfold operator in H. apply negb_true_iff in H. unfold among in H. cbn [existsb] in H.
      repeat match type of H with _ || _ = false => apply orb_false_iff in H; let X := fresh in destruct H as (X & H) end.
      unfold still. cbn [is_protect is_sym name_eqb protect]. repeat split; auto.
      intros mx' n. cbn [of_list expand1 macro_of macros assoc_str].
      repeat match goal with E : String.eqb s _ = false |- _ => rewrite E; clear E end. reflexivity.
    - cbn in H. unfold still. cbn [is_protect is_sym name_eqb protect]. repeat split; auto. now apply Nat.eqb_neq.
  Qed.
  Lemma head_call : forall f n, head f -> call_head f n.
  Proof.
    intros [z|[s|k]|s| | | |a d] n H; try (repeat split; (reflexivity || discriminate)).
    cbn in H. unfold operator in H. apply negb_true_iff in H. unfold among in H. cbn [existsb] in H.
    repeat match type of H with _ || _ = false => apply orb_false_iff in H; let X := fresh in destruct H as (X & H) end.
    unfold call_head. cbn [is_sym name_eqb]. repeat split; auto; congruence.
  Qed.
  Lemma good_call : forall q f args, head f -> good q f -> goods q args -> good q (L (f :: args)).
  Proof.
    intros q f args HH Hf Ha. split.
    - intro n. apply bx_call; [now apply head_still|]. apply (goods_bx q). now constructor.
    - intros -> env. destruct (goods_nx (f :: args) env) as (m & H); [now constructor|].
      exists (S m). intros [|k] Hk; [lia|]. rewrite np_app by (now apply head_call). rewrite H by lia. reflexivity.
  Qed.
  Lemma good_def : forall x e, good false e -> good false (L [Y "def"; SSym x; e]).
  Proof.
    intros x e H. split; [|discriminate]. intro n. apply bx_call; [repeat split|]. apply (goods_bx false). gl.
  Qed.
  Lemma good_strings : forall l, good false (L (map SStr l)).
  Proof.
    intro l. split; [|discriminate]. intro n. destruct l as [|s l]; [apply bx_flat; exact I|].
    cbn [map]. apply bx_call; [repeat split|]. apply (goods_bx false). constructor; [now apply good_flat|].
    induction l; constructor; auto. now apply good_flat.
  Qed.
  Lemma good_ns : forall p l b, good false b -> good false (L [Y "ns"; SStr p; L (map SStr l); b]).
  Proof.
    intros p l b H. split; [|discriminate]. intro n. apply bx_call; [repeat split|]. apply (goods_bx false).
    constructor; [apply good_sym|]. constructor; [now apply good_flat|]. constructor; [apply good_strings|]. constructor; [exact H|constructor].
  Qed.
  Lemma good_conses : forall q l t, goods q l -> good q t -> good q (conses l t).
  Proof.
    intros q l t H Ht. induction H as [|a l Ha _ IH]; cbn [conses fold_right]; [exact Ht|].
    apply good_call; [reflexivity|apply good_sym|]. gl.
  Qed.

  (** lists of forms *)
  Inductive BL : list sexp -> nat -> list sexp -> nat -> Prop :=
  | bl_nil n : BL [] n [] n
  | bl_cons e l n e1 n1 l1 n2 : BX e n (e1, n1) -> BL l n1 l1 n2 -> BL (e :: l) n (e1 :: l1) n2.
  Lemma bl_bxs : forall l n l1 n1, BL l n l1 n1 -> BXs l n (l1, n1).
  Proof. intros l n l1 n1 H. induction H; [apply bxs_nil|eapply bxs_cons; eauto]. Qed.
  Lemma bl_call : forall f args n l n', still f args -> BL (f :: args) n l n' -> BX (L (f :: args)) n (L l, n').
  Proof. intros. apply bx_call; [assumption|]. now apply bl_bxs. Qed.
  Lemma bx_conses : forall l n l1 n1 t t1 n2, BL l n l1 n1 -> BX t n1 (t1, n2) -> BX (conses l t) n (conses l1 t1, n2).
  Proof.
    intros l n l1 n1 t t1 n2 H. revert t t1 n2. induction H as [|e l n e1 n1 l1 n2' HE HL IH]; intros t t1 n2 HT; cbn [conses fold_right]; [exact HT|].
    apply bl_call; [apply head_still; reflexivity|].
    econstructor; [apply bx_sym|]. econstructor; [exact HE|]. econstructor; [apply IH, HT|constructor].
  Qed.
  Lemma rcons_list : forall l, rcons (L l) = conses l SNil.
  Proof. unfold conses. induction l as [|a l IH]; cbn [of_list rcons fold_right]; [reflexivity|]. now rewrite IH. Qed.
  Lemma rcons1_list : forall l t, rcons1 (L (l ++ [t])) = Some (conses l t).
  Proof.
    unfold conses. induction l as [|a l IH]; intro t; [reflexivity|]. cbn [app of_list rcons1 fold_right]. rewrite IH.
    destruct (l ++ [t]) as [|b r] eqn:E; [destruct l; discriminate|]. reflexivity.
  Qed.
  Lemma bx_pure : forall s m t n e1 r, macro_of (NS s) = Some m -> is_sym "lambda" (Y s) = false -> is_sym "quote" (Y s) = false ->
    (forall mx', expand m mx' (SCons (Y s) t) n = Some (e1, n)) -> headed s e1 = false -> BX e1 n r -> BX (SCons (Y s) t) n r.
  Proof. intros s m t n e1 r H1 H2 H3 H4 H5 H6. eapply bx_macro; try eassumption. exists 0. intros. apply H4. Qed.
  Lemma bx_list : forall l n l1 n1, BL l n l1 n1 -> BX (L (Y "list" :: l)) n (conses l1 SNil, n1).
  Proof.
    intros l n l1 n1 H. cbn [of_list]. eapply (bx_pure "list" MList); [reflexivity|reflexivity|reflexivity| | |].
    - intro mx'. cbn [expand ocdr pure]. rewrite rcons_list. reflexivity.
    - now destruct l.
    - eapply bx_conses; [exact H|]. apply bx_flat. exact I.
  Qed.
  Lemma bx_list_rest : forall l t n l1 n1 t1 n2, l <> [] -> BL l n l1 n1 -> BX t n1 (t1, n2) ->
    BX (L (Y "list-rest" :: l ++ [t])) n (conses l1 t1, n2).
  Proof.
    intros l t n l1 n1 t1 n2 N H HT. cbn [of_list]. eapply (bx_pure "list-rest" MListRest); [reflexivity|reflexivity|reflexivity| | |].
    - intro mx'. cbn [expand ocdr pure]. rewrite rcons1_list. reflexivity.
    - destruct l; [contradiction|reflexivity].
    - eapply bx_conses; eassumption.
  Qed.

  (** ** Patterns *)
  Lemma pat_ind' : forall P : pat -> Prop, (forall x, P (QVar x)) -> (forall s, P (QLit s)) -> (forall s, P (QQuote s)) ->
    (forall p q, P p -> P q -> P (QCons p q)) -> (forall l, Forall P l -> P (QList l)) ->
    (forall l q, Forall P l -> P q -> P (QListRest l q)) -> forall p, P p.
  Proof.
    intros P H1 H2 H3 H4 H5 H6. fix IH 1. intros [x|s|s|p q|l|l q].
    - apply H1. - apply H2. - apply H3. - apply H4; apply IH.
    - apply H5. induction l; constructor; auto.
    - apply H6; [|apply IH]. induction l; constructor; auto.
  Qed.
  Fixpoint ok_cpat (p : cpat) : bool :=
    match p with CVar x => binder x | CLit s => is_atom s | CQuote _ => true | CCons p q => ok_cpat p && ok_cpat q end.
  Lemma desugar_ok : forall p, ok_pat p = true -> ok_cpat (desugar p) = true.
  Proof.
    apply (pat_ind' (fun p => ok_pat p = true -> ok_cpat (desugar p) = true)); cbn [ok_pat desugar ok_cpat]; auto.
    - intros p q H1 H2 H. apply andb_prop in H as (A & B). now rewrite H1, H2.
    - intros l F H. induction F as [|p l HP _ IH]; [reflexivity|]. cbn in *. apply andb_prop in H as (A & B). now rewrite HP, IH.
    - intros l q F HQ H. apply andb_prop in H as (H & C). apply andb_prop in H as (_ & H).
      induction F as [|p l HP _ IH]; [cbn; auto|]. cbn in *. apply andb_prop in H as (A & B). now rewrite HP, IH.
  Qed.
  Lemma csexp_good : forall q p, ok_cpat p = true -> good q (csexp p).
  Proof.
    induction p; cbn [ok_cpat csexp]; intro H.
    - apply good_sym.
    - now apply good_flat.
    - apply good_quote.
    - apply andb_prop in H as (A & B). apply good_call; [reflexivity|apply good_sym|].
      constructor; [auto|]. constructor; [auto|constructor].
  Qed.
  Lemma bx_pat : forall p, ok_pat p = true -> forall n, BX (show_pat p) n (csexp (desugar p), n).
  Proof.
    assert (LL : forall l n, Forall (fun p => ok_pat p = true -> forall n, BX (show_pat p) n (csexp (desugar p), n)) l ->
      forallb ok_pat l = true -> BL (map show_pat l) n (map (fun p => csexp (desugar p)) l) n).
    { intros l n F H. induction F as [|p l HP _ IH]; cbn in *; [constructor|]. apply andb_prop in H as (A & B). econstructor; eauto. }
    assert (CC : forall l t, csexp (fold_right (fun p r => CCons (desugar p) r) t l) = conses (map (fun p => csexp (desugar p)) l) (csexp t)).
    { unfold conses. induction l as [|p l IH]; intro t; cbn [fold_right map csexp]; [reflexivity|]. now rewrite IH. }
    apply (pat_ind' (fun p => ok_pat p = true -> forall n, BX (show_pat p) n (csexp (desugar p), n))); cbn [ok_pat show_pat desugar csexp].
    - intros. apply bx_sym.
    - intros s H n. apply bx_flat. destruct s; try discriminate; exact I.
    - intros. rewrite seq_of_list. apply bx_quote.
    - intros p q H1 H2 H n. apply andb_prop in H as (A & B). rewrite seq_of_list.
      apply bl_call; [apply head_still; reflexivity|].
      econstructor; [apply bx_sym|]. econstructor; [apply H1, A|]. econstructor; [apply H2, B|constructor].
    - intros l F H n. rewrite seq_of_list, CC. apply bx_list. apply LL; auto.
    - intros l q F HQ H n. apply andb_prop in H as (H & C). apply andb_prop in H as (N & H). rewrite seq_of_list, CC.
      eapply bx_list_rest; [destruct l; [discriminate|]; cbn; discriminate|apply LL; eauto|apply HQ, C].
  Qed.
  Lemma mx_pat : forall p n, ok_pat p = true -> exists m, forall k, m <= k -> mx k (show_pat p) n = Some (csexp (desugar p), n).
  Proof.
    intros p n H. destruct (bx_pat p H n) as (a & HA). destruct (csexp_good true _ (desugar_ok p H)) as (_ & HG).
    destruct (HG eq_refl []) as (b & HB). exists (max a b). intros k Hk. unfold macroexpand. rewrite HA, HB by lia. reflexivity.
  Qed.

  (** ** match *)
  (** expressions without effect, of which match takes parts *)
  Inductive sx : sexp -> Prop :=
  | sx_atom s : is_atom s = true -> sx s
  | sx_sym x : sx (SSym x)
  | sx_quote s : sx (L [Y "quote"; s])
  | sx_cons a b : sx a -> sx b -> sx (L [Y "cons"; a; b])
  | sx_car a : sx a -> sx (L [Y "car"; a])
  | sx_cdr a : sx a -> sx (L [Y "cdr"; a]).
  Lemma sx_good : forall q e, sx e -> good q e.
  Proof.
    intros q e H. induction H; [now apply good_flat|apply good_sym|apply good_quote|..];
      (apply good_call; [reflexivity|apply good_sym|gl]).
  Qed.
  Lemma sx_headed : forall e, sx e -> headed "cons" e = true -> exists a b, e = L [Y "cons"; a; b] /\ sx a /\ sx b.
  Proof.
    intros e H E. destruct H; try discriminate; [destruct s; discriminate|eauto].
  Qed.
  Lemma m1_cons : forall p q a b body cc, m1 (CCons p q) (L [Y "cons"; a; b]) body cc = m1 p a (m1 q b body cc) cc.
  Proof. reflexivity. Qed.
  Lemma m1_other : forall p q e body cc, headed "cons" e = false -> m1 (CCons p q) e body cc =
    L [Y "if"; L [Y "cons?"; e]; m1 p (L [Y "car"; e]) (m1 q (L [Y "cdr"; e]) body cc) cc; L [SSym cc]].
  Proof. intros p q e body cc H. cbn [m1]. now rewrite H. Qed.

  Lemma match1_m1 : forall p e body cc, ok_cpat p = true -> sx e -> match1 (csexp p) e body cc = Some (m1 p e body cc).
  Proof.
    induction p as [x|s|s|p IHp q IHq]; intros e body cc H HE.
    - reflexivity.
    - cbn in H. cbn [csexp m1]. destruct s; try discriminate; cbn [match1]; destruct (sexp_eqb _ e); reflexivity.
    - reflexivity.
    - cbn in H. apply andb_prop in H as (A & B). destruct (headed "cons" e) eqn:EH.
      + destruct (sx_headed e HE EH) as (a & b & -> & Ha & Hb). rewrite m1_cons.
        cbn [csexp of_list match1 is_sym name_eqb String.eqb Ascii.eqb Bool.eqb headed ocadr ocaddr ocddr ocdr ocar].
        rewrite IHq by auto. now rewrite IHp.
      + rewrite m1_other by exact EH. cbn [csexp of_list match1 is_sym name_eqb String.eqb Ascii.eqb Bool.eqb].
        rewrite EH. fold (ssym "cdr"). change (SCons (ssym "cdr") (SCons e SNil)) with (L [Y "cdr"; e]).
        change (SCons (ssym "car") (SCons e SNil)) with (L [Y "car"; e]).
        rewrite IHq; [|exact B|now constructor]. rewrite IHp; [reflexivity|exact A|now constructor].
  Qed.
  Lemma bx_m1 : forall p e body body1 cc n n1, ok_cpat p = true -> sx e -> head (SSym cc) -> BX body n (body1, n1) ->
    BX (m1 p e body cc) n (m1 p e body1 cc, n1).
  Proof.
    assert (IF : forall t body body1 cc n n1, good false t -> head (SSym cc) -> BX body n (body1, n1) ->
      BX (L [Y "if"; t; body; L [SSym cc]]) n (L [Y "if"; t; body1; L [SSym cc]], n1)).
    { intros t body body1 cc n n1 (HT & _) HC HB. apply bl_call; [apply still_if|].
      econstructor; [apply bx_sym|]. econstructor; [apply HT|]. econstructor; [exact HB|]. econstructor; [|constructor].
      apply (good_call false (SSym cc) [] HC (good_sym _ _)). constructor. }
    assert (G1 : forall s e, operator s = true -> sx e -> good false (L [Y s; e])).
    { intros s e HS HE. apply good_call; [exact HS|apply good_sym|]. constructor; [now apply sx_good|constructor]. }
    assert (G2 : forall a e, good false a -> sx e -> good false (L [Y "="; a; e])).
    { intros a e Ha HE. apply good_call; [reflexivity|apply good_sym|]. constructor; [exact Ha|]. constructor; [now apply sx_good|constructor]. }
    induction p as [x|s|s|p IHp q IHq]; intros e body body1 cc n n1 H HE HC HB.
    - cbn [m1]. apply bl_call; [apply still_let|]. econstructor; [apply bx_sym|]. econstructor; [apply bx_sym|].
      econstructor; [apply (sx_good false e HE)|]. econstructor; [exact HB|constructor].
    - cbn [m1]. destruct (sexp_eqb s e); [exact HB|]. apply IF; auto. apply G2; [now apply good_flat|exact HE].
    - cbn [m1]. apply IF; auto. apply G2; [apply good_quote|exact HE].
    - cbn in H. apply andb_prop in H as (A & B). destruct (headed "cons" e) eqn:EH.
      + destruct (sx_headed e HE EH) as (a & b & -> & Ha & Hb). rewrite !m1_cons. auto.
      + rewrite !m1_other by exact EH. apply IF; auto.
        apply IHp; auto; [now constructor|]. apply IHq; auto. now constructor.
  Qed.
  Lemma m1_good : forall q p e body cc, ok_cpat p = true -> sx e -> head (SSym cc) -> good q body -> good q (m1 p e body cc).
  Proof.
    assert (IF : forall q t body cc, good q t -> head (SSym cc) -> good q body -> good q (L [Y "if"; t; body; L [SSym cc]])).
    { intros q t body cc HT HC HB. apply good_if; auto. apply (good_call q (SSym cc) [] HC (good_sym _ _)). constructor. }
    assert (G1 : forall q s e, operator s = true -> sx e -> good q (L [Y s; e])).
    { intros q s e HS HE. apply good_call; [exact HS|apply good_sym|]. constructor; [now apply sx_good|constructor]. }
    assert (G2 : forall q a e, good q a -> sx e -> good q (L [Y "="; a; e])).
    { intros q a e Ha HE. apply good_call; [reflexivity|apply good_sym|]. constructor; [exact Ha|]. constructor; [now apply sx_good|constructor]. }
    intros qb. induction p as [x|s|s|p IHp q IHq]; intros e body cc H HE HC HB.
    - cbn [m1]. apply good_let; [now apply sx_good|exact HB].
    - cbn [m1]. destruct (sexp_eqb s e); [exact HB|]. apply IF; auto. apply G2; [now apply good_flat|exact HE].
    - cbn [m1]. apply IF; auto. apply G2; [apply good_quote|exact HE].
    - cbn in H. apply andb_prop in H as (A & B). destruct (headed "cons" e) eqn:EH.
      + destruct (sx_headed e HE EH) as (a & b & -> & Ha & Hb). rewrite !m1_cons. auto.
      + rewrite !m1_other by exact EH. apply IF; auto.
        apply IHp; auto; [now constructor|]. apply IHq; auto. now constructor.
  Qed.

  (** * Every program *)
  Definition shp (x : src) (e : sexp) : Prop :=
    match x with
    | XVar s => e = Y s
    | XLit s => e = s
    | _ => match e with SSym _ | SStr _ => False | _ => True end
    end.
  Definition R (x : src) : Prop := forall env n, ok env x = true -> 1 <= n ->
    BX (show x) n (ex x n) /\ n <= snd (ex x n) /\ good (quiet x) (fst (ex x n)) /\ shp x (fst (ex x n)) /\
    import_of (fst (ex x n)) = import_call x.
  Definition RT (t : tmpl) : Prop := forall env n, ok_tmpl env t = true -> 1 <= n ->
    BX (backquote false (show_tmpl t)) n (ext t n) /\ n <= snd (ext t n) /\ good (quiet_tmpl t) (fst (ext t n)).

  Lemma good_by : forall q e, good false e -> (q = true -> good true e) -> good q e.
  Proof. intros [|] e H1 H2; auto. Qed.
  Lemma no_match_good : forall q, good q no_match.
  Proof. intro q. apply good_call; [reflexivity|apply good_sym|]. constructor; [now apply good_flat|constructor]. Qed.
  Lemma no_cond_good : forall q, good q no_cond.
  Proof. intro q. apply good_call; [reflexivity|apply good_sym|]. constructor; [now apply good_flat|constructor]. Qed.
  Lemma show_not_where : forall env b, ok env b = true -> headed "where" (show b) = false.
  Proof.
    intros env b H. destruct b; try reflexivity.
    - cbn in H. destruct s; try discriminate; reflexivity.
    - cbn in H. apply andb_prop in H as (H & _). apply andb_prop in H as (H & H2). cbn [show seq_of fold_right headed].
      destruct b as [s| |x|ps b|a b c|a b|f l|bs b|cs|l|l|l|l|l t|t|v cs|x e|f ps b|f cs|p imports b]; try reflexivity.
      + destruct s; try discriminate; reflexivity.
      + cbn. unfold operator in H. apply negb_true_iff in H. unfold among in H. cbn [existsb] in H.
        repeat match type of H with _ || _ = false => apply orb_false_iff in H; let X := fresh in destruct H as (X & H) end. assumption.
  Qed.

  Section RulesBX.
    Context {P : Type} (ds : P -> cpat) (showP : P -> sexp) (okP : P -> Prop).
    Hypothesis ds_ok : forall p, okP p -> ok_cpat (ds p) = true.
    Hypothesis mx_P : forall p n, okP p -> exists m, forall k, m <= k -> mx k (showP p) n = Some (csexp (ds p), n).
    Notation rules := (list (P * option src * src)).
    Definition raw_action (g : option src) (b : src) (cc : name) : sexp :=
      match g with None => show b | Some g => L [Y "if"; show g; show b; L [SSym cc]] end.
    Fixpoint raw_rules (val : sexp) (cs : rules) (i : nat) : sexp :=
      match cs with
      | [] => no_match
      | q :: r =>
          L [Y "let"; SSym (NG i); L [Y "lambda"; SNil; raw_rules val r (S i)];
             m1 (ds (fst (fst q))) val (raw_action (snd (fst q)) (snd q) (NG i)) (NG i)]
      end.
    Definition act_show (q : P * option src * src) : sexp :=
      match snd (fst q) with None => show (snd q) | Some g => seq_of [Y "where"; show g; show (snd q)] end.
    Definition rules_show (cs : rules) : sexp :=
      fold_right (fun q r => SCons (showP (fst (fst q))) (SCons (act_show q) r)) SNil cs.
    Definition okq (q : P * option src * src) : Prop :=
      okP (fst (fst q)) /\ exists env, match snd (fst q) with Some g => ok env g = true | None => True end /\ ok env (snd q) = true.

    Lemma match_helper_raw : forall val cs i, sx val -> Forall okq cs ->
      exists m, forall k, m <= k -> match_helper (mx k) val (rules_show cs) i = Some (raw_rules val cs i, i + List.length cs).
    Proof.
      intros val cs i HV F. revert i. induction F as [|q cs (HP & env & HG & HB) _ IH]; intro i.
      - exists 0. intros. cbn. now rewrite Nat.add_0_r.
      - destruct (IH (S i)) as (a & HA). destruct (mx_P (fst (fst q)) (S i) HP) as (b & HM).
        exists (max a b). intros k Hk. change (rules_show (q :: cs)) with (SCons (showP (fst (fst q))) (SCons (act_show q) (rules_show cs))).
        cbn [match_helper].
        assert (E : rule_action (act_show q) (NG i) = Some (raw_action (snd (fst q)) (snd q) (NG i))).
        { unfold rule_action, act_show, raw_action. destruct (snd (fst q)) as [g|]; [reflexivity|]. now rewrite (show_not_where _ _ HB). }
        rewrite E, HM by lia. rewrite match1_m1 by auto. rewrite HA by lia. cbn [raw_rules List.length]. now rewrite Nat.add_succ_r.
    Qed.

    Definition onq (q : P * option src * src) : Prop := on_guard R (snd (fst q)) /\ R (snd q).
    Definition quietq (q : P * option src * src) : bool :=
      match snd (fst q) with Some g => quiet g | None => true end && quiet (snd q).
    Lemma bx_rules : forall val cs i n, sx val -> Forall okq cs -> Forall onq cs -> 1 <= i -> 1 <= n ->
      BX (raw_rules val cs i) n (gen_rules ds ex val cs i n) /\ n <= snd (gen_rules ds ex val cs i n) /\
      good (forallb quietq cs) (fst (gen_rules ds ex val cs i n)) /\
      (exists h t, fst (gen_rules ds ex val cs i n) = SCons h t) /\ import_of (fst (gen_rules ds ex val cs i n)) = None.
    Proof.
      intros val cs i n HV F1 F2. revert i n. induction F1 as [|q cs (HP & env & HG & HB) F1 IH]; intros i n Hi Hn.
      - cbn [raw_rules gen_rules fst snd forallb]. split; [apply (no_match_good false)|]. split; [lia|]. split; [apply no_match_good|].
        split; [do 2 eexists; reflexivity|reflexivity].
      - inversion F2 as [|? ? (RG & RB) F2']; subst. specialize (IH F2' (S i) n ltac:(lia) Hn).
        cbn [raw_rules gen_rules]. destruct (gen_rules ds ex val cs (S i) n) as (rest, n1). cbn [fst snd] in IH.
        destruct IH as (IB & IL & IG & _ & _).
        assert (HC : head (SSym (NG i))) by (cbn; lia).
        assert (X : BX (raw_action (snd (fst q)) (snd q) (NG i)) n1 (gen_action ex (snd (fst q)) (snd q) (NG i) n1) /\
                    n1 <= snd (gen_action ex (snd (fst q)) (snd q) (NG i) n1) /\
                    good (quietq q) (fst (gen_action ex (snd (fst q)) (snd q) (NG i) n1))).
        { unfold raw_action, gen_action, quietq. destruct (snd (fst q)) as [g|]; cbn [on_guard] in RG.
          - destruct (RG env n1 HG ltac:(lia)) as (A1 & A2 & A3 & _). destruct (ex g n1) as (g1, n2). cbn [fst snd] in *.
            destruct (RB env n2 HB ltac:(lia)) as (B1 & B2 & B3 & _). destruct (ex (snd q) n2) as (b1, n3). cbn [fst snd] in *.
            split; [|split; [lia|apply good_by]].
            + apply bl_call; [apply still_if|]. econstructor; [apply bx_sym|]. econstructor; [exact A1|]. econstructor; [exact B1|].
              econstructor; [|constructor]. apply (good_call false (SSym (NG i)) [] HC (good_sym _ _)). constructor.
            + apply (good_if false); [eapply good_sub; eassumption|eapply good_sub; eassumption|].
              apply (good_call false (SSym (NG i)) [] HC (good_sym _ _)). constructor.
            + intro Q. apply andb_prop in Q as (Q1 & Q2). rewrite Q1 in A3. rewrite Q2 in B3.
              apply good_if; auto.
              apply (good_call true (SSym (NG i)) [] HC (good_sym _ _)). constructor.
          - destruct (RB env n1 HB ltac:(lia)) as (B1 & B2 & B3 & _). split; [exact B1|]. split; [exact B2|]. exact B3. }
        destruct X as (XB & XL & XG). destruct (gen_action ex (snd (fst q)) (snd q) (NG i) n1) as (act, n2). cbn [fst snd] in *.
        split; [|split; [lia|split; [apply good_by|split; [do 2 eexists; reflexivity|reflexivity]]]].
        + apply bl_call; [apply still_let|]. econstructor; [apply bx_sym|]. econstructor; [apply bx_sym|].
          econstructor; [apply bx_lam, IB|]. econstructor; [|constructor]. apply bx_m1; auto.
        + apply good_let; [|apply m1_good; auto; eapply good_sub; eassumption].
          apply (good_lam false []). eapply good_sub; eassumption.
        + intro Q. cbn [forallb] in Q. apply andb_prop in Q as (Q1 & Q2). rewrite Q1 in XG. rewrite Q2 in IG.
          apply good_let; [|apply m1_good; auto]. apply (good_lam true []). exact IG.
    Qed.

    Definition inlined (e : sexp) : bool := match e with SCons h _ => is_sym "cons" h | _ => true end.
    Lemma mx_value : forall vs n v1 n1, BX vs n (v1, n1) -> good true v1 -> exists m, forall k, m <= k -> mx k vs n = Some (v1, n1).
    Proof.
      intros vs n v1 n1 (a & HA) (_ & HG). destruct (HG eq_refl []) as (b & HB).
      exists (max a b). intros k Hk. unfold macroexpand. rewrite HA, HB by lia. reflexivity.
    Qed.
    Lemma raw_not_match : forall val cs i, headed "match" (raw_rules val cs i) = false.
    Proof. intros val [|q cs] i; reflexivity. Qed.
    Lemma bx_match_inline : forall vs n v1 n1 cs, BX vs n (v1, n1) -> sx v1 -> inlined v1 = true -> 1 <= n1 ->
      Forall okq cs -> Forall onq cs ->
      BX (SCons (Y "match") (SCons vs (rules_show cs))) n (gen_rules ds ex v1 cs n1 (n1 + List.length cs)).
    Proof.
      intros vs n v1 n1 cs HV HS HI Hn F1 F2.
      destruct (mx_value _ _ _ _ HV (sx_good true _ HS)) as (a & HA).
      destruct (match_helper_raw v1 cs n1 HS F1) as (b & HB).
      eapply (bx_macro "match" MMatch); [reflexivity|reflexivity|reflexivity| | |].
      - exists (max a b). intros k Hk. cbn [expand]. unfold rewrite_match. cbn [ocadr ocddr ocdr ocar]. rewrite HA by lia.
        unfold inlined in HI. destruct v1; rewrite ?HI; cbn [negb]; apply HB; lia.
      - apply raw_not_match.
      - apply bx_rules; auto. lia.
    Qed.
    Lemma bx_match_computed : forall vs n v1 n1 cs, BX vs n (v1, n1) -> good true v1 -> inlined v1 = false -> 1 <= n1 ->
      Forall okq cs -> Forall onq cs ->
      BX (SCons (Y "match") (SCons vs (rules_show cs))) n
        (let (c, n2) := gen_rules ds ex (SSym (NG n1)) cs (S n1) (S n1 + List.length cs) in (L [Y "let"; SSym (NG n1); v1; c], n2)).
    Proof.
      intros vs n v1 n1 cs HV HG HI Hn F1 F2.
      destruct (mx_value _ _ _ _ HV HG) as (a & HA).
      destruct (match_helper_raw (SSym (NG n1)) cs (S n1) (sx_sym _) F1) as (b & HB).
      eapply (bx_macro "match" MMatch); [reflexivity|reflexivity|reflexivity| | |].
      - exists (max a b). intros k Hk. cbn [expand]. unfold rewrite_match. cbn [ocadr ocddr ocdr ocar]. rewrite HA by lia.
        unfold inlined in HI. destruct v1; try discriminate. rewrite HI. cbn [negb]. rewrite HB by lia. reflexivity.
      - reflexivity.
      - destruct (bx_rules (SSym (NG n1)) cs (S n1) (S n1 + List.length cs) (sx_sym _) F1 F2 ltac:(lia) ltac:(lia)) as (A & _).
        destruct (gen_rules ds ex (SSym (NG n1)) cs (S n1) (S n1 + List.length cs)) as (c, n2).
        apply bl_call; [apply still_let|]. econstructor; [apply bx_sym|]. econstructor; [apply bx_sym|].
        econstructor; [apply HG|]. econstructor; [exact A|constructor].
    Qed.
  End RulesBX.

  (** ** lists of programs *)
  Definition FR (x : src) (e : sexp) : Prop := shp x e /\ import_of e = import_call x.
  Lemma R_list : forall env l n, Forall R l -> forallb (ok env) l = true -> 1 <= n ->
    BL (map show l) n (fst (gens ex l n)) (snd (gens ex l n)) /\ n <= snd (gens ex l n) /\
    goods (forallb quiet l) (fst (gens ex l n)) /\ Forall2 FR l (fst (gens ex l n)).
  Proof.
    intros env l n F. revert n. induction F as [|x l HX _ IH]; intros n HO Hn; cbn [map gens forallb].
    - cbn [fst snd]. split; [constructor|]. split; [lia|]. split; constructor.
    - cbn in HO. apply andb_prop in HO as (O1 & O2). destruct (HX env n O1 Hn) as (A1 & A2 & A3 & A4 & A5).
      destruct (ex x n) as (y, n1). cbn [fst snd] in *. destruct (IH n1 O2 ltac:(lia)) as (B1 & B2 & B3 & B4).
      destruct (gens ex l n1) as (ys, n2). cbn [fst snd] in *.
      split; [econstructor; eauto|]. split; [lia|]. split; [|constructor; [split; assumption|assumption]].
      constructor; [eapply good_weak; [|exact A3]; intro Q; now apply andb_prop in Q|].
      eapply Forall_impl; [|exact B3]. intros e He. eapply good_weak; [|exact He]. intro Q. now apply andb_prop in Q.
  Qed.
  Lemma RT_list : forall env l n, Forall RT l -> forallb (ok_tmpl env) l = true -> 1 <= n ->
    BL (map (fun t => backquote false (show_tmpl t)) l) n (fst (gens ext l n)) (snd (gens ext l n)) /\ n <= snd (gens ext l n) /\
    goods (forallb quiet_tmpl l) (fst (gens ext l n)).
  Proof.
    intros env l n F. revert n. induction F as [|x l HX _ IH]; intros n HO Hn; cbn [map gens forallb].
    - cbn [fst snd]. split; [constructor|]. split; [lia|]. constructor.
    - cbn in HO. apply andb_prop in HO as (O1 & O2). destruct (HX env n O1 Hn) as (A1 & A2 & A3).
      destruct (ext x n) as (y, n1). cbn [fst snd] in *. destruct (IH n1 O2 ltac:(lia)) as (B1 & B2 & B3).
      destruct (gens ext l n1) as (ys, n2). cbn [fst snd] in *.
      split; [econstructor; eauto|]. split; [lia|].
      constructor; [eapply good_weak; [|exact A3]; intro Q; now apply andb_prop in Q|].
      eapply Forall_impl; [|exact B3]. intros e He. eapply good_weak; [|exact He]. intro Q. now apply andb_prop in Q.
  Qed.
  Lemma gens_length : forall {A B} (f : A -> nat -> B * nat) l n, List.length (fst (gens f l n)) = List.length l.
  Proof.
    intros A B f l. induction l as [|x l IH]; intro n; cbn; [reflexivity|]. destruct (f x n) as (y, n1). specialize (IH n1).
    destruct (gens f l n1). cbn in *. now rewrite IH.
  Qed.

  Lemma simple_sx : forall locals x n, simple locals x = true -> sx (fst (ex x n)).
  Proof.
    intro locals.
    assert (CL : forall l t, Forall sx l -> sx t -> sx (conses l t)).
    { intros l t F HT. unfold conses. induction F; cbn [fold_right]; [exact HT|]. now constructor. }
    assert (GL : forall l, Forall (fun x => forall n, simple locals x = true -> sx (fst (ex x n))) l ->
      forall n, forallb (simple locals) l = true -> Forall sx (fst (gens ex l n))).
    { intros l F. induction F as [|x l HX _ IH]; intros n H; cbn; [constructor|]. cbn in H. apply andb_prop in H as (H1 & H2).
      specialize (HX n H1). destruct (ex x n) as (y, n1). specialize (IH n1 H2). destruct (gens ex l n1). constructor; assumption. }
    apply (src_ind' (fun x => forall n, simple locals x = true -> sx (fst (ex x n))) (fun _ => True)); auto; cbn [simple]; try discriminate.
    - intros s n H. now constructor.
    - intros s n _. apply sx_quote.
    - intros x n _. apply sx_sym.
    - intros f args HF FA n H. destruct f; try discriminate. destruct args as [|a [|b [|? ?]]]; try discriminate.
      apply andb_prop in H as (H & H2). apply andb_prop in H as (H0 & H1). apply String.eqb_eq in H0. subst x.
      inversion FA as [|? ? Ha FA']; subst. inversion FA' as [|? ? Hb _]; subst. cbn [ex gens].
      specialize (Ha n H1). destruct (ex a n) as (a1, n1). specialize (Hb n1 H2). destruct (ex b n1) as (b1, n2).
      apply sx_cons; assumption.
    - intros l F n H. specialize (GL l F n H). cbn [ex]. destruct (gens ex l n) as (l1, n1). apply CL; [exact GL|now constructor].
    - intros l t F HT n H. apply andb_prop in H as (H & H2). apply andb_prop in H as (_ & H). specialize (GL l F n H). cbn [ex].
      destruct (gens ex l n) as (l1, n1). specialize (HT n1 H2). destruct (ex t n1) as (t1, n2). apply CL; assumption.
  Qed.

  Lemma ex_head : forall f e, shp f e -> match f with XVar s => operator s | XLit s => is_atom s | _ => true end = true -> head e.
  Proof.
    intros f e S H. destruct f; cbn in S; subst; try exact H; try (destruct e; try contradiction; exact I).
    destruct s; try discriminate; exact I.
  Qed.
  Lemma show_still : forall env f args, ok env f = true -> match f with XVar s => operator s | _ => true end = true -> still (show f) args.
  Proof.
    intros env f args HO H. apply head_still. destruct f; cbn in *; try exact I; try exact H.
    destruct s; try discriminate; exact I.
  Qed.
  Lemma import_call_app : forall f args, import_call (XApp f args) =
    match f, args with XVar i, [XLit (SStr p)] => if String.eqb i "import" then Some p else None | _, _ => None end.
  Proof. destruct f; reflexivity. Qed.
  Lemma import_app : forall f args e l, shp f e -> match f with XLit s => is_atom s | _ => true end = true ->
    Forall2 FR args l -> import_of (L (e :: l)) = import_call (XApp f args).
  Proof.
    intros f args e l SF HA F. rewrite import_call_app. unfold import_of. rewrite slist_of_list.
    assert (NI : (forall s, f <> XVar s) -> is_sym "import" e = false).
    { intro N. destruct f; cbn in SF, HA; try (destruct e; try contradiction; reflexivity); [|exfalso; eapply N; reflexivity].
      subst e. destruct s; try discriminate; reflexivity. }
    destruct F as [|a e1 args l (FA & _) F]; [destruct f; reflexivity|].
    destruct F as [|a2 e2 args l FA2 F].
    2: { destruct e1; destruct f; try reflexivity; destruct a as [[]| | | | | | | | | | | | | | | | | | |]; reflexivity. }
    destruct f; cbn [shp] in SF; try (rewrite NI by discriminate; destruct e1; reflexivity).
    subst e. cbn [is_sym name_eqb]. destruct a; cbn [shp] in FA; try (destruct e1; try contradiction; reflexivity); subst e1; reflexivity.
  Qed.

  Lemma bx_macro_neq : forall s m t n e1 n1 r, macro_of (NS s) = Some m -> is_sym "lambda" (Y s) = false -> is_sym "quote" (Y s) = false ->
    (forall mx', expand m mx' (SCons (Y s) t) n = Some (e1, n1)) ->
    e1 <> SCons (Y s) t -> BX e1 n1 r -> BX (SCons (Y s) t) n r.
  Proof.
    intros s m t n e1 n1 r HM Q1 Q2 HE HH (m2 & H). exists (S m2). intros [|k] Hk; [lia|].
    rewrite boot_S, Q1, Q2. unfold expand1. rewrite HM. cbn [is_protect name_eqb protect]. rewrite HE.
    destruct (sexp_eqb e1 (SCons (Y s) t)) eqn:E; [|apply H; lia].
    apply sexp_eqb_eq in E. contradiction.
  Qed.

  Lemma import_long : forall h a b l, import_of (L (h :: a :: b :: l)) = None.
  Proof. intros. unfold import_of. rewrite slist_of_list. destruct a; reflexivity. Qed.

  (** let *)
  Fixpoint ok_let (env : list string) (bs : list (string * src)) (b : src) : bool :=
    match bs with
    | [] => ok env b
    | (x, e) :: r => binder x && ok env e && ok_let (x :: env) r b
    end.
  Lemma ok_let_eq : forall env bs b, ok env (XLet bs b) = some_of bs && ok_let env bs b.
  Proof.
    intros env bs b. cbn [ok]. f_equal. revert env. induction bs as [|(x, e) bs IH]; intro env; cbn; [reflexivity|]. now rewrite IH.
  Qed.
  Definition gen_binds := gens (fun (q : string * src) n => let (e, m) := ex (snd q) n in ((fst q, e), m)).
  Lemma bx_lets : forall bs b env n, Forall (fun q => R (snd q)) bs -> R b -> ok_let env bs b = true -> 1 <= n ->
    let '(l, n1) := gen_binds bs n in let (b1, n2) := ex b n1 in
    BX (lets (map (fun q => (fst q, show (snd q))) bs) (show b)) n (lets l b1, n2) /\ n <= n2 /\
    good (forallb (fun q => quiet (snd q)) bs && quiet b) (lets l b1).
  Proof.
    intros bs b env n F HB. revert env n. induction F as [|(x, e) bs HE _ IH]; intros env n HO Hn; unfold gen_binds; cbn [gens ok_let] in *.
    - destruct (HB env n HO Hn) as (A & B & C & _). destruct (ex b n) as (b1, n2). cbn in *. auto.
    - apply andb_prop in HO as (HO & O2). apply andb_prop in HO as (_ & O1). cbn [fst snd] in *.
      destruct (HE env n O1 Hn) as (A1 & A2 & A3 & _). destruct (ex e n) as (e1, n1). cbn [fst snd] in *.
      specialize (IH (x :: env) n1 O2 ltac:(lia)). unfold gen_binds in IH.
      destruct (gens _ bs n1) as (l, n2). destruct (ex b n2) as (b1, n3). destruct IH as (B1 & B2 & B3).
      split; [|split; [lia|]].
      + unfold lets in *. cbn [map fold_right fst snd]. apply bl_call; [apply still_let|]. econstructor; [apply bx_sym|].
        econstructor; [apply bx_sym|]. econstructor; [exact A1|]. econstructor; [exact B1|constructor].
      + unfold lets in *. cbn [map fold_right fst snd forallb]. apply good_let.
        * eapply good_weak; [|exact A3]. intro Q. apply andb_prop in Q as (Q & _). now apply andb_prop in Q.
        * eapply good_weak; [|exact B3]. intro Q. apply andb_prop in Q as (Q & Q2). apply andb_prop in Q as (_ & Q). now rewrite Q, Q2.
  Qed.
  Lemma rewrite_let_show : forall bs b,
    rewrite_let (fold_right (fun q r => SCons (Y (fst q)) (SCons (show (snd q)) r)) (seq_of [show b]) bs) =
    Some (lets (map (fun q => (fst q, show (snd q))) bs) (show b)).
  Proof.
    intros bs b. induction bs as [|q bs IH]; [reflexivity|]. cbn [fold_right rewrite_let]. rewrite IH. reflexivity.
  Qed.
  Lemma R_let : forall bs b, Forall (fun q => R (snd q)) bs -> R b -> R (XLet bs b).
  Proof.
    intros bs b F HB env n HO Hn. rewrite ok_let_eq in HO. apply andb_prop in HO as (O1 & O2).
    pose proof (bx_lets bs b env n F HB O2 Hn) as X. unfold gen_binds in X. cbn [ex show quiet].
    destruct (gens _ bs n) as (l, n1) eqn:EG. destruct (ex b n1) as (b1, n2). destruct X as (X1 & X2 & X3). cbn [fst snd].
    destruct bs as [|q1 bs]; [discriminate|].
    assert (EL : exists q l', l = q :: l').
    { pose proof (gens_length (fun (q : string * src) n => let (e, m) := ex (snd q) n in ((fst q, e), m)) (q1 :: bs) n) as LL.
      rewrite EG in LL. cbn in LL. destruct l; [discriminate|eauto]. }
    destruct EL as (q & l' & ->).
    split; [|split; [exact X2|split; [exact X3|split; [exact I|apply import_long]]]].
    destruct bs as [|q2 bs]; [exact X1|].
    eapply (bx_macro_neq "let" MLet); [reflexivity|reflexivity|reflexivity| | |exact X1].
    - intro mx'. cbn [expand ocdr pure]. rewrite rewrite_let_show. reflexivity.
    - unfold lets. cbn [map fold_right of_list fst snd]. intro H. injection H as _ H. destruct bs; discriminate.
  Qed.

  (** cond *)
  Definition gen_conds := gens (fun (q : src * src) n => let (a, n1) := ex (fst q) n in let (b, n2) := ex (snd q) n1 in ((a, b), n2)).
  Lemma R_cond : forall cs, Forall (fun q => R (fst q) /\ R (snd q)) cs -> R (XCond cs).
  Proof.
    intros cs F env n HO Hn. cbn [ok] in HO.
    assert (X : let (l, n1) := gen_conds cs n in
      BX (show (XCond cs)) n (ifs l, n1) /\ n <= n1 /\
      good (forallb (fun q => quiet (fst q) && quiet (snd q)) cs) (ifs l)).
    { revert n Hn. induction F as [|(a, b) cs (HA & HB) _ IH]; intros n Hn; unfold gen_conds; cbn [gens forallb fst snd] in *.
      - split; [|split; [lia|apply no_cond_good]]. cbn [show seq_of fold_right map].
        eapply (bx_pure "cond" MCond); [reflexivity|reflexivity|reflexivity|intro; reflexivity|reflexivity|]. apply (no_cond_good false).
      - apply andb_prop in HO as (O1 & O2). apply andb_prop in O1 as (Oa & Ob).
        destruct (HA env n Oa Hn) as (A1 & A2 & A3 & _). destruct (ex a n) as (a1, n1). cbn [fst snd] in *.
        destruct (HB env n1 Ob ltac:(lia)) as (B1 & B2 & B3 & _). destruct (ex b n1) as (b1, n2). cbn [fst snd] in *.
        specialize (IH O2 n2 ltac:(lia)). unfold gen_conds in IH. destruct (gens _ cs n2) as (l, n3). destruct IH as (C1 & C2 & C3).
        split; [|split; [lia|]].
        + change (show (XCond ((a, b) :: cs))) with (SCons (Y "cond") (SCons (L [show a; show b]) (seq_of (map (fun q => seq_of [show (fst q); show (snd q)]) cs)))).
          eapply (bx_pure "cond" MCond); [reflexivity|reflexivity|reflexivity|intro; reflexivity|reflexivity|].
          unfold ifs. cbn [fold_right fst snd]. fold (ifs l). apply bl_call; [apply still_if|].
          econstructor; [apply bx_sym|]. econstructor; [exact A1|]. econstructor; [exact B1|]. econstructor; [exact C1|constructor].
        + unfold ifs. cbn [fold_right fst snd]. fold (ifs l). apply good_if.
          * eapply good_weak; [|exact A3]. intro Q. apply andb_prop in Q as (Q & _). now apply andb_prop in Q.
          * eapply good_weak; [|exact B3]. intro Q. apply andb_prop in Q as (Q & _). now apply andb_prop in Q.
          * eapply good_weak; [|exact C3]. intro Q. now apply andb_prop in Q as (_ & Q). }
    unfold gen_conds in X. cbn [ex quiet]. destruct (gens _ cs n) as (l, n1) eqn:EG. destruct X as (X1 & X2 & X3). cbn [fst snd].
    split; [exact X1|]. split; [exact X2|]. split; [exact X3|]. destruct l; (split; [exact I|]); [reflexivity|apply import_long].
  Qed.

  (** and, or *)
  Lemma show_not : forall env x s, ok env x = true -> s = STrue \/ s = SFalse -> x <> XLit s -> sexp_eqb (show x) s = false.
  Proof.
    intros env x s H HS N. destruct (sexp_eqb (show x) s) eqn:E; [|reflexivity]. exfalso. apply sexp_eqb_eq in E.
    destruct x; cbn in E; try (destruct HS; subst; discriminate). apply N. congruence.
  Qed.
  Lemma rewrite_and_show : forall env l, forallb (fun x => match x with XLit SFalse => false | _ => true end && ok env x) l = true ->
    rewrite_and (L (map show l)) = Some (ands (map show l)).
  Proof.
    intros env l H. induction l as [|x l IH]; [reflexivity|]. cbn [forallb] in H. apply andb_prop in H as (H1 & H2). apply andb_prop in H1 as (H0 & H1).
    unfold ands in *. cbn [map of_list rewrite_and fold_right]. rewrite IH by exact H2. rewrite (show_not env x SFalse H1); [|now right|intros ->; discriminate].
    destruct (map show l); reflexivity.
  Qed.
  Lemma rewrite_or_show : forall env l, forallb (fun x => match x with XLit STrue => false | _ => true end && ok env x) l = true ->
    rewrite_or (L (map show l)) = Some (ors (map show l)).
  Proof.
    intros env l H. induction l as [|x l IH]; [reflexivity|]. cbn [forallb] in H. apply andb_prop in H as (H1 & H2). apply andb_prop in H1 as (H0 & H1).
    unfold ors in *. cbn [map of_list rewrite_or fold_right]. rewrite IH by exact H2. rewrite (show_not env x STrue H1); [|now left|intros ->; discriminate].
    destruct (map show l); reflexivity.
  Qed.
  Lemma forallb_and2 : forall {A} (f g : A -> bool) l, forallb (fun x => f x && g x) l = true -> forallb g l = true.
  Proof. intros A f g l H. rewrite forallb_forall in *. intros x Hx. apply H in Hx. now apply andb_prop in Hx. Qed.
  Lemma bx_ands : forall l n l1 n1, BL l n l1 n1 -> BX (ands l) n (ands l1, n1).
  Proof.
    intros l n l1 n1 H. unfold ands. induction H; cbn [fold_right]; [apply bx_flat; exact I|].
    apply bl_call; [apply still_if|]. econstructor; [apply bx_sym|]. econstructor; [eassumption|]. econstructor; [apply IHBL|].
    econstructor; [apply bx_flat; exact I|constructor].
  Qed.
  Lemma bx_ors : forall l n l1 n1, BL l n l1 n1 -> BX (ors l) n (ors l1, n1).
  Proof.
    intros l n l1 n1 H. unfold ors. induction H; cbn [fold_right]; [apply bx_flat; exact I|].
    apply bl_call; [apply still_if|]. econstructor; [apply bx_sym|]. econstructor; [eassumption|]. econstructor; [apply bx_flat; exact I|].
    econstructor; [apply IHBL|constructor].
  Qed.
  Lemma good_ands : forall q l, goods q l -> good q (ands l).
  Proof. intros q l H. unfold ands. induction H; cbn [fold_right]; [now apply good_flat|]. apply good_if; auto. now apply good_flat. Qed.
  Lemma good_ors : forall q l, goods q l -> good q (ors l).
  Proof. intros q l H. unfold ors. induction H; cbn [fold_right]; [now apply good_flat|]. apply good_if; auto. now apply good_flat. Qed.
  Lemma R_and : forall l, Forall R l -> R (XAnd l).
  Proof.
    intros l F env n HO Hn. cbn [ok] in HO. pose proof (rewrite_and_show env l HO) as RW. apply forallb_and2 in HO.
    destruct (R_list env l n F HO Hn) as (A1 & A2 & A3 & _). cbn [ex quiet]. destruct (gens ex l n) as (l1, n1). cbn [fst snd] in *.
    split; [|split; [exact A2|split; [now apply good_ands|split; destruct l1; exact I || reflexivity || apply import_long]]].
    cbn [show]. rewrite seq_of_list. cbn [of_list].
    eapply (bx_pure "and" MAnd); [reflexivity|reflexivity|reflexivity| | |apply bx_ands, A1].
    - intro. cbn [expand ocdr pure]. rewrite RW. reflexivity.
    - destruct (map show l); reflexivity.
  Qed.
  Lemma R_or : forall l, Forall R l -> R (XOr l).
  Proof.
    intros l F env n HO Hn. cbn [ok] in HO. pose proof (rewrite_or_show env l HO) as RW. apply forallb_and2 in HO.
    destruct (R_list env l n F HO Hn) as (A1 & A2 & A3 & _). cbn [ex quiet]. destruct (gens ex l n) as (l1, n1). cbn [fst snd] in *.
    split; [|split; [exact A2|split; [now apply good_ors|split; destruct l1; exact I || reflexivity || apply import_long]]].
    cbn [show]. rewrite seq_of_list. cbn [of_list].
    eapply (bx_pure "or" MOr); [reflexivity|reflexivity|reflexivity| | |apply bx_ors, A1].
    - intro. cbn [expand ocdr pure]. rewrite RW. reflexivity.
    - destruct (map show l); reflexivity.
  Qed.

  (** begin *)
  Lemma bx_dos : forall l n l1 n1, l <> [] -> BL l n l1 n1 -> BX (dos l) n (dos l1, n1).
  Proof.
    intros l n l1 n1 N H. induction H as [|e l n e1 n1 l1 n2 HE HL IH]; [contradiction|].
    destruct HL as [|e' l n1 e1' n1' l1 n2 HE' HL]; [exact HE|]. specialize (IH ltac:(discriminate)).
    change (dos (e :: e' :: l)) with (L [Y "do"; e; dos (e' :: l)]). change (dos (e1 :: e1' :: l1)) with (L [Y "do"; e1; dos (e1' :: l1)]).
    apply bl_call; [apply still_do|]. econstructor; [apply bx_sym|]. econstructor; [exact HE|]. econstructor; [exact IH|constructor].
  Qed.
  Lemma rewrite_begin_list : forall l, l <> [] -> rewrite_begin (L l) = Some (dos l).
  Proof.
    induction l as [|x l IH]; intro N; [contradiction|]. destruct l as [|y l]; [reflexivity|]. specialize (IH ltac:(discriminate)).
    cbn [of_list rewrite_begin] in *. destruct l as [|z l]; [reflexivity|]. cbn [of_list] in *. rewrite IH. reflexivity.
  Qed.
  Lemma good_dos : forall q l xs, goods q l -> (q = true -> forallb quiet xs = true) -> Forall2 FR xs l -> good q (dos l).
  Proof.
    intros q l xs H HQ F. revert HQ. induction F as [|x e xs l (_ & HI) F IH]; intro HQ; [now apply good_flat|].
    inversion H as [|? ? HE HL]; subst. destruct F as [|x2 e2 xs l HX F]; [exact HE|].
    change (dos (e :: e2 :: l)) with (L [Y "do"; e; dos (e2 :: l)]). apply good_do; auto.
    - intro Q. specialize (HQ Q). cbn in HQ. apply andb_prop in HQ as (HQ & _). rewrite HI.
      destruct x; try reflexivity. cbn [quiet] in HQ. destruct (import_call (XApp x args)); [discriminate|reflexivity].
    - apply IH; auto. intro Q. specialize (HQ Q). cbn in *. now apply andb_prop in HQ.
  Qed.
  Lemma R_begin : forall l, Forall R l -> R (XBegin l).
  Proof.
    intros l F env n HO Hn. cbn [ok] in HO. apply andb_prop in HO as (HN & HO).
    destruct (R_list env l n F HO Hn) as (A1 & A2 & A3 & A4). cbn [ex quiet]. pose proof (gens_length ex l n) as LL.
    destruct (gens ex l n) as (l1, n1). cbn [fst snd] in *.
    assert (NN : match l1 with _ :: _ :: _ => True | _ => False end) by (destruct l as [|? [|? ?]]; destruct l1 as [|? [|? ?]]; cbn in *; try discriminate; exact I).
    split; [|split; [exact A2|split; [|destruct l1 as [|? [|? ?]]; try contradiction; split; [exact I|apply import_long]]]].
    - assert (N : map show l <> []) by (destruct l; discriminate). cbn [show]. rewrite seq_of_list. cbn [of_list].
      eapply (bx_pure "begin" MBegin); [reflexivity|reflexivity|reflexivity| | |eapply bx_dos; [exact N|exact A1]].
      + intro. cbn [expand ocdr pure]. rewrite rewrite_begin_list by exact N. reflexivity.
      + destruct l as [|? [|? ?]]; try discriminate. reflexivity.
    - eapply good_dos; eauto.
  Qed.

  (** list and backquote *)
  Lemma R_listx : forall l, Forall R l -> R (XList l).
  Proof.
    intros l F env n HO Hn. cbn [ok] in HO.
    destruct (R_list env l n F HO Hn) as (A1 & A2 & A3 & A4). cbn [ex quiet show].
    destruct (gens ex l n) as (l1, n1). cbn [fst snd] in *. rewrite seq_of_list.
    split; [apply bx_list, A1|]. split; [exact A2|]. split; [apply good_conses; [exact A3|now apply good_flat]|].
    destruct l1; split; exact I || reflexivity || apply import_long.
  Qed.
  Lemma R_list_rest : forall l t, Forall R l -> R t -> R (XListRest l t).
  Proof.
    intros l t F HT env n HO Hn. cbn [ok] in HO. apply andb_prop in HO as (HO & OT). apply andb_prop in HO as (HN & HO).
    destruct (R_list env l n F HO Hn) as (A1 & A2 & A3 & A4). cbn [ex quiet show]. pose proof (gens_length ex l n) as LL.
    destruct (gens ex l n) as (l1, n1). cbn [fst snd] in *.
    destruct (HT env n1 OT ltac:(lia)) as (B1 & B2 & B3 & _). destruct (ex t n1) as (t1, n2). cbn [fst snd] in *. rewrite seq_of_list.
    split; [eapply bx_list_rest; [destruct l; discriminate|exact A1|exact B1]|]. split; [lia|]. split.
    - apply good_conses.
      + eapply Forall_impl; [|exact A3]. intros e He. eapply good_weak; [|exact He]. intro Q. now apply andb_prop in Q.
      + eapply good_weak; [|exact B3]. intro Q. now apply andb_prop in Q.
    - destruct l; [discriminate|]. destruct l1; [discriminate|]. split; [exact I|apply import_long].
  Qed.
  Lemma backquote_tail : forall l, backquote true (L l) = L (map (backquote false) l).
  Proof. induction l as [|a l IH]; [reflexivity|]. cbn [of_list map backquote]. now rewrite IH. Qed.
  Lemma backquote_list : forall env l, ok_tmpl env (TList l) = true ->
    backquote false (show_tmpl (TList l)) = L (Y "list" :: map (fun t => backquote false (show_tmpl t)) l).
  Proof.
    intros env l H. cbn [ok_tmpl] in H. apply andb_prop in H as (H & H2). apply andb_prop in H as (HN & HU).
    cbn [show_tmpl]. rewrite seq_of_list. destruct l as [|t l]; [discriminate|]. cbn [map of_list backquote].
    rewrite backquote_tail, map_map.
    destruct (is_sym "unquote" (show_tmpl t)) eqn:E; [|reflexivity].
    assert (ET : t = TSym (NS "unquote")).
    { apply is_sym_eq in E. destruct t as [s|x|e|l2]; cbn in *; try discriminate.
      - subst s. apply andb_prop in H2 as (H2 & _). discriminate.
      - unfold ssym in E; congruence.
      - destruct l2; discriminate. }
    subst t. destruct l as [|t2 l]; [reflexivity|]. destruct l as [|t3 l]; [discriminate HU|reflexivity].
  Qed.
  Lemma RT_listx : forall l, Forall RT l -> RT (TList l).
  Proof.
    intros l F env n HO Hn. rewrite (backquote_list env l HO). cbn [ok_tmpl] in HO. apply andb_prop in HO as (HO & H2).
    destruct (RT_list env l n F H2 Hn) as (A1 & A2 & A3). cbn [ext quiet_tmpl].
    destruct (gens ext l n) as (l1, n1). cbn [fst snd] in *.
    split; [apply bx_list, A1|]. split; [exact A2|]. apply good_conses; [exact A3|now apply good_flat].
  Qed.
  Lemma R_back : forall t, RT t -> R (XBack t).
  Proof.
    intros t HT env n HO Hn. cbn [ok] in HO. apply andb_prop in HO as (H1 & H2). destruct (HT env n H2 Hn) as (A1 & A2 & A3).
    cbn [ex quiet show]. rewrite seq_of_list.
    split; [|split; [exact A2|split; [exact A3|]]].
    - cbn [of_list]. eapply (bx_pure "backquote" MBackquote); [reflexivity|reflexivity|reflexivity|intro; reflexivity| |exact A1].
      destruct t as [s|x|e|l]; try discriminate; [destruct s; try discriminate; reflexivity|reflexivity|]. now rewrite (backquote_list env l H2).
    - destruct t as [s|x|e|l]; try discriminate; [destruct s; try discriminate; split; exact I || reflexivity|split; [exact I|reflexivity]|]. cbn [ext]. pose proof (gens_length ext l n) as LL.
      destruct (gens ext l n) as (l1, n1). cbn [fst] in *. destruct l1; split; exact I || reflexivity || apply import_long.
  Qed.

  (** the core forms *)
  Lemma quiet_import : forall x, quiet x = true -> import_call x = None.
  Proof. intros x H. destruct x; try reflexivity. cbn [quiet] in H. destruct (import_call (XApp x args)); [discriminate|reflexivity]. Qed.
  Ltac use HR env n O :=
    let A1 := fresh "A" in let A2 := fresh "A" in let A3 := fresh "A" in let A4 := fresh "A" in let A5 := fresh "A" in
    destruct (HR env n O ltac:(lia)) as (A1 & A2 & A3 & A4 & A5);
    match type of A1 with BX (show ?x) _ _ => destruct (ex x n) as (?x1, ?n1) end; cbn [fst snd] in *.
  Lemma R_if : forall a b c, R a -> R b -> R c -> R (XIf a b c).
  Proof.
    intros a b c HA HB HC env n HO Hn. cbn [ok] in HO. apply andb_prop in HO as (HO & Oc). apply andb_prop in HO as (Oa & Ob).
    cbn [ex show quiet]. rewrite seq_of_list. use HA env n Oa. use HB env n1 Ob. use HC env n0 Oc.
    split; [|split; [lia|split; [|split; [exact I|apply import_long]]]].
    - apply bl_call; [apply still_if|]. econstructor; [apply bx_sym|]. econstructor; [eassumption|]. econstructor; [eassumption|]. econstructor; [eassumption|constructor].
    - apply good_if; (eapply good_weak; [|eassumption]); intro Q; apply andb_prop in Q as (Q & Q2); apply andb_prop in Q as (Q & Q1); assumption.
  Qed.
  Lemma R_do : forall a b, R a -> R b -> R (XDo a b).
  Proof.
    intros a b HA HB env n HO Hn. cbn [ok] in HO. apply andb_prop in HO as (Oa & Ob).
    cbn [ex show quiet]. rewrite seq_of_list. use HA env n Oa. use HB env n1 Ob.
    split; [|split; [lia|split; [|split; [exact I|apply import_long]]]].
    - apply bl_call; [apply still_do|]. econstructor; [apply bx_sym|]. econstructor; [eassumption|]. econstructor; [eassumption|constructor].
    - apply good_do; [|eapply good_weak; [|eassumption]..]; intro Q; apply andb_prop in Q as (Q & Q1); try assumption.
      match goal with H : import_of x1 = _ |- _ => rewrite H end. now apply quiet_import.
  Qed.
  Lemma bx_lambda : forall (ps : list string) b n b1 n1, BX b n (b1, n1) ->
    BX (seq_of [Y "lambda"; seq_of (map (fun x => Y x) ps); b]) n (lam (map NS ps) b1, n1).
  Proof. intros ps b n b1 n1 H. rewrite !seq_of_list. unfold lam. rewrite map_map. now apply bx_lam. Qed.
  Lemma R_lam : forall ps b, R b -> R (XLam ps b).
  Proof.
    intros ps b HB env n HO Hn. cbn [ok] in HO. apply andb_prop in HO as (Op & Ob). cbn [ex show quiet]. use HB (ps ++ env) n Ob.
    split; [now apply bx_lambda|]. split; [lia|]. split; [now apply good_lam|]. split; [exact I|apply import_long].
  Qed.
  Lemma quiet_app : forall f args, quiet (XApp f args) = true -> quiet f = true /\ forallb quiet args = true.
  Proof. intros f args. cbn [quiet]. destruct (import_call (XApp f args)); [discriminate|]. apply andb_prop. Qed.
  Lemma R_app : forall f args, R f -> Forall R args -> R (XApp f args).
  Proof.
    intros f args HF FA env n HO Hn. cbn [ok] in HO. apply andb_prop in HO as (HO & Oa). apply andb_prop in HO as (OH & Of).
    cbn [ex show]. rewrite seq_of_list. pose proof (show_still env f (map show args) Of OH) as ST. use HF env n Of.
    destruct (R_list env args n1 FA Oa ltac:(lia)) as (B1 & B2 & B3 & B4). destruct (gens ex args n1) as (l, n2). cbn [fst snd] in *.
    assert (LA : match f with XLit s => is_atom s | _ => true end = true) by (destruct f; auto).
    split; [|split; [lia|split; [|split; [exact I|]]]].
    - apply bl_call; [exact ST|]. econstructor; eassumption.
    - apply good_call.
      + eapply ex_head; [eassumption|]. destruct f; auto.
      + eapply good_weak; [|eassumption]. intro Q. now apply quiet_app in Q.
      + eapply Forall_impl; [|exact B3]. intros e He. eapply good_weak; [|exact He]. intro Q. now apply quiet_app in Q.
    - apply import_app; assumption.
  Qed.
  Lemma R_def : forall x e, R e -> R (XDef x e).
  Proof.
    intros x e HE env n HO Hn. cbn [ok] in HO. cbn [ex show quiet]. rewrite seq_of_list. use HE env n HO.
    split; [|split; [lia|split; [|split; [exact I|apply import_long]]]].
    - apply bl_call; [repeat split|]. econstructor; [apply bx_sym|]. econstructor; [apply bx_sym|]. econstructor; [eassumption|constructor].
    - apply good_def. eapply good_sub; eassumption.
  Qed.
  Lemma bx_defun : forall f args b n b1 n1, BX b n (b1, n1) ->
    BX (L [Y "defun"; Y f; L (map SSym args); b]) n (L [Y "def"; Y f; lam args b1], n1).
  Proof.
    intros f args b n b1 n1 H.
    change (L [Y "defun"; Y f; L (map SSym args); b]) with (SCons (Y "defun") (SCons (Y f) (SCons (L (map SSym args)) (SCons b SNil)))).
    eapply (bx_pure "defun" MDefun); [reflexivity|reflexivity|reflexivity|intro; reflexivity|reflexivity|].
    apply bl_call; [repeat split|]. econstructor; [apply bx_sym|]. econstructor; [apply bx_sym|]. econstructor; [apply bx_lam, H|constructor].
  Qed.
  Lemma R_defun : forall f ps b, R b -> R (XDefun f ps b).
  Proof.
    intros f ps b HB env n HO Hn. cbn [ok] in HO. apply andb_prop in HO as (Op & Ob). cbn [ex show quiet]. rewrite !seq_of_list. use HB (ps ++ env) n Ob.
    split; [|split; [lia|split; [|split; [exact I|apply import_long]]]].
    - replace (map (fun x => Y x) ps) with (map SSym (map NS ps)) by apply map_map. now apply bx_defun.
    - apply good_def. apply good_lam. eapply good_sub; eassumption.
  Qed.
  Lemma R_ns : forall p imports b, R b -> R (XNs p imports b).
  Proof.
    intros p imports b HB env n HO Hn. cbn [ok] in HO. cbn [ex show quiet]. rewrite !seq_of_list. use HB env n HO.
    split; [|split; [lia|split; [|split; [exact I|apply import_long]]]].
    - apply bl_call; [repeat split|]. econstructor; [apply bx_sym|]. econstructor; [apply bx_flat; exact I|].
      econstructor; [apply good_strings|]. econstructor; [eassumption|constructor].
    - apply good_ns. eapply good_sub; eassumption.
  Qed.

  (** match *)
  Lemma forallb_Forall : forall {A} (f : A -> bool) (Q : A -> Prop) l, (forall x, f x = true -> Q x) -> forallb f l = true -> Forall Q l.
  Proof. intros A f Q l H E. rewrite forallb_forall in E. apply Forall_forall. auto. Qed.
  Definition okpat (p : pat) : Prop := ok_pat p = true.
  Lemma match_okq : forall env (cs : list (pat * option src * src)),
    forallb (fun q => ok_pat (fst (fst q)) &&
      match snd (fst q) with Some g => ok (pvars (fst (fst q)) ++ env) g | None => true end &&
      ok (pvars (fst (fst q)) ++ env) (snd q)) cs = true -> Forall (okq okpat) cs.
  Proof.
    intros env cs. apply forallb_Forall. intros q H. apply andb_prop in H as (H & H3). apply andb_prop in H as (H1 & H2).
    split; [exact H1|]. exists (pvars (fst (fst q)) ++ env). split; [|exact H3]. destruct (snd (fst q)); auto.
  Qed.
  Ltac exs := repeat match goal with |- context [match ?t with (_, _) => _ end] => destruct t end.
  Lemma rules_cons : forall {P} (ds : P -> cpat) f val cs i n, exists h t, fst (gen_rules ds f val cs i n) = SCons h t /\ is_sym "cons" h = false.
  Proof.
    intros P ds f val [|q cs] i n; cbn [gen_rules]; [do 2 eexists; split; reflexivity|]. exs. do 2 eexists; split; reflexivity.
  Qed.
  Lemma ex_not_sym : forall env x n, ok env x = true -> (forall s, x <> XVar s) -> forall y, fst (ex x n) <> SSym y.
  Proof.
    intros env x n H N y.
    destruct x as [s|s|x|ps b|a b c|a b|f l|bs b|cs|l|l|l|l|l t|t|v cs|x e|f ps b|f cs|p imports b]; cbn [ex]; try (exs; discriminate).
    - cbn in *. destruct s; discriminate.
    - exfalso. eapply N. reflexivity.
    - pose proof (gens_length (fun (q : string * src) n => let (e, m) := ex (snd q) n in ((fst q, e), m)) bs n) as LL.
      destruct (gens _ bs n) as (l, n1). destruct (ex b n1) as (b1, n2). destruct bs; [discriminate|]. destruct l; discriminate.
    - destruct (gens _ cs n) as (l, n1). destruct l; discriminate.
    - destruct (gens _ l n) as (l1, n1). destruct l1; discriminate.
    - destruct (gens _ l n) as (l1, n1). destruct l1; discriminate.
    - pose proof (gens_length ex l n) as LL. destruct (gens _ l n) as (l1, n1). destruct l as [|? [|? ?]]; try discriminate.
      destruct l1 as [|? [|? ?]]; discriminate.
    - destruct (gens _ l n) as (l1, n1). destruct l1; discriminate.
    - pose proof (gens_length ex l n) as LL. destruct (gens _ l n) as (l1, n1). destruct (ex t n1). destruct l; [discriminate|]. destruct l1; discriminate.
    - cbn [ok] in H. apply andb_prop in H as (H1 & H2). destruct t as [s| | |l]; try discriminate; [destruct s; discriminate|]. cbn [ext].
      destruct (gens _ l n) as (l1, n1). destruct l1; discriminate.
    - destruct (ex v n) as (v1, n1). destruct (computed v); [exs; discriminate|].
      destruct (rules_cons desugar ex v1 cs n1 (n1 + List.length cs)) as (h & t & -> & _). discriminate.
  Qed.
  Lemma computed_inlined : forall env x n, ok env x = true -> computed x = true -> inlined (fst (ex x n)) = false.
  Proof.
    intros env x n HO HC.
    destruct x as [s|s|x|ps b|a b c|a b|f l|bs b|cs|l|l|l|l|l t|t|v cs|x e|f ps b|f cs|p imports b]; try discriminate; cbn [ex]; try (exs; reflexivity).
    - cbn [ok] in HO. apply andb_prop in HO as (HO & _). apply andb_prop in HO as (_ & Of).
      pose proof (ex_not_sym env f n Of) as NS'. destruct f as [s|s|x|ps b|a b c|a b|f l'|bs b|cs|l'|l'|l'|l'|l' t|t|v cs|x e|f ps b|f cs|p imports b];
        try (match goal with |- context [ex ?f n] => destruct (ex f n) as (f1, n1) end; cbn [fst] in *;
             destruct (gens ex l n1); cbn [fst of_list inlined]; destruct f1; try reflexivity; exfalso; eapply NS'; [intros; discriminate|reflexivity]).
      cbn [ex]. destruct (gens ex l n). cbn [fst of_list inlined is_sym name_eqb]. cbn in HC. now apply negb_true_iff in HC.
    - pose proof (gens_length (fun (q : string * src) n => let (e, m) := ex (snd q) n in ((fst q, e), m)) bs n) as LL.
      destruct (gens _ bs n) as (l, n1). destruct (ex b n1) as (b1, n2). destruct bs; [discriminate|]. destruct l; [discriminate|reflexivity].
    - destruct (gens _ cs n) as (l, n1). destruct l; reflexivity.
    - pose proof (gens_length ex l n) as LL. destruct (gens _ l n) as (l1, n1). destruct l; [discriminate|]. destruct l1; [discriminate|reflexivity].
    - pose proof (gens_length ex l n) as LL. destruct (gens _ l n) as (l1, n1). destruct l; [discriminate|]. destruct l1; [discriminate|reflexivity].
    - pose proof (gens_length ex l n) as LL. destruct (gens _ l n) as (l1, n1). destruct l as [|? [|? ?]]; try discriminate.
      destruct l1 as [|? [|? ?]]; try discriminate. reflexivity.
    - destruct (ex v n) as (v1, n1). destruct (computed v); [exs; reflexivity|].
      destruct (rules_cons desugar ex v1 cs n1 (n1 + List.length cs)) as (h & t & -> & E). exact E.
  Qed.
  Lemma simple_inlined : forall locals x n, simple locals x = true -> computed x = false -> inlined (fst (ex x n)) = true.
  Proof.
    intros locals x n H HC.
    destruct x as [s|s|x|ps b|a b c|a b|f l|bs b|cs|l|l|l|l|l t|t|v cs|x e|f ps b|f cs|p imports b]; try discriminate; cbn [ex].
    - cbn in *. destruct s; try discriminate; reflexivity.
    - reflexivity.
    - destruct f; try discriminate. cbn [ex]. destruct (gens ex l n). cbn. cbn in HC. now apply negb_false_iff in HC.
    - destruct (gens ex l n) as (l1, n1). destruct l1; reflexivity.
    - pose proof (gens_length ex l n) as LL. destruct (gens ex l n) as (l1, n1). destruct (ex t n1). destruct l; [discriminate|]. destruct l1; [discriminate|reflexivity].
  Qed.

  Lemma R_match : forall v cs, R v -> Forall (fun q => on_guard R (snd (fst q)) /\ R (snd q)) cs -> R (XMatch v cs).
  Proof.
    intros v cs HV F env n HO Hn. cbn [ok] in HO. apply andb_prop in HO as (HO & Oc). apply andb_prop in HO as (HO & HC).
    apply andb_prop in HO as (Ov & Oq). apply match_okq in Oc.
    assert (SH : show (XMatch v cs) = SCons (Y "match") (SCons (show v) (rules_show show_pat cs))) by reflexivity.
    rewrite SH. clear SH. cbn [ex quiet]. rewrite Oq. cbn [andb]. fold (quietq (P := pat)).
    pose proof (computed_inlined env v n Ov) as CI. pose proof (simple_inlined) as SI. pose proof (simple_sx) as SS.
    destruct (HV env n Ov Hn) as (A1 & A2 & A3 & A4 & A5). rewrite Oq in A3.
    destruct (computed v) eqn:EC.
    - clear SI SS HC. destruct (ex v n) as (v1, n1). cbn [fst snd] in *. specialize (CI eq_refl).
      pose proof (bx_match_computed desugar show_pat okpat desugar_ok mx_pat _ _ _ _ cs A1 A3 CI ltac:(lia) Oc F) as X.
      destruct (bx_rules desugar okpat desugar_ok (SSym (NG n1)) cs (S n1) (S n1 + List.length cs) (sx_sym _) Oc F ltac:(lia) ltac:(lia)) as (_ & Y1 & Y2 & _).
      destruct (gen_rules desugar ex (SSym (NG n1)) cs (S n1) (S n1 + List.length cs)) as (c, n2). cbn [fst snd] in *.
      split; [exact X|]. split; [lia|]. split; [|split; [exact I|apply import_long]].
      apply good_let; [eapply good_weak; [|exact A3]; reflexivity|exact Y2].
    - cbn [orb] in HC. specialize (SI _ v n HC EC). specialize (SS _ v n HC). clear CI. destruct (ex v n) as (v1, n1). cbn [fst snd] in *.
      pose proof (bx_match_inline desugar show_pat okpat desugar_ok mx_pat _ _ _ _ cs A1 SS SI ltac:(lia) Oc F) as X.
      destruct (bx_rules desugar okpat desugar_ok v1 cs n1 (n1 + List.length cs) SS Oc F ltac:(lia) ltac:(lia)) as (_ & Y1 & Y2 & (h & t & Y3) & Y4).
      split; [exact X|]. split; [lia|]. split; [exact Y2|]. rewrite Y4, Y3. split; [exact I|reflexivity].
  Qed.

  (** func *)
  Definition okpats (k : nat) (ps : list pat) : Prop := forallb ok_pat ps = true /\ List.length ps = k.
  Lemma func_okq : forall env k (cs : list (list pat * option src * src)),
    forallb (fun q => (List.length (fst (fst q)) =? k) && forallb ok_pat (fst (fst q)) &&
      match snd (fst q) with Some g => ok (flat_map pvars (fst (fst q)) ++ env) g | None => true end &&
      ok (flat_map pvars (fst (fst q)) ++ env) (snd q)) cs = true -> Forall (okq (okpats k)) cs.
  Proof.
    intros env k cs. apply forallb_Forall. intros q H. apply andb_prop in H as (H & H3). apply andb_prop in H as (H & H2). apply andb_prop in H as (H0 & H1).
    split; [split; [exact H1|now apply Nat.eqb_eq]|]. exists (flat_map pvars (fst (fst q)) ++ env). split; [|exact H3]. destruct (snd (fst q)); auto.
  Qed.
  Notation frule := (list pat * option src * src)%type.
  Definition func_show (cs : list frule) : sexp :=
    fold_right (fun q r =>
      fold_right SCons
        (SCons (Y "=>") (SCons (show (snd q))
           (match snd (fst q) with None => r | Some g => SCons (Y "where") (SCons (show g) r) end))) (map show_pat (fst (fst q)))) SNil cs.
  Definition show_pats (ps : list pat) : sexp := show_pat (QList ps).
  Definition flat_rules (cs : list frule) : list sexp := flat_map (fun q => [show_pats (fst (fst q)); act_show q]) cs.
  Lemma show_pat_not : forall s p, s = "where"%string \/ s = "=>"%string -> ok_pat p = true -> is_sym s (show_pat p) = false.
  Proof.
    intros s p HS H. destruct p; cbn in H; try reflexivity.
    - cbn. unfold binder in H. apply negb_true_iff in H. unfold among in H. cbn [existsb] in H.
      repeat match type of H with _ || _ = false => apply orb_false_iff in H; let X := fresh in destruct H as (X & H) end.
      destruct HS; subst; assumption.
    - cbn. destruct s0; try discriminate; reflexivity.
  Qed.
  Lemma extract_pats : forall ps rest cur res, forallb ok_pat ps = true ->
    extract_rules1 (fold_right SCons rest (map show_pat ps)) cur res = extract_rules1 rest (rev (map show_pat ps) ++ cur) res.
  Proof.
    induction ps as [|p ps IH]; intros rest cur res H; [reflexivity|]. cbn in H. apply andb_prop in H as (H1 & H2).
    cbn [map fold_right extract_rules1]. rewrite show_pat_not by auto. rewrite IH by exact H2. cbn [rev]. now rewrite <- app_assoc.
  Qed.
  Lemma func_first : forall k cs, Forall (okq (okpats k)) cs -> forall w pred remain, func_show cs = SCons w (SCons pred remain) -> is_sym "where" w = false.
  Proof.
    intros k cs F w pred remain H. destruct F as [|q cs ((HP & _) & _) _]; [discriminate|]. cbn in H.
    destruct (fst (fst q)) as [|p ps]; cbn in H; injection H as <- _; [reflexivity|]. cbn in HP. apply andb_prop in HP as (HP & _). apply show_pat_not; auto.
  Qed.
  Lemma extract_func : forall k cs, Forall (okq (okpats k)) cs -> forall res, extract_rules1 (func_show cs) [] res = Some (rev res ++ flat_rules cs).
  Proof.
    intros k cs F. induction F as [|q cs ((HP & _) & _) F IH]; intro res; [cbn; now rewrite app_nil_r|].
    cbn [func_show fold_right]. fold (func_show cs). rewrite extract_pats by exact HP. rewrite app_nil_r.
    assert (EP : SCons (ssym "list") (L (rev (rev (map show_pat (fst (fst q)))))) = show_pats (fst (fst q))).
    { rewrite rev_involutive. reflexivity. }
    assert (E : forall act, rev (act :: show_pats (fst (fst q)) :: res) ++ flat_rules cs = rev res ++ [show_pats (fst (fst q)); act] ++ flat_rules cs).
    { intro act. cbn [rev]. now rewrite <- !app_assoc. }
    assert (EF : flat_rules (q :: cs) = [show_pats (fst (fst q)); act_show q] ++ flat_rules cs) by reflexivity.
    rewrite EF, <- E. clear EF E. unfold act_show. destruct (snd (fst q)) as [g|].
    - cbn [extract_rules1 is_sym name_eqb String.eqb Ascii.eqb Bool.eqb]. rewrite EP. apply IH.
    - pose proof (func_first k cs F) as FF. rewrite <- (IH (show (snd q) :: show_pats (fst (fst q)) :: res)).
      cbn [extract_rules1 is_sym name_eqb String.eqb Ascii.eqb Bool.eqb]. fold extract_rules1. rewrite EP.
      destruct (func_show cs) as [z|x|s| | | |w [z|x|s| | | |pred remain]]; try reflexivity.
      rewrite (FF w pred remain eq_refl). reflexivity.
  Qed.
  Lemma rules_patterns_flat : forall cs, rules_patterns (flat_rules cs) = Some (map (fun q => show_pats (fst (fst q))) cs).
  Proof.
    induction cs as [|q cs IH]; [reflexivity|]. change (flat_rules (q :: cs)) with (show_pats (fst (fst q)) :: act_show q :: flat_rules cs).
    cbn [rules_patterns map]. now rewrite IH.
  Qed.
  Lemma arg_count : forall k cs, Forall (okq (okpats k)) cs -> cs <> [] -> rules_arg_count (flat_rules cs) = Some k.
  Proof.
    intros k cs F N. unfold rules_arg_count. rewrite rules_patterns_flat.
    assert (LN : forall ps, List.length (match show_pats ps with SCons _ d => cells d | _ => [] end) = List.length ps).
    { intro ps. change (show_pats ps) with (SCons (Y "list") (L (map show_pat ps))). cbv iota. now rewrite cells_of_list, map_length. }
    destruct F as [|q cs ((_ & HL) & _) F]; [contradiction|]. cbn [map]. rewrite LN, HL.
    replace (forallb _ _) with true; [reflexivity|]. symmetry. clear N. induction F as [|q2 cs ((_ & HL2) & _) _ IH]; [reflexivity|].
    cbn [map forallb]. rewrite LN, HL2, Nat.eqb_refl. exact IH.
  Qed.
  Lemma bl_syms : forall q l n, goods q l -> BL l n l n.
  Proof. intros q l n H. induction H as [|e l (H & _) _ IH]; econstructor; [apply H|exact IH]. Qed.
  Lemma rules_show_flat : forall cs, rules_show show_pats cs = L (flat_rules cs).
  Proof. induction cs as [|q cs IH]; [reflexivity|]. cbn [rules_show fold_right flat_rules flat_map app of_list]. unfold rules_show in IH. now rewrite IH. Qed.
  Lemma R_func : forall f cs, Forall (fun q => on_guard R (snd (fst q)) /\ R (snd q)) cs -> R (XFunc f cs).
  Proof.
    intros f cs F env n HO Hn.
    assert (NE : cs <> []) by (destruct cs; [discriminate|discriminate]).
    assert (OK : Forall (okq (okpats (rules_arity cs))) cs).
    { apply (func_okq env). cbn [ok] in HO. destruct cs as [|((ps, g), b) cs]; [discriminate|]. exact HO. }
    clear HO. set (k := rules_arity cs) in *.
    assert (SH : show (XFunc f cs) = SCons (Y "func") (SCons (Y f) (func_show cs))) by reflexivity.
    rewrite SH. clear SH. cbn [ex quiet]. fold k. set (args := map NG (seq n k)).
    assert (GA : goods true (map SSym args)) by (clear; induction args; constructor; auto; apply good_sym).
    assert (SA : sx (conses (map SSym args) SNil)).
    { clear. clearbody args. unfold conses. induction args; cbn [map fold_right]; [now constructor|]. apply sx_cons; [apply sx_sym|exact IHargs]. }
    assert (IA : inlined (conses (map SSym args) SNil) = true) by (destruct args; reflexivity).
    assert (DO : forall p, okpats k p -> ok_cpat (desugar (QList p)) = true) by (intros p (H & _); apply desugar_ok; exact H).
    assert (MX : forall p n, okpats k p -> exists m, forall k, m <= k -> mx k (show_pats p) n = Some (csexp (desugar (QList p)), n)).
    { intros p n' (H & _). apply mx_pat. exact H. }
    pose proof (bx_match_inline (fun ps => desugar (QList ps)) show_pats (okpats k) DO MX (L (Y "list" :: map SSym args)) (n + k) _ (n + k) cs
      (bx_list _ _ _ _ (bl_syms true _ (n + k) GA)) SA IA ltac:(lia) OK F) as X.
    destruct (bx_rules (fun ps => desugar (QList ps)) (okpats k) DO (conses (map SSym args) SNil) cs (n + k) (n + k + List.length cs) SA OK F ltac:(lia) ltac:(lia))
      as (_ & Y1 & Y2 & _).
    destruct (gen_rules (fun ps => desugar (QList ps)) ex (conses (map SSym args) SNil) cs (n + k) (n + k + List.length cs)) as (c, n1). cbn [fst snd] in *.
    split; [|split; [lia|split; [|split; [exact I|apply import_long]]]].
    - eapply (bx_macro "func" MFunc); [reflexivity|reflexivity|reflexivity| | |eapply bx_defun; exact X].
      + exists 0. intros k' _. cbn [expand]. unfold rewrite_func. cbn [ocadr ocddr ocdr ocar]. rewrite (extract_func k cs OK []).
        cbn [rev app]. rewrite (arg_count k cs OK NE). rewrite rules_show_flat. unfold args. rewrite map_map. reflexivity.
      + reflexivity.
    - apply good_def, good_lam. eapply good_sub; eassumption.
  Qed.

  Theorem R_all : forall x, R x.
  Proof.
    apply (src_ind' R RT).
    - intros s env n HO Hn. cbn in *. split; [apply bx_flat; destruct s; try discriminate; exact I|]. split; [lia|].
      split; [now apply good_flat|]. split; [reflexivity|]. destruct s; try discriminate; reflexivity.
    - intros s env n _ Hn. cbn [ex show quiet fst snd]. rewrite seq_of_list. split; [apply bx_quote|]. split; [lia|]. split; [apply good_quote|].
      split; [exact I|]. unfold import_of. cbn. destruct s; reflexivity.
    - intros x env n _ Hn. cbn. split; [apply bx_sym|]. split; [lia|]. split; [apply good_sym|]. split; reflexivity.
    - apply R_lam. - apply R_if. - apply R_do. - apply R_app. - apply R_let. - apply R_cond. - apply R_and. - apply R_or.
    - apply R_begin. - apply R_listx. - apply R_list_rest. - apply R_back. - apply R_match. - apply R_def. - apply R_defun. - apply R_func. - apply R_ns.
    - intros s env n HO Hn. cbn in *. split; [|split; [lia|now apply good_flat]]. destruct s; try discriminate; apply bx_flat; exact I.
    - intros x env n _ Hn. cbn [ext show_tmpl backquote quiet_tmpl fst snd]. split; [apply bx_quote|]. split; [lia|apply good_quote].
    - intros e HE env n HO Hn. cbn [ext show_tmpl quiet_tmpl ok_tmpl] in *. rewrite seq_of_list. cbn.
      destruct (HE env n HO Hn) as (A1 & A2 & A3 & _). auto.
    - apply RT_listx.
  Qed.
End Exp.
