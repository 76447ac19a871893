(** lib/md4c/wrap.c: from the calls of the Markdown parser md4c to a document
    for lib/sxml.cora.

    Simplifications.
    - Values are trees ([sx] of SxmlModel.v); [XOther] fills the slots of a new
      vector.
    - md4c (third party) is the sequence of its calls; the fields of its details
      that wrap.c does not read are left out.
    - The variables curr and stack are fields; a vector is its list of slots,
      [None] before the first.
    - The nesting stays below 2^30. *)
From Coq Require Import List ZArith Bool Ascii String Arith.
From Verif Require Import Base ListLib StrModel SxmlModel IoSpec IoModel.
Import ListNotations.
Local Open Scope list_scope.
Local Open Scope out_scope.

(** md4c.h:231-236; a null text is [None] *)
Record attribute := mkAttr { at_text : option bytes; at_size : nat; at_offs : list nat }.

(** md4c.h:54-103, 240-281 with the details that are used *)
Inductive block :=
| BDoc | BQuote | BUl | BOl (start : Z) | BLi (task : option ascii) | BHr | BH (level : nat) | BCode (lang : attribute) | BHtml | BP
| BTable | BThead | BTbody | BTr | BTh | BTd.
(** md4c.h:108-149, 284-299 *)
Inductive span :=
| SEm | SStrong | SA (href title : attribute) | SImg (src title : attribute) | SCode | SDel | SMath | SMathDisplay | SWiki | SU.
(** md4c.h:152-192 *)
Inductive texttype := TNormal | TNull | TBr | TSoft | TEntity | TCode | THtml | TMath.

Inductive event :=
| EnterBlock (b : block) | LeaveBlock (b : block) | EnterSpan (s : span) | LeaveSpan (s : span) | Text (t : texttype) (s : bytes).

(** wrap.c:10-17 *)
Record render := mkR { r_curr : sx; r_stack : option (list sx); r_size : nat; r_cap : nat }.

(** src/types.c:276-291 *)
Definition vref (v : option (list sx)) (i : nat) : outcome sx :=
  match v with None => UB | Some l => match nth_error l i with Some x => Ok x | None => Trap end end.
Definition vset (v : option (list sx)) (i : nat) (x : sx) : outcome (option (list sx)) :=
  match v with None => UB | Some l => if i <? List.length l then Ok (Some (list_set l i x)) else Trap end.

(** wrap.c:31-34: the loop that copies the old vector *)
Fixpoint copy_loop (old new : option (list sx)) (i n : nat) : outcome (option (list sx)) :=
  match n with
  | O => Ok new
  | S n => do! x <- vref old i; do! new <- vset new i x; copy_loop old new (S i) n
  end.

(** wrap.c:22-36: room for one more *)
Definition md_html_grow (r : render) : outcome (option (list sx) * nat) :=
  if r_cap r <=? r_size r then
    let cap := if r_cap r =? 0 then 16 else r_cap r * 2 in
    do! stack <- copy_loop (r_stack r) (Some (repeat XOther cap)) 0 (r_size r);
    Ok (stack, cap)
  else Ok (r_stack r, r_cap r).
(** wrap.c:19-40 *)
Definition md_html_push (r : render) : outcome render :=
  do! '(stack, cap) <- md_html_grow r;
  do! stack <- vset stack (r_size r) (r_curr r);
  Ok (mkR (r_curr r) stack (S (r_size r)) cap).

(** wrap.c:42-46; the size is an int: below 0 the assertion of vectorRef fails *)
Definition md_html_pop (r : render) : outcome (sx * render) :=
  match r_size r with
  | O => match r_stack r with None => UB | Some _ => Trap end
  | S n => do! x <- vref (r_stack r) n; Ok (x, mkR (r_curr r) (r_stack r) n (r_cap r))
  end.

Definition set_curr (r : render) (x : sx) : render := mkR x (r_stack r) (r_size r) (r_cap r).
Definition sym (s : string) : sx := XSym (lit s).
Definition xlist (l : list sx) : sx := fold_right XCons XNil l.

(** wrap.c:48-52 *)
Definition append_curr (r : render) (x : sx) : render := set_curr r (XCons x (r_curr r)).

(** wrap.c:54-58 *)
Definition render_verbatim_enter (r : render) (text : string) : outcome render :=
  do! r <- md_html_push r; Ok (set_curr r (xlist [sym text])).

(** src/reader.c:75-83, src/export.c:87-90; car of anything but a pair is undefined *)
Fixpoint reverse_loop (o ret : sx) : outcome sx :=
  match o with XNil => Ok ret | XCons a d => reverse_loop d (XCons a ret) | _ => UB end.
Definition reverse (o : sx) : outcome sx := reverse_loop o XNil.

(** wrap.c:60-65 *)
Definition render_verbatim_leave (r : render) : outcome render :=
  do! tmp <- reverse (r_curr r);
  do! '(old, r) <- md_html_pop r;
  Ok (set_curr r (XCons tmp old)).

(** wrap.c:67-73 *)
Definition render_append_text1 (r : render) (data : bytes) : render := append_curr r (XStr (lit "language-" ++ data)).
(** wrap.c:281-284 *)
Definition render_url_escaped1 (r : render) (data : bytes) : render := append_curr r (XStr data).

(** [size] bytes from [text + off] *)
Definition piece (text : option bytes) (off size : nat) : outcome bytes :=
  match text with
  | None => UB
  | Some t => if off + size <=? List.length t then Ok (firstn size (skipn off t)) else UB
  end.
(** wrap.c:75-94; [offs] are the offsets from the i-th on *)
Fixpoint attr_loop (a : attribute) (append : render -> bytes -> render) (offs : list nat) (r : render) : outcome render :=
  match offs with
  | [] => UB
  | off :: rest =>
      if off <? at_size a then
        match rest with
        | [] => UB
        | off' :: _ =>
            if off' <? off then UB
            else do! s <- piece (at_text a) off (off' - off); attr_loop a append rest (append r s)
        end
      else Ok r
  end.
Definition render_attribute (r : render) (a : attribute) (append : render -> bytes -> render) : outcome render :=
  attr_loop a append (at_offs a) r.

(** wrap.c:96-124 *)
Definition render_open_li_block (r : render) (task : option ascii) : outcome render :=
  match task with
  | Some mark =>
      do! r <- md_html_push r;
      let tmp := xlist [sym "class"; XStr (lit "task-list-item")] in
      let attrs := xlist [sym "@"; tmp] in
      let r := set_curr r (XCons attrs (XCons (sym "li") XNil)) in
      let tmp1 := xlist [sym "type"; XStr (lit "checkbox")] in
      let tmp2 := xlist [sym "class"; XStr (lit "task-list-item-checkbox")] in
      let tail := if Ascii.eqb mark "x" || Ascii.eqb mark "X" then XCons (sym "checked") XNil else XNil in
      let tail := XCons (sym "disabled") tail in
      let attrs := XCons (sym "@") (XCons tmp1 (XCons tmp2 tail)) in
      Ok (append_curr r (XCons (sym "input") (XCons attrs XNil)))
  | None => render_verbatim_enter r "li"
  end.

(** wrap.c:126-140; coraMakeNumber takes an int, src/export.c:67-70 *)
Definition render_open_ol_block (r : render) (start : Z) : outcome render :=
  do! r <- render_verbatim_enter r "ol";
  if (start =? 1)%Z then Ok r
  else
    let tmp := xlist [sym "start"; XNum (to_int32 start)] in
    Ok (append_curr r (xlist [sym "@"; tmp])).

(** wrap.c:142-162 *)
Definition render_open_code_block (r : render) (lang : attribute) : outcome render :=
  do! r <- md_html_push r;
  let r := set_curr r (xlist [sym "pre"]) in
  do! r <- md_html_push r;
  do! '(r, attrs) <-
    (match at_text lang with
     | None => Ok (r, XNil)
     | Some _ =>
         let attrs := xlist [sym "@"; XNil] in
         do! r <- render_attribute (set_curr r (xlist [sym "class"])) lang render_append_text1;
         do! tmp <- reverse (r_curr r);
         Ok (r, XCons tmp attrs)
     end);
  let r := set_curr r (xlist [sym "code"]) in
  Ok (match attrs with XNil => r | _ => append_curr r attrs end).

(** wrap.c:164-219 *)
Definition enter_block (r : render) (b : block) : outcome render :=
  match b with
  | BDoc | BHtml => Ok r
  | BQuote => render_verbatim_enter r "blockquote"
  | BUl => render_verbatim_enter r "ul"
  | BOl start => render_open_ol_block r start
  | BLi task => render_open_li_block r task
  | BHr => Ok (append_curr r (xlist [sym "hr"]))
  | BH level =>
      match level with
      | 1 => render_verbatim_enter r "h1" | 2 => render_verbatim_enter r "h2" | 3 => render_verbatim_enter r "h3"
      | 4 => render_verbatim_enter r "h4" | 5 => render_verbatim_enter r "h5" | 6 => render_verbatim_enter r "h6"
      | _ => UB
      end
  | BCode lang => render_open_code_block r lang
  | BP => render_verbatim_enter r "p"
  | BTable => render_verbatim_enter r "table"
  | BThead => render_verbatim_enter r "thead"
  | BTbody => render_verbatim_enter r "tbody"
  | BTr => render_verbatim_enter r "tr"
  | BTh | BTd => Trap
  end.

(** wrap.c:221-279 *)
Definition leave_block (r : render) (b : block) : outcome render :=
  match b with
  | BDoc | BHr | BHtml => Ok r
  | BCode _ => do! r <- render_verbatim_leave r; render_verbatim_leave r
  | _ => render_verbatim_leave r
  end.

(** wrap.c:324-345; render_url_escaped (286-322) is not called *)
Definition render_open_a_span (r : render) (href title : attribute) : outcome render :=
  do! r <- md_html_push r;
  let attrs := xlist [sym "@"] in
  do! r <- render_attribute (set_curr r (xlist [sym "href"])) href render_url_escaped1;
  do! tmp <- reverse (r_curr r);
  let attrs := XCons tmp attrs in
  do! '(r, attrs) <-
    (match at_text title with
     | None => Ok (r, attrs)
     | Some _ =>
         do! r <- render_attribute (set_curr r (xlist [sym "title"])) title render_url_escaped1;
         do! tmp1 <- reverse (r_curr r);
         Ok (r, XCons tmp1 attrs)
     end);
  do! attrs <- reverse attrs;
  Ok (set_curr r (XCons attrs (XCons (sym "a") XNil))).

(** wrap.c:347-356 *)
Definition render_open_img_span (r : render) (src : attribute) : outcome render :=
  do! r <- md_html_push r;
  do! r <- render_attribute (set_curr r (xlist [sym "src"])) src render_url_escaped1;
  do! tmp <- reverse (r_curr r);
  let attrs := xlist [sym "@"; tmp] in
  Ok (set_curr r (XCons attrs (XCons (sym "img") XNil))).

(** wrap.c:368-426 *)
Definition enter_span (r : render) (s : span) : outcome render :=
  match s with
  | SEm => render_verbatim_enter r "em"
  | SStrong => render_verbatim_enter r "strong"
  | SU => render_verbatim_enter r "<u>"
  | SA href title => render_open_a_span r href title
  | SImg src _ => render_open_img_span r src
  | SCode => render_verbatim_enter r "code"
  | SDel => render_verbatim_enter r "del"
  | SMath => render_verbatim_enter r "<x-equation>"
  | SMathDisplay => render_verbatim_enter r "<x-equation type=""display"">"
  | SWiki => Trap
  end.

(** wrap.c:358-366, 428-469: all kinds of spans leave alike *)
Definition leave_span (r : render) (s : span) : outcome render := render_verbatim_leave r.

(** wrap.c:471-493 *)
Definition text_callback (r : render) (t : texttype) (s : bytes) : render :=
  match t with
  | TBr => append_curr r (xlist [sym "br"])
  | THtml => r
  | _ => append_curr r (XStr s)
  end.

Definition callback (r : render) (e : event) : outcome render :=
  match e with
  | EnterBlock b => enter_block r b
  | LeaveBlock b => leave_block r b
  | EnterSpan s => enter_span r s
  | LeaveSpan s => leave_span r s
  | Text t s => Ok (text_callback r t s)
  end.
Fixpoint callbacks (es : list event) (r : render) : outcome render :=
  match es with [] => Ok r | e :: es => do! r <- callback r e; callbacks es r end.

(** wrap.c:502-540, for the calls [es] of the parser *)
Definition md_sxml (es : list event) : outcome sx :=
  do! r <- callbacks es (mkR XNil None 0 0); reverse (r_curr r).

(** wrap.c:596-605: the file is read into a buffer of [asize] bytes, [buf] of
    which are filled; [None]: out of fuel *)
Fixpoint read_loop (fuel : nat) (asize : nat) (buf : bytes) (f : instream) : option bytes :=
  match fuel with
  | O => None
  | S fuel =>
      let asize := if asize <=? List.length buf then asize + asize / 2 else asize in
      let (x, f) := fread f (asize - List.length buf) in
      match x with [] => Some buf | _ => read_loop fuel asize (buf ++ x) f end
  end.
(** wrap.c:583-652, 705-725, for the parser [parse]; it gets the size as an
    unsigned int *)
Definition process_file (parse : bytes -> list event) (fuel : nat) (f : instream) : option (outcome sx) :=
  match read_loop fuel (Z.to_nat 32768) [] f with
  | None => None
  | Some buf => Some (md_sxml (parse (firstn (Z.to_nat (Z.of_nat (List.length buf) mod 2^32)) buf)))
  end.
