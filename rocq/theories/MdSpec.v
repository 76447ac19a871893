(** Specification of the conversion of Markdown to SXML (C83), without
    reference to how it is done: Markdown documents are trees; what the parser
    calls for a tree and the XML for a tree are defined by recursion on it. *)
From Coq Require Import List ZArith Bool Ascii String Arith.
From Verif Require Import Base StrModel ReaderModel SxmlModel SxmlProps MdModel.
Import ListNotations.
Local Open Scope nat_scope.
Local Open Scope list_scope.

Inductive node :=
| Block (b : block) (kids : list node)
| Span (s : span) (kids : list node)
| Leaf (t : texttype) (s : bytes).

(** The calls for a tree, in the order of the text. *)
Fixpoint calls (n : node) : list event :=
  match n with
  | Block b kids => EnterBlock b :: flat_map calls kids ++ [LeaveBlock b]
  | Span s kids => EnterSpan s :: flat_map calls kids ++ [LeaveSpan s]
  | Leaf t s => [Text t s]
  end.

(** An attribute that is one piece of text, and one that is not there. *)
Definition one_piece (a : attribute) (s : bytes) : Prop :=
  s <> [] /\ a = mkAttr (Some s) (List.length s) [0; List.length s].
Definition missing (a : attribute) : Prop := at_text a = None.
Definition text_of (a : attribute) : bytes := match at_text a with Some s => s | None => [] end.

(** ** The tree as XML *)

Definition attr_raw (name : string) (text : bytes) : bytes :=
  lit " " ++ lit name ++ ["="%char; """"%char] ++ text ++ [""""%char].
Definition attr (name : string) (value : bytes) : bytes := attr_raw name (escape value).
Definition opt_attr (name : string) (a : attribute) : bytes :=
  match at_text a with Some s => attr name s | None => [] end.

(** [x]: what is inside, [empty]: nothing is *)
Definition block_xml (b : block) (empty : bool) (x : bytes) : bytes :=
  let e t attrs := element_text (lit t) attrs empty x in
  match b with
  | BDoc | BHtml => x
  | BQuote => e "blockquote"%string []
  | BUl => e "ul"%string []
  | BOl start => e "ol"%string (if (start =? 1)%Z then [] else attr_raw "start" (printNum start))
  | BLi None => e "li"%string []
  | BLi (Some mark) =>
      element_text (lit "li") (attr "class" (lit "task-list-item")) false
        (lit "<input" ++ attr "type" (lit "checkbox") ++ attr "class" (lit "task-list-item-checkbox") ++ lit " disabled"
           ++ (if Ascii.eqb mark "x" || Ascii.eqb mark "X" then lit " checked" else []) ++ lit " />" ++ x)
  | BHr => lit "<hr />"
  | BH level => element_text ("h"%char :: printNum (Z.of_nat level)) [] empty x
  | BCode lang => element_text (lit "pre") [] false (e "code"%string (match at_text lang with Some s => attr "class" (lit "language-" ++ s) | None => [] end))
  | BP => e "p"%string []
  | BTable => e "table"%string [] | BThead => e "thead"%string [] | BTbody => e "tbody"%string [] | BTr => e "tr"%string []
  | BTh => e "th"%string [] | BTd => e "td"%string []
  end.
Definition span_xml (s : span) (empty : bool) (x : bytes) : bytes :=
  let e t attrs := element_text (lit t) attrs empty x in
  match s with
  | SEm => e "em"%string [] | SStrong => e "strong"%string [] | SCode => e "code"%string [] | SDel => e "del"%string []
  | SA href title => e "a"%string (attr "href" (text_of href) ++ opt_attr "title" title)
  | SImg src title => e "img"%string (attr "src" (text_of src) ++ opt_attr "title" title)
  | SU => e "u"%string []
  | SMath => e "x-equation"%string [] | SMathDisplay => e "x-equation"%string (attr "type" (lit "display"))
  | SWiki => e "x-wikilink"%string []
  end.

(** Raw HTML is left out, a block of it too. *)
Fixpoint shows (n : node) : bool :=
  match n with
  | Block BDoc kids | Block BHtml kids => existsb shows kids
  | Leaf THtml _ => false
  | _ => true
  end.
Fixpoint xml (n : node) : bytes :=
  match n with
  | Block b kids => block_xml b (negb (existsb shows kids)) (flat_map xml kids)
  | Span s kids => span_xml s (negb (existsb shows kids)) (flat_map xml kids)
  | Leaf TBr _ => lit "<br />"
  | Leaf THtml _ => []
  | Leaf TEntity s => s                       (* &copy; stays &copy; *)
  | Leaf TNull _ => map ascii_of_nat [239; 191; 189]    (* U+FFFD *)
  | Leaf _ s => escape s
  end.

(** ** The trees that the parser can send under the flags that are set

    (tables, underlines, equations and wiki links are not asked for), and of
    these the [simple] ones: a code block has no language, an address is one
    piece of text, an image has no title, the text has no entities and no
    zero bytes. *)

Definition block_possible (b : block) (kids : list node) : Prop :=
  match b with
  | BOl start => (0 <= start < 2^31)%Z
  | BHr => kids = []
  | BH level => 1 <= level <= 6
  | BTable | BThead | BTbody | BTr | BTh | BTd => False
  | _ => True
  end.
Definition span_possible (s : span) : Prop := match s with SU | SMath | SMathDisplay | SWiki => False | _ => True end.
Fixpoint possible (n : node) : Prop :=
  match n with
  | Block b kids => block_possible b kids /\ (fix all l := match l with [] => True | n :: l => possible n /\ all l end) kids
  | Span s kids => span_possible s /\ (fix all l := match l with [] => True | n :: l => possible n /\ all l end) kids
  | Leaf _ _ => True
  end.

Definition block_simple (b : block) : Prop := match b with BCode lang => missing lang | _ => True end.
Definition span_simple (s : span) : Prop :=
  match s with
  | SA href title => one_piece href (text_of href) /\ (missing title \/ one_piece title (text_of title))
  | SImg src title => one_piece src (text_of src) /\ missing title
  | _ => True
  end.
Fixpoint simple (n : node) : Prop :=
  match n with
  | Block b kids => block_simple b /\ (fix all l := match l with [] => True | n :: l => simple n /\ all l end) kids
  | Span s kids => span_simple s /\ (fix all l := match l with [] => True | n :: l => simple n /\ all l end) kids
  | Leaf TEntity _ | Leaf TNull _ => False
  | Leaf _ _ => True
  end.
