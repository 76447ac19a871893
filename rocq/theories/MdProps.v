(** C83: Markdown to XML, lib/md4c/wrap.c followed by sxml->xml. *)
From Coq Require Import List ZArith Bool Ascii String Arith Lia.
From Verif Require Import Base StrModel ReaderModel SxmlModel SxmlProps IoSpec IoModel MdModel MdSpec MdProofs.
Import ListNotations.
Local Open Scope nat_scope.
Local Open Scope list_scope.

(** ** Documents *)

(** Trees one after another, of any size and depth, give the XML of each, one
    after another: every element is closed where it ends in the text, nothing
    is lost, doubled or moved, and the vector of open elements grows as needed. *)
Theorem markdown_text_partial : forall l, Forall possible l -> Forall simple l ->
  exists v, md_sxml (flat_map calls l) = Ok v /\ docs v (flat_map xml l) /\
    ((len (flat_map xml l) < 2^29)%Z -> sxml_to_xml v = Ok (flat_map xml l)).
Proof.
  intros l P S. destruct (good_list l) with (r := mkR XNil None 0 0) as (r & E & C & _); auto.
  - apply Forall_forall. intros n _. apply all_good.
  - now split.
  - exists (xlist (flat_map sxs l)). unfold md_sxml. rewrite E. cbn [obind]. rewrite C. cbn [r_curr].
    change XNil with (xlist []). rewrite onto_rev, app_nil_r, reverse_ok, rev_involutive.
    assert (D : docs (xlist (flat_map sxs l)) (flat_map xml l)).
    { clear E C. revert S. induction P as [|n l Pn P IH]; intros S; [constructor|]. inversion S; subst. cbn [flat_map].
      apply docs_app; auto using text_ok. }
    repeat split; auto. intros B. apply sxml_text; auto. now apply doc_list.
Qed.

(** The file is read to its end, whatever its size, before it is parsed. *)
Theorem file_converted_partial : forall parse n content eof fuel,
  (Z.of_nat (List.length content) < 2^32)%Z -> List.length content < fuel ->
  parse content = calls n -> possible n -> simple n ->
  exists v, process_file parse fuel (mkIn content None eof) = Some (Ok v) /\ docs v (xml n).
Proof.
  intros parse n content eof fuel B F E P S.
  destruct (markdown_text_partial [n]) as (v & V & D & _); [repeat constructor; assumption..|].
  cbn [flat_map] in V, D. rewrite app_nil_r in V, D. exists v. split; [|exact D]. unfold process_file.
  rewrite read_ok; [|lia| |assumption].
  - cbn [app]. rewrite Z.mod_small by lia. rewrite Nat2Z.id, firstn_all, E, V. reflexivity.
  - cbn [List.length]. lia.
Qed.

Definition one (s : string) : attribute := mkAttr (Some (lit s)) (String.length s) [0; String.length s].
Definition none : attribute := mkAttr None 0 [0; 0].
Definition w (s : string) : node := Leaf TNormal (lit s).

Definition sample : node :=
  Block BDoc
    [Block (BH 2) [w "A "; Span SEm [w "b"]];
     Block (BOl 3) [Block (BLi None) [Block BP [Span (SA (one "/u") (one "t<")) [w "x & y"]; Leaf TBr []; w "z"]];
                    Block (BLi (Some "x"%char)) [w "done"]];
     Block BHr [];
     Block (BCode none) [Leaf TCode (lit "a<b")];
     Block BHtml [Leaf THtml (lit "<div>")];
     Block BP [Span (SImg (one "i.png") none) [w "pic"]; Span SDel []]].

Example sample_possible : possible sample /\ simple sample.
Proof. vm_compute. repeat split; auto; try discriminate; try lia; right; split; [discriminate|reflexivity]. Qed.

Example sample_text : exists v, md_sxml (calls sample) = Ok v /\
  sxml_to_xml v = Ok (lit ("<h2>A <em>b</em></h2><ol start=""3""><li><p><a href=""/u"" title=""t&lt;"">x &amp; y</a><br />z</p></li>"
    ++ "<li class=""task-list-item""><input type=""checkbox"" class=""task-list-item-checkbox"" disabled checked />done</li></ol><hr />"
    ++ "<pre><code>a&lt;b</code></pre><p><img src=""i.png"">pic</img><del /></p>")).
Proof. eexists. split; [vm_compute; reflexivity|]. vm_compute. reflexivity. Qed.

(** ** What the full statement excludes *)

(** A fenced code block with a language: the class is not an attribute but
    text inside the code. *)
Theorem code_language_refuted : exists n v t, possible n /\ md_sxml (calls n) = Ok v /\ sxml_to_xml v = Ok t /\ t <> xml n /\
  t = lit "<pre><code><class>language-c</class><@></@>x;</code></pre>" /\
  xml n = lit "<pre><code class=""language-c"">x;</code></pre>".
Proof.
  exists (Block (BCode (one "c")) [Leaf TCode (lit "x;")]). eexists. eexists. split; [cbn; auto|].
  split; [vm_compute; reflexivity|]. split; [vm_compute; reflexivity|]. split; [vm_compute; discriminate|]. now vm_compute.
Qed.

Ltac witness := split; [cbn; auto|]; split; [vm_compute; reflexivity|]; split; [vm_compute; reflexivity|]; split; [vm_compute; discriminate|]; now vm_compute.

(** An address with an entity ends before it: [x](a?p=1&amp;q=2). *)
Theorem entity_in_address_refuted : exists n v t, possible n /\ md_sxml (calls n) = Ok v /\ sxml_to_xml v = Ok t /\ t <> xml n /\
  t = lit "<a href=""a?p=1"">x</a>".
Proof.
  exists (Span (SA (mkAttr (Some (lit "a?p=1&amp;q=2")) 13 [0; 5; 10; 13]) none) [w "x"]). eexists. eexists. witness.
Qed.

(** A link with an empty address, [x](), cannot be written: the value is
    looked for in the empty list. *)
Theorem empty_address_refuted : exists n v, possible n /\ md_sxml (calls n) = Ok v /\ sxml_to_xml v = UB.
Proof.
  exists (Span (SA (mkAttr (Some []) 0 [0; 0]) none) [w "x"]). eexists. split; [cbn; auto|].
  split; [vm_compute; reflexivity|]. vm_compute. reflexivity.
Qed.

(** The title of an image is lost. *)
Theorem image_title_refuted : exists n v t, possible n /\ md_sxml (calls n) = Ok v /\ sxml_to_xml v = Ok t /\ t <> xml n /\
  t = lit "<img src=""i.png"">pic</img>".
Proof. exists (Span (SImg (one "i.png") (one "title")) [w "pic"]). eexists. eexists. witness. Qed.

(** An entity in the text is escaped once more. *)
Theorem entity_in_text_refuted : exists n v t, possible n /\ md_sxml (calls n) = Ok v /\ sxml_to_xml v = Ok t /\ t <> xml n /\
  t = lit "<p>&amp;copy;</p>".
Proof. exists (Block BP [Leaf TEntity (lit "&copy;")]). eexists. eexists. witness. Qed.

(** A zero byte of the file goes into the text. *)
Theorem zero_byte_refuted : exists n v t, possible n /\ md_sxml (calls n) = Ok v /\ sxml_to_xml v = Ok t /\ t <> xml n /\
  t = lit "<p>" ++ [ascii_of_nat 0] ++ lit "</p>".
Proof. exists (Block BP [Leaf TNull [ascii_of_nat 0]]). eexists. eexists. witness. Qed.

(** ** Calls that do not nest *)

(** More is closed than was opened: the process ends or reads what is no
    vector. The parser does not do so. *)
Theorem too_many_ends : forall n s es r, possible n -> simple n ->
  callbacks (calls n ++ LeaveSpan s :: es) (mkR XNil None 0 0) <> Ok r.
Proof.
  intros n s es r P S. rewrite callbacks_app. destruct (all_good n (mkR XNil None 0 0) P S) as (r1 & -> & C & W & Z & _); [now split|].
  cbn [obind callbacks callback]. unfold leave_span, render_verbatim_leave. rewrite C. cbn [r_curr].
  change XNil with (xlist []). rewrite onto_rev, reverse_ok. cbn [obind]. unfold md_html_pop. rewrite Z. cbn [r_size].
  destruct (r_stack r1); discriminate.
Qed.

Print Assumptions markdown_text_partial.
Print Assumptions file_converted_partial.
Print Assumptions code_language_refuted.
Print Assumptions entity_in_address_refuted.
Print Assumptions empty_address_refuted.
Print Assumptions image_title_refuted.
Print Assumptions entity_in_text_refuted.
Print Assumptions zero_byte_refuted.
Print Assumptions too_many_ends.
