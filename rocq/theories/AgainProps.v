(** * C51: parsed documents are read back from what they are printed as, also after edits *)
From Coq Require Import NArith ZArith Arith Bool String List Lia Relations.
From Verif Require Import Res Str Dec NumberModel PrimModel PrimProofs DedentModel EAst EncModel EqSpec EqProofs EqProps PrattSpec EatLeaf ParseBase ParseModel.
From Verif Require Import BackSpec BackBodySpec BackBody BackProps AgainSpec AgainBody AgainEdits.
Import ListNotations.
Open Scope N_scope.

(** What the parser returns for a text is read back from what it is printed as, up to the formatting which
    [==] ignores.  Nothing is asked of the text; [body_regular] (AgainSpec.v) lists what is asked of the tree.
    The theorems [C51_*_refuted] show that it cannot be left out. *)
Theorem C51_documents_partial u b pf sf s x : ascii_exact u ->
  parse_body u b pf s = Parsed x -> body_regular u sf x ->
  exists x', parse_body u b pf (show_body sf x) = Parsed x' /\ bare_body x' = bare_body x.
Proof. intros HU E R. apply C46_bodies_partial; [exact HU|]. exact (parsed_body_ok u b pf sf s x HU E R). Qed.
Print Assumptions C51_documents_partial.
Theorem C51_expressions_partial u b pf sf s e : ascii_exact u ->
  parse_expr u b pf s = Parsed e -> regular u sf false e -> shut e ->
  exists e', parse_expr u b pf (show_expr sf e) = Parsed e' /\ bare e' = bare e.
Proof. intros HU E R S. destruct (parsed_expr_ok u b pf sf s e HU E R S). now apply C46_expressions_partial. Qed.
Print Assumptions C51_expressions_partial.
Theorem C51_templates_partial u b pf sf s es sp : ascii_exact u ->
  parse_template u b pf s = Parsed (XTempl es sp) -> lall (elem_regular u sf false) es -> apart es = true -> lits (fun _ _ => True) 0 es ->
  exists t', parse_template u b pf (show_tpl sf (XTempl es sp)) = Parsed t' /\ bare_tpl t' = bare_tpl (XTempl es sp).
Proof. intros HU E R A L. apply C46_templates_partial; [exact HU| |exact A|exact L]. exact (parsed_tpl_ok u b pf sf s es sp HU E R). Qed.
Print Assumptions C51_templates_partial.

(** In particular the new tree is equal to the first one in the sense of [==], if that is equal to itself. *)
Theorem C51_equal_documents_partial u b pf sf s x : ascii_exact u ->
  parse_body u b pf s = Parsed x -> body_regular u sf x -> xbody_eqb x x = true ->
  exists x', parse_body u b pf (show_body sf x) = Parsed x' /\ xbody_eqb x x' = true.
Proof.
  intros HU E R W. destruct (C51_documents_partial u b pf sf s x HU E R) as (x' & E' & H). exists x'. split; [exact E'|].
  rewrite <- (proj2 body_bare). rewrite H. now rewrite (proj2 body_bare).
Qed.
Print Assumptions C51_equal_documents_partial.

(** Parsed documents can be edited, any number of times and in any place, and the result is still read
    back from its text; the conditions of C46 are asked of the new parts only ([edits], AgainEdits.v). *)
Theorem C51_edited_documents_partial u b pf sf s x y : ascii_exact u ->
  parse_body u b pf s = Parsed x -> body_regular u sf x -> edits u b pf sf x y ->
  exists y', parse_body u b pf (show_body sf y) = Parsed y' /\ bare_body y' = bare_body y.
Proof.
  intros HU E R H. apply C46_bodies_partial; [exact HU|]. apply (edits_ok u b pf sf x y H). exact (parsed_body_ok u b pf sf s x HU E R).
Qed.
Print Assumptions C51_edited_documents_partial.

(** ** Examples *)
Definition nl : string := String (Ascii.ascii_of_nat 10) EmptyString.
Definition doc : str := lit (
  "# network" ++ nl ++
  "region = ""eu"" // here" ++ nl ++ nl ++
  "resource ""server"" web {" ++ nl ++
  "  count = var.on ? length(var.ids) + 1 * 2 : -x" ++ nl ++
  "  tags = {" ++ nl ++
  "    Name = ""web-${ var.env ~}""  # tag" ++ nl ++
  "    ""k"" : [1, 2,]" ++ nl ++
  "  }" ++ nl ++
  "  data = <<EOT" ++ nl ++ "echo ${x}" ++ nl ++ "done" ++ nl ++ "EOT" ++ nl ++
  "  life { keep = !a }" ++ nl ++
  "  ids = [for k, v in var.m : v.id if v[0].on]" ++ nl ++
  "}" ++ nl ++ "/* end */")%string.
Definition doc_x : xbody := Eval vm_compute in
  match parse_body ascii_unicode Release zero_float doc with Parsed x => x | _ => XBody nm [] true false end.
Example doc_parsed : parse_body ascii_unicode Release zero_float doc = Parsed doc_x.
Proof. vm_compute. reflexivity. Qed.
Example doc_printed : show_body no_floats doc_x = doc.
Proof. vm_compute. reflexivity. Qed.
Example doc_regular : body_regular ascii_unicode no_floats doc_x.
Proof.
  cbv [doc_x body_regular struct_regular lall regular item_regular key_regular trop_regular op_regular elem_regular cond_regular oallp label_regular joined app]. auto_ok.
  - apply one_comparison; vm_compute; lia.
  - apply one_comparison; vm_compute; lia.
  - match goal with |- exists es0 sp s le, [?a; ?b; XLit ?p _] = _ /\ _ => exists [a; b], p, (10 :: lit "done"), [10] end.
    split; [reflexivity|]. split; [left; split; [reflexivity|discriminate]|]. cbn. auto_ok.
Qed.
Example doc_equal : xbody_eqb doc_x doc_x = true.
Proof. vm_compute. reflexivity. Qed.

(** Two edits: an element in the array of the object, a new line in the block. *)
Definition edit_array (x : xbody) : xbody :=
  match x with
  | XBody m [a; XBlock bm i ls (XBody m2 (c :: XAttr m3 k (XObj m4 [i1; XItem k2 a2 (XArr m5 [e1; e2] co tr) t2] t4) :: r) o2 om2)] o om =>
      XBody m [a; XBlock bm i ls (XBody m2 (c :: XAttr m3 k (XObj m4 [i1; XItem k2 a2 (XArr m5 [e1; XStr (dec " " "") (lit "new"); XNull (dec " " "")] co tr) t2] t4) :: r) o2 om2)] o om
  | _ => x
  end.
Definition new_line : xstruct := XAttr (dec ("  # added" ++ nl ++ "  ") "") (Did (dec "" " ") (lit "zone")) (XCall (dec " " "") [] (name "f") nm [var "a"; XNum (dec " " "") (PosInt 7) None] false false REmpty).
Definition edit_lines (x : xbody) : xbody :=
  match x with
  | XBody m [a; XBlock bm i ls (XBody m2 (c :: r) o2 om2)] o om => XBody m [a; XBlock bm i ls (XBody m2 (c :: new_line :: r) o2 om2)] o om
  | _ => x
  end.
Definition doc_y : xbody := Eval vm_compute in edit_lines (edit_array doc_x).
Definition doc_new : str := lit (
  "# network" ++ nl ++
  "region = ""eu"" // here" ++ nl ++ nl ++
  "resource ""server"" web {" ++ nl ++
  "  count = var.on ? length(var.ids) + 1 * 2 : -x" ++ nl ++
  "  # added" ++ nl ++
  "  zone = f(a, 7)" ++ nl ++
  "  tags = {" ++ nl ++
  "    Name = ""web-${ var.env ~}""  # tag" ++ nl ++
  "    ""k"" : [1, ""new"", null,]" ++ nl ++
  "  }" ++ nl ++
  "  data = <<EOT" ++ nl ++ "echo ${x}" ++ nl ++ "done" ++ nl ++ "EOT" ++ nl ++
  "  life { keep = !a }" ++ nl ++
  "  ids = [for k, v in var.m : v.id if v[0].on]" ++ nl ++
  "}" ++ nl ++ "/* end */")%string.
Example doc_y_printed : show_body no_floats doc_y = doc_new.
Proof. vm_compute. reflexivity. Qed.
Ltac auto_new := cbn; unfold line_ok, attr_ok, variable, elem_in, tidy, snug, raw_gap, clean, closing, num_ok, number_text; auto_ok.
Example doc_edited : edits ascii_unicode Release zero_float no_floats doc_x doc_y.
Proof.
  refine (Relation_Operators.rt1n_trans _ _ _ (edit_array doc_x) _ _ (Relation_Operators.rt1n_trans _ _ _ doc_y _ _ (rt1n_refl _ _ _))).
  - unfold body_edit, doc_x. cbv [edit_array]. do 5 eexists. split; [reflexivity|]. split; [reflexivity|]. split; [|discriminate].
    match goal with |- lines_edit _ _ _ _ [?a; ?x] _ => eapply (LE_block _ _ _ _ [a] _ _ _ _ _ _ _ []) end.
    match goal with |- lines_edit _ _ _ _ (?a :: _) _ => eapply (LE_value _ _ _ _ [a]) end. right.
    match goal with |- value_edit _ _ _ _ (XObj _ [?a; ?x] _) _ => eapply (VE_in_item _ _ _ _ _ [a] _ _ _ _ _ []) end.
    match goal with |- value_edit _ _ _ _ (XArr _ [?a; ?x] _ _) _ =>
      apply (VE_elements _ _ _ _ _ [a] _ [XStr (dec " " "") (lit "new"); XNull (dec " " "")] []) end; [auto_new|discriminate].
  - unfold body_edit, doc_x. cbv [edit_array]. do 5 eexists. split; [reflexivity|]. split; [reflexivity|]. split; [|discriminate].
    match goal with |- lines_edit _ _ _ _ [?a; ?x] _ => eapply (LE_block _ _ _ _ [a] _ _ _ _ _ _ _ []) end.
    match goal with |- lines_edit _ _ _ _ (?a :: ?l) _ => apply (LE_lines _ _ _ _ [a] [] [new_line] l) end.
    + auto_new.
    + vm_compute. auto_ok. all: intros F; cbn in F; repeat (destruct F as [F|F]; [discriminate|]); exact F.
Qed.

(** ** What [body_regular] excludes *)
(** The document [s] is accepted, printed as [t], and [t] is not accepted or another document. *)
Definition changed (s t : string) : Prop := exists x,
  parse_body ascii_unicode Release zero_float (lit s) = Parsed x /\ show_body no_floats x = lit t /\
  forall x', parse_body ascii_unicode Release zero_float (lit t) = Parsed x' -> xbody_eqb x x' = false.
Lemma other x (r : parsed xbody) : match r with Parsed x' => xbody_eqb x x' | _ => false end = false -> forall x', r = Parsed x' -> xbody_eqb x x' = false.
Proof. now intros H x' ->. Qed.
Ltac changes := eexists; split; [vm_compute; reflexivity|]; split; [vm_compute; reflexivity|]; apply other; vm_compute; reflexivity.
(** An object with a repeated key. *)
Theorem C51_repeated_key_refuted : changed "x = {a=1,b=2,a=3}" "x = {a=3b=2,}".
Proof. changes. Qed.
(** A literal which needs escapes behind a template inside of an interpolation. *)
Theorem C51_nested_quotes_refuted : changed "x = ""${""${b}""}\""""" "x = ""${""${b}""}""""".
Proof. changes. Qed.
(** A literal which needs escapes inside of a directive of a quoted template. *)
Theorem C51_directive_literal_refuted : changed "x = ""%{if a}\t%{endif}""" "x = ""%{if a}\\t%{endif}""".
Proof. changes. Qed.
(** A heredoc inside of an interpolation of a quoted template. *)
Theorem C51_heredoc_in_quotes_refuted : changed ("x = ""${ <<E" ++ nl ++ "a" ++ nl ++ "E" ++ nl ++ " }""") ("x = ""${ <<E" ++ nl ++ "a\nE" ++ nl ++ " }""").
Proof. changes. Qed.
