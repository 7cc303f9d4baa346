(** * C46: printed trees are read back *)
From Coq Require Import NArith ZArith Arith Bool String List Lia.
From Verif Require Import Res Str Dec NumberModel PrimModel PrimProofs EAst EncModel EqSpec EqProofs EqProps PrattSpec EatLeaf ParseBase ParseModel BackSpec SameSpec BackBodySpec BackBody BackDup.
Import ListNotations.
Open Scope N_scope.

(** [x.to_string().parse()] gives a tree which is the same as [x] except for the formatting which [==]
    ignores ([bare], EqSpec.v), for all trees which satisfy the conditions of BackSpec.v and
    BackBodySpec.v: programs may build them in any way, with any white space and comments as decor.
    Without these conditions it is not so: the theorems [C46_*_refuted] below. *)
Theorem C46_bodies_partial u b pf sf x : ascii_exact u -> body_ok u b pf sf x ->
  exists x', parse_body u b pf (show_body sf x) = Parsed x' /\ bare_body x' = bare_body x.
Proof. intros HU. exact (back_body u b pf sf HU x). Qed.
Print Assumptions C46_bodies_partial.
Theorem C46_expressions_partial u b pf sf e : ascii_exact u -> sub (ok u b pf sf false) false e -> snug (x_meta e) ->
  exists e', parse_expr u b pf (show_expr sf e) = Parsed e' /\ bare e' = bare e.
Proof. intros HU. exact (back_expression u b pf sf HU e). Qed.
Print Assumptions C46_expressions_partial.
Theorem C46_templates_partial u b pf sf es sp : ascii_exact u ->
  lall (elem_ok u b pf sf false) es -> apart es = true -> lits (fun _ _ => True) 0 es ->
  exists t', parse_template u b pf (show_tpl sf (XTempl es sp)) = Parsed t' /\ bare_tpl t' = bare_tpl (XTempl es sp).
Proof. intros HU. exact (back_template u b pf sf HU es sp). Qed.
Print Assumptions C46_templates_partial.

(** In particular the tree is equal to the original one in the sense of [==], for trees which are
    equal to themselves. *)
Theorem C46_equal_bodies_partial u b pf sf x : ascii_exact u -> body_ok u b pf sf x -> body_wf x ->
  exists x', parse_body u b pf (show_body sf x) = Parsed x' /\ xbody_eqb x x' = true.
Proof.
  intros HU HO HW. destruct (back_body u b pf sf HU x HO) as (x' & E & H). exists x'. split; [exact E|].
  rewrite <- (proj2 body_bare). rewrite H. rewrite (proj2 body_bare). now apply C39_body_equivalence_partial.
Qed.
Print Assumptions C46_equal_bodies_partial.
Theorem C46_equal_expressions_partial u b pf sf e : ascii_exact u -> sub (ok u b pf sf false) false e -> snug (x_meta e) -> x_wf e ->
  exists e', parse_expr u b pf (show_expr sf e) = Parsed e' /\ x_eqb e e' = true.
Proof.
  intros HU HO HS HW. destruct (back_expression u b pf sf HU e HO HS) as (e' & E & H). exists e'. split; [exact E|].
  apply C39_same_without_formatting; [exact HW|now symmetry].
Qed.
Print Assumptions C46_equal_expressions_partial.

(** Two trees with the same text are the same. *)
Theorem C46_one_meaning_partial u b pf sf x y : ascii_exact u -> body_ok u b pf sf x -> body_ok u b pf sf y ->
  show_body sf x = show_body sf y -> bare_body x = bare_body y.
Proof.
  intros HU HX HY E. destruct (back_body u b pf sf HU x HX) as (x' & E1 & <-). destruct (back_body u b pf sf HU y HY) as (y' & E2 & <-).
  rewrite E, E2 in E1. now injection E1 as ->.
Qed.
Print Assumptions C46_one_meaning_partial.

(** Printing what was read gives the same text again: programs which read and print each other's
    documents do not change them any more.  Exceptions are white space and comments around operators, which
    get lost, and those after the dots of a grouped [for] expression, which move ([settled], [lone]:
    SameSpec.v, and [C46_operator_decor_refuted] below). *)
Theorem C46_same_text_expressions_partial u b pf sf e : ascii_exact u -> sub (ok u b pf sf false) false e -> snug (x_meta e) -> settled e -> lone e ->
  exists e', parse_expr u b pf (show_expr sf e) = Parsed e' /\ bare e' = bare e /\ show_expr sf e' = show_expr sf e.
Proof. intros HU. exact (same_expression u b pf sf HU e). Qed.
Print Assumptions C46_same_text_expressions_partial.
Theorem C46_same_text_templates_partial u b pf sf es sp : ascii_exact u ->
  lall (elem_ok u b pf sf false) es -> apart es = true -> lits (fun _ _ => True) 0 es -> lall settled_elem es ->
  exists t', parse_template u b pf (show_tpl sf (XTempl es sp)) = Parsed t' /\ bare_tpl t' = bare_tpl (XTempl es sp) /\
    show_tpl sf t' = show_tpl sf (XTempl es sp).
Proof. intros HU. exact (same_template u b pf sf HU es sp). Qed.
Print Assumptions C46_same_text_templates_partial.
Theorem C46_same_text_bodies_partial u b pf sf x : ascii_exact u -> body_ok u b pf sf x -> settled_body x ->
  exists x', parse_body u b pf (show_body sf x) = Parsed x' /\ bare_body x' = bare_body x /\ show_body sf x' = show_body sf x.
Proof. intros HU H HS. destruct (same_body u b pf sf HU x H) as (x' & E & HB & HT). exists x'. split; [exact E|split; [exact HB|exact (HT HS)]]. Qed.
Print Assumptions C46_same_text_bodies_partial.

(** ** Examples *)
Definition dec (p s : string) : meta := Meta (Decor (Some (raw_of_str (lit p))) (Some (raw_of_str (lit s)))) None.
Definition nm : meta := no_meta.
Definition name (s : string) : did := Did nm (lit s).
Definition var (s : string) : xexpr := XVar nm (lit s).
Definition txt (s : string) : xelem := XLit None (lit s).
Definition no_floats (f : f64) : str := [].
Definition zero_float (s : str) : f64 := f64_of_Z 0.
Definition one : xexpr := XNum nm (PosInt 1) None.
(** The text, and what is read from it. *)
Definition reread_expr (e : xexpr) : option xexpr :=
  match parse_expr ascii_unicode Release zero_float (show_expr no_floats e) with Parsed x => Some (bare x) | _ => None end.
Definition reread_body (x : xbody) : option xbody :=
  match parse_body ascii_unicode Release zero_float (show_body no_floats x) with Parsed x => Some (bare_body x) | _ => None end.
Definition oke : xexpr -> Prop := fun e => sub (ok ascii_unicode Release zero_float no_floats false) false e /\ snug (x_meta e).

Definition sample_expr : xexpr :=
  XCond nm (XBinary nm (XBinary nm (var "a") (dec "/* p */ " " ") OpPlus (XBinary nm one nm OpDiv (XParen nm (XBinary nm (var "b") nm OpMinus one))))
              nm OpEq (XUnary nm None Neg (XTrav nm (var "c") [XTrop nm (XGetAttr (name "d")); XTrop nm (XIndex (XStr (dec " " "") (lit "k"))); XTrop nm (XFullSplat nm); XTrop nm (XLegacy nm 3)])))
    (XFor nm nm (Some (Did nm (lit "k"))) (Did (dec " " " ") (lit "v")) (var "m") (Some (var "k"))
       (XCall nm [name "ns"] (name "f") nm [var "v"; XObj nm [] REmpty] true false REmpty) true (Some (XForCond nm (XBool nm true))))
    (XArr nm [XNull nm; XTpl nm [txt "a "; XInterp None (var "x") StripStart; txt "%b"; XIfD None (RText SP) (XVar (dec " " " ") (lit "y")) (XTempl [txt "c"] None) StripNone (Some (XElse REmpty REmpty (XTempl [] None) StripBoth)) (RText SP) REmpty StripEnd]] true (RText (lit " # last" ++ [10]))).
Ltac auto_ok :=
  repeat first
    [ exact I | reflexivity | discriminate | (left; reflexivity) | (intros; discriminate)
    | (intros [F | F]; discriminate) | split | (left; repeat split; (reflexivity || discriminate)) | constructor ].
Definition is_comparison (o : binop) : bool := match o with OpEq | OpNotEq | OpLess | OpLessEq | OpGreater | OpGreaterEq => true | _ => false end.
Lemma one_comparison ops : (length (filter is_comparison ops) <= 1)%nat -> ~ chained ops.
Proof.
  intros H (a & o1 & m & o2 & z & -> & C & P & _). assert (C1 : is_comparison o1 = true) by (destruct o1; try reflexivity; contradiction).
  assert (C2 : is_comparison o2 = true) by (destruct o1; try contradiction; destruct o2; try reflexivity; discriminate).
  rewrite filter_app in H. cbn [filter] in H. rewrite C1, filter_app in H. cbn [filter] in H. rewrite C2 in H.
  repeat rewrite app_length in H. cbn [length] in H. repeat rewrite app_length in H. cbn [length] in H. lia.
Qed.
Example sample_expr_ok : oke sample_expr.
Proof.
  unfold oke, sub, sample_expr. split; [|vm_compute; auto]. cbn. unfold variable, loop_ok, elem_in, tidy, snug, raw_gap, clean, closing, num_ok, number_text, tpl_ok.
  auto_ok. all: apply one_comparison; vm_compute; lia.
Qed.
Example sample_expr_read : reread_expr sample_expr = Some (bare sample_expr).
Proof. vm_compute. reflexivity. Qed.
(** The same without a comment before an operator. *)
Definition settled_expr : xexpr :=
  match sample_expr with
  | XCond m (XBinary m1 (XBinary m2 l _ o r) om1 o1 r1) t f => XCond m (XBinary m1 (XBinary m2 l nm o r) (dec "" "") o1 r1) t f
  | e => e
  end.
Example settled_expr_ok : oke settled_expr /\ settled settled_expr /\ lone settled_expr /\
  show_expr no_floats settled_expr <> show_expr no_floats sample_expr.
Proof.
  split; [|split; [|split; [exact I|vm_compute; discriminate]]].
  - unfold oke, sub, settled_expr. split; [|vm_compute; auto]. cbn. unfold variable, loop_ok, elem_in, tidy, snug, raw_gap, clean, closing, num_ok, number_text, tpl_ok.
    auto_ok. all: apply one_comparison; vm_compute; lia.
  - cbn. unfold one_gap. repeat split; try (now left); try (now right); exact I.
Qed.
Example sample_expr_wf : x_wf sample_expr.
Proof. cbn. auto_ok. Qed.

(** A body with comments, blocks, a heredoc and an object. *)
Definition heredoc : xexpr :=
  XHeredoc nm (lit "EOT") (XTempl [XInterp None (var "x") StripNone; XLit None ([10] ++ lit "  ""quoted"" $${y}" ++ [10] ++ lit "z" ++ [10])] None) None (RText SP).
Definition sample_body : xbody :=
  XBody nm
    [XAttr (Meta (Decor (Some (RText (lit "# first" ++ [10]))) (Some (RText (lit " // last")))) None) (Did (dec "" "  ") (lit "a")) sample_expr;
     XBlock nm (name "b") [XLId (name "x"); XLStr (dec "" "/**/") (lit "y ""z")]
       (XBody nm
          [XAttr nm (name "a") heredoc;
           XAttr nm (name "for") (XObj nm [XItem (XKId (name "k")) AEquals (XVar (dec " " " # c") (lit "v")) TNewline; XItem (XKExpr (XStr nm (lit "k"))) AColon one TComma] (RText SP));
           XBlock nm (name "c") [] (XBody nm [XAttr nm (name "d") (XStr nm (lit "$${"))] true false);
           XBlock nm (name "c") [] (XBody nm [] true false)] false false)] false true.
Example sample_body_ok : body_ok ascii_unicode Release zero_float no_floats sample_body.
Proof.
  cbn. unfold line_ok, attr_ok, variable, loop_ok, elem_in, tidy, snug, raw_gap, clean, closing, num_ok, number_text, tpl_ok, label_ok.
  auto_ok. all: try (apply one_comparison; vm_compute; lia). all: try (cbn; intuition discriminate).
  exists [XInterp None (var "x") StripNone], None, ([10] ++ lit "  ""quoted"" $${y}" ++ [10] ++ lit "z"), [10].
  split; [reflexivity|]. split; [left; split; [reflexivity|discriminate]|]. cbn. auto_ok.
Qed.
Example sample_body_read : reread_body sample_body = Some (bare_body sample_body).
Proof. vm_compute. reflexivity. Qed.
Example sample_body_wf : body_wf sample_body.
Proof. cbn. auto_ok. Qed.

(** The same with an operation whose text is kept. *)
Definition settled_sample : xbody :=
  match sample_body with XBody m (XAttr am k _ :: l) one om => XBody m (XAttr am k settled_expr :: l) one om | x => x end.
Example settled_sample_ok : body_ok ascii_unicode Release zero_float no_floats settled_sample /\ settled_body settled_sample.
Proof.
  split.
  - pose proof sample_body_ok as H. destruct H as (P0 & P1 & P2 & (HA & H1) & P4 & _). split; [exact P0|]. split; [exact P1|]. split; [exact P2|]. split; [|split; [exact P4|intros _; split; [discriminate|reflexivity]]]. split; [|exact H1].
    destruct HA as (A0 & A1 & A2 & A3 & A4 & _). split; [exact A0|]. split; [exact A1|]. split; [exact A2|]. split; [exact A3|]. split; [exact A4|]. exact (proj1 (proj1 settled_expr_ok)).
  - cbn. unfold one_gap. repeat split; try (now left); try (now right); exact I.
Qed.

(** A template of its own. *)
Definition sample_tpl : list xelem :=
  [XLit None (lit "a ""b""" ++ [10]); XForD None (RText SP) None (name "i") (XTpl nm [XInterp None (var "l") StripNone]) (XTempl [XLit None [9]; XInterp None (var "i") StripBoth] None) StripNone REmpty (RText SP) StripStart; txt "$$"].
Example sample_tpl_ok : lall (elem_ok ascii_unicode Release zero_float no_floats false) sample_tpl /\ apart sample_tpl = true /\ lits (fun _ _ => True) 0 sample_tpl.
Proof.
  cbn. unfold variable, loop_ok, elem_in, tidy, snug, raw_gap, clean, closing. cbn. auto_ok.
Qed.

Example sample_tpl_settled : lall settled_elem sample_tpl.
Proof. cbn. repeat split. Qed.

(** ** Trees which are not read back

    Each of them can be built with the constructors of hcl-edit. *)
(** Comments around operators are read, but not printed again. *)
Theorem C46_operator_decor_refuted :
  let e := XBinary nm (var "a") (dec " /* p */ " " ") OpPlus one in oke e /\
  exists e', parse_expr ascii_unicode Release zero_float (show_expr no_floats e) = Parsed e' /\
    show_expr no_floats e = lit "a /* p */ + 1" /\ show_expr no_floats e' = lit "a + 1".
Proof.
  split.
  - unfold oke, sub. split; [|vm_compute; auto]. cbn. unfold variable, tidy, snug, num_ok, number_text. auto_ok. apply one_comparison; vm_compute; lia.
  - eexists. split; [vm_compute; reflexivity|]. split; vm_compute; reflexivity.
Qed.
(** A [for] expression whose parts have no decor: the word [in] is written directly behind the variable. *)
Theorem C46_for_without_decor_refuted : let e := XFor nm nm None (name "x") (var "c") None (var "y") false None in
  show_expr no_floats e = lit "[for xin c : y]" /\ reread_expr e = None.
Proof. vm_compute. split; reflexivity. Qed.
(** Literals inside of directives of quoted templates are written with escapes, and read without. *)
Theorem C46_directive_literal_refuted : exists e e' : xexpr, reread_expr e = Some e' /\ x_eqb e e' = false /\
  e = XTpl nm [XIfD None (RText SP) (XVar (dec " " " ") (lit "c")) (XTempl [txt """"] None) StripNone None (RText SP) (RText SP) StripNone] /\
  e' = bare (XTpl nm [XIfD None (RText SP) (XVar (dec " " " ") (lit "c")) (XTempl [txt "\"""] None) StripNone None (RText SP) (RText SP) StripNone]).
Proof.
  eexists (XTpl nm [XIfD None (RText SP) (XVar (dec " " " ") (lit "c")) (XTempl [txt """"] None) StripNone None (RText SP) (RText SP) StripNone]), _.
  repeat split; vm_compute; reflexivity.
Qed.
(** Behind a quoted template inside of an interpolation, literals are written without escapes. *)
Theorem C46_nested_quotes_refuted :
  let e := XTpl nm [XInterp None (XTpl nm [XInterp None (var "x") StripNone]) StripNone; txt """"] in
  show_expr no_floats e = lit """${ ""${ x }"" }""""" /\ reread_expr e = None.
Proof. vm_compute. split; reflexivity. Qed.
(** So are the literals of heredocs inside of an interpolation of a quoted template not. *)
Theorem C46_heredoc_in_quotes_refuted :
  let h := XHeredoc nm (lit "E") (XTempl [XLit None [97; 10]] None) None REmpty in
  reread_expr h = Some (bare h) /\ reread_expr (XTpl nm [XInterp None h StripNone]) = None.
Proof. vm_compute. split; reflexivity. Qed.
(** Keys of objects: identifiers which are keywords, expressions which are variables. *)
Theorem C46_object_keys_refuted :
  let o := fun k => XObj nm [XItem k AEquals one TNone] REmpty in
  reread_expr (o (XKId (name "null"))) = Some (bare (o (XKExpr (XNull nm)))) /\
  reread_expr (o (XKExpr (var "a"))) = Some (bare (o (XKId (name "a")))).
Proof. vm_compute. split; reflexivity. Qed.
(** An empty heredoc swallows what follows, up to the next line with its delimiter. *)
Theorem C46_empty_heredoc_refuted :
  let h := fun l => XHeredoc nm (lit "E") (XTempl l None) None REmpty in
  let body := fun l => XBody nm l false false in
  reread_expr (h []) = Some (bare (h [])) /\
  reread_body (body [XAttr nm (name "a") (h []); XAttr nm (name "b") (h [XLit None [120; 10]])]) =
    Some (bare_body (body [XAttr nm (name "a") (h [XLit None (lit "E" ++ [10] ++ lit "b = <<E" ++ [10] ++ lit "x" ++ [10])])])).
Proof. vm_compute. split; reflexivity. Qed.
(** The text of a heredoc contains the delimiter, or does not end with a line break. *)
Theorem C46_heredoc_text_refuted :
  let h := fun s => XHeredoc nm (lit "E") (XTempl [XLit None s] None) None REmpty in
  reread_expr (h (lit "a")) = None /\ reread_expr (h (lit "a" ++ [10] ++ lit "E" ++ [10])) = None.
Proof. vm_compute. split; reflexivity. Qed.
(** The indentation of [<<-] is added to that of the text, and the sum is taken away. *)
Theorem C46_heredoc_indent_refuted :
  let h := fun s n => XHeredoc nm (lit "E") (XTempl [XLit None s] None) (Some n) REmpty in
  reread_expr (h (lit "  a" ++ [10]) 2%nat) = Some (bare (h (lit "a" ++ [10]) 4%nat)).
Proof. vm_compute. reflexivity. Qed.
(** The trailing comma of an empty array is not written, but compared. *)
Theorem C46_empty_array_refuted :
  let e := XArr nm [] true REmpty in reread_expr e = Some (bare (XArr nm [] false REmpty)) /\ x_eqb e (XArr nm [] false REmpty) = false.
Proof. vm_compute. split; reflexivity. Qed.
(** A template without interpolations is read as a string. *)
Theorem C46_literal_template_refuted :
  let e := XTpl nm [txt "a"] in reread_expr e = Some (bare (XStr nm (lit "a"))) /\ x_eqb e (XStr nm (lit "a")) = false.
Proof. vm_compute. split; reflexivity. Qed.
(** Operations are written without parentheses: [(a + b) * c]. *)
Theorem C46_operators_refuted :
  let a := var "a" in let b := var "b" in let c := var "c" in
  reread_expr (XBinary nm (XBinary nm a nm OpPlus b) nm OpMul c) = Some (bare (XBinary nm a nm OpPlus (XBinary nm b nm OpMul c))).
Proof. vm_compute. reflexivity. Qed.
(** [for] must not be followed by a carriage return. *)
Theorem C46_for_return_refuted :
  let e := fun p => XFor nm nm None (Did (Meta (Decor (Some (RText p)) (Some (RText SP))) None) (lit "x")) (var "c") None (var "y") false None in
  reread_expr (e [10]) = Some (bare (e [10])) /\ reread_expr (e [13; 10]) = None.
Proof. vm_compute. split; reflexivity. Qed.
(** A block which is to be written on one line, but has two attributes, is written on several lines.
    The preference is not compared by [==]. *)
Example one_line_preference_lost :
  let x := fun one_line => XBody nm [XBlock nm (name "b") [] (XBody nm [XAttr nm (name "x") one; XAttr nm (name "y") one] one_line false)] false false in
  reread_body (x true) = Some (bare_body (x false)) /\ xbody_eqb (x true) (x false) = true.
Proof. vm_compute. split; reflexivity. Qed.

(** ** C18: repeated keys are rejected

    If a key is repeated in a body, at the top or in a block at any depth, parsing fails with an error at
    the second occurrence, whatever follows.  [repeats] (BackBodySpec.v): the lines before it are
    printed by hcl-edit, from trees as in [C46_bodies_partial].  Missing: texts which no such tree prints. *)
Theorem C18_repeated_key_partial u b pf sf t r : ascii_exact u -> repeats u b pf sf t r -> parse_body u b pf (t ++ r) = ParseError (blen t).
Proof. exact (repeats_rejected u b pf sf t r). Qed.
Print Assumptions C18_repeated_key_partial.
Definition two_lines : list xstruct := [XAttr nm (name "x") one; XBlock nm (name "b") [] (XBody nm [] true false)].
Example repeats_sample : repeats ascii_unicode Release zero_float no_floats
  (lit "x = 1" ++ [10] ++ lit "b {}" ++ [10] ++ lit "c ""l"" { # comment" ++ [10] ++ lit "x = 1" ++ [10] ++ lit "b {}" ++ [10] ++ lit "  ")
  (lit "x = [this is not HCL").
Proof.
  assert (HL : lines_of ascii_unicode Release zero_float no_floats two_lines (lit "x = 1" ++ [10] ++ lit "b {}" ++ [10])).
  { split; [|split].
    - cbn. unfold line_ok, attr_ok, variable, tidy, num_ok, number_text. auto_ok.
    - cbn. auto_ok. intros [].
    - vm_compute. reflexivity. }
  apply (R_block ascii_unicode Release zero_float no_floats two_lines (lit "x = 1" ++ [10] ++ lit "b {}" ++ [10]) [] (lit "c") (lit " ") [XLStr nm (lit "l")]
    (lit " # comment") ((lit "x = 1" ++ [10] ++ lit "b {}" ++ [10]) ++ lit "  ")); auto.
  - cbn. unfold label_ok. auto_ok.
  - cbn. auto_ok.
  - apply (R_here ascii_unicode Release zero_float no_floats two_lines _ _ (lit "x") (lit " ")); auto. now left.
Qed.
