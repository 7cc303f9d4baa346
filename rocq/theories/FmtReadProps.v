(** * C21: formatted expressions, values and bodies are read back *)
From Coq Require Import NArith ZArith Arith Bool String List Lia.
From Verif Require Import Res Str Dec NumberModel PrimModel PrimProofs Ast AstInd EqSpec.
From Verif Require Import EvalModel EvalIp PrattSpec.
From Verif Require Import ConvModel ConvSpec FmtModel FmtSpec FmtProofs FmtLayout.
From Verif Require Import ParseBase ParseModel EatLeaf FmtReadSpec FmtReadProofs FmtBodyProofs FmtValueProofs.
Import ListNotations.
Open Scope N_scope.

(** [hcl::expr] and [hcl::parse]: parse, and convert to the tree of hcl-rs. *)
Definition read_expr_text u b pf sf (s : str) : parsed expr :=
  match parse_expr u b pf s with Parsed x => Parsed (of_edit sf x) | ParseError o => ParseError o | ParsePanic => ParsePanic | ParseFuel => ParseFuel end.
Definition read_body_text u b pf sf (s : str) : parsed rbody :=
  match parse_body u b pf s with Parsed x => Parsed (of_body sf x) | ParseError o => ParseError o | ParsePanic => ParsePanic | ParseFuel => ParseFuel end.

(** Without [prefer_ident_keys], and without "<<-", expressions are read as they are. *)
Lemma as_read_same u c : c_ident_keys c = false -> forall e, strict e -> as_read u c e = e.
Proof.
  intros HC. assert (HK : forall k, read_key u c k = k) by (intros [x|[]]; cbn [read_key]; rewrite ?HC; reflexivity).
  assert (LM : forall l, Forall (fun e => strict e -> as_read u c e = e) l -> lall strict l -> map (as_read u c) l = l).
  { induction 1; cbn [map lall]; [reflexivity|]. intros []. f_equal; auto. }
  apply (expr_ind' (fun e => strict e -> as_read u c e = e)); intros; cbn [as_read strict] in *;
    repeat match goal with H : _ /\ _ |- _ => destruct H end; f_equal; auto.
  - induction H as [|[k v] m [_ H] _ IH]; [reflexivity|]. cbn [map lall fst snd] in *. destruct H0. now rewrite HK, H, IH.
  - destruct t as [s|d s []]; [reflexivity|reflexivity|contradiction].
  - match goal with H : Forall _ ops |- _ => induction H as [|o ops Ho _ IH]; [reflexivity|] end.
    match goal with H : lall _ (_ :: _) |- _ => destruct H as [HL1 HL2] end. cbn [map]. rewrite IH by assumption. destruct o; try reflexivity. cbn in Ho. now rewrite Ho.
  - destruct key; cbn in *; [f_equal; auto|reflexivity].
  - destruct cond; cbn in *; [f_equal; auto|reflexivity].
Qed.
Lemma struct_as_read_same u c : c_ident_keys c = false -> forall s, struct_strict s -> struct_as_read u c s = s.
Proof.
  intros HC. apply (struct_ind' (fun s => struct_strict s -> struct_as_read u c s = s)); intros; cbn [struct_as_read struct_strict] in *; f_equal; [now apply as_read_same|].
  induction H; cbn [map lall] in *; [reflexivity|]. destruct H0. f_equal; auto.
Qed.
Lemma body_as_read_same u c l : c_ident_keys c = false -> lall struct_strict l -> map (struct_as_read u c) l = l.
Proof. intros HC. induction l; cbn [map lall]; [reflexivity|]. intros []. f_equal; auto using struct_as_read_same. Qed.

(** Expressions.  [readable] (FmtReadSpec.v) leaves out templates in keys and the
    trees whose text is read as something else: the theorems [C21_*_refuted] below and in FmtTplProps.
    The text is that of a fresh formatter.  With [prefer_ident_keys], strings which are identifiers come
    back as identifiers when they are keys; heredocs with "<<-" come back as heredocs with "<<", with the
    same text. *)
Theorem C21_expressions_partial u b pf sf c e :
  ascii_exact u -> forallb is_space (c_indent c) = true -> readable u b pf sf c e ->
  exists s, format_fresh (fm_expr u sf c e) = Done s /\ read_expr_text u b pf sf s = Parsed (as_read u c e).
Proof.
  intros HU HI HR. exists (show u sf c false 0 e). split; [exact (fresh_text u sf c (JExpr e))|].
  destruct (read_expr u b pf sf c HU HI false 0%nat e HR) as (x & E & H). unfold read_expr_text. rewrite E. now rewrite H.
Qed.
Print Assumptions C21_expressions_partial.
Theorem C21_expressions_same_partial u b pf sf c e :
  ascii_exact u -> forallb is_space (c_indent c) = true -> c_ident_keys c = false -> readable u b pf sf c e -> strict e ->
  exists s, format_fresh (fm_expr u sf c e) = Done s /\ read_expr_text u b pf sf s = Parsed e.
Proof. intros HU HI HC HR HS. destruct (C21_expressions_partial u b pf sf c e HU HI HR) as (s & E & H). exists s. split; [exact E|]. now rewrite as_read_same in H. Qed.
Print Assumptions C21_expressions_same_partial.

(** Bodies. *)
Theorem C21_bodies_partial u b pf sf c l :
  ascii_exact u -> forallb is_space (c_indent c) = true -> body_readable u b pf sf c l ->
  exists s, format_fresh (fm_body u sf c l) = Done s /\ read_body_text u b pf sf s = Parsed (map (struct_as_read u c) l).
Proof.
  intros HU HI HR. exists (show_body u sf c false 0 Initial l). split; [exact (fresh_text u sf c (JBody l))|].
  destruct (read_body u b pf sf c HU HI false 0%nat Initial l HR) as (x & E & H). unfold read_body_text. rewrite E. now rewrite H.
Qed.
Print Assumptions C21_bodies_partial.
Theorem C21_bodies_same_partial u b pf sf c l :
  ascii_exact u -> forallb is_space (c_indent c) = true -> c_ident_keys c = false -> body_readable u b pf sf c l -> lall struct_strict l ->
  exists s, format_fresh (fm_body u sf c l) = Done s /\ read_body_text u b pf sf s = Parsed l.
Proof.
  intros HU HI HC HR HS. destruct (C21_bodies_partial u b pf sf c l HU HI HR) as (s & E & H). exists s. split; [exact E|].
  rewrite H. f_equal. now apply body_as_read_same.
Qed.
Print Assumptions C21_bodies_same_partial.

(** Values: the expression that is read is the one made of the value (up to the form of keys), and
    evaluates to it. *)
Theorem C21_values_partial u b pf sf c v :
  ascii_exact u -> forallb is_space (c_indent c) = true -> value_readable u b pf sf c v ->
  exists s e, format_fresh (fm_value u sf c v) = Done s /\ read_expr_text u b pf sf s = Parsed e /\
    (c_ident_keys c = false -> e = expr_of_value v) /\
    forall pt sv sn n x, eval b pt sv sn n x e = Ok v.
Proof.
  intros HU HI HR. exists (show_value u sf c false 0 v), (as_read u c (expr_of_value v)). split; [exact (fresh_text u sf c (JValue v))|]. split; [|split].
  - rewrite (vread_show u b pf sf c v HR). destruct (read_expr u b pf sf c HU HI false 0%nat _ (vread_readable u b pf sf c v HR)) as (x & E & H).
    unfold read_expr_text. rewrite E. now rewrite H.
  - intros HC. apply as_read_same; [exact HC|apply value_strict].
  - intros pt sv sn n x. destruct (eval_unfold b pt sv sn n) as (tpl & ->). now apply (vread_eval u b pf sf c).
Qed.
Print Assumptions C21_values_partial.

(** ** Examples *)
Definition one : expr := ENum (PosInt 1).
Definition no_floats (f : f64) : str := [].
Definition zero_float (s : str) : f64 := f64_of_Z 0.
Definition rt (c : cfg) (e : expr) : option (parsed expr) :=
  match format_fresh (fm_expr ascii_unicode no_floats c e) with
  | Done s => Some (read_expr_text ascii_unicode Release zero_float no_floats s)
  | Panic => None
  end.
Definition var (s : string) : expr := EVar (lit s).
Definition sample : expr :=
  EObj [(KIdent (lit "a"), EArr [one; EStr [10; 34; 92]; EParen (EBinary (var "x") OpPlus (EBinary one OpMul (ENum (NegInt (-3)))))]);
        (KExpr (EStr (lit "b c")), ECond (EUnary Not (var "y")) (ETrav (var "z") [GetAttr (lit "p"); Index (EStr (lit "q")); FullSplat; LegacyIndex 2]) ENull);
        (KExpr (EParen (var "k")), EFor (Some (lit "i")) (lit "v") (var "l") (Some (var "i")) (ECall (FuncName [lit "ns"] (lit "f")) [var "v"; EObj []] true) true (Some (EBool true)))].
Lemma no_comparison ops : (forall o, In o ops -> ~ comparison o) -> ~ chained ops.
Proof. intros H (a & o1 & m & o2 & z & -> & C & _). apply (H o1); [|exact C]. apply in_or_app. right. now left. Qed.
Example readable_sample : readable ascii_unicode Release zero_float no_floats default_cfg sample.
Proof.
  cbn. unfold variable. repeat first [split | reflexivity | exact I | discriminate | (intros; discriminate) | (left; split; reflexivity) | constructor].
  all: apply no_comparison; intros o Ho; cbn in Ho; intuition (subst; assumption).
Qed.
Example readable_sample_text : rt default_cfg sample = Some (Parsed sample).
Proof. vm_compute. reflexivity. Qed.

(** Templates: an interpolation with an object and a string in it, an escaped marker, a directive; a
    heredoc, as the value of an object and at the end of a conditional. *)
Definition word (s : string) : EAst.xexpr := EAst.XVar EAst.no_meta (lit s).
Definition quoted_elems : list EAst.xelem :=
  [EAst.XLit None (lit "a $ "); EAst.XInterp None (EAst.XCall EAst.no_meta [] (EAst.Did EAst.no_meta (lit "f")) EAst.no_meta [word "x"; EAst.XStr EAst.no_meta [10; 34]] false false EAst.REmpty) StripBoth;
   EAst.XLit None (lit "%{${"); EAst.XIfD None (EAst.RText [32]) (EAst.x_upd (EAst.set_prefix (EAst.RText [32])) (word "y")) (EAst.XTempl [EAst.XLit None (lit "z")] None) StripNone None (EAst.RText [32]) (EAst.RText [32]) StripEnd].
Definition doc_elems : list EAst.xelem :=
  [EAst.XLit None (lit "one ""two""" ++ [10; 32; 92]); EAst.XInterp None (word "x") StripNone; EAst.XLit None (lit " EOTS" ++ [10])].
Definition doc3_elems : list EAst.xelem :=
  [EAst.XLit None (lit "a "); EAst.XInterp None (word "x") StripNone; EAst.XLit None (lit " b" ++ [10] ++ lit "c" ++ [10])].
Definition sample_templates : expr :=
  EArr [ETpl (QuotedString (EncModel.show_tpl no_floats (EAst.XTempl quoted_elems None)));
        EObj [(KIdent (lit "a"), ETpl (Heredoc (lit "EOT") (EncModel.show_tpl no_floats (EAst.XTempl doc_elems None)) HdNone)); (KIdent (lit "b"), one)];
        ECond (var "y") (EParen (ETpl (Heredoc (lit "E") (lit "$${" ++ [10]) HdNone))) (EBinary one OpPlus (ETpl (QuotedString (lit "${x}"))))].
Example sample_templates_tree : exists s t, sample_templates =
  EArr [ETpl (QuotedString (lit "a $ ${~ f(x, ""\n\"""") ~}%%{$${%{ if y }z%{ endif ~}")); s; t].
Proof. vm_compute. eauto. Qed.
Ltac auto_ok :=
  cbn; unfold BackSpec.variable, BackSpec.elem_in, BackSpec.tidy, BackSpec.snug, BackSpec.raw_gap, BackSpec.clean, BackSpec.closing, BackSpec.tpl_ok;
  repeat first
    [ exact I | reflexivity | discriminate | (left; reflexivity) | (intros; discriminate)
    | (intros [F | F]; discriminate) | split | (left; repeat split; (reflexivity || discriminate)) | constructor ].
Notation rd e := (readable ascii_unicode Release zero_float no_floats default_cfg e).
Lemma quoted_ok : rd (ETpl (QuotedString (EncModel.show_tpl no_floats (EAst.XTempl quoted_elems None)))).
Proof. exists quoted_elems. split; [auto_ok|]. split; [auto_ok|]. split; vm_compute; reflexivity. Qed.
Lemma doc_ok : rd (ETpl (Heredoc (lit "EOT") (EncModel.show_tpl no_floats (EAst.XTempl doc_elems None)) HdNone)).
Proof.
  exists doc_elems. split; [|split; [auto_ok|split; [reflexivity|exact I]]]. auto_ok.
  exists (firstn 2 doc_elems), None, (lit " EOTS"), [10]. split; [reflexivity|]. split; [left; split; [reflexivity|discriminate]|]. auto_ok.
Qed.
Lemma doc2_ok : rd (ETpl (Heredoc (lit "E") (lit "$${" ++ [10]) HdNone)).
Proof.
  exists [EAst.XLit None (lit "${" ++ [10])]. split; [|split; [auto_ok|split; [reflexivity|exact I]]]. auto_ok.
  exists [], None, (lit "${"), [10]. split; [reflexivity|]. split; [left; split; [reflexivity|discriminate]|]. auto_ok.
Qed.
Lemma quoted2_ok : rd (ETpl (QuotedString (lit "${x}"))).
Proof. exists [EAst.XInterp None (EAst.x_upd (EAst.set_prefix EAst.REmpty) (EAst.x_upd (EAst.set_suffix EAst.REmpty) (word "x"))) StripNone]. split; [auto_ok|]. split; [auto_ok|]. split; vm_compute; reflexivity. Qed.
Example readable_sample_templates : rd sample_templates.
Proof.
  assert (O : rd one) by (cbn; unfold u64_max; lia).
  split; [exact quoted_ok|]. split; [|split; [|exact I]].
  - split; [|split; [repeat constructor; discriminate|split; [discriminate|exact I]]].
    split; [split; [split; reflexivity|exact doc_ok]|]. split; [split; [split; reflexivity|exact O]|exact I].
  - split; [reflexivity|]. split; [split; reflexivity|]. split; [exact doc2_ok|].
    split; [reflexivity|]. split; [reflexivity|]. split; [exact O|]. split; [exact quoted2_ok|].
    split; [cbn; auto_ok|]. apply no_comparison. intros o Ho; cbn in Ho; intuition (subst; assumption).
Qed.
Example readable_sample_templates_text : rt default_cfg sample_templates = Some (Parsed sample_templates).
Proof. vm_compute. reflexivity. Qed.

(** Heredocs with "<<-": several lines with an interpolation, and lines without any, one of them indented. *)
Definition doc3 : expr := ETpl (Heredoc (lit "EOT") (EncModel.show_tpl no_floats (EAst.XTempl doc3_elems None)) HdIndent).
Definition doc4 : expr := ETpl (Heredoc (lit "E") (lit "a" ++ [10; 32; 32] ++ lit "b" ++ [10]) HdIndent).
Lemma doc3_ok : rd doc3.
Proof.
  exists doc3_elems. split; [|split; [auto_ok|split; [reflexivity|]]]; [auto_ok|].
  - exists (firstn 2 doc3_elems), None, (lit " b" ++ [10] ++ lit "c"), [10]. split; [reflexivity|]. split; [left; split; [reflexivity|discriminate]|]. auto_ok.
  - split; [cbn; intuition discriminate|]. right. left. vm_compute. repeat constructor.
Qed.
Lemma doc4_ok : rd doc4.
Proof.
  exists [EAst.XLit None (lit "a" ++ [10; 32; 32] ++ lit "b" ++ [10])]. split; [|split; [auto_ok|split; [reflexivity|]]]; [auto_ok|].
  - exists [], None, (lit "a" ++ [10; 32; 32] ++ lit "b"), [10]. split; [reflexivity|]. split; [left; split; [reflexivity|discriminate]|]. auto_ok.
  - split; [cbn; intuition discriminate|]. left. eexists. split; [reflexivity|]. now left.
Qed.
Example readable_indented_text : exists s t, doc3 = ETpl (Heredoc (lit "EOT") s HdIndent) /\ doc4 = ETpl (Heredoc (lit "E") t HdIndent) /\
  s = lit "a ${ x } b" ++ [10] ++ lit "c" ++ [10] /\
  rt default_cfg (EArr [doc3; doc4]) = Some (Parsed (EArr [ETpl (Heredoc (lit "EOT") s HdNone); ETpl (Heredoc (lit "E") t HdNone)])).
Proof. do 2 eexists. split; [reflexivity|]. split; [reflexivity|]. split; vm_compute; reflexivity. Qed.
Example strict_sample_templates : strict sample_templates /\ ~ strict doc3.
Proof. split; [cbn; repeat split|intros []]. Qed.

Definition sample_body : rbody :=
  [SAttribute (lit "a") sample; SBlk (lit "b") [BLIdent (lit "x"); BLString (lit "y ""z")] [];
   SBlk (lit "c") [] [SAttribute (lit "a") (EArr []); SAttribute (lit "for") one; SBlk (lit "d") [] [SBlk (lit "e") [] []]]].
Example readable_sample_body : body_readable ascii_unicode Release zero_float no_floats default_cfg sample_body.
Proof.
  split; [|repeat constructor; intros []]. split; [split; [reflexivity|exact readable_sample]|]. cbn. repeat first [split | reflexivity | exact I | discriminate | constructor].
  all: cbn; intuition discriminate.
Qed.
Definition rtb (c : cfg) (l : rbody) : option (parsed rbody) :=
  match format_fresh (fm_body ascii_unicode no_floats c l) with
  | Done s => Some (read_body_text ascii_unicode Release zero_float no_floats s)
  | Panic => None
  end.
Example readable_sample_body_text : rtb default_cfg sample_body = Some (Parsed sample_body).
Proof. vm_compute. reflexivity. Qed.
Definition compact_cfg : cfg := Cfg [9] true true true true.
Definition sample_value : value :=
  VObj [(lit "a", VArr [VNum (NegInt (-1)); VBool true; VNull; VStr (lit "x$y")]); (lit "b c", VObj []); (lit "d", VArr [])].
Example readable_sample_value : value_readable ascii_unicode Release zero_float no_floats compact_cfg sample_value.
Proof.
  cbn. repeat first [split | reflexivity | exact I | (left; split; reflexivity) | (intros M; apply templated_marked in M; discriminate) | constructor].
  all: cbn; intuition discriminate.
Qed.
(** A marker behind the same sign is none, nor is one at the end. *)
Example readable_doubled_value : value_readable ascii_unicode Release zero_float no_floats default_cfg (VStr (lit "$$${a} ${")).
Proof. split; [reflexivity|]. intros M. apply templated_marked in M. discriminate. Qed.
Example sample_value_text : exists e, rt compact_cfg (expr_of_value sample_value) = Some (Parsed e) /\ e <> expr_of_value sample_value.
Proof. eexists. split; [vm_compute; reflexivity|]. discriminate. Qed.

(** ** What is not read back *)
(** A string with a marker in it becomes a template, whose value depends on the variables. *)
Theorem C21_marked_value_refuted : marked (lit "${a}") /\
  match format_fresh (fm_value ascii_unicode no_floats default_cfg (VStr (lit "${a}"))) with
  | Done s => read_expr_text ascii_unicode Release zero_float no_floats s = Parsed (ETpl (QuotedString (lit "${a}")))
  | Panic => False
  end.
Proof. split; [exists [], 36, 97, [125]; split; [reflexivity|]; split; [now left|]; discriminate|]. vm_compute. reflexivity. Qed.
(** A variable or key named [for]: the text does not parse; a variable named [null] becomes null. *)
Theorem C21_for_key_refuted : exists o, rt default_cfg (EObj [(KIdent (lit "for"), one)]) = Some (ParseError o).
Proof. vm_compute. eauto. Qed.
Theorem C21_for_variable_refuted : exists o, rt default_cfg (EArr [var "for"]) = Some (ParseError o).
Proof. vm_compute. eauto. Qed.
Theorem C21_null_variable_refuted : rt default_cfg (var "null") = Some (Parsed ENull).
Proof. vm_compute. reflexivity. Qed.
(** The negation of a number becomes a negative number. *)
Theorem C21_negation_refuted : rt default_cfg (EUnary Neg one) = Some (Parsed (ENum (NegInt (-1)))).
Proof. vm_compute. reflexivity. Qed.
(** Operators of a negation are read as those of its operand. *)
Theorem C21_traversal_refuted : rt default_cfg (ETrav (EUnary Not (var "a")) [FullSplat]) = Some (Parsed (EUnary Not (ETrav (var "a") [FullSplat]))).
Proof. vm_compute. reflexivity. Qed.
(** Operations which are operands are not parenthesised: (1 + 1) * 1 becomes 1 + 1 * 1. *)
Theorem C21_operation_refuted : rt default_cfg (EBinary (EBinary one OpPlus one) OpMul one) = Some (Parsed (EBinary one OpPlus (EBinary one OpMul one))).
Proof. vm_compute. reflexivity. Qed.
(** A heredoc with "<<-" comes back as one with "<<", or else without its indentation. *)
Theorem C21_indented_heredoc_refuted :
  rt default_cfg (ETpl (Heredoc (lit "E") (lit "a" ++ [10]) HdIndent)) = Some (Parsed (ETpl (Heredoc (lit "E") (lit "a" ++ [10]) HdNone))) /\
  rt default_cfg (ETpl (Heredoc (lit "E") (lit "  a" ++ [10]) HdIndent)) = Some (Parsed (ETpl (Heredoc (lit "E") (lit "a" ++ [10]) HdIndent))).
Proof. split; vm_compute; reflexivity. Qed.
(** An expanded call without arguments does not parse. *)
Theorem C21_expand_refuted : exists o, rt default_cfg (ECall (FuncName [] (lit "f")) [] true) = Some (ParseError o).
Proof. vm_compute. eauto. Qed.
(** A key on the line after an array is read as the continuation of the value before it. *)
Theorem C21_key_after_array_refuted : exists o, rt default_cfg (EObj [(KIdent (lit "a"), EArr [one]); (KExpr (ENum (NegInt (-1))), one)]) = Some (ParseError o).
Proof. vm_compute. eauto. Qed.
(** So is a parenthesised key after a sum with a variable at its end, if there is an array in it. *)
Theorem C21_key_after_sum_refuted : exists o, rt default_cfg (EObj [(KIdent (lit "a"), EBinary (EArr [one]) OpPlus (var "b")); (KExpr (EParen (var "k")), one)]) = Some (ParseError o).
Proof. vm_compute. eauto. Qed.
(** With [prefer_ident_keys] strings become identifiers, and the string "null" becomes null. *)
Theorem C21_ident_keys_refuted :
  rt compact_cfg (EObj [(KExpr (EStr (lit "a")), one)]) = Some (Parsed (EObj [(KIdent (lit "a"), one)])) /\
  rt compact_cfg (EObj [(KExpr (EStr (lit "null")), one)]) = Some (Parsed (EObj [(KExpr ENull, one)])).
Proof. split; vm_compute; reflexivity. Qed.
(** A key given twice: a body does not parse. *)
Theorem C21_duplicate_refuted : exists o, rtb default_cfg [SAttribute (lit "a") one; SAttribute (lit "a") one] = Some (ParseError o).
Proof. vm_compute. eauto. Qed.
