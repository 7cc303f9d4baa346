(** * C21: formatted templates are read back *)
From Coq Require Import NArith ZArith Arith Bool String List Lia.
From Verif Require Import Res Str Dec NumberModel PrimModel PrimProofs Ast AstInd EqSpec.
From Verif Require Import ConvModel FmtModel FmtSpec FmtProofs FmtLayout ParseBase ParseModel EatLeaf.
From Verif Require Import FmtReadSpec FmtReadProps FmtTplSpec FmtTplProofs.
Import ListNotations.
Open Scope N_scope.

(** [Template::from_str]: parse, and convert to the tree of hcl-rs. *)
Definition read_tpl_text u b pf sf (s : str) : parsed template :=
  match parse_template u b pf s with Parsed x => Parsed (of_tpl sf x) | ParseError o => ParseError o | ParsePanic => ParsePanic | ParseFuel => ParseFuel end.

(** Templates: literals, interpolations and directives, nested without limit, with all strip modes.
    [tpl_readable] (FmtTplSpec.v) excludes templates which have the text of another one, and templates
    with expressions that are not read back (C21_expressions_partial). *)
Theorem C21_templates_partial u b pf sf c t :
  ascii_exact u -> forallb is_space (c_indent c) = true -> tpl_readable u b pf sf c t ->
  exists s, format_fresh (fm_template u sf c t) = Done s /\ read_tpl_text u b pf sf s = Parsed (map (elem_as_read u c) t).
Proof.
  intros HU HI HR. exists (show_template u sf c false 0 t). split; [exact (fresh_text u sf c (JTemplate t))|].
  destruct (read_template u b pf sf c HU HI false 0%nat t HR) as (x & E & H). unfold read_tpl_text. rewrite E. now rewrite H.
Qed.
Print Assumptions C21_templates_partial.
Lemma elem_as_read_same u c : c_ident_keys c = false -> forall e, elem_strict e -> elem_as_read u c e = e.
Proof.
  intros H. assert (LM : forall l, Forall (fun e => elem_strict e -> elem_as_read u c e = e) l -> lall elem_strict l -> map (elem_as_read u c) l = l).
  { induction 1; cbn [map lall]; [reflexivity|]. intros []. f_equal; auto. }
  induction e as [s|e s|a t f s1 s2 s3 IHt IHf|kv vv coll t s1 s2 IHt] using elem_ind'; cbn [elem_as_read elem_strict]; intros HS.
  - reflexivity.
  - now rewrite as_read_same.
  - destruct HS as (HA & HT & HF). rewrite as_read_same, LM by assumption. destruct f as [f|]; [cbn [option_map]; now rewrite LM|reflexivity].
  - destruct HS as (HA & HT). now rewrite as_read_same, LM.
Qed.
Theorem C21_templates_same_partial u b pf sf c t :
  ascii_exact u -> forallb is_space (c_indent c) = true -> c_ident_keys c = false -> tpl_readable u b pf sf c t -> lall elem_strict t ->
  exists s, format_fresh (fm_template u sf c t) = Done s /\ read_tpl_text u b pf sf s = Parsed t.
Proof.
  intros HU HI HC HR HS. destruct (C21_templates_partial u b pf sf c t HU HI HR) as (s & E1 & E2). exists s. split; [exact E1|]. rewrite E2. f_equal.
  induction t as [|e t IH]; [reflexivity|]. destruct HS. cbn [map]. rewrite elem_as_read_same by assumption. f_equal. clear -H0 HC. induction t; [reflexivity|]. destruct H0. cbn [map]. rewrite elem_as_read_same by assumption. f_equal. auto.
Qed.
Print Assumptions C21_templates_same_partial.

(** ** Examples *)
Definition rtt (t : template) : option (parsed template) :=
  match format_fresh (fm_template ascii_unicode no_floats default_cfg t) with
  | Done s => Some (read_tpl_text ascii_unicode Release zero_float no_floats s)
  | Panic => None
  end.
Definition sample_tpl : template :=
  [ElLit (lit "a ${ ""\"); ElInterp sample StripBoth; ElInterp (var "y") StripNone; ElLit (lit "100% of");
   ElIf (EBinary (var "x") OpAnd one)
     [ElLit (lit "$"); ElFor (Some (lit "k")) (lit "v") (EArr [one; var "l"]) [ElLit [10; 32]; ElInterp (var "v") StripStart] StripEnd StripNone]
     (Some [ElLit (lit "else"); ElIf (EBool true) [] None StripNone StripNone StripBoth]) StripStart StripEnd StripNone;
   ElLit (lit "$")].
Example sample_tpl_readable : tpl_readable ascii_unicode Release zero_float no_floats default_cfg sample_tpl.
Proof.
  split; [|cbn; repeat split; discriminate].
  assert (H : readable ascii_unicode Release zero_float no_floats default_cfg sample) by exact readable_sample.
  unfold sample_tpl. cbn [lall elem_readable]. split; [exact I|]. split; [exact H|]. cbn. unfold variable.
  repeat first [split | reflexivity | exact I | discriminate | (intros; discriminate)].
  all: apply no_comparison; intros o Ho; cbn in Ho; intuition (subst; assumption).
Qed.
Example sample_tpl_strict : lall elem_strict sample_tpl.
Proof. cbn. repeat split. Qed.
Example sample_tpl_text : rtt sample_tpl = Some (Parsed sample_tpl).
Proof. vm_compute. reflexivity. Qed.

(** ** What is not read back *)
(** A dollar sign before an interpolation: the text is that of an escaped dollar sign. *)
Theorem C21_tpl_dollar_refuted : rtt [ElLit (lit "$"); ElInterp (var "x") StripNone] = Some (Parsed [ElLit (lit "${x}")]).
Proof. vm_compute. reflexivity. Qed.
(** Neighbouring literals become one, also when a marker is put together; empty literals get lost. *)
Theorem C21_tpl_literals_refuted :
  rtt [ElLit (lit "a"); ElLit (lit "b")] = Some (Parsed [ElLit (lit "ab")]) /\
  rtt [ElLit (lit "$"); ElLit (lit "{x}")] = Some (Parsed [ElInterp (var "x") StripNone]) /\
  rtt [ElLit []] = Some (Parsed []).
Proof. vm_compute. auto. Qed.
(** One of two dollar signs before a brace gets lost, if there is a marker before them. *)
Theorem C21_tpl_escape_refuted : escape_ok (lit "${$${") = false /\ rtt [ElLit (lit "${$${")] = Some (Parsed [ElLit (lit "${${")]).
Proof. vm_compute. auto. Qed.
(** The strip mode of an [else] which is not there. *)
Theorem C21_tpl_else_refuted : rtt [ElIf one [] None StripNone StripBoth StripNone] = Some (Parsed [ElIf one [] None StripNone StripNone StripNone]).
Proof. vm_compute. reflexivity. Qed.

(** Quoted templates.  The tree of hcl-rs has the text of the template with its escape sequences
    replaced, and the formatter writes this text as it is.  So a document which contains an escape
    sequence next to an interpolation is parsed and printed as a text which does not parse, or which
    has another meaning. *)
Definition reprint (s : string) : option (str * parsed rbody) :=
  match read_body_text ascii_unicode Release zero_float no_floats (lit s) with
  | Parsed l =>
      match format_fresh (fm_body ascii_unicode no_floats default_cfg l) with
      | Done t => Some (t, read_body_text ascii_unicode Release zero_float no_floats t)
      | Panic => None
      end
  | _ => None
  end.
Theorem C21_quoted_template_refuted : exists o,
  reprint "a = ""say \""${x}\"""" " = Some (lit "a = ""say ""${x}""""" ++ [10], ParseError o).
Proof. vm_compute. eauto. Qed.
Theorem C21_template_escapes_refuted :
  read_body_text ascii_unicode Release zero_float no_floats (lit "a = ""C:\\new${x}""") = Parsed [SAttribute (lit "a") (ETpl (QuotedString (lit "C:\new${x}")))] /\
  reprint "a = ""C:\\new${x}""" = Some (lit "a = ""C:\new${x}""" ++ [10], Parsed [SAttribute (lit "a") (ETpl (QuotedString (lit "C:" ++ [10] ++ lit "ew${x}")))]).
Proof. vm_compute. auto. Qed.

(** Heredocs with "<<-".  The text of the template in the tree of hcl-rs has lost its indentation, and the
    formatter writes it behind "<<-" again.  If there is an interpolation in it, characters other than
    whitespace are taken away when it is read for the second time. *)
Definition dedented : string := ("a = <<-EOT
  foo ${x}
    bar
  EOT
")%string.
Theorem C21_dedented_refuted :
  read_body_text ascii_unicode Release zero_float no_floats (lit dedented) =
    Parsed [SAttribute (lit "a") (ETpl (Heredoc (lit "EOT") (lit "foo ${x}" ++ [10] ++ lit "  bar" ++ [10]) HdIndent))] /\
  exists t, reprint dedented = Some (t, Parsed [SAttribute (lit "a") (ETpl (Heredoc (lit "EOT") (lit "o ${x}" ++ [10] ++ lit "bar" ++ [10]) HdIndent))]).
Proof. split; [vm_compute; reflexivity|]. eexists. vm_compute. reflexivity. Qed.
