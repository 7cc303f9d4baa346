(** * Properties of the conversions between hcl-rs and hcl-edit: C36 *)
From Coq Require Import NArith ZArith Bool String List.
From Verif Require Import Res Str NumberModel PrimModel Ast ConvSpec ParseBase ConvModel ConvProofs ConvFromSpec ConvFrom.
From Verif Require ParseModel.
Import ListNotations.

(** [sf] prints floating point numbers, [parse_tpl] is the template parser (any function). *)

(** Converting an expression to hcl-edit and back yields the same expression; likewise templates and
    bodies.  [keeps] (ConvSpec) describes the trees concerned.  Missing: objects whose keys contain
    objects or templates; the rest is refuted below. *)
Theorem C36_expression_round_trip_partial : forall sf parse_tpl e,
  keeps (template_kept sf parse_tpl) e -> of_edit sf (to_edit parse_tpl e) = e.
Proof. exact back. Qed.
Print Assumptions C36_expression_round_trip_partial.

Theorem C36_template_round_trip_partial : forall sf parse_tpl t,
  Forall (keeps_elem (template_kept sf parse_tpl)) t -> of_tpl sf (to_tpl parse_tpl t) = t.
Proof. exact tpl_back. Qed.
Print Assumptions C36_template_round_trip_partial.

Theorem C36_body_round_trip_partial : forall sf parse_tpl b,
  keeps_body (template_kept sf parse_tpl) b -> of_body sf (to_body parse_tpl b) = b.
Proof. exact body_back. Qed.
Print Assumptions C36_body_round_trip_partial.

(** In particular every expression without objects and templates, whatever the template parser does. *)
Theorem C36_plain_round_trip : forall sf parse_tpl e, plain e = true -> of_edit sf (to_edit parse_tpl e) = e.
Proof. intros sf ptp e H. apply back. now apply plain_keeps. Qed.
Print Assumptions C36_plain_round_trip.

(** The conversion from hcl-edit drops decor, spans and trailing commas, and merges entries with equal
    keys.  Everything else is kept ([same], ConvFromSpec.v), for all trees. *)
Theorem C36_from_edit : forall sf,
  (forall e, same (tpl_string sf) e (of_edit sf e)) /\ (forall t, same_tpl (tpl_string sf) t (of_tpl sf t)) /\
  (forall b, same_body (tpl_string sf) b (of_body sf b)).
Proof. intros sf. split; [apply of_same|]. split; [apply of_same|apply of_body_same]. Qed.
Print Assumptions C36_from_edit.

(** The parser and printer of the model, for the examples. *)
Definition sf0 (f : f64) : str := lit "0.5".
Definition ptp0 : str -> parsed EAst.xtpl := ParseModel.parse_template PrimModel.ascii_unicode Release (fun _ => f64_of_Z 12).
Notation there_and_back := (fun e => of_edit sf0 (to_edit ptp0 e)).

Definition ex_key : okey expr := KExpr (ECall (FuncName [lit "a"] (lit "f")) [EVar (lit "x")] true).
Definition ex_expr : expr :=
  EObj [ (KIdent (lit "k"), ETpl (QuotedString (lit "hello ${ name }!")));
         (KExpr (EStr (lit "k")), ETrav (EVar (lit "v")) [GetAttr (lit "a"); Index (ENum (PosInt 1)); AttrSplat; LegacyIndex 3]);
         (ex_key, EFor (Some (lit "k")) (lit "v") (EVar (lit "xs")) (Some (EVar (lit "k")))
                       (EBinary (EVar (lit "v")) OpPlus (ENum (PosInt 1))) true (Some (EVar (lit "v")))) ].
Example C36_example : keeps (template_kept sf0 ptp0) ex_expr.
Proof.
  constructor.
  - constructor; [|constructor; [|constructor; [|constructor]]]; cbn [fst snd]; (split; [reflexivity|]).
    + constructor. split; [vm_compute; reflexivity|exact I].
    + now apply plain_keeps.
    + now apply plain_keeps.
  - repeat (constructor; [repeat (constructor; [reflexivity|]); constructor|]). constructor.
Qed.
Example C36_example_body : keeps_body (template_kept sf0 ptp0)
  [SAttribute (lit "a") ex_expr; SBlk (lit "b") [BLIdent (lit "x"); BLString (lit "y")] [SAttribute (lit "a") ENull]; SBlk (lit "b") [] []].
Proof.
  assert (N : forall k : str, NoDup [k]) by (intros; constructor; [intros []|constructor]).
  split; [|apply N]. constructor; [constructor; apply C36_example|].
  constructor; [constructor; [repeat constructor|apply N]|]. constructor; [|constructor]. constructor; constructor.
Qed.
Example C36_example_template : Forall (keeps_elem (template_kept sf0 ptp0))
  [ElLit (lit "x"); ElIf (EVar (lit "c")) [ElInterp (EVar (lit "a")) StripBoth] (Some [ElLit (lit "z")]) StripStart StripEnd StripNone].
Proof.
  constructor; [constructor|]. constructor; [|constructor].
  constructor; [constructor|repeat constructor| |discriminate]. intros t' [= <-]. repeat constructor.
Qed.

(** The literal claim is false.  A heredoc that strips indentation comes back as one that does not. *)
Theorem C36_heredoc_mode_refuted : exists e, there_and_back e <> e /\
  there_and_back e = ETpl (Heredoc (lit "EOT") (lit "x") HdNone).
Proof. exists (ETpl (Heredoc (lit "EOT") (lit "x") HdIndent)). vm_compute. split; [discriminate|reflexivity]. Qed.
Print Assumptions C36_heredoc_mode_refuted.

(** Text that is not a template becomes the empty template. *)
Theorem C36_invalid_template_refuted : exists e, there_and_back e <> e /\ there_and_back e = ETpl (QuotedString []).
Proof. exists (ETpl (QuotedString (lit "a${"))). vm_compute. split; [discriminate|reflexivity]. Qed.
Print Assumptions C36_invalid_template_refuted.

(** An object with the keys [f(x)] and [f(x...)] loses an entry. *)
Theorem C36_expanded_keys_refuted : exists e, there_and_back e <> e /\ exists k v, there_and_back e = EObj [(k, v)].
Proof.
  exists (EObj [(KExpr (ECall (FuncName [] (lit "f")) [EVar (lit "x")] false), ENull);
                (KExpr (ECall (FuncName [] (lit "f")) [EVar (lit "x")] true), EBool true)]).
  vm_compute. split; [discriminate|eauto].
Qed.
Print Assumptions C36_expanded_keys_refuted.

(** The second attribute of the same name is dropped. *)
Theorem C36_duplicate_attribute_refuted : exists b, of_body sf0 (to_body ptp0 b) <> b /\ length (of_body sf0 (to_body ptp0 b)) = 1%nat.
Proof.
  exists [SAttribute (lit "a") ENull; SAttribute (lit "a") (EBool true)]. vm_compute. split; [discriminate|reflexivity].
Qed.
Print Assumptions C36_duplicate_attribute_refuted.

(** The strip mode of the [else] marker is lost if there is no [else]. *)
Theorem C36_else_strip_refuted : exists t, of_tpl sf0 (to_tpl ptp0 t) <> t.
Proof. exists [ElIf ENull [] None StripNone StripBoth StripNone]. vm_compute. discriminate. Qed.
Print Assumptions C36_else_strip_refuted.
