(** * C45: spans are the byte ranges of the texts of the nodes

    [placed] and the outlines [o_body], [o_expr], [o_template] are defined in SpanSpec: every node of the
    outline has a span, the text at the span is the node's text as far as the node dictates it
    (identifiers, keywords, operators and numbers exactly, the others by their delimiters), the
    parts of a node are inside of it, one after the other. *)
From Coq Require Import NArith Bool String List.
From Verif Require Import Res Str NumberModel PrimModel EAst EncModel ParseBase ParseModel ParseProps ParseTop SpanSpec SpanProofs.
Import ListNotations.
Open Scope N_scope.

(** Missing: the spans that the parser does not record (see the refutation below) and the order of the
    entries of an object, which are only claimed to be inside of it. *)
Theorem C45_body_partial : forall u b parse_f64 (text : str) body,
  parse_body u b parse_f64 text = Parsed body -> placed text 0 (blen text) (o_body b parse_f64 body).
Proof. exact body_spans. Qed.
Print Assumptions C45_body_partial.

Theorem C45_expr_partial : forall u b parse_f64 (text : str) e,
  parse_expr u b parse_f64 text = Parsed e ->
  placed text 0 (blen text) (o_expr b parse_f64 e) /\ m_span (x_meta e) = Some (0, blen text).
Proof. exact expr_spans. Qed.
Print Assumptions C45_expr_partial.

Theorem C45_template_partial : forall u b parse_f64 (text : str) t,
  parse_template u b parse_f64 text = Parsed t -> placed text 0 (blen text) (o_template b parse_f64 t).
Proof. exact tpl_spans. Qed.
Print Assumptions C45_template_partial.

(** Consequences: an attribute's key and value are found at their spans. *)
Theorem C45_attribute_partial : forall u b parse_f64 (text : str) m l one omit m' k v,
  parse_body u b parse_f64 text = Parsed (XBody m l one omit) -> In (XAttr m' k v) l ->
  exists a c, m_span (i_meta k) = Some (a, c) /\ get_slice text a c = Some (i_name k) /\
  exists a' c' t, m_span (x_meta v) = Some (a', c') /\ get_slice text a' c' = Some t /\ c <= a' /\
  exists a'' c'', m_span m' = Some (a'', c'') /\ a'' <= a /\ c' <= c''.
Proof.
  intros u b pf text m l one omit m' k v E Hin. apply C45_body_partial in E.
  assert (Ho : exists lo hi, in_order text lo hi (map (o_struct b pf) l)).
  { cbn [o_body] in E. destruct one; inversion E; subst; eauto. }
  clear E. destruct Ho as (lo & hi & Ho). revert lo hi Ho. induction l as [|x l IH]; intros lo hi Ho; [destruct Hin|].
  inversion Ho; subst. destruct Hin as [->|Hin]; [clear IH|eapply IH; eauto]. cbn [o_struct] in *.
  match goal with H : placed _ _ _ (ONode _ _ _) |- _ => inversion H; subst end.
  match goal with H : in_order _ _ _ [o_id k; _] |- _ => inversion H; subst end.
  match goal with H : in_order _ _ _ [_] |- _ => inversion H; subst end.
  match goal with H : placed _ _ _ (o_id k) |- _ => inversion H; subst end.
  assert (Hv : exists looks parts, o_expr b pf v = ONode looks (m_span (x_meta v)) parts) by (destruct v; do 2 eexists; reflexivity).
  destruct Hv as (looks & parts & Ev). match goal with H : placed _ _ _ (o_expr _ _ v) |- _ => rewrite Ev in H; inversion H; subst end.
  do 2 eexists. split; [reflexivity|]. match goal with H : is _ _ |- _ => rewrite H end. split; [apply at_slice; assumption|].
  do 3 eexists. split; [reflexivity|]. split; [apply at_slice; assumption|].
  split; [eapply N.le_trans; eassumption|].
  do 2 eexists. split; [reflexivity|]. split; [assumption|].
  match goal with H : in_order _ _ (a + _) [] |- _ => inversion H; subst end. eapply N.le_trans; eassumption.
Qed.
Print Assumptions C45_attribute_partial.
Example C45_attribute_example : exists m l one omit m' k v,
  ex_body "b {}
key /**/ = f(1) # c
" = Parsed (XBody m l one omit) /\ In (XAttr m' k v) l /\ m_span (i_meta k) = Some (5, 8) /\ m_span (x_meta v) = Some (16, 20).
Proof. do 7 eexists. split; [vm_compute; reflexivity|]. split; [right; left; reflexivity|]. split; reflexivity. Qed.

(** The hypotheses are met by texts with all kinds of nodes. *)
Example C45_example : exists x, ex_body "a = [1, {b = c.d[0].*}, f(-x, y...)]
b ""l"" m {
  c = [for k, v in w : ""${v} %{ if a ~} t %{ endif }"" if !k]
}
" = Parsed x.
Proof. eexists. vm_compute. reflexivity. Qed.

(** The property is false as it stands: the arguments of a call, the body of a block on one line and a
    template parsed on its own have no span. *)
Theorem C45_missing_span_refuted :
  (exists m ns n am args e c t, ex_expr "f(x)" = Parsed (XCall m ns n am args e c t) /\ m_span am = None) /\
  (exists m mb i ls m' l o o' , ex_body "b { a = 1 }" = Parsed (XBody m [XBlock mb i ls (XBody m' l true o)] false o') /\ m_span m' = None) /\
  (exists es, parse_template ascii_unicode Release some_f64 (lit "a${b}") = Parsed (XTempl es None)).
Proof.
  repeat match goal with |- _ /\ _ => split end; repeat eexists; try (vm_compute; reflexivity).
Qed.
Print Assumptions C45_missing_span_refuted.
(** With a repeated key the entries of an object are not in the order of the text: the value of [a] is
    after the key [b] of the next entry. *)
Theorem C45_object_order_refuted : exists m i v a1 t1 j w a2 t2 tr,
  ex_expr "{a=1,b=2,a=3}" = Parsed (XObj m [XItem (XKId i) a1 v t1; XItem (XKId j) a2 w t2] tr) /\
  m_span (i_meta i) = Some (1, 2) /\ m_span (x_meta v) = Some (11, 12) /\ m_span (i_meta j) = Some (5, 6).
Proof. do 10 eexists. split; [vm_compute; reflexivity|]. repeat split; reflexivity. Qed.
Print Assumptions C45_object_order_refuted.
