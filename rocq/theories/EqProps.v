(** * C39: equality of hcl-edit syntax trees *)
From Coq Require Import NArith ZArith Bool String List Lia.
From Verif Require Import Res Str Dec NumberModel NumberProofs PrimModel Ast EAst ParseBase ParseModel Grammar ParseProps EqSpec EqProofs EqParse.
Import ListNotations.
Open Scope N_scope.

(** [==] is an equivalence relation on well-formed trees: those whose numbers satisfy the invariant of
    [Number] and whose objects have distinct keys. *)
Theorem C39_expr_equivalence_partial :
  (forall a, x_wf a -> x_eqb a a = true) /\
  (forall a b, x_wf a -> x_wf b -> x_eqb a b = x_eqb b a) /\
  (forall a b c, x_wf a -> x_wf b -> x_wf c -> x_eqb a b = true -> x_eqb b c = true -> x_eqb a c = true).
Proof. exact (EQ_equiv x_wf x_eqb (proj1 all_EQ)). Qed.
Print Assumptions C39_expr_equivalence_partial.
Theorem C39_body_equivalence_partial :
  (forall a, body_wf a -> xbody_eqb a a = true) /\
  (forall a b, body_wf a -> body_wf b -> xbody_eqb a b = xbody_eqb b a) /\
  (forall a b c, body_wf a -> body_wf b -> body_wf c -> xbody_eqb a b = true -> xbody_eqb b c = true -> xbody_eqb a c = true).
Proof. exact (EQ_equiv body_wf xbody_eqb (proj2 list_eqb_struct_EQ)). Qed.
Print Assumptions C39_body_equivalence_partial.

(** Decor, spans and the original text of numbers do not influence [==]. *)
Theorem C39_ignores_formatting :
  (forall a b, x_eqb (bare a) (bare b) = x_eqb a b) /\ (forall a b, xbody_eqb (bare_body a) (bare_body b) = xbody_eqb a b).
Proof. exact (conj (proj1 all_bare) (proj2 body_bare)). Qed.
Print Assumptions C39_ignores_formatting.
Theorem C39_same_without_formatting : forall a b, x_wf a -> bare a = bare b -> x_eqb a b = true.
Proof.
  intros a b W E. rewrite <- (proj1 all_bare), <- E, (proj1 all_bare). now apply (proj1 all_EQ).
Qed.
Print Assumptions C39_same_without_formatting.

(** Nothing else is ignored: trees without objects (whose items may come in any order) and without
    expanded arguments are equal only if they are the same after removing the formatting. *)
Theorem C39_exact_partial : forall a b, x_wf a -> plain a -> x_wf b -> plain b ->
  (x_eqb a b = true <-> bare a = bare b).
Proof.
  intros a b Wa Pa Wb Pb. split; [now apply (proj1 all_SM)|now apply C39_same_without_formatting].
Qed.
Print Assumptions C39_exact_partial.
Theorem C39_body_exact_partial : forall a b, body_wf a -> plain_body a -> body_wf b -> plain_body b ->
  xbody_eqb a b = true -> norm_body (bare_body a) = norm_body (bare_body b).
Proof. intros a b Wa Pa Wb Pb. now apply (proj2 body_SM). Qed.
Print Assumptions C39_body_exact_partial.

(** Objects: equal ones have the same size and each item has a counterpart. *)
Theorem C39_objects : forall m l t m' l' t', x_eqb (XObj m l t) (XObj m' l' t') = true ->
  List.length l = List.length l' /\
  forall k a v e, In (XItem k a v e) l ->
    exists k' v', In (XItem k' a v' e) l' /\ key_eqb k k' = true /\ x_eqb v v' = true.
Proof.
  intros m l t m' l' t' E. change (obj_eqb l l' && raw_eqb t t' = true) in E. unfold obj_eqb in E. rewrite !andb_true_iff in E.
  destruct E as [[E1 E2] _]. apply Nat.eqb_eq in E1. split; [exact E1|]. intros k a v e Hi. rewrite forallb_forall in E2. specialize (E2 _ Hi).
  cbn beta iota in E2. destruct (find (fun j => key_eqb k (item_key j)) l') as [[k' a' v' e']|] eqn:F; [|discriminate].
  apply find_some in F. destruct F as [F1 F2]. cbn [item_key] in F2. rewrite !andb_true_iff in E2. destruct E2 as [[E2 E3] E4].
  exists k', v'. assert (a = a') as -> by (destruct a, a'; try discriminate E2; reflexivity).
  assert (e = e') as -> by (destruct e, e'; try discriminate E4; reflexivity). auto.
Qed.
Print Assumptions C39_objects.

(** What the parser returns is well-formed if object keys are simple and nothing like "-0" or
    "-18446744073709551615" occurs. *)
Theorem C39_parsed_wf_partial : forall u b pf I, tame b pf I ->
  (forall e, parse_expr u b pf I = Parsed e -> simple_keys e -> x_wf e) /\
  (forall e, parse_body u b pf I = Parsed e -> sk_body e -> body_wf e).
Proof. intros u b pf I T. split; intros e E S; [exact (parsed_expr_wf u b pf I e E T S)|exact (parsed_body_wf u b pf I e E T S)]. Qed.
Print Assumptions C39_parsed_wf_partial.

Example C39_example : exists a b, ex_expr "[1, foo /* x */, {a = 2, b = ""c""}]" = Parsed a /\
  ex_expr "[ 1,foo,{b = ""c"", a  = 2}]" = Parsed b /\ simple_keys a /\ simple_keys b /\ x_wf a /\ a <> b /\ x_eqb a b = false.
Proof.
  eexists. eexists. split; [vm_compute; reflexivity|]. split; [vm_compute; reflexivity|]. 
  split; [cbn; tauto|]. split; [cbn; tauto|]. split; [|split; [discriminate|vm_compute; reflexivity]]. 
  cbn; unfold u64_max; repeat split; lia.
Qed.
Example C39_example_order : exists a b, ex_expr "[1, foo /* x */, {a = 2, b = ""c"",}]" = Parsed a /\
  ex_expr "[ 1,foo,{b = ""c"", a  = 2,}]" = Parsed b /\ x_eqb a b = true /\ x_eqb b a = true.
Proof. eexists. eexists. repeat (split; [vm_compute; reflexivity|]). vm_compute. reflexivity. Qed.
Lemma no_minus_tame b pf s : ~ In 45 s -> tame b pf s.
Proof. intros H x z d y n E _ _. exfalso. apply H. rewrite E. apply in_or_app. right. now left. Qed.
Example C39_tame : tame Release some_f64 (lit "[1, foo /* x */, {a = 2, b = ""c"",}]").
Proof. apply no_minus_tame. vm_compute. intuition discriminate. Qed.

(** Refutations.  The marker that expands the last argument is not compared, so equal expressions can
    evaluate differently (func_call.rs:254-260). *)
Theorem C39_expand_ignored_refuted : exists a b, ex_expr "f(x...)" = Parsed a /\ ex_expr "f(x)" = Parsed b /\
  x_wf a /\ x_wf b /\ bare a <> bare b /\ x_eqb a b = true.
Proof. eexists. eexists. split; [vm_compute; reflexivity|]. split; [vm_compute; reflexivity|]. repeat split. discriminate. Qed.
Print Assumptions C39_expand_ignored_refuted.
(** Some formatting is compared: trailing commas, comments before a closing bracket, the separators of
    object items. *)
Theorem C39_layout_compared_refuted :
  (exists a b, ex_expr "[1]" = Parsed a /\ ex_expr "[1,]" = Parsed b /\ x_eqb a b = false) /\
  (exists a b, ex_expr "[1,]" = Parsed a /\ ex_expr "[1,/**/]" = Parsed b /\ x_eqb a b = false) /\
  (exists a b, ex_expr "{a = 1}" = Parsed a /\ ex_expr "{a : 1}" = Parsed b /\ x_eqb a b = false) /\
  (exists a b, ex_expr "{a = 1}" = Parsed a /\ ex_expr "{a = 1,}" = Parsed b /\ x_eqb a b = false).
Proof. repeat split; eexists; eexists; (split; [vm_compute; reflexivity|]); (split; [vm_compute; reflexivity|]); vm_compute; reflexivity. Qed.
Print Assumptions C39_layout_compared_refuted.
(** Keys are compared while their parts are still byte ranges: an object can end up with equal keys, and
    then it is not even equal to itself. *)
Theorem C39_not_reflexive_refuted : exists a, ex_expr "{[1, ] = 1, [1, ] = 2}" = Parsed a /\ x_eqb a a = false.
Proof. eexists. split; [vm_compute; reflexivity|]. vm_compute. reflexivity. Qed.
Print Assumptions C39_not_reflexive_refuted.
(** Without the invariant of [Number] the relation is not transitive: two different large integers are
    both equal to a "negative" number. *)
Theorem C39_not_transitive_refuted : exists a b c, ex_expr "-9223372036854775809" = Parsed a /\
  ex_expr "9223372036854775807" = Parsed b /\ ex_expr "9223372036854775806" = Parsed c /\
  x_eqb b a = true /\ x_eqb a c = true /\ x_eqb b c = false.
Proof. eexists. eexists. eexists. do 3 (split; [vm_compute; reflexivity|]). vm_compute. auto. Qed.
Print Assumptions C39_not_transitive_refuted.
