(** * Properties of the parser: C12, C14, C15, C17, C18 *)
From Coq Require Import NArith ZArith Bool String List Lia.
From Verif Require Import Res Str Dec NumberModel PrimModel EAst ParseBase ParseModel Grammar ParseSoundRec PrattSpec PrattProofs
  ParseTop ParseSpec ParseFacts.
Import ListNotations.
Open Scope N_scope.

(** Parameters used in the examples: ASCII identifiers and a fixed float. *)
Definition some_f64 (_ : str) : f64 := f64_of_Z 12.
Notation ex_body s := (parse_body ascii_unicode Release some_f64 (lit s)).
Notation ex_expr s := (parse_expr ascii_unicode Release some_f64 (lit s)).

(** ** C12: resolving spans *)

(** The parser records whitespace and comments as byte ranges; the public functions return the tree
    in which each of them is replaced by the text of that range and nothing else is changed.  Missing
    (see the refutation): the decor of binary and of traversal operators. *)
Theorem C12_body_partial : forall u b pf I x,
  parse_body_raw u b pf pratt_group items_insert I = Parsed x ->
  exists y, parse_body u b pf I = Parsed y /\
    Forall2 (resolved I) (body_raws false x) (body_raws false y) /\
    body_map forget leave y = body_map forget leave x.
Proof.
  intros u b pf I x E. destruct (body_despan_ok u b pf I x E) as (H1 & H2 & _ & H3). eauto.
Qed.
Print Assumptions C12_body_partial.
Theorem C12_expr_partial : forall u b pf I x,
  parse_expr_raw u b pf pratt_group items_insert I = Parsed x ->
  exists y, parse_expr u b pf I = Parsed y /\
    Forall2 (resolved I) (x_raws false x) (x_raws false y) /\ x_map forget leave y = x_map forget leave x.
Proof.
  intros u b pf I x E. destruct (expr_despan_ok u b pf I x E) as (H1 & H2 & _ & H3). eauto.
Qed.
Print Assumptions C12_expr_partial.
Theorem C12_template_partial : forall u b pf I x,
  parse_tpl_raw u b pf pratt_group items_insert I = Parsed x ->
  exists y, parse_template u b pf I = Parsed y /\
    Forall2 (resolved I) (tpl_raws false x) (tpl_raws false y) /\ tpl_map forget leave y = tpl_map forget leave x.
Proof.
  intros u b pf I x E. destruct (tpl_despan_ok u b pf I x E) as (H1 & H2 & _ & H3). eauto.
Qed.
Print Assumptions C12_template_partial.
Definition ex_text : str := lit "a = [1, /* two */ 2]
".
Example C12_example :
  exists x y, parse_body_raw ascii_unicode Release some_f64 pratt_group items_insert ex_text = Parsed x /\
    parse_body ascii_unicode Release some_f64 ex_text = Parsed y /\
    In (RSpanned 7 18) (body_raws false x) /\ In (RText (lit " /* two */ ")) (body_raws false y).
Proof.
  eexists. eexists. split; [vm_compute; reflexivity|]. split; [vm_compute; reflexivity|].
  split; vm_compute; repeat (first [now left | right]).
Qed.
(** The public result has no unresolved range left outside operators. *)
Theorem C12_nothing_left_partial : forall u b pf I y, parse_body u b pf I = Parsed y ->
  forall r, In r (body_raws false y) -> ~ is_spanned r.
Proof. exact body_nothing_left. Qed.
Print Assumptions C12_nothing_left_partial.
(** Decor of binary operators and of traversal operators stays a byte range of a text that is no
    longer available: the comment is lost. *)
Theorem C12_operator_decor_refuted :
  (exists y r, ex_expr "a  /*x*/ + b" = Parsed y /\ In r (x_raws true y) /\ is_spanned r) /\
  (exists y r, ex_expr "a.b /*x*/ .c" = Parsed y /\ In r (x_raws true y) /\ is_spanned r).
Proof.
  split; eexists; [exists (RSpanned 1 9) | exists (RSpanned 3 10)]; (split; [vm_compute; reflexivity|]);
  (split; [vm_compute; repeat (first [left; reflexivity | right])|exact I]).
Qed.
Print Assumptions C12_operator_decor_refuted.

(** ** C14: errors are located at character boundaries of the input *)
Theorem C14_parse_errors_in_input : forall u b pf I k,
  parse_body u b pf I = ParseError k \/ parse_expr u b pf I = ParseError k \/ parse_template u b pf I = ParseError k ->
  boundary I k.
Proof.
  intros u b pf I k [E|[E|E]].
  - pose proof (body_total u b pf I) as H. now rewrite E in H.
  - pose proof (expr_total u b pf I) as H. now rewrite E in H.
  - pose proof (tpl_total u b pf I) as H. now rewrite E in H.
Qed.
Print Assumptions C14_parse_errors_in_input.
Example C14_parse_error_example : ex_body "a = 1 2" = ParseError 6. Proof. vm_compute. reflexivity. Qed.

(** ** C15: totality *)

(** Every call returns a tree, an error or panics: the recursion bounds of the model are never
    reached. *)
Theorem C15_terminates : forall u b pf I,
  parse_body u b pf I <> ParseFuel /\ parse_expr u b pf I <> ParseFuel /\ parse_template u b pf I <> ParseFuel.
Proof.
  intros u b pf I. repeat split; intros E.
  - pose proof (body_total u b pf I) as H. now rewrite E in H.
  - pose proof (expr_total u b pf I) as H. now rewrite E in H.
  - pose proof (tpl_total u b pf I) as H. now rewrite E in H.
Qed.
Print Assumptions C15_terminates.
(** In release builds there is always a tree or an error. *)
Theorem C15_release : forall u pf I,
  ((exists x, parse_body u Release pf I = Parsed x) \/ exists k, parse_body u Release pf I = ParseError k) /\
  ((exists x, parse_expr u Release pf I = Parsed x) \/ exists k, parse_expr u Release pf I = ParseError k) /\
  ((exists x, parse_template u Release pf I = Parsed x) \/ exists k, parse_template u Release pf I = ParseError k).
Proof.
  intros u pf I. repeat split.
  - pose proof (body_total u Release pf I) as H. destruct (parse_body u Release pf I); eauto; [|destruct H].
    apply bad_minus in H. destruct H as [H _]. discriminate.
  - pose proof (expr_total u Release pf I) as H. destruct (parse_expr u Release pf I); eauto; [|destruct H].
    apply bad_minus in H. destruct H as [H _]. discriminate.
  - pose proof (tpl_total u Release pf I) as H. destruct (parse_template u Release pf I); eauto; [|destruct H].
    apply bad_minus in H. destruct H as [H _]. discriminate.
Qed.
Print Assumptions C15_release.
(** With overflow checks the only cause of a panic is the negation of 2^63. *)
Theorem C15_debug_panics : forall u pf I,
  parse_body u Debug pf I = ParsePanic \/ parse_expr u Debug pf I = ParsePanic \/ parse_template u Debug pf I = ParsePanic ->
  minus_2_63 Debug pf I.
Proof.
  intros u pf I [E|[E|E]].
  - pose proof (body_total u Debug pf I) as H. rewrite E in H. now apply bad_minus in H.
  - pose proof (expr_total u Debug pf I) as H. rewrite E in H. now apply bad_minus in H.
  - pose proof (tpl_total u Debug pf I) as H. rewrite E in H. now apply bad_minus in H.
Qed.
Print Assumptions C15_debug_panics.
(** It does happen: reading the smallest i64 panics if overflow checks are on. *)
Theorem C15_smallest_i64_refuted :
  parse_expr ascii_unicode Debug some_f64 (lit "-9223372036854775808") = ParsePanic.
Proof. vm_compute. reflexivity. Qed.
Print Assumptions C15_smallest_i64_refuted.
Example C15_example : (exists x, ex_body "a { b = ""${c}"" }" = Parsed x) /\ ex_body "a { b = " = ParseError 4.
Proof. split; [eexists; vm_compute; reflexivity|vm_compute; reflexivity]. Qed.

(** ** C17: operators *)

(** Grouping: the result is the tree [t] with the operands as leaves, in order, higher precedence
    tighter, equal precedence to the left; all of the chain is used exactly if no two comparisons of
    the same precedence are chained. *)
Theorem C17_grouping_partial : forall e ops, exists t rest,
  pratt_group e ops = Some (tree_expr t) /\
  grouped (@snd meta binop) t /\ head t = e /\ ops = tail t ++ rest /\
  (rest = [] <-> ~ chained (map (fun p => snd (fst p)) ops)).
Proof. exact pratt_group_spec. Qed.
Print Assumptions C17_grouping_partial.
(** This determines the tree. *)
Theorem C17_grouping_unique : forall (t1 t2 : optree xexpr oper),
  grouped (@snd meta binop) t1 -> grouped (@snd meta binop) t2 -> head t1 = head t2 -> tail t1 = tail t2 -> t1 = t2.
Proof. exact (grouped_unique (@snd meta binop)). Qed.
Print Assumptions C17_grouping_unique.
(** The parser applies this grouping to the chains of operands and operators of the text: every
    expression it returns is a parse of the whole text in the grammar, in which a chain [e ops] stands
    for the tree [pratt_group e ops]. *)
Theorem C17_parser_groups : forall u b pf I x,
  parse_expr_raw u b pf pratt_group items_insert I = Parsed x -> gexpr u b pf pratt_group items_insert 0 I x.
Proof.
  intros u b pf I x E. pose proof (raw_expr_spec u b pf I) as S. unfold raw_expr in S. now rewrite E in S.
Qed.
Print Assumptions C17_parser_groups.
(** Forget positions and decor. *)
Inductive shape := SVar (x : str) | SBin (l : shape) (o : binop) (r : shape) | SOther.
Fixpoint shape_of (e : xexpr) : shape :=
  match e with XVar _ x => SVar x | XBinary _ l _ o r => SBin (shape_of l) o (shape_of r) | _ => SOther end.
Definition shape_res (r : parsed xexpr) : option shape := match r with Parsed x => Some (shape_of x) | _ => None end.
Example C17_example :
  shape_res (ex_expr "a || b == c + d * e - f && g") =
  Some (SBin (SVar (lit "a")) OpOr
     (SBin (SBin (SVar (lit "b")) OpEq
              (SBin (SBin (SVar (lit "c")) OpPlus (SBin (SVar (lit "d")) OpMul (SVar (lit "e")))) OpMinus (SVar (lit "f"))))
        OpAnd (SVar (lit "g")))).
Proof. vm_compute. reflexivity. Qed.
(** Chained comparisons: everything from the second comparison on is dropped. *)
Theorem C17_operand_dropped_refuted :
  shape_res (ex_expr "a == b == c") = Some (SBin (SVar (lit "a")) OpEq (SVar (lit "b"))) /\
  shape_res (ex_expr "a < b + c <= d + e") =
    Some (SBin (SVar (lit "a")) OpLess (SBin (SVar (lit "b")) OpPlus (SVar (lit "c")))).
Proof. split; vm_compute; reflexivity. Qed.
Print Assumptions C17_operand_dropped_refuted.

(** ** C18: unique keys *)
Theorem C18_unique_keys : forall u b pf I x, parse_body u b pf I = Parsed x -> unique_keys x.
Proof. exact parsed_unique. Qed.
Print Assumptions C18_unique_keys.
Example C18_example :
  (exists x, ex_body "a = 1
b { a = 2 }
b { a = 3 }
c = 4
" = Parsed x) /\
  ex_body "a = 1
a = 2
" = ParseError 6 /\
  ex_body "b {
  a = 1
  c { a = 1 }
  a = 2
}
" = ParseError 28.
Proof. split; [eexists; vm_compute; reflexivity|]. split; vm_compute; reflexivity. Qed.
