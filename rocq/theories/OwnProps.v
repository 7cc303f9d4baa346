(** * The types of hcl-rs deserialize to themselves: C50 *)
From Coq Require Import NArith ZArith Arith Bool String List Lia.
From Verif Require Import Res Str NumberModel NumberProofs PrimModel Ast ParseBase ParseModel JsonModel EqSpec ConvModel DeModel ConvFromSpec OwnModel OwnSpec OwnProofs OwnParse OwnJson OwnValue.
Import ListNotations.
Open Scope nat_scope.
Open Scope list_scope.

(** [from_str::<Body>], de/mod.rs:90-96: parse, then deserialize. *)
Definition from_str_body u b pf sf (fuel : nat) (s : str) : option rbody :=
  match read_body u b pf sf s with Parsed x => de_body u b (interpolated u sf) fuel (OTop x) | _ => None end.

(** Deserializing an expression, a structure, a block label or a body from itself yields it.  ([fine],
    OwnSpec.v: identifiers are valid, numbers are as the constructors of [Number] make them, the keys
    of objects differ.)  The fuel only bounds the recursion: any amount which is large enough gives the
    same result.  [interp] is how expressions are written into strings: it plays no role. *)
Theorem C50_expression : forall u b interp e, fine u e -> exists n, forall f, n <= f -> de_expr u b interp f (OExpr e) = Some e.
Proof. exact expr_ever. Qed.
Print Assumptions C50_expression.

Theorem C50_structure : forall u b interp x, fine_struct u x -> exists n, forall f, n <= f -> de_structure u b interp f (OStruct x) = Some x.
Proof. exact struct_ever. Qed.
Print Assumptions C50_structure.

Theorem C50_label : forall u interp l, fine_label u l -> de_label u interp (OLabel l) = Some l.
Proof. exact label_ok. Qed.
Print Assumptions C50_label.

(** A body: nested in other data, and as a whole ([from_body::<Body>]). *)
Theorem C50_body : forall u b interp x, fine_body u x ->
  exists n, forall f, n <= f -> de_body u b interp f (into_body x) = Some x /\ de_body u b interp f (OTop x) = Some x.
Proof.
  intros u b interp x H. destruct (body_ever u b interp x H) as [n E], (top_ever u b interp x H) as [m E2].
  exists (max n m). intros f Hf. split; [apply E|apply E2]; lia.
Qed.
Print Assumptions C50_body.

(** [from_body::<Expression>] yields the expression which stands for the body in the HCL JSON
    representation (C34). *)
Theorem C50_body_as_expression : forall u b interp x, fine_body u x ->
  exists n, forall f, n <= f -> de_expr u b interp f (OTop x) = Some (expr_of_body x).
Proof.
  intros u b interp x H. destruct (expr_ever u b interp _ (json_fine u x H)) as [n E]. exists n. intros f Hf.
  rewrite <- (E f Hf). destruct f; reflexivity.
Qed.
Print Assumptions C50_body_as_expression.

(** [from_str::<Body>] is [parse]; parsed documents satisfy the invariants.  Missing: documents with
    "-0" and the like ([tame], EqSpec.v), for which it is refuted below. *)
Theorem C50_from_str_partial : forall u b pf sf s x, tame b pf s -> read_body u b pf sf s = Parsed x ->
  fine_body u x /\ exists n, forall f, n <= f -> from_str_body u b pf sf f s = Some x.
Proof.
  intros u b pf sf s x T E. assert (F : fine_body u x).
  { unfold read_body in E. destruct (parse_body u b pf s) as [y| | |] eqn:E2; try discriminate. injection E as <-.
    apply body_fine. eapply parsed_body_valid; eassumption. }
  split; [exact F|]. destruct (top_ever u b (interpolated u sf) x F) as [n H]. exists n. intros f Hf.
  unfold from_str_body. rewrite E. auto.
Qed.
Print Assumptions C50_from_str_partial.

(** The contents of an expression can be deserialized as a value of the variant's type. *)
Theorem C50_contents : forall u b interp,
  (forall c t e, fine u (ECond c t e) -> exists n, forall f, n <= f -> de_conditional interp (de_expr u b interp f) (OExpr (ECond c t e)) = Some (ECond c t e)) /\
  (forall g l x, fine u (ECall g l x) -> exists n, forall f, n <= f -> de_func_call u interp (de_expr u b interp f) (OExpr (ECall g l x)) = Some (ECall g l x)) /\
  (forall e l, fine u (ETrav e l) -> exists n, forall f, n <= f -> de_traversal u interp (de_expr u b interp f) (OExpr (ETrav e l)) = Some (ETrav e l)) /\
  (forall o e, fine u (EUnary o e) -> exists n, forall f, n <= f ->
     de_operation interp (de_expr u b interp f) (OExpr (EUnary o e)) = Some (EUnary o e) /\ de_unary interp (de_expr u b interp f) (OExpr (EUnary o e)) = Some (EUnary o e)) /\
  (forall l o r, fine u (EBinary l o r) -> exists n, forall f, n <= f ->
     de_operation interp (de_expr u b interp f) (OExpr (EBinary l o r)) = Some (EBinary l o r) /\ de_binary interp (de_expr u b interp f) (OExpr (EBinary l o r)) = Some (EBinary l o r)) /\
  (forall kv vv c k v g co, fine u (EFor kv vv c k v g co) ->
     exists n, forall f, n <= f -> de_for u interp (de_expr u b interp f) (OExpr (EFor kv vv c k v g co)) = Some (EFor kv vv c k v g co)) /\
  (forall m, fine u (EObj m) -> exists n, forall f, n <= f -> de_object u interp (de_expr u b interp f) (OExpr (EObj m)) = Some (EObj m)) /\
  (forall l, fine u (EArr l) -> exists n, forall f, n <= f -> de_seq interp (de_expr u b interp f) (OExpr (EArr l)) = Some l) /\
  (forall t, fine u (ETpl t) -> de_tpl u interp (OExpr (ETpl t)) = Some t) /\
  (forall n, fine u (ENum n) -> de_number b interp (OExpr (ENum n)) = Some n).
Proof.
  intros u b interp.
  assert (X : forall e, fine u e -> exists n, forall f, n <= f -> de_expr u b interp (S f) (OExpr e) = Some e).
  { intros e F. destruct (expr_ever u b interp e F) as [n H]. exists n. intros f Hf. apply H. lia. }
  repeat split.
  - intros c t e F. exact (X _ F).
  - intros g l x F. exact (X _ F).
  - intros e l F. exact (X _ F).
  - intros o e F. destruct (X _ F) as [n H]. exists n. intros f Hf. split; exact (H f Hf).
  - intros l o r F. destruct (X _ F) as [n H]. exists n. intros f Hf. split; exact (H f Hf).
  - intros kv vv c k v g co F. exact (X _ F).
  - intros m F. exact (X _ F).
  - intros l F. destruct (X _ F) as [n H]. exists n. intros f Hf. specialize (H f Hf).
    change (option_map EArr (de_seq interp (de_expr u b interp f) (OExpr (EArr l))) = Some (EArr l)) in H.
    destruct (de_seq _ _ _); [injection H as ->; reflexivity|discriminate].
  - intros t F. destruct (X _ F) as [n H]. specialize (H n (le_n _)).
    change (option_map ETpl (de_tpl u interp (OExpr (ETpl t))) = Some (ETpl t)) in H.
    destruct (de_tpl _ _ _); [injection H as ->; reflexivity|discriminate].
  - intros n F. inversion F; subst. change (de_number b interp (ONum n) = Some n). now apply number_ok.
Qed.
Print Assumptions C50_contents.
(** Likewise an attribute, a block. *)
Theorem C50_structure_contents : forall u b interp,
  (forall k e, fine_struct u (SAttribute k e) -> exists n, forall f, n <= f ->
     de_attribute u b interp f (OStruct (SAttribute k e)) = Some (SAttribute k e)) /\
  (forall i ls x, fine_struct u (SBlk i ls x) -> exists n, forall f, n <= f ->
     de_block u interp (de_structure u b interp f) (OStruct (SBlk i ls x)) = Some (SBlk i ls x)).
Proof.
  intros u b interp.
  assert (X : forall x, fine_struct u x -> exists n, forall f, n <= f -> de_structure u b interp (S f) (OStruct x) = Some x).
  { intros x F. destruct (struct_ever u b interp x F) as [n H]. exists n. intros f Hf. apply H. lia. }
  split; [intros k e F; exact (X _ F)|intros i ls x F; exact (X _ F)].
Qed.
Print Assumptions C50_structure_contents.

(** ** Examples *)
Definition no_floats (f : f64) : str := lit "0.5".
Definition some_float (s : str) : f64 := f64_of_Z 12.
Definition doc : str := lit "a = [1, { b = x.y[0].*, (c) = ""d ${e}"" }, f(1...)]
g ""h"" i {
  j = [for k, v in w : v if !k]
  l = m ? -(n) : <<EOT
text ${o}
EOT
}
".
Definition doc_body : rbody := match read_body ascii_unicode Release some_float no_floats doc with Parsed x => x | _ => [] end.
Example C50_example : length doc_body = 2 /\ from_str_body ascii_unicode Release some_float no_floats 20 doc = Some doc_body.
Proof. vm_compute. auto. Qed.
Example C50_example_expression :
  let e := expr_of_body doc_body in
  e <> ENull /\ de_expr ascii_unicode Release (interpolated ascii_unicode no_floats) 20 (OTop doc_body) = Some e /\
  de_expr ascii_unicode Release (interpolated ascii_unicode no_floats) 20 (OExpr e) = Some e.
Proof. vm_compute. repeat split. discriminate. Qed.
Ltac fine := repeat first [reflexivity | match goal with
  | |- fine _ _ => constructor
  | |- fine_key _ _ => constructor
  | |- fine_op _ _ => constructor
  | |- fine_struct _ _ => constructor
  | |- Forall _ _ => constructor
  | |- keys_apart _ => constructor
  | |- ForallOrdPairs _ _ => constructor
  | |- maybe _ None => intros ? [=]
  | |- maybe _ (Some _) => intros ? [= <-]
  | |- _ /\ _ => split
  | |- fine_label _ _ => exact I
  | |- num_wf _ => vm_compute; split; discriminate
  end].
Example C50_example_fine : fine_body ascii_unicode doc_body.
Proof.
  unfold fine_body. set (d := doc_body). vm_compute in d. subst d. fine.
Qed.

(** ** Refutations *)
(** [parse] and [from_str::<Body>] give different numbers for "-0": they are equal, but only one of them is
    an [i64], the other a [u64]. *)
Theorem C50_minus_zero_refuted : exists s x y,
  read_body ascii_unicode Release some_float no_floats s = Parsed [SAttribute (lit "a") (ENum x)] /\
  (forall f, from_str_body ascii_unicode Release some_float no_floats (S (S f)) s = Some [SAttribute (lit "a") (ENum y)]) /\
  num_eqb x y = true /\ is_i64 x = true /\ is_i64 y = false /\ is_u64 y = true.
Proof. exists (lit "a = -0"), (NegInt 0), (PosInt 0). split; [vm_compute; reflexivity|]. split; [intros f|repeat split]; vm_compute; reflexivity. Qed.
Print Assumptions C50_minus_zero_refuted.

(** The contents of [Expression::Variable] cannot be deserialized as a [Variable]. *)
Theorem C50_variable_refuted : let x := lit "x" in
  de_expr ascii_unicode Release (interpolated ascii_unicode no_floats) 1 (OExpr (EVar x)) = Some (EVar x) /\
  de_string (interpolated ascii_unicode no_floats) (OExpr (EVar x)) = Some (lit "${x}") /\
  de_ident ascii_unicode (interpolated ascii_unicode no_floats) (OExpr (EVar x)) = None.
Proof. vm_compute. auto. Qed.
Print Assumptions C50_variable_refuted.

(** An [Expression] cannot be deserialized from a [Value] (as with [from_value]), whatever the value:
    null, booleans, numbers and arrays are rejected, strings too except the names of the variants without
    data; of objects only the first key is looked at, it must be the name of a variant. *)
Theorem C50_from_value_refuted : forall u b interp f v,
  de_expr u b interp f (OVal v) <> Some (expr_of_value v) /\
  (match v with VStr _ | VObj _ => False | _ => True end -> de_expr u b interp f (OVal v) = None) /\
  (forall e, de_expr u b interp f (OVal v) = Some e ->
     (v = VStr (lit "Null") /\ e = ENull) \/ exists k x m, v = VObj ((k, x) :: m) /\ variant_name e = k).
Proof.
  intros u b interp f v. assert (N : forall e, de_expr u b interp f (OVal v) = Some e ->
     (v = VStr (lit "Null") /\ e = ENull) \/ (exists k x m, v = VObj ((k, x) :: m) /\ variant_name e = k) /\ (forall m, e = EObj m -> m = [])).
  { intros e. destruct f as [|f]; [discriminate|].
    destruct v as [| | |s|l|[|[k x] m]]; try discriminate; cbn [de_expr ask ask_value bind visit_expr newtype_src unit_variant].
    - unfold is. destruct (seqb s (lit "Null")) eqn:K; [apply seqb_eq in K; intros [= <-]; subst s; auto|discriminate].
    - intros E. right. apply named in E. destruct E as [E1 E2]. split; [|exact E2]. exists k, x, m. auto. }
  split; [|split].
  - intros E. destruct (N _ E) as [[-> E2]|[(k & x & m & -> & _) E2]]; [discriminate|].
    cbn [expr_of_value] in E2. specialize (E2 _ eq_refl). cbn [map] in E2. now apply collect_cons in E2.
  - intros H. destruct (de_expr u b interp f (OVal v)) eqn:E; [|reflexivity].
    destruct (N _ eq_refl) as [[-> _]|[(k & x & m & -> & _) _]]; destruct H.
  - intros e E. destruct (N e E) as [H|[H _]]; auto.
Qed.
Print Assumptions C50_from_value_refuted.
Example C50_from_value_examples : let from v := de_expr ascii_unicode Release (interpolated ascii_unicode no_floats) 5 (OVal v) in
  from (VStr (lit "Null")) = Some ENull /\ from (VObj [(lit "String", VStr (lit "a")); (lit "b", VNull)]) = Some (EStr (lit "a")) /\
  from (VObj [(lit "a", VStr (lit "b"))]) = None.
Proof. vm_compute. auto. Qed.
