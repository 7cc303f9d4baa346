(** Operators, conditionals and collections compute their documented meaning (C44).
    The specification is in OpSpec.v; [eval] is as in EvalProps.v. *)
From Coq Require Import ZArith Reals NArith Bool String List Lia.
From Flocq Require Import Core IEEE754.BinarySingleNaN.
From Verif Require Import Res Str NumberModel PrimModel Ast FloatProofs NumberProofs EvalModel EvalSpec EvalProofs EvalIp SerSpec OpSpec OpProofs.
From Verif Require MapModel EvalProps.
Import ListNotations.
Open Scope nat_scope.

Section Props.
  Context (bd : build) (parse_tpl : str -> option template)
          (show_value : value -> str) (show_num : NumberModel.num -> str).
  Notation eval := (eval bd parse_tpl show_value show_num).

  Lemma eval_binary_of n c l o r a b : eval n c l = Ok a -> eval n c r = Ok b ->
    eval n c (EBinary l o r) = eval_binary bd a o b.
  Proof.
    destruct (eval_unfold bd parse_tpl show_value show_num n) as [tpl U]. rewrite !U. cbn [eval_expr]. intros -> ->. reflexivity.
  Qed.

  (** Both operands are evaluated, from left to right; there is no short circuit. *)
  Theorem C44_both_operands : forall n c l o r v, eval n c (EBinary l o r) = Ok v ->
    exists a b, eval n c l = Ok a /\ eval n c r = Ok b /\ accepts o a b.
  Proof.
    intros n c l o r v H. destruct (eval_unfold bd parse_tpl show_value show_num n) as [tpl U]. rewrite !U in *. cbn [eval_expr] in H.
    apply ebind_ok in H as (a & Ha & H). apply ebind_ok in H as (b & Hb & H). exists a, b. apply binary_accepts in H. auto.
  Qed.
  Theorem C44_failing_operand : forall n c l o r f,
    (eval n c l = Fail f -> eval n c (EBinary l o r) = Fail f) /\
    (forall a, eval n c l = Ok a -> eval n c r = Fail f -> eval n c (EBinary l o r) = Fail f).
  Proof.
    intros n c l o r f. destruct (eval_unfold bd parse_tpl show_value show_num n) as [tpl U]. rewrite !U. cbn [eval_expr].
    split; [intros ->; reflexivity|intros a -> ->; reflexivity].
  Qed.
  (** Operands of a type the operator does not accept are an error, naming both. *)
  Theorem C44_wrong_operands : forall n c l o r a b, eval n c l = Ok a -> eval n c r = Ok b ->
    ~ accepts o a b -> eval n c (EBinary l o r) = Err (KBinaryOp a o b).
  Proof. intros n c l o r a b Hl Hr H. rewrite (eval_binary_of n c l o r a b Hl Hr). now apply binary_rejects. Qed.

  Theorem C44_logic : forall n c l r a b, eval n c l = Ok (VBool a) -> eval n c r = Ok (VBool b) ->
    eval n c (EBinary l OpAnd r) = Ok (VBool (a && b)) /\
    eval n c (EBinary l OpOr r) = Ok (VBool (a || b)).
  Proof. intros n c l r a b Hl Hr. split; now rewrite (eval_binary_of _ _ _ _ _ _ _ Hl Hr). Qed.

  Theorem C44_comparison : forall n c l o r x y, eval n c l = Ok (VNum x) -> eval n c r = Ok (VNum y) ->
    num_wf x -> num_wf y -> comparison o = true ->
    exists b, eval n c (EBinary l o r) = Ok (VBool b) /\ (b = true <-> compares o (valR x) (valR y)).
  Proof. intros n c l o r x y Hl Hr. rewrite (eval_binary_of _ _ _ _ _ _ _ Hl Hr). apply binary_compares. Qed.

  Theorem C44_equality : forall n c l r a b, eval n c l = Ok a -> eval n c r = Ok b ->
    wf_value a -> numbers num_wf a -> wf_value b -> numbers num_wf b ->
    exists e, eval n c (EBinary l OpEq r) = Ok (VBool e) /\
      eval n c (EBinary l OpNotEq r) = Ok (VBool (negb e)) /\ (e = true <-> same a b).
  Proof.
    intros n c l r a b Hl Hr W1 N1 W2 N2. exists (value_eqb a b).
    rewrite !(eval_binary_of _ _ _ _ _ _ _ Hl Hr). repeat match goal with |- _ /\ _ => split end; try reflexivity.
    apply value_eqb_same; split; assumption.
  Qed.

  (** Integer arithmetic is exact as long as operands and result have a magnitude of at most 2^53
      (see C03 for what happens beyond). *)
  Theorem C44_arithmetic_partial : forall n c l o r x y a b z, eval n c l = Ok (VNum x) -> eval n c r = Ok (VNum y) ->
    num_repr x = true -> num_repr y = true -> as_i64 x = Some a -> as_i64 y = Some b ->
    (Z.abs a <= 2 ^ 53)%Z -> (Z.abs b <= 2 ^ 53)%Z -> computes o a b = Some z -> (Z.abs z <= 2 ^ 53)%Z ->
    exists k, eval n c (EBinary l o r) = Ok (VNum k) /\ as_i64 k = Some z.
  Proof.
    intros n c l o r x y a b z Hl Hr. rewrite (eval_binary_of _ _ _ _ _ _ _ Hl Hr). apply binary_computes.
  Qed.
  (** Division is the rounded quotient. *)
  Theorem C44_division : forall n c l r x y, eval n c l = Ok (VNum x) -> eval n c r = Ok (VNum y) ->
    num_wf x -> num_wf y -> valR y <> 0%R ->
    let q := round radix2 (SpecFloat.fexp prec emax) ZnearestE
               (round radix2 (SpecFloat.fexp prec emax) ZnearestE (valR x) /
                round radix2 (SpecFloat.fexp prec emax) ZnearestE (valR y)) in
    (Rabs q < bpow radix2 1024)%R -> (is_int q -> IZR i64_min <= q <= IZR i64_max)%R ->
    exists k, eval n c (EBinary l OpDiv r) = Ok (VNum k) /\ valR k = q.
  Proof.
    intros n c l r x y Hl Hr Wx Wy Ny q Q1 Q2. rewrite (eval_binary_of _ _ _ _ _ _ _ Hl Hr).
    destruct (num_div_rounded bd x y Wx Wy Ny Q1 Q2) as (k & Hk & _ & V). cbn [eval_binary]. rewrite Hk. cbn. eauto.
  Qed.

  Theorem C44_not : forall n c e b, eval n c e = Ok (VBool b) -> eval n c (EUnary Not e) = Ok (VBool (negb b)).
  Proof.
    intros n c e b. destruct (eval_unfold bd parse_tpl show_value show_num n) as [tpl U]. rewrite !U. cbn [eval_expr]. intros ->. reflexivity.
  Qed.
  Theorem C44_negation_partial : forall n c e x a, eval n c e = Ok (VNum x) ->
    num_repr x = true -> as_i64 x = Some a -> (Z.abs a <= 2 ^ 53)%Z ->
    exists k, eval n c (EUnary Neg e) = Ok (VNum k) /\ as_i64 k = Some (- a)%Z.
  Proof.
    intros n c e x a. destruct (eval_unfold bd parse_tpl show_value show_num n) as [tpl U]. rewrite !U. cbn [eval_expr].
    intros -> R A L. destruct (num_neg_int bd x a R A L) as (k & Hk & _ & V). cbn. rewrite Hk. cbn. eauto.
  Qed.
  Theorem C44_wrong_unary : forall n c e v, eval n c e = Ok v ->
    ((forall b, v <> VBool b) -> eval n c (EUnary Not e) = Err (KUnaryOp Not v)) /\
    ((forall x, v <> VNum x) -> eval n c (EUnary Neg e) = Err (KUnaryOp Neg v)).
  Proof.
    intros n c e v. destruct (eval_unfold bd parse_tpl show_value show_num n) as [tpl U]. rewrite !U. cbn [eval_expr].
    intros ->. split; intros H; destruct v; try reflexivity; exfalso; eapply H; reflexivity.
  Qed.

  (** A conditional is the branch chosen by its condition; the other branch is not looked at. *)
  Theorem C44_conditional : forall n c a t f b, eval n c a = Ok (VBool b) ->
    eval n c (ECond a t f) = eval n c (if b then t else f).
  Proof.
    intros n c a t f b. destruct (eval_unfold bd parse_tpl show_value show_num n) as [tpl U]. rewrite !U. cbn [eval_expr].
    intros ->. now destruct b.
  Qed.
  Theorem C44_conditional_needs_bool : forall n c a t f v, eval n c a = Ok v -> (forall b, v <> VBool b) ->
    exists k, eval n c (ECond a t f) = Err k.
  Proof.
    intros n c a t f v. destruct (eval_unfold bd parse_tpl show_value show_num n) as [tpl U]. rewrite !U. cbn [eval_expr].
    intros -> H. destruct v; try (eexists; reflexivity). exfalso. eapply H. reflexivity.
  Qed.
  Theorem C44_parentheses : forall n c e, eval n c (EParen e) = eval n c e.
  Proof. intros n c e. destruct (eval_unfold bd parse_tpl show_value show_num n) as [tpl U]. now rewrite !U. Qed.

  (** The elements of an array, in order. *)
  Theorem C44_array : forall n c l v, eval n c (EArr l) = Ok v <->
    exists vs, Forall2 (fun e x => eval n c e = Ok x) l vs /\ v = VArr vs.
  Proof.
    intros n c l v. destruct (eval_unfold bd parse_tpl show_value show_num n) as [tpl U]. rewrite U. cbn [eval_expr]. split.
    - intros H. apply emap_ok in H as (vs & H & ->). exists vs. split; [|reflexivity]. apply collect_iff in H.
      eapply EvalSem.Forall2_impl'; [|exact H]. cbn. intros. now rewrite U.
    - intros (vs & H & ->). apply (EvalSem.Forall2_impl' _ (fun e x => eval_expr bd show_num tpl c e = Ok x)) in H; [|intros ? ?; now rewrite U].
      apply collect_iff in H. now rewrite H.
  Qed.
  (** The keys of an object in order of their first occurrence, each with its last value. *)
  Theorem C44_object : forall n c m v, eval n c (EObj m) = Ok v <->
    exists kvs r, v = VObj r /\
      Forall2 (fun p kv =>
        match fst p with
        | KIdent s => fst kv = s
        | KExpr e => exists k, eval n c e = Ok k /\ object_key show_num k = Ok (fst kv)
        end /\ eval n c (snd p) = Ok (snd kv)) m kvs /\
      map fst r = distinct (map fst kvs) /\ forall k x, In (k, x) r <-> last_value k kvs = Some x.
  Proof.
    intros n c m v. destruct (eval_unfold bd parse_tpl show_value show_num n) as [tpl U]. rewrite U. cbn [eval_expr].
    assert (F : forall kvs, collect (fun p : okey expr * expr =>
                 ebind (match fst p with KIdent s => Ok s | KExpr e => ebind (eval_expr bd show_num tpl c e) (object_key show_num) end)
                   (fun k => emap (fun v => (k, v)) (eval_expr bd show_num tpl c (snd p)))) m = Ok kvs <->
      Forall2 (fun p kv =>
        match fst p with
        | KIdent s => fst kv = s
        | KExpr e => exists k, eval n c e = Ok k /\ object_key show_num k = Ok (fst kv)
        end /\ eval n c (snd p) = Ok (snd kv)) m kvs).
    { intros kvs. rewrite collect_iff. split; apply EvalSem.Forall2_impl'.
      - intros [k e] [k' x] H. cbn [fst snd] in *. apply ebind_ok in H as (k0 & H1 & H2). apply emap_ok in H2 as (x0 & H2 & E).
        injection E as -> ->. rewrite U. split; [|exact H2]. destruct k; [congruence|].
        apply ebind_ok in H1 as (y & H3 & H4). rewrite U. eauto.
      - intros [k e] [k' x]. cbn [fst snd]. rewrite U. intros [H1 H2]. rewrite H2. destruct k.
        + subst. reflexivity.
        + destruct H1 as (y & H3 & H4). rewrite U in H3. rewrite H3. cbn. rewrite H4. reflexivity. }
    split.
    - intros H. apply emap_ok in H as (kvs & H & ->). exists kvs, (MapModel.from_iter seqb kvs).
      destruct (from_iter_last kvs) as [L1 L2]. repeat match goal with |- _ /\ _ => split end; auto.
      + now apply F.
      + intros k x. rewrite <- L2. symmetry. apply get_nodup. rewrite L1. apply EvalSem.distinct_nodup.
    - intros (kvs & r & -> & H & H1 & H2). apply F in H. rewrite H. cbn [emap]. do 2 f_equal.
      destruct (from_iter_last kvs) as [L1 L2]. apply same_map.
      + rewrite L1. apply EvalSem.distinct_nodup.
      + congruence.
      + intros k x. rewrite H2, <- L2. apply get_nodup. rewrite L1. apply EvalSem.distinct_nodup.
  Qed.
End Props.
Print Assumptions C44_both_operands.
Print Assumptions C44_failing_operand.
Print Assumptions C44_wrong_operands.
Print Assumptions C44_logic.
Print Assumptions C44_comparison.
Print Assumptions C44_equality.
Print Assumptions C44_arithmetic_partial.
Print Assumptions C44_division.
Print Assumptions C44_not.
Print Assumptions C44_negation_partial.
Print Assumptions C44_wrong_unary.
Print Assumptions C44_conditional.
Print Assumptions C44_conditional_needs_bool.
Print Assumptions C44_parentheses.
Print Assumptions C44_array.
Print Assumptions C44_object.

(** [{ a = 1, (k) = 2, a = x < 3 }] with k = "b" and x = -1. *)
Example C44_example : forall bd parse_tpl show_value show_num,
  let c := EvalProps.vars [(lit "k", VStr (lit "b")); (lit "x", VNum (NegInt (-1)))] in
  eval bd parse_tpl show_value show_num 0 c
    (EObj [(KIdent (lit "a"), ENum (PosInt 1)); (KExpr (EVar (lit "k")), ENum (PosInt 2));
           (KIdent (lit "a"), EBinary (EVar (lit "x")) OpLess (ENum (PosInt 3)))]) =
  Ok (VObj [(lit "a", VBool true); (lit "b", VNum (PosInt 2))]) /\
  eval bd parse_tpl show_value show_num 0 c (EBinary (EBool false) OpAnd (EVar (lit "y"))) = Err (KUndefinedVar (lit "y")) /\
  accepts OpLess (VNum (NegInt (-1))) (VNum (PosInt 3)) /\ ~ accepts OpLess VNull (VNum (PosInt 3)) /\
  same (VObj [(lit "a", VNull); (lit "b", VArr [VBool true])]) (VObj [(lit "b", VArr [VBool true]); (lit "a", VNull)]).
Proof.
  intros. repeat match goal with |- _ /\ _ => split end; try (vm_compute; reflexivity).
  - now eexists _, _.
  - intros (x & y & H & _). discriminate H.
  - cbn. split; [intros k; tauto|]. split; [|split; auto]; intros w [H|[H|[]]]; inversion H; subst; cbn; auto.
Qed.
