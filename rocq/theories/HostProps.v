(** Rust values put into HCL values and expressions are kept (C59).  Specification: HostSpec.v. *)
From Coq Require Import ZArith Reals NArith Bool String List Lia Lra.
From Flocq Require Import Core IEEE754.BinarySingleNaN.
From Verif Require Import Res Str NumberModel NumberProofs FloatProofs Ast EvalModel EvalSpec EvalSem OpSpec HostModel HostSpec HostProofs.
From Verif Require MapModel NumberProps OpProofs SerProofs EvalIp.
Import ListNotations.
Open Scope Z_scope.

(** ** Conversions *)

(** Converting never panics, in debug and release builds, whatever the floats are. *)
Theorem C59_total (bd : build) (h : host) : (exists v, value_from bd h = Done v) /\ (typed h -> exists e, expr_from bd h = Done e).
Proof.
  destruct (total bd h) as [v E]. split; [eauto|]. intros T. eexists. exact (host_expr bd h v T E).
Qed.
Print Assumptions C59_total.

(** The value says what the Rust value says.  Missing from the full statement: floats without a
    fraction outside of the range of i64, see [C59_large_floats_refuted]. *)
Theorem C59_value_partial (bd : build) (h : host) : typed h -> fits h ->
  exists v, value_from bd h = Done v /\ denotes h v /\ wf_value v.
Proof.
  intros T F. destruct (host_value bd h T F) as (v & E & D). exists v. split; [exact E|]. split; [exact D|exact (host_wf bd h v T E)].
Qed.
Print Assumptions C59_value_partial.

(** Converting to an expression is converting to a value first, and the value comes back from the
    expression. *)
Theorem C59_expression (bd : build) (h : host) (v : value) : typed h -> value_from bd h = Done v ->
  expr_from bd h = Done (expr_of_value v) /\
  forall show interp e, expr_from bd h = Done e -> value_of_expr show interp e = v.
Proof.
  intros T E. pose proof (host_expr bd h v T E) as X. split; [exact X|]. intros show interp e. rewrite X. intros [= <-].
  apply value_of_expr_of_value. exact (host_wf bd h v T E).
Qed.
Print Assumptions C59_expression.

(** The same for objects whose keys are given as identifiers: the keys of the expression are those
    identifiers and its value is the one collected from strings. *)
Theorem C59_identifier_keys (bd : build) (l : list (str * host)) : typed (HPairs l) ->
  exists m es, value_from bd (HPairs l) = Done (VObj m) /\ expr_from_idents bd l = Done (EObj es) /\
    map fst es = map KIdent (distinct (map fst l)) /\
    forall show interp, value_of_expr show interp (EObj es) = VObj m.
Proof.
  intros T. destruct (total bd (HPairs l)) as [v E]. pose proof (host_wf bd _ v T E) as W. pose proof E as E'. cbn [value_from] in E'.
  destruct (rall _) as [kvs|] eqn:R; [|discriminate]. injection E' as <-. destruct (OpProofs.from_iter_last kvs) as [L1 _].
  set (m := MapModel.from_iter seqb kvs) in *. exists m. eexists. split; [exact E|]. split; [exact (idents_expr bd l m T E)|].
  split.
  - rewrite map_map. cbn [fst]. rewrite <- (map_map fst KIdent), L1. do 2 f_equal. apply rall_inv in R. clear -R.
    induction R as [|a b l bs R _ IH]; cbn; [reflexivity|]. destruct (value_from bd (snd a)); [|discriminate]. injection R as <-. cbn. congruence.
  - intros show interp. destruct W as [W1 W2]. apply SerProofs.wf_all_obj in W2. cbn [value_of_expr]. rewrite map_map. cbn [fst snd key_str]. f_equal.
    rewrite (map_ext_in _ (fun p => p)).
    + rewrite map_id. now apply EvalIp.from_iter_nodup.
    + intros [k x] H. cbn [fst snd]. rewrite value_of_expr_of_value; [reflexivity|]. rewrite Forall_forall in W2. exact (W2 _ H).
Qed.
Print Assumptions C59_identifier_keys.

(** 32-bit floats are widened without changing them. *)
Theorem C59_f32_exact (f : f32) : is_finite (f64_of_f32 f) = is_finite f /\ B2R (f64_of_f32 f) = B2R f.
Proof. destruct (widen f). auto. Qed.
Print Assumptions C59_f32_exact.

Theorem C59_large_floats_refuted : exists (f : f64) (n : num), is_finite f = true /\ B2R f = IZR (2 ^ 64) /\
  value_from Debug (HF64 f) = Done (VNum n) /\ valR n = IZR (2 ^ 63 - 1).
Proof.
  exists (f64_of_Z (2 ^ 64)), (PosInt (2 ^ 63 - 1)). split; [reflexivity|]. split; [|split; [reflexivity|reflexivity]].
  destruct (f64_of_Z_round (2 ^ 64)) as [-> _]; [reflexivity|]. unfold rnd64. apply round_generic; [apply valid_rnd_round_mode|].
  replace (IZR (2 ^ 64)) with (bpow radix2 64) by (rewrite bpow_IZR by lia; reflexivity). apply pow2_format; lia.
Qed.
Print Assumptions C59_large_floats_refuted.

(** ** Reading back *)

(** Every value has exactly one kind: each accessor answers on its own kind, with the content, and on
    no other.  Taking a value returns it and leaves null. *)
Theorem C59_accessors (v : value) :
  (v_as_null v = Some tt <-> v = VNull) /\
  (forall b, v_as_bool v = Some b <-> v = VBool b) /\
  (forall n, v_as_number v = Some n <-> v = VNum n) /\
  (forall s, v_as_str v = Some s <-> v = VStr s) /\
  (forall l, v_as_array v = Some l <-> v = VArr l) /\
  (forall m, v_as_object v = Some m <-> v = VObj m) /\
  (exists i, (i < 6)%nat /\ forall j,
     nth_error [v_is_null v; v_is_boolean v; v_is_number v; v_is_string v; v_is_array v; v_is_object v] j = Some true <-> j = i) /\
  v_take v = (v, VNull).
Proof.
  repeat match goal with |- _ /\ _ => split end; try (intros; destruct v; cbn; split; congruence).
  exists (match v with VNull => 0 | VBool _ => 1 | VNum _ => 2 | VStr _ => 3 | VArr _ => 4 | VObj _ => 5 end)%nat.
  split; [destruct v; lia|]. intros j. split.
  - destruct v; cbn; do 6 (destruct j as [|j]; [cbn; congruence|]); destruct j; cbn; discriminate.
  - intros ->. destruct v; reflexivity.
Qed.
Print Assumptions C59_accessors.

(** [is_null], [is_boolean], [is_number], [is_string], [is_array] and [is_object] guarantee that the
    accessor answers; so do [is_i64], [is_u64] and [is_f64]. *)
Theorem C59_guarantees (v : value) :
  (v_is_null v = true <-> v_as_null v <> None) /\ (v_is_boolean v = true <-> v_as_bool v <> None) /\
  (v_is_number v = true <-> v_as_number v <> None) /\ (v_is_string v = true <-> v_as_str v <> None) /\
  (v_is_array v = true <-> v_as_array v <> None) /\ (v_is_object v = true <-> v_as_object v <> None) /\
  (v_is_i64 v = true -> v_as_i64 v <> None) /\ (v_is_u64 v = true -> v_as_u64 v <> None) /\
  (v_is_f64 v = true -> v_as_f64 v <> None).
Proof.
  repeat match goal with |- _ /\ _ => split end; try (destruct v; cbn; split; congruence);
    destruct v as [| |[]| | |]; intros H; try (cbn in H; discriminate H); cbn; discriminate.
Qed.
Print Assumptions C59_guarantees.

(** The integer accessors answer exactly on the integers of their type. *)
Theorem C59_integers (n : num) (z : Z) : num_wf n ->
  (v_as_i64 (VNum n) = Some z <-> valR n = IZR z /\ i64_min <= z <= i64_max) /\
  (v_as_u64 (VNum n) = Some z <-> valR n = IZR z /\ 0 <= z <= u64_max) /\
  exists f, v_as_f64 (VNum n) = Some f /\ is_finite f = true /\
    B2R f = round radix2 (SpecFloat.fexp prec emax) ZnearestE (valR n).
Proof.
  intros W. split; [exact (NumberProps.C04_as_i64_faithful n z W)|]. split; [exact (NumberProps.C04_as_u64_faithful n z W)|].
  exists (to_f64 n). split; [reflexivity|]. destruct n as [k|k|f]; cbn [to_f64 valR num_wf] in *.
  - destruct (f64_of_Z_round k) as [A B]; [unfold u64_max in *; lia|]. split; [exact B|exact A].
  - destruct (f64_of_Z_round k) as [A B]; [unfold i64_min in *; lia|]. split; [exact B|exact A].
  - split; [apply W|]. symmetry. apply round_generic; [typeclasses eauto|apply generic_format_B2R].
Qed.
Print Assumptions C59_integers.

(** What is put in is read back. *)
Theorem C59_read_back (bd : build) :
  (forall z, i64_min <= z <= i64_max -> exists v, value_from bd (HSigned z) = Done v /\ v_as_i64 v = Some z) /\
  (forall z, 0 <= z <= u64_max -> exists v, value_from bd (HUnsigned z) = Done v /\ v_as_u64 v = Some z) /\
  (forall f : f64, is_finite f = true -> in_i64 (B2R f) ->
     exists v g, value_from bd (HF64 f) = Done v /\ v_as_f64 v = Some g /\ is_finite g = true /\ B2R g = B2R f) /\
  (forall f : f32, is_finite f = true -> in_i64 (B2R f) ->
     exists v g, value_from bd (HF32 f) = Done v /\ v_as_f64 v = Some g /\ is_finite g = true /\ B2R g = B2R f) /\
  (forall b, exists v, value_from bd (HBool b) = Done v /\ v_as_bool v = Some b) /\
  (forall s, exists v, value_from bd (HStr s) = Done v /\ v_as_str v = Some s).
Proof.
  repeat match goal with |- _ /\ _ => split end.
  - intros z H. eexists. split; [reflexivity|]. apply (NumberProps.C04_as_i64_faithful (num_of_i64 z)).
    + rewrite num_of_i64_of_Z. apply num_wf_of_Z. unfold i64_max, u64_max in *. lia.
    + split; [apply valR_of_Z|exact H].
  - intros z H. eexists. split; reflexivity.
  - intros f F I. destruct (from_f64_value bd f I) as (v & E & R & _). destruct (R F) as (n & -> & W & V).
    destruct (C59_integers n 0 W) as (_ & _ & g & G1 & G2 & G3). exists (VNum n), g. repeat split; auto. rewrite G3, V.
    apply round_generic; [typeclasses eauto|apply generic_format_B2R].
  - intros f F I. destruct (widen f) as [W1 W2]. rewrite <- W1 in I. destruct (from_f64_value bd _ I) as (v & E & R & _). rewrite W1, W2 in R.
    destruct (R F) as (n & -> & W & V). destruct (C59_integers n 0 W) as (_ & _ & g & G1 & G2 & G3). exists (VNum n), g. repeat split; auto. rewrite G3, V.
    apply round_generic; [typeclasses eauto|apply widen_format].
  - intros b. eexists. split; reflexivity.
  - intros s. eexists. split; reflexivity.
Qed.
Print Assumptions C59_read_back.

(** What [is_i64], [is_u64] and [is_f64] test: a negative integer, an integer that is not negative, a
    number with a fraction. *)
Theorem C59_number_tests (n : num) : num_wf n ->
  (v_is_i64 (VNum n) = true <-> exists z, valR n = IZR z /\ i64_min <= z < 0) /\
  (v_is_u64 (VNum n) = true <-> exists z, valR n = IZR z /\ 0 <= z <= u64_max) /\
  (v_is_f64 (VNum n) = true <-> ~ is_int (valR n)).
Proof.
  intros W. destruct n as [k|k|f]; cbn [num_wf valR] in *; cbn [v_is_i64 v_is_u64 v_is_f64 v_as_number is_some_and is_i64 is_u64 is_f64].
  - split; [split; [discriminate|]; intros (z & E & H); apply eq_IZR in E; lia|]. split; [split; eauto|].
    split; [discriminate|]. intros H. exfalso. apply H. exists k. reflexivity.
  - split; [split; eauto|]. split; [split; [discriminate|]; intros (z & E & H); apply eq_IZR in E; lia|].
    split; [discriminate|]. intros H. exfalso. apply H. exists k. reflexivity.
  - destruct W as [_ W]. split; [split; [discriminate|]; intros (z & E & _); exfalso; apply W; exists z; exact E|].
    split; [split; [discriminate|]; intros (z & E & _); exfalso; apply W; exists z; exact E|]. split; auto.
Qed.
Print Assumptions C59_number_tests.

(** The documentation of [is_i64] says "Returns true if the Value is an integer between i64::MIN and
    i64::MAX" and that of [is_f64] "Returns true if the Value is a number that can be represented by
    f64".  Both are false of 5. *)
Theorem C59_is_i64_refuted : exists v, value_from Debug (HSigned 5) = Done v /\
  v_as_i64 v = Some 5 /\ v_is_i64 v = false /\ (exists f, v_as_f64 v = Some f /\ B2R f = 5%R) /\ v_is_f64 v = false.
Proof.
  eexists. split; [reflexivity|]. split; [reflexivity|]. split; [reflexivity|]. split; [|reflexivity]. eexists. split; [reflexivity|].
  apply (f64_of_Z_exact 5). lia.
Qed.
Print Assumptions C59_is_i64_refuted.

(** ** Examples *)
Definition ports : host :=
  HPairs [(lit "a", HVec [HSigned (-3); HUnsigned u64_max; HUnit]); (lit "b", HStr (lit "x"));
          (lit "a", HPairs [(lit "z", HF64 B754_nan); (lit "y", HF32 (B754_zero true)); (lit "z", HBool true)])].
Example C59_example : typed ports /\ fits ports /\
  value_from Debug ports = Done (VObj [(lit "a", VObj [(lit "z", VBool true); (lit "y", VNum (PosInt 0))]); (lit "b", VStr (lit "x"))]).
Proof.
  split; [|split; [|vm_compute; reflexivity]].
  - repeat split; intro; discriminate.
  - assert (Z : in_i64 0) by (intros _; split; apply IZR_le; intro; discriminate). cbn [ports fits fold_right snd B2R]. tauto.
Qed.
Example C59_identifiers_example :
  expr_from_idents Release [(lit "a", HBool true); (lit "b", HUnit); (lit "a", HStr (lit "z"))] =
  Done (EObj [(KIdent (lit "a"), EStr (lit "z")); (KIdent (lit "b"), ENull)]).
Proof. reflexivity. Qed.
