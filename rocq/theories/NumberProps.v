(** Property theorems about Number (C01-C04).  See NumberProofs.v for [valR] (the real number a
    Number denotes), [num_wf] (documented invariant) and [nexp] (histories). *)
From Coq Require Import ZArith Reals Lra Lia Bool List.
From Flocq Require Import Core IEEE754.BinarySingleNaN.
From Verif Require Import Res NumberModel FloatProofs NumberProofs.
Import ListNotations.
Open Scope Z_scope.

(** ** C01: numbers stay well formed *)

(** Full statement: [forall e, nexp_typed e -> nexp_run bd e = Done r -> num_wf r].  It is false
    of the code; the partial theorem names the exact exceptions ([neg_defect], [arith_defect]). *)
Theorem C01_number_history_wf_partial (bd : build) (e : nexp) (r : num) :
  nexp_typed e -> nexp_clean bd e -> nexp_run bd e = Done r -> num_wf r.
Proof. intros T C H. exact (nexp_wf bd e T C r H). Qed.
Print Assumptions C01_number_history_wf_partial.

(** The exceptions are exact: one operation on well-formed Numbers yields an ill-formed Number
    if and only if it is one of the listed cases. *)
Theorem C01_neg_wf_iff (bd : build) (n r : num) :
  num_wf n -> num_neg bd n = Done r -> (num_wf r <-> ~ neg_defect n).
Proof. exact (num_neg_wf bd n r). Qed.
Print Assumptions C01_neg_wf_iff.

Theorem C01_arith_wf_iff (bd : build) (o : arith) (x y r : num) :
  num_wf x -> num_wf y -> num_arith bd o x y = Done r -> (num_wf r <-> ~ arith_defect o x y).
Proof. exact (num_arith_wf bd o x y r). Qed.
Print Assumptions C01_arith_wf_iff.

(** Witnesses: [-0], [-(u64::MAX)], [0 - u64::MAX], [-4 % -2], [1 / 0] (release). *)
Theorem C01_number_wf_refuted :
  exists (e : nexp) (r : num), nexp_typed e /\ nexp_run Debug e = Done r /\ ~ num_wf r.
Proof.
  exists (NxNeg (NxU 0)), (NegInt 0). split; [cbn [nexp_typed]; unfold u64_max; lia|].
  split; [vm_compute; reflexivity|]. cbn [num_wf]. lia.
Qed.
Print Assumptions C01_number_wf_refuted.

Theorem C01_neg_u64_max_refuted :
  nexp_run Debug (NxNeg (NxU u64_max)) = Done (NegInt 1) /\
  nexp_run Debug (NxBin OSub (NxU 0) (NxU u64_max)) = Done (NegInt 1) /\
  nexp_run Debug (NxBin ORem (NxI (-4)) (NxI (-2))) = Done (NegInt 0) /\
  (exists f, nexp_run Release (NxBin ODiv (NxU 1) (NxU 0)) = Done (NFloat f) /\ is_finite f = false).
Proof.
  repeat split; try (vm_compute; reflexivity).
  exists (B754_infinity false). split; vm_compute; reflexivity.
Qed.
Print Assumptions C01_neg_u64_max_refuted.

Example C01_clean_example :
  let e := NxBin OSub (NxNeg (NxU 5)) (NxBin OMul (NxI (-3)) (NxU 7)) in
  nexp_typed e /\ nexp_clean Debug e /\ nexp_run Debug e = Done (PosInt 16).
Proof.
  cbv zeta. split; [cbn [nexp_typed]; unfold u64_max, i64_min, i64_max; lia|]. split; [|vm_compute; reflexivity].
  cbn [nexp_clean nexp_run rbind num_arith]. split; [split; [exact I|]|split; [split; [exact I|split; [exact I|]]|]].
  - intros n H. injection H as <-. cbn [neg_defect num_of_u64]. lia.
  - intros x y H1 H2. injection H1 as <-. injection H2 as <-. vm_compute. discriminate.
  - intros x y H1 H2. vm_compute in H1, H2. injection H1 as <-. injection H2 as <-. cbn [arith_defect]. tauto.
Qed.

(** ** C02: equality, ordering, hashing *)
Theorem C02_number_order_is_real_order (a b : num) :
  num_wf a -> num_wf b -> num_cmp a b = Some (Rcompare (valR a) (valR b)).
Proof. exact (num_cmp_real a b). Qed.
Print Assumptions C02_number_order_is_real_order.

Theorem C02_number_eq_is_real_eq (a b : num) :
  num_wf a -> num_wf b -> (num_eqb a b = true <-> valR a = valR b).
Proof. exact (num_eqb_real a b). Qed.
Print Assumptions C02_number_eq_is_real_eq.

Theorem C02_number_eq_hash (a b : num) :
  num_wf a -> num_wf b -> num_eqb a b = true -> num_hash a = num_hash b.
Proof. intros Wa Wb H. exact (num_hash_real a b Wa Wb (proj1 (num_eqb_real a b Wa Wb) H)). Qed.
Print Assumptions C02_number_eq_hash.

(** Floats, including [0.0 == -0.0], also when they are not well-formed Numbers. *)
Theorem C02_float_eq_hash (f g : f64) :
  num_eqb (NFloat f) (NFloat g) = true -> num_hash (NFloat f) = num_hash (NFloat g).
Proof. exact (num_hash_float f g). Qed.
Print Assumptions C02_float_eq_hash.
Example C02_float_example : num_eqb (NFloat (B754_zero true)) (NFloat (B754_zero false)) = true.
Proof. reflexivity. Qed.

Lemma half_wf : exists h : f64, num_wf (NFloat h) /\ B2R h = (1/2)%R.
Proof.
  exists (@B754_finite prec emax false 4503599627370496 (-53) eq_refl).
  assert (V : B2R (@B754_finite prec emax false 4503599627370496 (-53) eq_refl) = (1 / 2)%R).
  { unfold B2R, F2R; cbn [Fnum Fexp cond_Zopp]. change 4503599627370496 with (2 ^ 52).
    rewrite <- bpow_IZR by lia. rewrite <- bpow_plus. cbn. lra. }
  split; [|exact V]. cbn [num_wf]. split; [reflexivity|]. rewrite V. intros [z Hz].
  assert (H2 : IZR 1 = IZR (2 * z)) by (rewrite mult_IZR, <- Hz; lra). apply eq_IZR in H2. lia.
Qed.
(** Mixed comparison next to the rounding boundary. *)
Example C02_example :
  num_wf (PosInt u64_max) /\ num_wf (NegInt i64_min) /\
  num_cmp (PosInt u64_max) (NegInt i64_min) = Some Gt /\ num_eqb (PosInt (2 ^ 53 + 1)) (PosInt (2 ^ 53)) = false.
Proof. repeat split; try (vm_compute; reflexivity); cbn [num_wf]; unfold u64_max, i64_min; lia. Qed.

(** ** C03: integer arithmetic is exact *)
Theorem C03_integer_arith_exact (bd : build) (o : arith) (x y : num) (a b : Z) :
  num_repr x = true -> num_repr y = true ->
  as_i64 x = Some a -> as_i64 y = Some b ->
  Z.abs a <= 2 ^ 53 -> Z.abs b <= 2 ^ 53 -> Z.abs (z_arith o a b) <= 2 ^ 53 ->
  o <> ODiv -> (o = ORem -> b <> 0) ->
  exists r, num_arith bd o x y = Done r /\ num_repr r = true /\ as_i64 r = Some (z_arith o a b).
Proof. exact (num_arith_int bd o x y a b). Qed.
Print Assumptions C03_integer_arith_exact.

Theorem C03_integer_neg_exact (bd : build) (x : num) (a : Z) :
  num_repr x = true -> as_i64 x = Some a -> Z.abs a <= 2 ^ 53 ->
  exists r, num_neg bd x = Done r /\ num_repr r = true /\ as_i64 r = Some (- a).
Proof. exact (num_neg_int bd x a). Qed.
Print Assumptions C03_integer_neg_exact.

(** Whole computations: if the exact integer meaning of every intermediate result is small,
    the computation returns exactly that integer. *)
Theorem C03_integer_history_exact (bd : build) (e : nexp) (z : Z) :
  nexp_typed e -> nexp_int e = Some z ->
  exists r, nexp_run bd e = Done r /\ as_i64 r = Some z.
Proof.
  intros T H. destruct (nexp_int_exact bd e T z H) as (_ & r & E & _ & V).
  exists r. exact (conj E V).
Qed.
Print Assumptions C03_integer_history_exact.

(** Beyond 2^53 operands of different sign go through f64 and lose precision, even when the
    operands and the result fit in i64; and a zero obtained as [-0] does the same. *)
Theorem C03_mixed_sign_refuted :
  exists a b r, i64_min <= a <= i64_max /\ i64_min <= b <= i64_max /\ i64_min <= a + b <= i64_max /\
    nexp_run Debug (NxBin OAdd (NxI a) (NxI b)) = Done r /\ as_i64 r <> Some (a + b).
Proof.
  exists (2 ^ 53 + 3), (-2), (PosInt (2 ^ 53 + 2)).
  repeat split; try (unfold i64_min, i64_max; lia); try (vm_compute; reflexivity).
  vm_compute. discriminate.
Qed.
Print Assumptions C03_mixed_sign_refuted.

Theorem C03_neg_zero_refuted :
  exists r, nexp_run Debug (NxBin OAdd (NxU (2 ^ 53 + 1)) (NxNeg (NxU 0))) = Done r /\
    as_i64 r <> Some (2 ^ 53 + 1).
Proof. exists (PosInt (2 ^ 53)). split; vm_compute; [reflexivity|discriminate]. Qed.
Print Assumptions C03_neg_zero_refuted.

Theorem C03_division_is_rounded (bd : build) (x y : num) :
  num_wf x -> num_wf y -> valR y <> 0%R ->
  let q := round radix2 (SpecFloat.fexp prec emax) ZnearestE
             (round radix2 (SpecFloat.fexp prec emax) ZnearestE (valR x) /
              round radix2 (SpecFloat.fexp prec emax) ZnearestE (valR y)) in
  (Rabs q < bpow radix2 1024)%R -> (is_int q -> IZR i64_min <= q <= IZR i64_max)%R ->
  exists n, num_div bd x y = Done n /\ num_wf n /\ valR n = q.
Proof. exact (num_div_rounded bd x y). Qed.
Print Assumptions C03_division_is_rounded.

Example C03_example :
  let e := NxBin ORem (NxBin OMul (NxU 123456789) (NxI (-987654))) (NxNeg (NxU 1000)) in
  nexp_typed e /\ nexp_int e = Some (-6) /\ nexp_run Release e = Done (NegInt (-6)).
Proof. split; [cbn [nexp_typed]; unfold u64_max, i64_min, i64_max; lia|split; vm_compute; reflexivity]. Qed.

(** ** C04: from_f64 and accessors *)
Theorem C04_from_f64_none (bd : build) (f : f64) :
  num_from_f64 bd f = Done None <-> is_finite f = false.
Proof. exact (from_f64_none bd f). Qed.
Print Assumptions C04_from_f64_none.

(** Missing from the full statement: integral floats outside of the i64 range (see below). *)
Theorem C04_from_f64_value_partial (bd : build) (f : f64) :
  is_finite f = true -> (is_int (B2R f) -> IZR i64_min <= B2R f <= IZR i64_max)%R ->
  exists n, num_from_f64 bd f = Done (Some n) /\ num_wf n /\ valR n = B2R f.
Proof. exact (from_f64_value bd f). Qed.
Print Assumptions C04_from_f64_value_partial.

Theorem C04_from_f64_saturates (bd : build) (f : f64) (z : Z) :
  is_finite f = true -> B2R f = IZR z ->
  num_from_f64 bd f = Done (Some (num_of_Z (Z.max i64_min (Z.min i64_max z)))).
Proof. exact (from_f64_saturates bd f z). Qed.
Print Assumptions C04_from_f64_saturates.

Theorem C04_from_f64_value_refuted :
  exists (f : f64) (n : num), is_finite f = true /\ num_from_f64 Debug f = Done (Some n) /\ valR n <> B2R f.
Proof.
  exists (f64_of_Z (2 ^ 63)), (PosInt (2 ^ 63 - 1)).
  split; [vm_compute; reflexivity|]. split; [vm_compute; reflexivity|].
  cbn [valR]. destruct (f64_of_Z_round (2 ^ 63)) as [-> _]; [lia|].
  rewrite round_generic; [|apply valid_rnd_round_mode|].
  - intros H. apply eq_IZR in H. lia.
  - rewrite <- bpow_IZR by lia. apply pow2_format. lia.
Qed.
Print Assumptions C04_from_f64_value_refuted.

Theorem C04_as_i64_faithful (n : num) (z : Z) :
  num_wf n -> (as_i64 n = Some z <-> valR n = IZR z /\ i64_min <= z <= i64_max).
Proof. exact (as_i64_real n z). Qed.
Print Assumptions C04_as_i64_faithful.

Theorem C04_as_u64_faithful (n : num) (z : Z) :
  num_wf n -> (as_u64 n = Some z <-> valR n = IZR z /\ 0 <= z <= u64_max).
Proof. exact (as_u64_real n z). Qed.
Print Assumptions C04_as_u64_faithful.

Example C04_example : exists f : f64, is_finite f = true /\ B2R f = (1/2)%R /\
  (is_int (B2R f) -> IZR i64_min <= B2R f <= IZR i64_max)%R.
Proof.
  destruct half_wf as (h & [F N] & V). exists h. split; [exact F|split; [exact V|]].
  intros I. contradiction.
Qed.
