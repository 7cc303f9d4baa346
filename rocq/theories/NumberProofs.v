(** Proofs about the model of number.rs. *)
From Coq Require Import ZArith Reals Lra Lia Bool List.
From Flocq Require Import Core IEEE754.BinarySingleNaN.
From Verif Require Import Res NumberModel FloatProofs.
Import ListNotations.
Open Scope R_scope.

(** ** Specification: the real number a Number denotes, and well-formedness *)
Definition valR (n : num) : R :=
  match n with PosInt z | NegInt z => IZR z | NFloat f => B2R f end.

Definition num_wf (n : num) : Prop :=
  match n with
  | PosInt z => (0 <= z <= u64_max)%Z
  | NegInt z => (i64_min <= z < 0)%Z
  | NFloat f => is_finite f = true /\ ~ is_int (B2R f)
  end.

(** The canonical Number of an integer. *)
Definition num_of_Z (z : Z) : num := if (z <? 0)%Z then NegInt z else PosInt z.

Lemma valR_of_Z z : valR (num_of_Z z) = IZR z.
Proof. unfold num_of_Z. destruct (z <? 0)%Z; reflexivity. Qed.

Lemma num_of_i64_of_Z z : num_of_i64 z = num_of_Z z.
Proof. reflexivity. Qed.

Lemma num_wf_of_Z z : (i64_min <= z <= u64_max)%Z -> num_wf (num_of_Z z).
Proof. unfold num_of_Z. destruct (Z.ltb_spec z 0); cbn [num_wf]; lia. Qed.

Lemma wf_int_abs n z : num_wf n -> n = PosInt z \/ n = NegInt z -> (Z.abs z <= 2 ^ 64)%Z.
Proof.
  intros W [->| ->]; cbn [num_wf] in W; unfold u64_max, i64_min in *; lia.
Qed.

Lemma wf_pos_abs z : num_wf (PosInt z) -> (Z.abs z <= 2 ^ 64)%Z.
Proof. intros W. exact (wf_int_abs _ _ W (or_introl eq_refl)). Qed.
Lemma wf_neg_abs z : num_wf (NegInt z) -> (Z.abs z <= 2 ^ 64)%Z.
Proof. intros W. exact (wf_int_abs _ _ W (or_intror eq_refl)). Qed.
#[local] Hint Resolve wf_pos_abs wf_neg_abs : wfabs.

Lemma to_f64_finite n : num_wf n -> is_finite (to_f64 n) = true.
Proof.
  destruct n as [z|z|f]; intros W; cbn [to_f64].
  - apply f64_of_Z_round. auto with wfabs.
  - apply f64_of_Z_round. auto with wfabs.
  - apply W.
Qed.

Lemma Rcompare_IZR_Z a b : Rcompare (IZR a) (IZR b) = (a ?= b)%Z.
Proof. apply Rcompare_IZR. Qed.

Lemma num_cmp_real a b : num_wf a -> num_wf b ->
  num_cmp a b = Some (Rcompare (valR a) (valR b)).
Proof.
  intros Wa Wb. unfold num_cmp, coerce.
  destruct a as [x|x|f]; destruct b as [y|y|g]; cbn [valR to_f64];
    try (rewrite Rcompare_IZR; reflexivity); unfold f64_cmp.
  - rewrite Bcompare_correct by (apply f64_of_Z_round; auto with wfabs).
    cbn [num_wf] in *.
    rewrite (Rcompare_Gt (IZR x)) by (apply IZR_lt; lia).
    rewrite Rcompare_Gt; [reflexivity|]. apply of_Z_compare_sign; unfold i64_min, u64_max in *; lia.
  - rewrite Bcompare_correct; [|apply f64_of_Z_round; auto with wfabs|apply Wb].
    rewrite of_Z_compare_nonint; [reflexivity|auto with wfabs|apply Wb|apply Wb].
  - rewrite Bcompare_correct by (apply f64_of_Z_round; auto with wfabs).
    cbn [num_wf] in *.
    rewrite (Rcompare_Lt (IZR x)) by (apply IZR_lt; lia).
    rewrite Rcompare_Lt; [reflexivity|]. apply of_Z_compare_sign; unfold i64_min, u64_max in *; lia.
  - rewrite Bcompare_correct; [|apply f64_of_Z_round; auto with wfabs|apply Wb].
    rewrite of_Z_compare_nonint; [reflexivity|auto with wfabs|apply Wb|apply Wb].
  - rewrite Bcompare_correct; [|apply Wa|apply f64_of_Z_round; auto with wfabs].
    rewrite Rcompare_sym, of_Z_compare_nonint, <- Rcompare_sym;
      [reflexivity|auto with wfabs|apply Wa|apply Wa].
  - rewrite Bcompare_correct; [|apply Wa|apply f64_of_Z_round; auto with wfabs].
    rewrite Rcompare_sym, of_Z_compare_nonint, <- Rcompare_sym;
      [reflexivity|auto with wfabs|apply Wa|apply Wa].
  - rewrite Bcompare_correct; [reflexivity|apply Wa|apply Wb].
Qed.

(** [==] is exactly [partial_cmp == Equal]. *)
Lemma num_eqb_cmp a b :
  num_eqb a b = match num_cmp a b with Some Eq => true | _ => false end.
Proof.
  unfold num_eqb, num_cmp. destruct (coerce a b) as [x y|x y|x y].
  - rewrite Z.eqb_compare. reflexivity.
  - rewrite Z.eqb_compare. reflexivity.
  - reflexivity.
Qed.

Lemma num_eqb_real a b : num_wf a -> num_wf b -> (num_eqb a b = true <-> valR a = valR b).
Proof.
  intros Wa Wb. rewrite num_eqb_cmp, (num_cmp_real a b Wa Wb).
  destruct (Rcompare_spec (valR a) (valR b)); split; intros H'; try discriminate; auto; lra.
Qed.

Lemma num_hash_real a b : num_wf a -> num_wf b -> valR a = valR b -> num_hash a = num_hash b.
Proof.
  intros Wa Wb. destruct a as [x|x|f]; destruct b as [y|y|g]; cbn [valR num_hash num_wf] in *; intros H.
  1,2,4,5: apply eq_IZR in H; subst; reflexivity.
  1,2: exfalso; apply (proj2 Wb); exists x; congruence.
  1,2: exfalso; apply (proj2 Wa); exists y; congruence.
  assert (S : forall h : f64, is_finite h = true -> ~ is_int (B2R h) -> is_finite_strict h = true).
  { intros h F N. destruct h; try discriminate; try reflexivity. exfalso. apply N. exists 0%Z. reflexivity. }
  assert (f = g) as ->; [|reflexivity].
  apply B2R_inj; [apply S; apply Wa|apply S; apply Wb|exact H].
Qed.

(** ** from_finite_f64 *)
Lemma from_finite_f64_spec (bd : build) (v : f64) : is_finite v = true ->
  exists n, from_finite_f64 bd v = Done n /\ num_wf n /\
    (forall z, B2R v = IZR z -> n = num_of_Z (Z.max i64_min (Z.min i64_max z))) /\
    (~ is_int (B2R v) -> n = NFloat v).
Proof.
  intros F. unfold from_finite_f64, f64_finite. rewrite F.
  destruct (f64_no_fraction v) eqn:NF.
  - exists (num_of_i64 (f64_as_i64 v)). split; [destruct bd; reflexivity|].
    apply no_fraction_spec in NF. destruct NF as [_ [z Hz]].
    rewrite (as_i64_int v z F Hz). rewrite num_of_i64_of_Z. split; [|split].
    + apply num_wf_of_Z. unfold i64_min, i64_max, u64_max. lia.
    + intros z' Hz'. assert (z = z') as -> by (apply eq_IZR; congruence). reflexivity.
    + intros N. exfalso. apply N. exists z. exact Hz.
  - exists (NFloat v). split; [destruct bd; reflexivity|].
    assert (N : ~ is_int (B2R v)).
    { intros I. assert (f64_no_fraction v = true) by (apply no_fraction_spec; auto). congruence. }
    split; [split; assumption|split].
    + intros z Hz. exfalso. apply N. exists z. exact Hz.
    + reflexivity.
Qed.

Lemma from_finite_f64_value bd v : is_finite v = true ->
  (is_int (B2R v) -> IZR i64_min <= B2R v <= IZR i64_max) ->
  exists n, from_finite_f64 bd v = Done n /\ num_wf n /\ valR n = B2R v.
Proof.
  intros F B. destruct (from_finite_f64_spec bd v F) as (n & E & W & HI & HN).
  exists n. split; [exact E|split; [exact W|]].
  destruct (f64_no_fraction v) eqn:NF.
  - apply no_fraction_spec in NF. destruct NF as [_ [z Hz]].
    rewrite (HI z Hz), valR_of_Z, Hz. f_equal.
    assert (IZR i64_min <= IZR z <= IZR i64_max) as [L U] by (rewrite <- Hz; apply B; exists z; exact Hz).
    apply le_IZR in L. apply le_IZR in U. lia.
  - rewrite HN; [reflexivity|]. intros I.
    assert (f64_no_fraction v = true) by (apply no_fraction_spec; auto). congruence.
Qed.

(** ** Exact integer operations on f64 *)
Lemma f64_add_int (x y : f64) a b : is_finite x = true -> is_finite y = true ->
  B2R x = IZR a -> B2R y = IZR b -> (Z.abs (a + b) <= 2 ^ 53)%Z ->
  B2R (f64_add x y) = IZR (a + b) /\ is_finite (f64_add x y) = true.
Proof.
  intros Fx Fy Hx Hy H. unfold f64_add.
  generalize (Bplus_correct prec emax _ _ mode_NE x y Fx Fy).
  rewrite Hx, Hy, <- plus_IZR, round_int by exact H.
  rewrite Rlt_bool_true; [intros (A & B & _); auto|].
  apply Rle_lt_trans with (IZR (2 ^ 53)); [rewrite <- abs_IZR; apply IZR_le; exact H|].
  rewrite <- bpow_IZR by lia. apply bpow_lt. reflexivity.
Qed.

Lemma f64_sub_int (x y : f64) a b : is_finite x = true -> is_finite y = true ->
  B2R x = IZR a -> B2R y = IZR b -> (Z.abs (a - b) <= 2 ^ 53)%Z ->
  B2R (f64_sub x y) = IZR (a - b) /\ is_finite (f64_sub x y) = true.
Proof.
  intros Fx Fy Hx Hy H. unfold f64_sub.
  generalize (Bminus_correct prec emax _ _ mode_NE x y Fx Fy).
  rewrite Hx, Hy, <- minus_IZR, round_int by exact H.
  rewrite Rlt_bool_true; [intros (A & B & _); auto|].
  apply Rle_lt_trans with (IZR (2 ^ 53)); [rewrite <- abs_IZR; apply IZR_le; exact H|].
  rewrite <- bpow_IZR by lia. apply bpow_lt. reflexivity.
Qed.

Lemma f64_mul_int (x y : f64) a b : is_finite x = true -> is_finite y = true ->
  B2R x = IZR a -> B2R y = IZR b -> (Z.abs (a * b) <= 2 ^ 53)%Z ->
  B2R (f64_mul x y) = IZR (a * b) /\ is_finite (f64_mul x y) = true.
Proof.
  intros Fx Fy Hx Hy H. unfold f64_mul.
  generalize (Bmult_correct prec emax _ _ mode_NE x y).
  rewrite Hx, Hy, <- mult_IZR, round_int by exact H.
  rewrite Rlt_bool_true; [intros (A & B & _); rewrite Fx, Fy in B; auto|].
  apply Rle_lt_trans with (IZR (2 ^ 53)); [rewrite <- abs_IZR; apply IZR_le; exact H|].
  rewrite <- bpow_IZR by lia. apply bpow_lt. reflexivity.
Qed.

Lemma mantissa_lt (m : positive) (e : Z) :
  SpecFloat.bounded prec emax m e = true -> (Z.pos m < 2 ^ 53 /\ -1074 <= e)%Z.
Proof.
  intros H. unfold SpecFloat.bounded in H. apply andb_true_iff in H. destruct H as [H _].
  unfold SpecFloat.canonical_mantissa in H. apply Zeq_bool_eq in H.
  unfold SpecFloat.fexp, SpecFloat.emin in H.
  assert (D : (Z.pos (SpecFloat.digits2_pos m) <= 53)%Z) by (unfold prec, emax in H; lia).
  rewrite Digits.Zpos_digits2_pos in D. split.
  - exact (Digits.Zpower_gt_Zdigits radix2 53 (Z.pos m) D).
  - unfold prec, emax in H. lia.
Qed.

Lemma bpow_shift (e k : Z) : (e <= k)%Z -> bpow radix2 k = IZR (2 ^ (k - e)) * bpow radix2 e.
Proof.
  intros H. rewrite <- bpow_IZR by lia. rewrite <- bpow_plus. f_equal. lia.
Qed.

(** The float remainder is exact. *)
Lemma f64_rem_exact (x y : f64) : is_finite x = true -> is_finite y = true -> B2R y <> 0 ->
  is_finite (f64_rem x y) = true /\
  exists q : Z, B2R x = IZR q * B2R y + B2R (f64_rem x y) /\
    Rabs (B2R (f64_rem x y)) < Rabs (B2R y) /\ 0 <= B2R (f64_rem x y) * B2R x.
Proof.
  intros Fx Fy Ny.
  destruct x as [sx|sx| |sx mx ex Hx]; try discriminate.
  - destruct y as [sy|sy| |sy my ey Hy]; try discriminate; [exfalso; apply Ny; reflexivity|].
    cbn [f64_rem is_finite]. split; [reflexivity|]. exists 0%Z. cbn [B2R].
    split; [ring|split; [|lra]]. rewrite Rabs_R0. apply Rabs_pos_lt. exact Ny.
  - destruct y as [sy|sy| |sy my ey Hy]; try discriminate; [exfalso; apply Ny; reflexivity|].
    cbn [f64_rem].
    set (e := Z.min ex ey).
    set (A := (Z.pos mx * 2 ^ (ex - e))%Z). set (B := (Z.pos my * 2 ^ (ey - e))%Z).
    set (r := Z.rem A B).
    destruct (mantissa_lt mx ex Hx) as [Mx Ex]. destruct (mantissa_lt my ey Hy) as [My Ey].
    assert (PA : (0 < A)%Z) by (apply Z.mul_pos_pos; [lia|apply Z.pow_pos_nonneg; lia]).
    assert (PB : (0 < B)%Z) by (apply Z.mul_pos_pos; [lia|apply Z.pow_pos_nonneg; lia]).
    assert (R0 : (0 <= r)%Z) by (apply Z.rem_nonneg; lia).
    assert (RB : (r < B)%Z) by (pose proof (Z.rem_bound_pos A B); lia).
    assert (RA : (r <= A)%Z).
    { unfold r. rewrite Z.rem_mod_nonneg by lia. apply Z.mod_le; lia. }
    assert (R53 : (r < 2 ^ 53)%Z).
    { destruct (Z_le_gt_dec ex ey) as [L|G].
      - assert (A = Z.pos mx) by (unfold A; replace (ex - e)%Z with 0%Z by lia; lia). lia.
      - assert (B = Z.pos my) by (unfold B; replace (ey - e)%Z with 0%Z by lia; lia). lia. }
    set (rs := if sx then (- r)%Z else r).
    assert (FMT : generic_format radix2 fexp64 (F2R (Defs.Float radix2 rs e))).
    { apply (generic_format_FLT radix2 (-1074) 53). exists (Defs.Float radix2 rs e).
      - reflexivity.
      - cbn [Fnum]. change (radix2 ^ 53)%Z with (2 ^ 53)%Z. unfold rs. destruct sx; lia.
      - cbn [Fexp]. lia. }
    generalize (binary_normalize_correct prec emax prec_gt_0_53 prec_lt_emax_1024 mode_NE rs e sx).
    cbv zeta. rewrite (round_generic radix2 fexp64 (round_mode mode_NE) _ FMT).
    assert (VX : B2R (B754_finite sx mx ex Hx : f64) = IZR (cond_Zopp sx A) * bpow radix2 e).
    { rewrite B2R_finite. rewrite (bpow_shift e ex) by lia. rewrite <- Rmult_assoc, <- mult_IZR.
      f_equal. f_equal. unfold A. destruct sx; cbn [cond_Zopp]; ring. }
    assert (VY : B2R (B754_finite sy my ey Hy : f64) = IZR (cond_Zopp sy B) * bpow radix2 e).
    { rewrite B2R_finite. rewrite (bpow_shift e ey) by lia. rewrite <- Rmult_assoc, <- mult_IZR.
      f_equal. f_equal. unfold B. destruct sy; cbn [cond_Zopp]; ring. }
    assert (VR : F2R (Defs.Float radix2 rs e) = IZR rs * bpow radix2 e) by reflexivity.
    pose proof (bpow_gt_0 radix2 e) as BP.
    assert (LT : Rabs (F2R (Defs.Float radix2 rs e)) < Rabs (B2R (B754_finite sy my ey Hy : f64))).
    { rewrite VR, VY, !Rabs_mult. apply Rmult_lt_compat_r; [apply Rabs_pos_lt; lra|].
      rewrite <- !abs_IZR. apply IZR_lt. rewrite abs_cond_Zopp. unfold rs. destruct sx; lia. }
    rewrite Rlt_bool_true.
    + intros (V & F & _). split; [exact F|]. rewrite V.
      exists (cond_Zopp sx (cond_Zopp sy (Z.quot A B))).
      split; [|split; [exact LT|]].
      * rewrite VX, VY, VR. rewrite <- Rmult_assoc, <- mult_IZR, <- Rmult_plus_distr_r, <- plus_IZR.
        f_equal. f_equal. pose proof (Z.quot_rem' A B) as Q. fold r in Q. unfold rs.
        destruct sx, sy; cbn [cond_Zopp]; lia.
      * rewrite VX, VR. replace (IZR rs * bpow radix2 e * (IZR (cond_Zopp sx A) * bpow radix2 e))
          with (IZR (rs * cond_Zopp sx A) * (bpow radix2 e * bpow radix2 e)) by (rewrite mult_IZR; ring).
        apply Rmult_le_pos; [|apply Rmult_le_pos; lra]. apply IZR_le.
        unfold rs. destruct sx; cbn [cond_Zopp]; nia.
    + apply Rlt_trans with (1 := LT). apply abs_B2R_lt_emax.
Qed.

Lemma f64_rem_int (x y : f64) a b : is_finite x = true -> is_finite y = true ->
  B2R x = IZR a -> B2R y = IZR b -> b <> 0%Z ->
  B2R (f64_rem x y) = IZR (Z.rem a b) /\ is_finite (f64_rem x y) = true.
Proof.
  intros Fx Fy Hx Hy Nb.
  destruct (f64_rem_exact x y Fx Fy) as (F & q & E & L & S).
  { rewrite Hy. intros C. apply Nb. apply eq_IZR. exact C. }
  split; [|exact F]. rewrite Hx, Hy in *.
  assert (RI : B2R (f64_rem x y) = IZR (a - q * b)).
  { rewrite minus_IZR, mult_IZR. lra. }
  rewrite RI in *. f_equal.
  rewrite <- !abs_IZR in L. apply lt_IZR in L.
  rewrite <- mult_IZR in S. apply le_IZR in S.
  apply (Zquot.Zrem_unique_full a b q (a - q * b)%Z); [|ring].
  set (t := (a - q * b)%Z) in *. unfold Zquot.Remainder.
  destruct (Z.eq_dec t 0) as [->|T0]; [lia|]. nia.
Qed.

(** ** Integer operators *)
Definition z_arith (o : arith) (a b : Z) : Z :=
  match o with
  | OAdd => (a + b)%Z | OSub => (a - b)%Z | OMul => (a * b)%Z
  | ORem => Z.rem a b | ODiv => Z.quot a b
  end.

(** Magnitude up to which a double represents every integer. *)
Definition small (z : Z) : Prop := (Z.abs z <= 2 ^ 53)%Z.

Lemma wrap_i64_small z : (i64_min <= z <= i64_max)%Z -> wrap_i64 z = z.
Proof. unfold wrap_i64, i64_min, i64_max. intros H. rewrite Z.mod_small; lia. Qed.

Lemma i64_arith_ok bd z : (i64_min <= z <= i64_max)%Z -> i64_arith bd z = Done z.
Proof.
  intros H. unfold i64_arith, i64_ok.
  destruct (Z.leb_spec i64_min z); destruct (Z.leb_spec z i64_max); try lia. reflexivity.
Qed.
Lemma u64_arith_ok bd z : (0 <= z <= u64_max)%Z -> u64_arith bd z = Done z.
Proof.
  intros H. unfold u64_arith, u64_ok.
  destruct (Z.leb_spec 0 z); destruct (Z.leb_spec z u64_max); try lia. reflexivity.
Qed.

Lemma from_finite_int bd v z : is_finite v = true -> B2R v = IZR z -> small z ->
  from_finite_f64 bd v = Done (num_of_Z z).
Proof.
  intros F E S. destruct (from_finite_f64_spec bd v F) as (n & H & _ & HI & _).
  rewrite H, (HI z E). f_equal. f_equal. unfold small, i64_min, i64_max in *. lia.
Qed.

Lemma as_i64_of_Z z : small z -> as_i64 (num_of_Z z) = Some z /\ num_repr (num_of_Z z) = true.
Proof.
  intros S. unfold num_of_Z, small in *.
  destruct (Z.ltb_spec z 0); cbn [as_i64 num_repr]; unfold i64_ok, u64_ok, i64_min, i64_max, u64_max.
  - split; [reflexivity|]. apply andb_true_iff; split; apply Z.leb_le; lia.
  - split.
    + destruct (Z.leb_spec z (2 ^ 63 - 1)); [reflexivity|lia].
    + apply andb_true_iff; split; apply Z.leb_le; lia.
Qed.

Lemma as_i64_pos z : small z -> (0 <= z)%Z -> as_i64 (PosInt z) = Some z /\ num_repr (PosInt z) = true.
Proof.
  intros S H. pose proof (as_i64_of_Z z S) as P. unfold num_of_Z in P.
  destruct (Z.ltb_spec z 0); [lia|exact P].
Qed.
Lemma as_i64_neg z : small z -> as_i64 (NegInt z) = Some z /\ num_repr (NegInt z) = true.
Proof.
  intros S. cbn [as_i64 num_repr]. split; [reflexivity|].
  unfold i64_ok, i64_min, i64_max, small in *. apply andb_true_iff; split; apply Z.leb_le; lia.
Qed.

Lemma as_i64_inv n a : num_repr n = true -> as_i64 n = Some a ->
  (n = PosInt a /\ (0 <= a)%Z) \/ n = NegInt a.
Proof.
  destruct n as [z|z|f]; cbn [num_repr as_i64]; intros R H; [|right; congruence|discriminate].
  left. destruct (Z.leb_spec z i64_max); [|discriminate]. injection H as <-. split; [reflexivity|].
  unfold u64_ok in R. apply andb_true_iff in R. destruct R as [R _]. apply Z.leb_le in R. exact R.
Qed.

Lemma f64_arith_int bd o x y a b : small a -> small b -> small (z_arith o a b) ->
  o <> ODiv -> (o = ORem -> b <> 0%Z) ->
  coerce x y = CFloat (f64_of_Z a) (f64_of_Z b) ->
  num_arith bd o x y = Done (num_of_Z (z_arith o a b)).
Proof.
  intros Sa Sb Sr NoDiv Nz C.
  destruct (f64_of_Z_exact a Sa) as [Va Fa]. destruct (f64_of_Z_exact b Sb) as [Vb Fb].
  destruct o; cbn [num_arith z_arith] in *; unfold num_add, num_sub, num_mul, num_rem; try rewrite C.
  - destruct (f64_add_int _ _ a b Fa Fb Va Vb Sr) as [V F]. apply from_finite_int; assumption.
  - destruct (f64_sub_int _ _ a b Fa Fb Va Vb Sr) as [V F]. apply from_finite_int; assumption.
  - destruct (f64_mul_int _ _ a b Fa Fb Va Vb Sr) as [V F]. apply from_finite_int; assumption.
  - exfalso. apply NoDiv. reflexivity.
  - destruct (f64_rem_int _ _ a b Fa Fb Va Vb (Nz eq_refl)) as [V F]. apply from_finite_int; assumption.
Qed.

Lemma num_arith_int bd o x y a b :
  num_repr x = true -> num_repr y = true ->
  as_i64 x = Some a -> as_i64 y = Some b ->
  small a -> small b -> small (z_arith o a b) ->
  o <> ODiv -> (o = ORem -> b <> 0%Z) ->
  exists r, num_arith bd o x y = Done r /\ num_repr r = true /\ as_i64 r = Some (z_arith o a b).
Proof.
  intros Rx Ry Hx Hy Sa Sb Sr NoDiv Nz.
  assert (Fl : coerce x y = CFloat (f64_of_Z a) (f64_of_Z b) ->
    exists r, num_arith bd o x y = Done r /\ num_repr r = true /\ as_i64 r = Some (z_arith o a b)).
  { intros C. exists (num_of_Z (z_arith o a b)).
    rewrite (f64_arith_int bd o x y a b Sa Sb Sr NoDiv Nz C).
    destruct (as_i64_of_Z _ Sr). auto. }
  destruct (as_i64_inv x a Rx Hx) as [[-> Pa]| ->]; destruct (as_i64_inv y b Ry Hy) as [[-> Pb]| ->];
    try (apply Fl; reflexivity); clear Fl; destruct o; cbn [num_arith z_arith] in *;
    unfold num_add, num_sub, num_mul, num_rem; cbn [coerce]; try (exfalso; apply NoDiv; reflexivity).
  - rewrite u64_arith_ok by (unfold small, u64_max in *; lia). cbn [rmap].
    eexists; split; [reflexivity|]. destruct (as_i64_pos _ Sr); [lia|auto].
  - destruct (Z.ltb_spec a b).
    + rewrite !wrap_i64_small by (unfold small, i64_min, i64_max in *; lia).
      rewrite i64_arith_ok by (unfold small, i64_min, i64_max in *; lia). cbn [rmap].
      eexists; split; [reflexivity|]. destruct (as_i64_neg _ Sr); auto.
    + rewrite u64_arith_ok by (unfold small, u64_max in *; lia). cbn [rmap].
      eexists; split; [reflexivity|]. destruct (as_i64_pos _ Sr); [lia|auto].
  - rewrite u64_arith_ok by (unfold small, u64_max in *; nia). cbn [rmap].
    eexists; split; [reflexivity|]. destruct (as_i64_pos _ Sr); [nia|auto].
  - destruct (Z.eqb_spec b 0); [exfalso; apply (Nz eq_refl); assumption|].
    eexists; split; [reflexivity|]. rewrite Z.rem_mod_nonneg in * by lia.
    destruct (as_i64_pos _ Sr); [apply Z.mod_pos_bound; lia|auto].
  - rewrite i64_arith_ok by (unfold small, i64_min, i64_max in *; lia). cbn [rmap].
    eexists; split; [reflexivity|]. destruct (as_i64_neg _ Sr); auto.
  - rewrite i64_arith_ok by (unfold small, i64_min, i64_max in *; lia). cbn [rmap].
    eexists; split; [reflexivity|]. destruct (as_i64_of_Z _ Sr); auto.
  - rewrite i64_arith_ok by (unfold small, i64_min, i64_max in *; lia). cbn [rmap].
    eexists; split; [reflexivity|]. destruct (as_i64_of_Z _ Sr); auto.
  - destruct (Z.eqb_spec b 0); [exfalso; apply (Nz eq_refl); assumption|].
    destruct (Z.eqb_spec a i64_min); [unfold small, i64_min in *; lia|]. cbn [andb].
    eexists; split; [reflexivity|]. destruct (as_i64_neg _ Sr); auto.
Qed.

Lemma num_neg_int bd x a : num_repr x = true -> as_i64 x = Some a -> small a ->
  exists r, num_neg bd x = Done r /\ num_repr r = true /\ as_i64 r = Some (- a)%Z.
Proof.
  intros R H S. assert (S' : small (- a)) by (unfold small in *; lia).
  destruct (as_i64_inv x a R H) as [[-> Pa]| ->]; cbn [num_neg].
  - rewrite wrap_i64_small by (unfold small, i64_min, i64_max in *; lia).
    rewrite i64_arith_ok by (unfold small, i64_min, i64_max in *; lia). cbn [rmap].
    eexists; split; [reflexivity|]. destruct (as_i64_neg _ S'); auto.
  - rewrite i64_arith_ok by (unfold small, i64_min, i64_max in *; lia). cbn [rmap].
    eexists; split; [reflexivity|]. destruct (as_i64_of_Z _ S'); auto.
Qed.

(** ** Histories of constructions and operations *)
Inductive nexp : Type :=
| NxU (u : Z)            (** Number::from(u64) *)
| NxI (i : Z)            (** Number::from(i64) *)
| NxF (f : f64)          (** Number::from_f64(f).unwrap() *)
| NxNeg (e : nexp)
| NxBin (o : arith) (e1 e2 : nexp).

(** The inputs are values of the Rust types. *)
Fixpoint nexp_typed (e : nexp) : Prop :=
  match e with
  | NxU u => (0 <= u <= u64_max)%Z
  | NxI i => (i64_min <= i <= i64_max)%Z
  | NxF f => is_finite f = true
  | NxNeg e => nexp_typed e
  | NxBin _ e1 e2 => nexp_typed e1 /\ nexp_typed e2
  end.

Fixpoint nexp_run (bd : build) (e : nexp) : res num :=
  match e with
  | NxU u => Done (num_of_u64 u)
  | NxI i => Done (num_of_i64 i)
  | NxF f => from_finite_f64 bd f
  | NxNeg e => rbind (nexp_run bd e) (num_neg bd)
  | NxBin o e1 e2 => rbind (nexp_run bd e1) (fun x => rbind (nexp_run bd e2) (fun y => num_arith bd o x y))
  end.

(** Exact integer meaning, defined only if every intermediate result is a small integer. *)
Fixpoint nexp_int (e : nexp) : option Z :=
  let chk z := if (Z.abs z <=? 2 ^ 53)%Z then Some z else None in
  match e with
  | NxU u => chk u
  | NxI i => chk i
  | NxF _ => None
  | NxNeg e => match nexp_int e with Some z => chk (- z)%Z | None => None end
  | NxBin o e1 e2 =>
      match nexp_int e1, nexp_int e2 with
      | Some a, Some b =>
          match o with
          | OAdd => chk (a + b)%Z | OSub => chk (a - b)%Z | OMul => chk (a * b)%Z
          | ORem => if (b =? 0)%Z then None else chk (Z.rem a b)
          | ODiv => None
          end
      | _, _ => None
      end
  end.

Lemma nexp_int_exact bd e : nexp_typed e -> forall z, nexp_int e = Some z ->
  small z /\ exists r, nexp_run bd e = Done r /\ num_repr r = true /\ as_i64 r = Some z.
Proof.
  assert (CHK : forall z z', (if (Z.abs z <=? 2 ^ 53)%Z then Some z else None) = Some z' -> z = z' /\ small z).
  { intros z z'. destruct (Z.leb_spec (Z.abs z) (2 ^ 53)); [|discriminate].
    intros E. injection E as <-. split; [reflexivity|exact H]. }
  induction e as [u|i|f|e IH|o e1 IH1 e2 IH2]; cbn [nexp_typed nexp_int nexp_run]; intros T z H.
  - apply CHK in H. destruct H as [<- S]. split; [exact S|]. eexists; split; [reflexivity|].
    destruct (as_i64_pos u S); [lia|auto].
  - apply CHK in H. destruct H as [<- S]. split; [exact S|]. eexists; split; [reflexivity|].
    destruct (as_i64_of_Z i S); auto.
  - discriminate.
  - destruct (nexp_int e) as [a|]; [|discriminate]. apply CHK in H. destruct H as [<- S].
    destruct (IH T a eq_refl) as (Sa & r & E & R & V). split; [exact S|].
    rewrite E. cbn [rbind]. apply num_neg_int; assumption.
  - destruct T as [T1 T2].
    destruct (nexp_int e1) as [a|]; [|discriminate]. destruct (nexp_int e2) as [b|]; [|discriminate].
    destruct (IH1 T1 a eq_refl) as (Sa & r1 & E1 & R1 & V1).
    destruct (IH2 T2 b eq_refl) as (Sb & r2 & E2 & R2 & V2).
    rewrite E1, E2. cbn [rbind].
    assert (K : z = z_arith o a b /\ small z /\ o <> ODiv /\ (o = ORem -> b <> 0%Z)).
    { destruct o; try discriminate H; cbn [z_arith].
      4: destruct (Z.eqb_spec b 0); [discriminate|].
      all: apply CHK in H; destruct H as [<- S]; repeat split; try assumption; try discriminate.
      intros _. assumption. }
    destruct K as (-> & S & ND & NZ). split; [exact S|]. apply num_arith_int; assumption.
Qed.

(** ** Where the documented invariant breaks *)
Definition num_f64_op (o : arith) (a b : f64) : f64 :=
  match o with
  | OAdd => f64_add a b | OSub => f64_sub a b | OMul => f64_mul a b
  | ODiv => f64_div a b | ORem => f64_rem a b
  end.

Definition neg_defect (n : num) : Prop :=
  match n with PosInt z => (z = 0 \/ 2 ^ 63 < z)%Z | _ => False end.

Definition arith_defect (o : arith) (x y : num) : Prop :=
  match x, y, o with
  | PosInt a, PosInt b, OSub => (a - b < i64_min)%Z
  | PosInt a, PosInt b, (OAdd | OMul | ORem) => False
  | NegInt a, NegInt b, OAdd => (a + b < i64_min)%Z
  | NegInt a, NegInt b, ORem => (Z.rem a b = 0)%Z
  | NegInt a, NegInt b, (OSub | OMul) => False
  | _, _, _ => is_finite (num_f64_op o (to_f64 x) (to_f64 y)) = false
  end.

Lemma i64_arith_inv bd z r : i64_arith bd z = Done r -> r = wrap_i64 z /\ (bd = Debug -> r = z).
Proof.
  unfold i64_arith. destruct (i64_ok z) eqn:E.
  - intros H; injection H as <-. split; [|reflexivity]. symmetry. apply wrap_i64_small.
    unfold i64_ok in E. apply andb_true_iff in E. destruct E as [E1 E2].
    apply Z.leb_le in E1. apply Z.leb_le in E2. lia.
  - destruct bd; [discriminate|]. intros H; injection H as <-. split; [reflexivity|discriminate].
Qed.
Lemma u64_arith_inv bd z r : u64_arith bd z = Done r -> (0 <= r <= u64_max)%Z.
Proof.
  unfold u64_arith, u64_ok. destruct (Z.leb_spec 0 z); destruct (Z.leb_spec z u64_max); cbn [andb];
  try (intros E; injection E as <-; lia); destruct bd; try discriminate; intros E; injection E as <-;
  unfold wrap_u64, u64_max; pose proof (Z.mod_pos_bound z (2 ^ 64)); lia.
Qed.

Lemma wrap_i64_range z : (i64_min <= wrap_i64 z <= i64_max)%Z.
Proof. unfold wrap_i64, i64_min, i64_max. pose proof (Z.mod_pos_bound (z + 2 ^ 63) (2 ^ 64)). lia. Qed.

Lemma wrap_i64_ge z : (2 ^ 63 <= z < 2 ^ 64)%Z -> wrap_i64 z = (z - 2 ^ 64)%Z.
Proof.
  intros H. unfold wrap_i64. replace ((z + 2 ^ 63) mod 2 ^ 64)%Z with (z + 2 ^ 63 - 2 ^ 64)%Z; [lia|].
  apply (Z.mod_unique_pos _ _ 1); lia.
Qed.
Lemma wrap_i64_lt z : (- 2 ^ 64 <= z < - 2 ^ 63)%Z -> wrap_i64 z = (z + 2 ^ 64)%Z.
Proof.
  intros H. unfold wrap_i64. replace ((z + 2 ^ 63) mod 2 ^ 64)%Z with (z + 2 ^ 63 + 2 ^ 64)%Z; [lia|].
  apply (Z.mod_unique_pos _ _ (-1)); lia.
Qed.

Lemma num_wf_i64 z : (i64_min <= z <= i64_max)%Z -> num_wf (num_of_i64 z).
Proof. intros H. rewrite num_of_i64_of_Z. apply num_wf_of_Z. unfold i64_max, u64_max in *. lia. Qed.

Lemma num_neg_wf bd n r : num_wf n -> num_neg bd n = Done r -> (num_wf r <-> ~ neg_defect n).
Proof.
  intros W. destruct n as [z|z|f]; cbn [num_neg neg_defect num_wf] in *.
  - destruct (i64_arith bd (- wrap_i64 z)) as [i|] eqn:E; cbn [rmap]; [|discriminate].
    intros H; injection H as <-. cbn [num_wf]. apply i64_arith_inv in E. destruct E as [E _].
    assert (D : (z < 2 ^ 63 \/ z = 2 ^ 63 \/ 2 ^ 63 < z)%Z) by lia.
    unfold i64_min, u64_max in *.
    destruct D as [D|[D|D]].
    + rewrite (wrap_i64_small z) in E by (unfold i64_min, i64_max; lia).
      rewrite wrap_i64_small in E by (unfold i64_min, i64_max; lia). lia.
    + subst z. vm_compute in E. subst i. lia.
    + rewrite (wrap_i64_ge z) in E by lia.
      rewrite wrap_i64_small in E by (unfold i64_min, i64_max; lia). lia.
  - destruct (i64_arith bd (- z)) as [i|] eqn:E; cbn [rmap]; [|discriminate].
    intros H; injection H as <-. apply i64_arith_inv in E. destruct E as [-> _].
    split; [tauto|intros _]. apply num_wf_i64. apply wrap_i64_range.
  - intros H; injection H as <-. split; [tauto|intros _]. cbn [num_wf]. unfold f64_neg.
    rewrite is_finite_Bopp, B2R_Bopp. destruct W as [F N]. split; [exact F|].
    intros [k Hk]. apply N. exists (- k)%Z. rewrite opp_IZR. lra.
Qed.

Lemma from_finite_wf bd v r : from_finite_f64 bd v = Done r -> (num_wf r <-> is_finite v <> false).
Proof.
  intros H. destruct (is_finite v) eqn:F.
  - destruct (from_finite_f64_spec bd v F) as (n & E & W & _). rewrite E in H. injection H as <-.
    split; [discriminate|auto].
  - unfold from_finite_f64, f64_finite in H. rewrite F in H. destruct bd; [discriminate|].
    injection H as <-. destruct v as [s|s| |s m e B]; try discriminate; cbn [f64_no_fraction num_wf is_finite];
    (split; [intros [? _]; discriminate|intros C; exfalso; apply C; reflexivity]).
Qed.

Lemma num_arith_wf bd o x y r : num_wf x -> num_wf y -> num_arith bd o x y = Done r ->
  (num_wf r <-> ~ arith_defect o x y).
Proof.
  intros Wx Wy.
  assert (FL : coerce x y = CFloat (to_f64 x) (to_f64 y) \/ o = ODiv ->
     num_arith bd o x y = from_finite_f64 bd (num_f64_op o (to_f64 x) (to_f64 y))).
  { intros [C| ->]; [|reflexivity]. destruct o; cbn [num_arith num_f64_op];
    unfold num_add, num_sub, num_mul, num_div, num_rem; try rewrite C; reflexivity. }
  destruct o.
  4: { rewrite (FL (or_intror eq_refl)). intros H. rewrite (from_finite_wf _ _ _ H).
       destruct x as [a|a|f]; destruct y as [b|b|g]; cbn [arith_defect num_f64_op]; reflexivity. }
  all: destruct x as [a|a|f]; destruct y as [b|b|g];
    try (rewrite (FL (or_introl eq_refl)); intros H; rewrite (from_finite_wf _ _ _ H); reflexivity);
    clear FL; cbn [num_arith arith_defect] in *; unfold num_add, num_sub, num_mul, num_rem; cbn [coerce].
  - destruct (u64_arith bd (a + b)) as [i|] eqn:E; cbn [rmap]; [|discriminate].
    intros H; injection H as <-. apply u64_arith_inv in E. cbn [num_wf]. tauto.
  - destruct (i64_arith bd (a + b)) as [i|] eqn:E; cbn [rmap]; [|discriminate].
    intros H; injection H as <-. apply i64_arith_inv in E. destruct E as [E _]. cbn [num_wf] in *.
    unfold i64_min in *.
    assert (D : (- 2 ^ 63 <= a + b \/ a + b < - 2 ^ 63)%Z) by lia. destruct D as [D|D].
    + rewrite wrap_i64_small in E by (unfold i64_min, i64_max; lia). lia.
    + rewrite wrap_i64_lt in E by lia. lia.
  - cbn [num_wf] in *. unfold i64_min, u64_max in *. destruct (Z.ltb_spec a b).
    + destruct (i64_arith bd (wrap_i64 a - wrap_i64 b)) as [i|] eqn:E; cbn [rmap]; [|discriminate].
      intros H'; injection H' as <-. apply i64_arith_inv in E. destruct E as [E _].
      cbn [num_wf] in *. unfold i64_min in *.
      assert (D : (b < 2 ^ 63 \/ a < 2 ^ 63 <= b \/ 2 ^ 63 <= a)%Z) by lia.
      destruct D as [D|[D|D]].
      * rewrite (wrap_i64_small a), (wrap_i64_small b) in E by (unfold i64_min, i64_max; lia).
        rewrite wrap_i64_small in E by (unfold i64_min, i64_max; lia). lia.
      * rewrite (wrap_i64_small a), (wrap_i64_ge b) in E by (unfold i64_min, i64_max; lia).
        assert (G : (a - (b - 2 ^ 64) < 2 ^ 63 \/ 2 ^ 63 <= a - (b - 2 ^ 64))%Z) by lia.
        destruct G as [G|G].
        -- rewrite wrap_i64_small in E by (unfold i64_min, i64_max; lia). lia.
        -- rewrite wrap_i64_ge in E by lia. lia.
      * rewrite (wrap_i64_ge a), (wrap_i64_ge b) in E by lia.
        rewrite wrap_i64_small in E by (unfold i64_min, i64_max; lia). lia.
    + destruct (u64_arith bd (a - b)) as [i|] eqn:E; cbn [rmap]; [|discriminate].
      intros H'; injection H' as <-. apply u64_arith_inv in E. cbn [num_wf]. split; [lia|intros _; exact E].
  - destruct (i64_arith bd (a - b)) as [i|] eqn:E; cbn [rmap]; [|discriminate].
    intros H'; injection H' as <-. apply i64_arith_inv in E. destruct E as [-> _].
    split; [tauto|intros _]. apply num_wf_i64. apply wrap_i64_range.
  - destruct (u64_arith bd (a * b)) as [i|] eqn:E; cbn [rmap]; [|discriminate].
    intros H; injection H as <-. apply u64_arith_inv in E. cbn [num_wf]. tauto.
  - destruct (i64_arith bd (a * b)) as [i|] eqn:E; cbn [rmap]; [|discriminate].
    intros H'; injection H' as <-. apply i64_arith_inv in E. destruct E as [-> _].
    split; [tauto|intros _]. apply num_wf_i64. apply wrap_i64_range.
  - destruct (Z.eqb_spec b 0); [discriminate|]. intros H; injection H as <-. cbn [num_wf] in *.
    split; [tauto|intros _]. pose proof (Z.mod_pos_bound a b). lia.
  - destruct (Z.eqb_spec b 0); [discriminate|].
    destruct ((a =? i64_min)%Z && (b =? -1)%Z) eqn:Q; [discriminate|].
    intros H; injection H as <-. cbn [num_wf] in *.
    pose proof (Z.rem_nonpos a b). pose proof (Z.rem_bound_neg_neg a b). lia.
Qed.

(** Every step of the history avoids the defects. *)
Fixpoint nexp_clean (bd : build) (e : nexp) : Prop :=
  match e with
  | NxU _ | NxI _ | NxF _ => True
  | NxNeg e => nexp_clean bd e /\ (forall n, nexp_run bd e = Done n -> ~ neg_defect n)
  | NxBin o e1 e2 => nexp_clean bd e1 /\ nexp_clean bd e2 /\
      (forall x y, nexp_run bd e1 = Done x -> nexp_run bd e2 = Done y -> ~ arith_defect o x y)
  end.

Lemma nexp_wf bd e : nexp_typed e -> nexp_clean bd e -> forall r, nexp_run bd e = Done r -> num_wf r.
Proof.
  induction e as [u|i|f|e IH|o e1 IH1 e2 IH2]; cbn [nexp_typed nexp_clean nexp_run]; intros T C r H.
  - injection H as <-. exact T.
  - injection H as <-. apply num_wf_i64. exact T.
  - apply (from_finite_wf _ _ _ H). rewrite T. discriminate.
  - destruct C as [C1 C2]. destruct (nexp_run bd e) as [n|] eqn:E; [|discriminate]. cbn [rbind] in H.
    apply (num_neg_wf bd n r (IH T C1 n eq_refl) H). apply C2. reflexivity.
  - destruct T as [T1 T2]. destruct C as (C1 & C2 & C3).
    destruct (nexp_run bd e1) as [x|] eqn:E1; [|discriminate].
    destruct (nexp_run bd e2) as [y|] eqn:E2; [|discriminate]. cbn [rbind] in H.
    apply (num_arith_wf bd o x y r (IH1 T1 C1 x eq_refl) (IH2 T2 C2 y eq_refl) H).
    apply C3; reflexivity.
Qed.

(** ** from_f64 and the accessors *)
Lemma from_f64_none bd f : num_from_f64 bd f = Done None <-> is_finite f = false.
Proof.
  unfold num_from_f64, f64_finite. destruct (is_finite f) eqn:F.
  - destruct (from_finite_f64_spec bd f F) as (n & E & _). rewrite E. cbn [rmap].
    split; discriminate.
  - tauto.
Qed.

Lemma from_f64_value bd f : is_finite f = true ->
  (is_int (B2R f) -> IZR i64_min <= B2R f <= IZR i64_max) ->
  exists n, num_from_f64 bd f = Done (Some n) /\ num_wf n /\ valR n = B2R f.
Proof.
  intros F B. destruct (from_finite_f64_value bd f F B) as (n & E & W & V).
  exists n. unfold num_from_f64, f64_finite. rewrite F, E. auto.
Qed.

(** Out of range integral floats saturate. *)
Lemma from_f64_saturates bd f z : is_finite f = true -> B2R f = IZR z ->
  num_from_f64 bd f = Done (Some (num_of_Z (Z.max i64_min (Z.min i64_max z)))).
Proof.
  intros F B. destruct (from_finite_f64_spec bd f F) as (n & E & _ & HI & _).
  unfold num_from_f64, f64_finite. rewrite F, E, (HI z B). reflexivity.
Qed.

Lemma as_i64_real n z : num_wf n ->
  (as_i64 n = Some z <-> valR n = IZR z /\ (i64_min <= z <= i64_max)%Z).
Proof.
  destruct n as [x|x|f]; cbn [num_wf as_i64 valR]; intros W.
  - destruct (Z.leb_spec x i64_max); split.
    + intros E; injection E as <-. split; [reflexivity|]. unfold i64_min in *. lia.
    + intros [E _]. apply eq_IZR in E. congruence.
    + discriminate.
    + intros [E R]. apply eq_IZR in E. lia.
  - split.
    + intros E; injection E as <-. split; [reflexivity|]. unfold i64_max in *. lia.
    + intros [E _]. apply eq_IZR in E. congruence.
  - split; [discriminate|]. intros [E _]. exfalso. apply W. exists z. exact E.
Qed.

Lemma as_u64_real n z : num_wf n ->
  (as_u64 n = Some z <-> valR n = IZR z /\ (0 <= z <= u64_max)%Z).
Proof.
  destruct n as [x|x|f]; cbn [num_wf as_u64 valR]; intros W.
  - split.
    + intros E; injection E as <-. auto.
    + intros [E _]. apply eq_IZR in E. congruence.
  - destruct (Z.leb_spec 0 x); [lia|]. split; [discriminate|].
    intros [E R]. apply eq_IZR in E. lia.
  - split; [discriminate|]. intros [E _]. exfalso. apply W. exists z. exact E.
Qed.

(** Division and mixed arithmetic are the correctly rounded real operations. *)
Lemma num_div_rounded bd x y : num_wf x -> num_wf y -> valR y <> 0 ->
  let q := rnd64 (rnd64 (valR x) / rnd64 (valR y)) in
  Rabs q < bpow radix2 1024 -> (is_int q -> IZR i64_min <= q <= IZR i64_max) ->
  exists n, num_div bd x y = Done n /\ num_wf n /\ valR n = q.
Proof.
  intros Wx Wy Ny q Hq Hi.
  assert (VT : forall n, num_wf n -> B2R (to_f64 n) = rnd64 (valR n)).
  { intros n W. destruct n as [z|z|f]; cbn [to_f64 valR].
    - apply f64_of_Z_round. auto with wfabs.
    - apply f64_of_Z_round. auto with wfabs.
    - symmetry. apply round_generic; [apply valid_rnd_round_mode|apply generic_format_B2R]. }
  assert (Ny' : B2R (to_f64 y) <> 0).
  { destruct y as [z|z|f]; cbn [to_f64 valR num_wf] in *; [| |exact Ny].
    - rewrite (proj1 (f64_of_Z_round z (wf_pos_abs z Wy))).
      assert (z <> 0)%Z by (intros ->; apply Ny; reflexivity).
      assert (IZR 1 <= rnd64 (IZR z)) by (apply round_ge_int; lia). lra.
    - rewrite (proj1 (f64_of_Z_round z (wf_neg_abs z Wy))).
      assert (rnd64 (IZR z) <= IZR (-1)) by (apply round_le_int; lia).
      change (IZR (-1)) with (-1) in *. lra. }
  generalize (Bdiv_correct prec emax _ _ mode_NE (to_f64 x) (to_f64 y) Ny').
  rewrite (VT x Wx), (VT y Wy). fold q. rewrite Rlt_bool_true by exact Hq.
  intros (V & F & _). rewrite (to_f64_finite x Wx) in F.
  unfold num_div. rewrite <- V in *.
  destruct (from_finite_f64_value bd (f64_div (to_f64 x) (to_f64 y)) F Hi) as (n & E & W & Vn).
  exists n. auto.
Qed.

(** Equal floats have equal hashes: they are identical or both zero. *)
Lemma num_hash_float f g : num_eqb (NFloat f) (NFloat g) = true -> num_hash (NFloat f) = num_hash (NFloat g).
Proof.
  cbn [num_eqb num_hash coerce]. unfold num_eqb, coerce, f64_eq, f64_zero. intros H.
  destruct f as [sf|sf| |sf mf ef Bf], g as [sg|sg| |sg mg eg Bg]; try discriminate H; try reflexivity;
    try (destruct sf, sg; first [discriminate H|reflexivity]); try (destruct sf; discriminate H); try (destruct sg; discriminate H).
  rewrite (Beqb_correct prec emax) in H by reflexivity.
  replace (B754_finite sf mf ef Bf) with (@B754_finite prec emax sg mg eg Bg); [reflexivity|].
  symmetry. apply B2R_inj; [reflexivity|reflexivity|]. destruct (Req_bool_spec (B2R (@B754_finite prec emax sf mf ef Bf)) (B2R (@B754_finite prec emax sg mg eg Bg))); [assumption|discriminate].
Qed.
