(** Facts about the f64 model used by the Number proofs. *)
From Coq Require Import ZArith Reals Lra Lia Bool.
From Flocq Require Import Core IEEE754.BinarySingleNaN.
From Verif Require Import Res NumberModel.
Open Scope R_scope.

Notation fexp64 := (SpecFloat.fexp prec emax).
#[global] Instance fexp64_valid : Valid_exp fexp64 := FLT_exp_valid (SpecFloat.emin prec emax) prec.
#[global] Instance fexp64_mono : Monotone_exp fexp64 := FLT_exp_monotone (SpecFloat.emin prec emax) prec.
Notation rnd64 := (round radix2 fexp64 (round_mode mode_NE)).

Lemma fexp64_FLT : forall e, fexp64 e = FLT_exp (-1074) 53 e.
Proof. intros e. reflexivity. Qed.

(** Integers up to 2^53 are representable. *)
Lemma int_format (n : Z) : (Z.abs n <= 2 ^ 53)%Z -> generic_format radix2 fexp64 (IZR n).
Proof.
  intros H.
  destruct (Z.eq_dec (Z.abs n) (2 ^ 53)) as [E|E].
  - assert (G : generic_format radix2 fexp64 (bpow radix2 53)).
    { apply generic_format_bpow. vm_compute. discriminate. }
    assert (B : bpow radix2 53 = IZR (2 ^ 53)) by (rewrite <- IZR_Zpower by lia; reflexivity).
    rewrite B in G.
    destruct (Z.abs_spec n) as [[Hn Ha]|[Hn Ha]].
    + assert (n = 2 ^ 53)%Z as -> by lia. exact G.
    + assert (n = - 2 ^ 53)%Z as -> by lia. rewrite opp_IZR. apply generic_format_opp. exact G.
  - apply (generic_format_FLT radix2 (-1074) 53 (IZR n)).
    exists (Defs.Float radix2 n 0); unfold F2R; cbn [Fnum Fexp].
    + rewrite bpow_0 || simpl. lra.
    + change (radix2 ^ 53)%Z with (2 ^ 53)%Z. lia.
    + lia.
Qed.

Lemma round_int (n : Z) : (Z.abs n <= 2 ^ 53)%Z -> rnd64 (IZR n) = IZR n.
Proof. intros H. apply round_generic; [apply valid_rnd_round_mode|]. apply int_format; exact H. Qed.

Lemma bpow_IZR (e : Z) : (0 <= e)%Z -> bpow radix2 e = IZR (2 ^ e).
Proof. intros H. rewrite <- IZR_Zpower by exact H. reflexivity. Qed.

Lemma pow2_format (e : Z) : (-1074 <= e <= 1100)%Z -> generic_format radix2 fexp64 (bpow radix2 e).
Proof.
  intros H. apply generic_format_bpow. rewrite fexp64_FLT. unfold FLT_exp. lia.
Qed.

Lemma f64_of_Z_round (n : Z) : (Z.abs n <= 2 ^ 64)%Z ->
  B2R (f64_of_Z n) = rnd64 (IZR n) /\ is_finite (f64_of_Z n) = true.
Proof.
  intros H. unfold f64_of_Z.
  generalize (binary_normalize_correct prec emax prec_gt_0_53 prec_lt_emax_1024 mode_NE n 0 false).
  cbv zeta.
  assert (F : F2R (Defs.Float radix2 n 0) = IZR n) by (unfold F2R; cbn [Fnum Fexp]; rewrite bpow_0 || simpl; lra).
  rewrite F. rewrite Rlt_bool_true.
  - intros (A & B & _). auto.
  - apply Rle_lt_trans with (bpow radix2 64); [|apply bpow_lt; reflexivity].
    apply abs_round_le_generic; [typeclasses eauto|apply valid_rnd_round_mode|apply pow2_format; lia|].
    rewrite bpow_IZR by lia. rewrite <- abs_IZR. apply IZR_le. exact H.
Qed.

Lemma f64_of_Z_exact (n : Z) : (Z.abs n <= 2 ^ 53)%Z ->
  B2R (f64_of_Z n) = IZR n /\ is_finite (f64_of_Z n) = true.
Proof.
  intros H. destruct (f64_of_Z_round n) as [A B]; [lia|]. rewrite A, round_int by exact H. auto.
Qed.

Lemma round_ge_int (n k : Z) : (Z.abs k <= 2 ^ 53)%Z -> (k <= n)%Z -> IZR k <= rnd64 (IZR n).
Proof.
  intros Hk H. apply round_ge_generic; [typeclasses eauto|apply valid_rnd_round_mode|apply int_format; exact Hk|].
  apply IZR_le. exact H.
Qed.
Lemma round_le_int (n k : Z) : (Z.abs k <= 2 ^ 53)%Z -> (n <= k)%Z -> rnd64 (IZR n) <= IZR k.
Proof.
  intros Hk H. apply round_le_generic; [typeclasses eauto|apply valid_rnd_round_mode|apply int_format; exact Hk|].
  apply IZR_le. exact H.
Qed.

(** A real number is an integer. *)
Definition is_int (x : R) : Prop := exists z, x = IZR z.

Lemma B2R_finite s m e H : B2R (B754_finite s m e H : f64) = IZR (cond_Zopp s (Zpos m)) * bpow radix2 e.
Proof. reflexivity. Qed.

Lemma no_fraction_spec (x : f64) : f64_no_fraction x = true <-> is_finite x = true /\ is_int (B2R x).
Proof.
  destruct x as [s|s| |s m e H]; cbn [f64_no_fraction is_finite].
  - split; [intros _; split; [reflexivity|exists 0%Z; reflexivity]|reflexivity].
  - split; [discriminate|intros [? _]; discriminate].
  - split; [discriminate|intros [? _]; discriminate].
  - destruct (Z.leb_spec 0 e) as [He|He].
    + split; [intros _|reflexivity]. split; [reflexivity|].
      exists (cond_Zopp s (Zpos m) * 2 ^ e)%Z. rewrite B2R_finite, mult_IZR, bpow_IZR by exact He. reflexivity.
    + rewrite Z.eqb_eq. split.
      * intros D. split; [reflexivity|].
        exists (cond_Zopp s (Zpos m / 2 ^ (- e)))%Z. rewrite B2R_finite.
        assert (E : Z.pos m = (2 ^ (- e) * (Z.pos m / 2 ^ (- e)))%Z).
        { apply Z.div_exact; [|exact D]. apply Z.pow_nonzero; lia. }
        assert (P : bpow radix2 (- e) * bpow radix2 e = 1).
        { rewrite <- bpow_plus. replace (- e + e)%Z with 0%Z by lia. reflexivity. }
        destruct s; cbn [cond_Zopp].
        -- rewrite E at 1. rewrite !opp_IZR, mult_IZR, <- bpow_IZR by lia.
           transitivity (- IZR (Z.pos m / 2 ^ - e) * (bpow radix2 (- e) * bpow radix2 e)); [ring|rewrite P; ring].
        -- rewrite E at 1. rewrite mult_IZR, <- bpow_IZR by lia.
           transitivity (IZR (Z.pos m / 2 ^ - e) * (bpow radix2 (- e) * bpow radix2 e)); [ring|rewrite P; ring].
      * intros [_ [z Hz]]. rewrite B2R_finite in Hz.
        assert (P : bpow radix2 e * bpow radix2 (- e) = 1).
        { rewrite <- bpow_plus. replace (e + - e)%Z with 0%Z by lia. reflexivity. }
        assert (K : IZR (cond_Zopp s (Zpos m)) = IZR (z * 2 ^ (- e))).
        { rewrite mult_IZR, <- bpow_IZR by lia. rewrite <- Hz, Rmult_assoc, P. ring. }
        apply eq_IZR in K.
        assert (Z.pos m = (if s then - z else z) * 2 ^ (- e))%Z as ->.
        { destruct s; cbn [cond_Zopp] in K; lia. }
        apply Z.mod_mul. apply Z.pow_nonzero; lia.
Qed.

(** A finite float with a fractional part is smaller than 2^52 in magnitude. *)
Lemma nonint_small (x : f64) : is_finite x = true -> ~ is_int (B2R x) -> Rabs (B2R x) < IZR (2 ^ 52).
Proof.
  intros F N. destruct x as [s|s| |s m e H]; try discriminate.
  - exfalso. apply N. exists 0%Z. reflexivity.
  - destruct (Z.leb_spec 0 e) as [He|He].
    + exfalso. apply N. apply (no_fraction_spec (B754_finite s m e H)).
      cbn [f64_no_fraction]. apply Z.leb_le in He. rewrite He. reflexivity.
    + rewrite B2R_finite, Rabs_mult.
      rewrite (Rabs_pos_eq (bpow radix2 e)) by apply bpow_ge_0.
      assert (M : (Z.pos m < 2 ^ 53)%Z).
      { clear - H. unfold SpecFloat.bounded in H. apply andb_true_iff in H. destruct H as [H _].
        unfold SpecFloat.canonical_mantissa in H. apply Zeq_bool_eq in H.
        unfold SpecFloat.fexp, SpecFloat.emin in H.
        assert (D : (Z.pos (SpecFloat.digits2_pos m) <= 53)%Z) by (unfold prec, emax in H; lia).
        rewrite Digits.Zpos_digits2_pos in D.
        exact (Digits.Zpower_gt_Zdigits radix2 53 (Z.pos m) D). }
      rewrite <- abs_IZR, abs_cond_Zopp. cbn [Z.abs].
      apply Rle_lt_trans with (IZR (Z.pos m) * bpow radix2 (-1)).
      { apply Rmult_le_compat_l; [apply IZR_le; lia|]. apply bpow_le. lia. }
      apply Rlt_le_trans with (IZR (2 ^ 53) * bpow radix2 (-1)).
      { apply Rmult_lt_compat_r; [apply bpow_gt_0|]. apply IZR_lt. exact M. }
      right. rewrite <- !bpow_IZR by lia. rewrite <- bpow_plus. reflexivity.
Qed.

(** Comparing a converted integer with a fractional float is exact. *)
Lemma of_Z_compare_nonint (n : Z) (x : f64) : (Z.abs n <= 2 ^ 64)%Z ->
  is_finite x = true -> ~ is_int (B2R x) ->
  Rcompare (B2R (f64_of_Z n)) (B2R x) = Rcompare (IZR n) (B2R x).
Proof.
  intros Hn F N. destruct (f64_of_Z_round n Hn) as [E _]. rewrite E.
  pose proof (nonint_small x F N) as S. apply Rabs_def2 in S. destruct S as [S1 S2].
  assert (P : (IZR (2 ^ 52) < IZR (2 ^ 53))) by (apply IZR_lt; reflexivity).
  destruct (Z_le_gt_dec (Z.abs n) (2 ^ 53)) as [L|G].
  - rewrite round_int by exact L. reflexivity.
  - destruct (Z_le_gt_dec 0 n) as [Hp|Hp].
    + assert (IZR (2 ^ 53) <= rnd64 (IZR n)) by (apply round_ge_int; lia).
      assert (IZR (2 ^ 53) <= IZR n) by (apply IZR_le; lia).
      rewrite !Rcompare_Gt by lra. reflexivity.
    + assert (rnd64 (IZR n) <= IZR (- 2 ^ 53)) by (apply round_le_int; lia).
      assert (IZR n <= IZR (- 2 ^ 53)) by (apply IZR_le; lia).
      rewrite opp_IZR in *. rewrite !Rcompare_Lt by lra. reflexivity.
Qed.

Lemma of_Z_compare_sign (n m : Z) : (Z.abs n <= 2 ^ 64)%Z -> (Z.abs m <= 2 ^ 64)%Z -> (n < 0 <= m)%Z ->
  B2R (f64_of_Z n) < B2R (f64_of_Z m).
Proof.
  intros Hn Hm [H1 H2].
  destruct (f64_of_Z_round n Hn) as [-> _]. destruct (f64_of_Z_round m Hm) as [-> _].
  apply Rle_lt_trans with (IZR (-1)); [apply round_le_int; lia|].
  apply Rlt_le_trans with (IZR 0); [apply IZR_lt; lia|apply round_ge_int; lia].
Qed.

(** [as i64] of an integral float is the clamped integer. *)
Lemma Btrunc_int (x : f64) (z : Z) : B2R x = IZR z -> Btrunc x = z.
Proof.
  intros H. apply eq_IZR. rewrite Btrunc_correct, H; try typeclasses eauto.
  apply round_generic; [typeclasses eauto|].
  apply generic_format_FIX. exists (Defs.Float radix2 z 0); [|reflexivity].
  unfold F2R; cbn [Fnum Fexp]. rewrite bpow_0 || simpl. ring.
Qed.

Lemma as_i64_int (x : f64) (z : Z) : is_finite x = true -> B2R x = IZR z ->
  f64_as_i64 x = Z.max i64_min (Z.min i64_max z).
Proof.
  intros F H. rewrite <- (Btrunc_int x z H).
  destruct x; try discriminate; reflexivity.
Qed.
