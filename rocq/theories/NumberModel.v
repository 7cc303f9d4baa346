(** Model of crates/hcl-primitives/src/number.rs. *)
From Coq Require Import ZArith Bool.
From Flocq Require Import Core IEEE754.BinarySingleNaN.
From Verif Require Import Res.
Open Scope Z_scope.

(** * f64

    IEEE-754 binary64; Rust's [f64] operators round to nearest, ties to even.  NaN payloads are
    not modelled: no operation of number.rs can observe them ([Hash] is only reachable with
    NaN/infinite payload if the documented invariant is already broken). *)
Definition prec := 53%Z.
Definition emax := 1024%Z.
#[global] Instance prec_gt_0_53 : Prec_gt_0 prec := eq_refl.
#[global] Instance prec_lt_emax_1024 : Prec_lt_emax prec emax := eq_refl.

Definition f64 := binary_float prec emax.
Definition f64_zero : f64 := B754_zero false.
Definition f64_add (a b : f64) : f64 := Bplus mode_NE a b.
Definition f64_sub (a b : f64) : f64 := Bminus mode_NE a b.
Definition f64_mul (a b : f64) : f64 := Bmult mode_NE a b.
Definition f64_div (a b : f64) : f64 := Bdiv mode_NE a b.
Definition f64_neg (a : f64) : f64 := Bopp a.
Definition f64_eq (a b : f64) : bool := Beqb a b.
Definition f64_cmp (a b : f64) : option comparison := Bcompare a b.
Definition f64_finite (a : f64) : bool := is_finite a.

(** [n as f64] for integers: round to nearest even. *)
Definition f64_of_Z (n : Z) : f64 := binary_normalize prec emax _ _ mode_NE n 0 false.

(** [a % b] on f64 (C fmod): exact remainder with the sign of the dividend. *)
Definition f64_rem (a b : f64) : f64 :=
  match a, b with
  | B754_nan, _ | _, B754_nan => B754_nan
  | B754_infinity _, _ => B754_nan
  | _, B754_zero _ => B754_nan
  | _, B754_infinity _ => a
  | B754_zero _, B754_finite _ _ _ _ => a
  | B754_finite sa ma ea _, B754_finite _ mb eb _ =>
      let e := Z.min ea eb in
      let r := Z.rem (Z.pos ma * 2 ^ (ea - e)) (Z.pos mb * 2 ^ (eb - e)) in
      binary_normalize prec emax _ _ mode_NE (if sa then - r else r) e sa
  end.

(** [value.fract() == 0.0] (std): true exactly for finite floats without fractional part;
    infinities give NaN, which is not equal to zero. *)
Definition f64_no_fraction (a : f64) : bool :=
  match a with
  | B754_zero _ => true
  | B754_finite _ m e _ => if 0 <=? e then true else Z.pos m mod 2 ^ (- e) =? 0
  | B754_infinity _ | B754_nan => false
  end.

Definition i64_min := - 2 ^ 63.
Definition i64_max := 2 ^ 63 - 1.
Definition u64_max := 2 ^ 64 - 1.

(** [value as i64]: truncation, saturating at the bounds, NaN gives 0. *)
Definition f64_as_i64 (a : f64) : Z :=
  match a with
  | B754_nan => 0
  | B754_infinity true => i64_min
  | B754_infinity false => i64_max
  | _ => Z.max i64_min (Z.min i64_max (Btrunc a))
  end.

(** * Machine integer arithmetic

    In debug builds overflow panics, in release builds it wraps. *)
Inductive build := Debug | Release.

Definition wrap_i64 (z : Z) : Z := (z + 2 ^ 63) mod 2 ^ 64 - 2 ^ 63.
Definition wrap_u64 (z : Z) : Z := z mod 2 ^ 64.
Definition i64_ok (z : Z) : bool := (i64_min <=? z) && (z <=? i64_max).
Definition u64_ok (z : Z) : bool := (0 <=? z) && (z <=? u64_max).

Definition i64_arith (b : build) (z : Z) : res Z :=
  if i64_ok z then Done z else match b with Debug => Panic | Release => Done (wrap_i64 z) end.
Definition u64_arith (b : build) (z : Z) : res Z :=
  if u64_ok z then Done z else match b with Debug => Panic | Release => Done (wrap_u64 z) end.

(** * number.rs:33-39, [enum N]

    [PosInt] carries a u64, [NegInt] an i64 (see [num_repr]). *)
Inductive num : Type :=
| PosInt (n : Z)
| NegInt (n : Z)
| NFloat (f : f64).

(** Range of the Rust payload types. *)
Definition num_repr (n : num) : bool :=
  match n with PosInt z => u64_ok z | NegInt z => i64_ok z | NFloat _ => true end.

(** number.rs:153-162, [From<i64> for N]; also 340-354 (all signed types). *)
Definition num_of_i64 (i : Z) : num := if i <? 0 then NegInt i else PosInt i.

(** number.rs:324-338, [From<u64> for Number] (all unsigned types). *)
Definition num_of_u64 (u : Z) : num := PosInt u.

(** number.rs:42-59, [N::from_finite_f64]: [debug_assert!] panics in debug builds. *)
Definition from_finite_f64 (b : build) (v : f64) : res num :=
  match b, f64_finite v with
  | Debug, false => Panic
  | _, _ => Done (if f64_no_fraction v then num_of_i64 (f64_as_i64 v) else NFloat v)
  end.

(** number.rs:252-258, [Number::from_f64]. *)
Definition num_from_f64 (b : build) (f : f64) : res (option num) :=
  if f64_finite f then rmap Some (from_finite_f64 b f) else Done None.

(** number.rs:61-67 *)
Definition as_i64 (n : num) : option Z :=
  match n with
  | PosInt z => if z <=? i64_max then Some z else None
  | NegInt z => Some z
  | NFloat _ => None
  end.

(** number.rs:69-75 *)
Definition as_u64 (n : num) : option Z :=
  match n with
  | PosInt z => Some z
  | NegInt z => if 0 <=? z then Some z else None
  | NFloat _ => None
  end.

(** number.rs:77-84 *)
Definition to_f64 (n : num) : f64 :=
  match n with PosInt z | NegInt z => f64_of_Z z | NFloat f => f end.

(** number.rs:266-270 *)
Definition as_f64 (n : num) : option f64 := Some (to_f64 n).

(** number.rs:86-105 *)
Definition is_f64 (n : num) : bool := match n with NFloat _ => true | _ => false end.
Definition is_i64 (n : num) : bool := match n with NegInt _ => true | _ => false end.
Definition is_u64 (n : num) : bool := match n with PosInt _ => true | _ => false end.

(** number.rs:10-24, [CoerceResult] and [coerce]. *)
Inductive coerced : Type :=
| CPos (a b : Z)
| CNeg (a b : Z)
| CFloat (a b : f64).

Definition coerce (a b : num) : coerced :=
  match a, b with
  | PosInt x, PosInt y => CPos x y
  | NegInt x, NegInt y => CNeg x y
  | NFloat x, NFloat y => CFloat x y
  | _, _ => CFloat (to_f64 a) (to_f64 b)
  end.

(** number.rs:108-116 *)
Definition num_eqb (a b : num) : bool :=
  match coerce a b with
  | CPos x y => x =? y
  | CNeg x y => x =? y
  | CFloat x y => f64_eq x y
  end.

(** number.rs:121-129 *)
Definition num_cmp (a b : num) : option comparison :=
  match coerce a b with
  | CPos x y => Some (x ?= y)
  | CNeg x y => Some (x ?= y)
  | CFloat x y => f64_cmp x y
  end.

(** number.rs:131-151: what is fed to the hasher.  [u64::hash] and [i64::hash] both write the
    eight bytes of the two's complement representation ([Hasher::write_i64] forwards to
    [write_u64] by default), so the written value is the payload modulo 2^64; a float writes its
    bits, with -0.0 mapped to +0.0. *)
Inductive hash_input := HashBits (n : Z) | HashFloat (f : f64).
Definition num_hash (n : num) : hash_input :=
  match n with
  | PosInt z | NegInt z => HashBits (z mod 2 ^ 64)
  | NFloat f => if f64_eq f f64_zero then HashFloat f64_zero else HashFloat f
  end.

(** number.rs:164-175.  [value as i64] wraps; the negation then overflows for i64::MIN. *)
Definition num_neg (b : build) (n : num) : res num :=
  match n with
  | PosInt z => rmap NegInt (i64_arith b (- wrap_i64 z))
  | NegInt z => rmap num_of_i64 (i64_arith b (- z))
  | NFloat f => Done (NFloat (f64_neg f))
  end.

(** number.rs:177-187 *)
Definition num_add (b : build) (x y : num) : res num :=
  match coerce x y with
  | CPos a c => rmap PosInt (u64_arith b (a + c))
  | CNeg a c => rmap NegInt (i64_arith b (a + c))
  | CFloat a c => from_finite_f64 b (f64_add a c)
  end.

(** number.rs:189-206 *)
Definition num_sub (b : build) (x y : num) : res num :=
  match coerce x y with
  | CPos a c =>
      if a <? c then rmap NegInt (i64_arith b (wrap_i64 a - wrap_i64 c))
      else rmap PosInt (u64_arith b (a - c))
  | CNeg a c => rmap num_of_i64 (i64_arith b (a - c))
  | CFloat a c => from_finite_f64 b (f64_sub a c)
  end.

(** number.rs:208-218 *)
Definition num_mul (b : build) (x y : num) : res num :=
  match coerce x y with
  | CPos a c => rmap PosInt (u64_arith b (a * c))
  | CNeg a c => rmap num_of_i64 (i64_arith b (a * c))
  | CFloat a c => from_finite_f64 b (f64_mul a c)
  end.

(** number.rs:220-226 *)
Definition num_div (b : build) (x y : num) : res num :=
  from_finite_f64 b (f64_div (to_f64 x) (to_f64 y)).

(** number.rs:228-238.  Integer remainder panics on a zero divisor in every build, and i64
    remainder also for [i64::MIN % -1]. *)
Definition num_rem (b : build) (x y : num) : res num :=
  match coerce x y with
  | CPos a c => if c =? 0 then Panic else Done (PosInt (a mod c))
  | CNeg a c =>
      if c =? 0 then Panic
      else if (a =? i64_min) && (c =? -1) then Panic
      else Done (NegInt (Z.rem a c))
  | CFloat a c => from_finite_f64 b (f64_rem a c)
  end.

(** The arithmetic operators, for statements about histories of operations. *)
Inductive arith := OAdd | OSub | OMul | ODiv | ORem.
Definition num_arith (b : build) (o : arith) (x y : num) : res num :=
  match o with
  | OAdd => num_add b x y | OSub => num_sub b x y | OMul => num_mul b x y
  | ODiv => num_div b x y | ORem => num_rem b x y
  end.
