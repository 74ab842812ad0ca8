(** The IEEE-754 instance: binary floating-point numbers with rounding to
    nearest, ties to even, for every precision and exponent range.

    Rust's f32 and f64 operations [+ - * / sqrt] are the correctly rounded IEEE
    ones; [abs], negation and comparisons are exact; a literal and a cast
    [n as f64] are rounded to nearest.  NaN payloads and NaN signs are not
    represented (one NaN).  [libm]'s sqrt, used in no_std builds, is assumed
    correctly rounded, as IEEE requires. *)
From Coq Require Import ZArith Bool.
From Flocq Require Import Core.Core IEEE754.BinarySingleNaN.
From Verif Require Import Base.Outcome Base.Scalar.

(** A binary format: [fprec] bits of mantissa, largest exponent [femax]. *)
Class Format := {
  fprec : Z;
  femax : Z;
  fprec_ge : (11 <= fprec)%Z;
  femax_gt : (fprec < femax)%Z
}.

#[global] Instance fprec_gt_0 {F : Format} : Prec_gt_0 fprec.
Proof. unfold Prec_gt_0. pose proof fprec_ge. abstract (apply Z.lt_le_trans with 11%Z; [reflexivity|assumption]). Defined.

#[global] Instance femax_lt {F : Format} : Prec_lt_emax fprec femax.
Proof. exact femax_gt. Defined.

(** f64 and f32 *)
Definition Binary64 : Format :=
  {| fprec := 53; femax := 1024; fprec_ge := ltac:(discriminate); femax_gt := eq_refl |}.
Definition Binary32 : Format :=
  {| fprec := 24; femax := 128; fprec_ge := ltac:(discriminate); femax_gt := eq_refl |}.

Definition float {F : Format} : Type := binary_float fprec femax.

(** [EPSILON] (lib.rs:66, 72) is 2^(1 - prec): 2^-52 for f64 and 2^-23 for f32. *)
#[global] Instance FScalar {F : Format} : Scalar float := {
  s_add := Bplus mode_NE;
  s_sub := Bminus mode_NE;
  s_mul := Bmult mode_NE;
  s_div := Bdiv mode_NE;
  s_neg := Bopp;
  s_abs := Babs;
  s_sqrt := Bsqrt mode_NE;
  s_ltb := Bltb;
  s_leb := Bleb;
  s_eqb := Beqb;
  s_is_nan := is_nan;
  s_lit := fun z => binary_normalize fprec femax _ _ mode_NE z 0 false;
  s_half := binary_normalize fprec femax _ _ mode_NE 1 (-1) false;
  s_of_usize := fun n => binary_normalize fprec femax _ _ mode_NE (Z.of_nat n) 0 false;
  s_eps := binary_normalize fprec femax _ _ mode_NE 1 (1 - fprec) false
}.
