(** Vocabulary for statements about floating-point numbers. *)
From Coq Require Import Reals ZArith.
From Flocq Require Import Core.Core IEEE754.BinarySingleNaN.
From Verif Require Import Inst.FloatInst.
Local Open Scope R_scope.

Section Rounding.
  Context {F : Format}.

  (** the real number a finite float stands for (0 for NaN and infinities) *)
  Definition val (x : float) : R := B2R x.
  Definition fin (x : float) : Prop := is_finite x = true.
  (** finite with the value r *)
  Definition is (x : float) (r : R) : Prop := fin x /\ val x = r.
  Definition nan (x : float) : Prop := is_nan x = true.

  (** unit roundoff 2^-prec: 2^-53 for f64, 2^-24 for f32 *)
  Definition uro : R := bpow radix2 (- fprec).
  (** half the smallest positive number: 2^-1075 for f64, 2^-150 for f32 *)
  Definition eta : R := bpow radix2 (2 - femax - fprec).
  (** the largest finite number, (1 - u) 2^emax *)
  Definition fmax : R := bpow radix2 femax - bpow radix2 (femax - fprec).

  (** the float nearest to m * 2^e, for examples *)
  Definition flt (m e : Z) : float := binary_normalize fprec femax _ _ mode_NE m e false.
End Rounding.
