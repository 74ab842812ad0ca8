(** Exact coordinates over a rounded [NativeFloat]: a user's [Point::Scalar] of unlimited
    precision, where the library's own constants are floats (Model/TwoScalars.v). *)
From Coq Require Import Reals ZArith.
From Flocq Require Import Core.Core IEEE754.BinarySingleNaN.
From Verif Require Import Base.Outcome Base.Scalar Model.Point Model.TwoScalars Inst.RealInst Inst.FloatInst Spec.Rounding.
Local Open Scope R_scope.

Section ExactOver.
  Context {F : Format}.

  (** the nearest float *)
  Definition narrow (x : R) : float :=
    binary_normalize fprec femax _ _ mode_NE
      (ZnearestE (scaled_mantissa radix2 (SpecFloat.fexp fprec femax) x))
      (cexp radix2 (SpecFloat.fexp fprec femax) x) false.

  #[global] Instance ExactMixed : Mixed float R := {
    m_from := val;
    m_into := narrow;
    m_add := fun x c => x + val c;
    m_sub := fun x c => x - val c;
    m_mul := fun x c => x * val c;
    m_div := fun x c => x / val c;
    m_default := 0
  }.
  #[global] Instance ExactScaled {P : Type} {PT : Point R P} : Scaled float P := { p_scale := fun p c => p_mul p (val c) }.
End ExactOver.
