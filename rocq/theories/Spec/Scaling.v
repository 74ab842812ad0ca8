(** Curves that differ by a power of two, as between two units of length. *)
From Coq Require Import Reals ZArith List Arith.
From Flocq Require Import Core.Core.
From Verif Require Import Base.Scalar Model.Point Inst.FloatInst Spec.Rounding Spec.Componentwise.
Local Open Scope R_scope.

Section Scaling.
  Context {F : Format} {P : Type} {PT : Point float P} {CP : CwPoint float P}.

  (** the smallest positive float is 2^least: -1074 for f64, -149 for f32 *)
  Definition least : Z := 3 - femax - fprec.

  (** a multiple of 2^g *)
  Definition on_grid (g : Z) (x : float) : Prop := exists z : Z, val x = IZR z * bpow radix2 g.

  (** [y] is 2^k times [x], a multiple of 2^g, unless one of them is not finite *)
  Definition scaled (g k : Z) (x y : float) : Prop :=
    fin x -> fin y -> on_grid g x /\ val y = bpow radix2 k * val x.
  Definition scaled_point (g k : Z) (p q : P) : Prop :=
    forall i, (i < p_dim (P := P))%nat -> scaled g k (cw p i) (cw q i).
End Scaling.
