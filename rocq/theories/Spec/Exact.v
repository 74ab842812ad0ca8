(** Data coarse enough for floating-point arithmetic to be exact. *)
From Coq Require Import Reals ZArith Arith.
From Flocq Require Import Core.Core.
From Verif Require Import Base.Scalar Model.Point Inst.FloatInst Spec.Rounding Spec.Componentwise Spec.Scaling.
Local Open Scope R_scope.

Section Exact.
  Context {F : Format} {P : Type} {PT : Point float P} {CP : CwPoint float P}.

  (** all multiples of 2^g of magnitude at most B are floats *)
  Definition room (g : Z) (B : R) : Prop :=
    (least <= g)%Z /\ B <= bpow radix2 (g + fprec) /\ B <= bpow radix2 (femax - 1).

  (** the coordinates are finite multiples of 2^g of magnitude at most M *)
  Definition coarse_point (g : Z) (M : R) (p : P) : Prop :=
    forall i, (i < p_dim (P := P))%nat -> fin (cw p i) /\ on_grid g (cw p i) /\ Rabs (val (cw p i)) <= M.
End Exact.
