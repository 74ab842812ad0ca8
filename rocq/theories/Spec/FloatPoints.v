(** Points with floating-point coordinates. *)
From Coq Require Import Reals List Arith.
From Verif Require Import Base.Outcome Base.Scalar Model.Point Inst.FloatInst Spec.Rounding
  Spec.Componentwise Spec.Points.
Import ListNotations.
Local Open Scope R_scope.

Section FloatPoints.
  Context {F : Format} {P : Type} {PT : Point float P} {CP : CwPoint float P}.

  (** every coordinate is finite *)
  Definition fin_point (p : P) : Prop := forall i, (i < p_dim (P := P))%nat -> fin (cw p i).
  (** every coordinate is finite and of magnitude at most M *)
  Definition bounded (M : R) (p : P) : Prop :=
    forall i, (i < p_dim (P := P))%nat -> fin (cw p i) /\ Rabs (val (cw p i)) <= M.
  (** p has exactly the coordinates of q (up to the sign of zero) *)
  Definition same_point (p q : P) : Prop :=
    forall i, (i < p_dim (P := P))%nat -> is (cw p i) (val (cw q i)).
  (** on every axis the box has the coordinate of p between its bounds *)
  Definition box_has (bounds : list (float * float)) (p : P) : Prop :=
    forall i, (i < p_dim (P := P))%nat -> exists lo hi, nth_error bounds i = Some (lo, hi) /\
      s_leb lo (cw p i) = true /\ s_leb (cw p i) hi = true.
End FloatPoints.

(** points on the line and in the plane *)
Definition fpt1 {F : Format} (x : float) : PointN float 1 := pt [x].
Definition fpt2 {F : Format} (x y : float) : PointN float 2 := pt [x; y].
