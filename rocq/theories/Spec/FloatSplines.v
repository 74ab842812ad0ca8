(** B-spline curves with floating-point knots and control points, as curves of the
    real numbers these floats stand for. *)
From Coq Require Import Reals List Arith.
From Verif Require Import Base.Scalar Model.Point Inst.FloatInst Spec.Rounding Spec.Componentwise
  Spec.Sums Spec.Basis.
Import ListNotations.
Local Open Scope R_scope.

Section FloatSplines.
  Context {F : Format} {P : Type} {PT : Point float P} {CP : CwPoint float P}.

  (** the knots as real numbers *)
  Definition fknot (ks : list float) (m : nat) : R := val (nth m ks (s_lit 0)).

  (** coordinate [i] of sum_j N_{j,D}(t) P_j *)
  Definition fspline_coord (D : nat) (ks : list float) (ps : list P) (t : R) (i : nat) : R :=
    Rsum (fun j => basis (fknot ks) D j t * val (cw (nth j ps p_default) i)) (length ps).

  (** [k] is the knot span of [t] *)
  Definition fspan (ks : list float) (k : nat) (t : R) : Prop :=
    (k + 1 < length ks)%nat /\ fknot ks k <= t < fknot ks (k + 1).

  (** every knot is finite and of magnitude at most half of the largest number:
      no difference of two of them overflows *)
  Definition moderate (ks : list float) : Prop :=
    forall x, In x ks -> fin x /\ Rabs (val x) <= fmax / 2.

  (** [t] is at, or at least EPSILON past, each knot below it *)
  Definition clear_of (ks : list float) (t : R) : Prop :=
    forall x, In x ks -> val x < t -> val s_eps <= t - val x.
End FloatSplines.
