(** Points of a B-spline curve: the curve on [U_D, U_C), the last control point at the right end. *)
From Coq Require Import Reals List Arith.
From Verif Require Import Model.Point Spec.Sums Spec.Lawful Spec.Basis.
Import ListNotations.
Local Open Scope R_scope.

Section Points.
  Context {P : Type} {PT : Point R P} {LP : LawfulPoint P}.
  Definition curve_point (D : nat) (ks : list R) (ps : list P) (t : R) (p : P) : Prop :=
    (nth D ks 0 <= t < nth (length ps) ks 0 /\
     forall i, (i < p_dim (P := P))%nat -> coord p i = spline_coord D ks ps t i) \/
    (t = nth (length ps) ks 0 /\ p = nth (length ps - 1) ps p_default).
  (** the points [qs] are those of the curve at the parameters [ts] *)
  Definition curve_points (D : nat) (ks : list R) (ps : list P) (ts : list R) (qs : list P) : Prop :=
    Forall2 (curve_point D ks ps) ts qs.
End Points.
