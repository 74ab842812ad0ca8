(** Control polygons over given abscissae. *)
From Coq Require Import Reals List.
From Verif Require Import Model.Point Inst.RealInst Spec.Sums Spec.Lawful.
Import ListNotations.
Local Open Scope R_scope.

(** the slopes of neighbouring legs differ by at most [S] times the distance of the outer abscissae *)
Definition slope_bound {P : Type} {PT : Point R P} {LP : LawfulPoint P} (x : nat -> R) (ps : list P) (S : R) : Prop :=
  forall j a b c, nth_error ps j = Some a -> nth_error ps (j + 1) = Some b -> nth_error ps (j + 2) = Some c ->
    dist (p_mul (p_sub c b) (/ (x (j + 2)%nat - x (j + 1)%nat))) (p_mul (p_sub b a) (/ (x (j + 1)%nat - x j)))
      <= S * (x (j + 2)%nat - x j).
