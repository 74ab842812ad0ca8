(** Two lists of control points, entry by entry no farther apart than [d]. *)
From Coq Require Import Reals List.
From Verif Require Import Model.Point Spec.Lawful.
Import ListNotations.
Local Open Scope R_scope.

Definition near_points {P : Type} {PT : Point R P} {LP : LawfulPoint P} (ps qs : list P) (d : R) : Prop :=
  length ps = length qs /\
  forall k p q, nth_error ps k = Some p -> nth_error qs k = Some q -> dist p q <= d.
