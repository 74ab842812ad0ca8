(** Convex hulls and affine maps, coordinate-wise. *)
From Coq Require Import Reals List.
From Verif Require Import Model.Point Spec.Sums Spec.Lawful.
Import ListNotations.
Local Open Scope R_scope.

(** [x] is a convex combination of the points [ps]. *)
Definition in_hull {P : Type} {PT : Point R P} {LP : LawfulPoint P} (ps : list P) (x : P) : Prop :=
  exists w : nat -> R,
    (forall k, (k < length ps)%nat -> 0 <= w k) /\
    Rsum w (length ps) = 1 /\
    (forall i, (i < p_dim (P := P))%nat ->
       coord x i = Rsum (fun k => w k * coord (nth k ps x) i) (length ps)).

(** [q] is the image of [p] under the affine map with matrix [A] and offset [b]. *)
Definition affine_image {P : Type} {PT : Point R P} {LP : LawfulPoint P}
  (A : nat -> nat -> R) (b : nat -> R) (p q : P) : Prop :=
  forall j, (j < p_dim (P := P))%nat ->
    coord q j = Rsum (fun k => A j k * coord p k) (p_dim (P := P)) + b j.
