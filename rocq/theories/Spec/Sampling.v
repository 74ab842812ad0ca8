(** Control points read off a given curve; control values that bend one way; mean values. *)
From Coq Require Import Reals List.
From Verif Require Import Model.Point Spec.Sums Spec.Lawful.
Import ListNotations.
Local Open Scope R_scope.

(** the points are g(0), g(1/n), ..., g(1) *)
Definition samples {P : Type} (g : R -> P) (ps : list P) : Prop :=
  forall k p, nth_error ps k = Some p -> p = g (INR k / INR (length ps - 1)).

(** in coordinate [i] no control point lies above the middle of its neighbours *)
Definition bends_up {P : Type} {PT : Point R P} {LP : LawfulPoint P} (ps : list P) (i : nat) : Prop :=
  forall k p q r, nth_error ps k = Some p -> nth_error ps (S k) = Some q -> nth_error ps (S (S k)) = Some r ->
    2 * coord q i <= coord p i + coord r i.

(** a point with the mean coordinates of the listed points *)
Definition mean_point {P : Type} {PT : Point R P} {LP : LawfulPoint P} (ps : list P) (m : P) : Prop :=
  forall i, (i < p_dim (P := P))%nat ->
    INR (length ps) * coord m i = Rsum (fun k => coord (nth k ps p_default) i) (length ps).
