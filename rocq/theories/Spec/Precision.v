(** Control points that describe a straight line travelled at constant speed. *)
From Coq Require Import Reals List.
From Verif Require Import Model.Point Spec.Sums Spec.Lawful.
Import ListNotations.
Local Open Scope R_scope.

(** [x] is the point a + t (b - a) *)
Definition on_line {P : Type} {PT : Point R P} {LP : LawfulPoint P} (a b : P) (t : R) (x : P) : Prop :=
  forall i, (i < p_dim (P := P))%nat -> coord x i = coord a i + t * (coord b i - coord a i).

(** the points stand at equal steps on the way from [a] to [b] *)
Definition evenly {P : Type} {PT : Point R P} {LP : LawfulPoint P} (a b : P) (ps : list P) : Prop :=
  forall k p, nth_error ps k = Some p -> on_line a b (INR k / INR (length ps - 1)) p.

(** the mean of the D knots after knot j (Greville abscissa) *)
Definition knot_mean (D : nat) (ks : list R) (j : nat) : R := Rsum (fun r => nth (j + 1 + r) ks 0) D / INR D.

(** control point j stands at the mean of its knots *)
Definition at_knot_means {P : Type} {PT : Point R P} {LP : LawfulPoint P} (a b : P) (D : nat) (ks : list R) (ps : list P) : Prop :=
  forall j p, nth_error ps j = Some p -> on_line a b (knot_mean D ks j) p.
