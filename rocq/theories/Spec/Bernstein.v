(** Bezier curves as Bernstein polynomials. *)
From Coq Require Import Reals List.
From Verif Require Import Model.Point Spec.Sums Spec.Lawful.
Import ListNotations.
Local Open Scope R_scope.

(** Binomial coefficients by Pascal's rule. *)
Fixpoint binom (n k : nat) : nat :=
  match n, k with
  | _, O => 1
  | O, S _ => 0
  | S n', S k' => binom n' k' + binom n' k
  end.

(** B_{i,n}(t) = binom(n,i) t^i (1-t)^(n-i) *)
Definition bernstein (n i : nat) (t : R) : R :=
  INR (binom n i) * t ^ i * (1 - t) ^ (n - i).

(** The scalar Bezier polynomial with the listed coefficients. *)
Definition bezier_poly (ps : list R) (t : R) : R :=
  Rsum (fun i => bernstein (length ps - 1) i t * nth i ps 0) (length ps).

(** Coordinate [i] of the Bezier curve with the listed control points, at [t]. *)
Definition curve_coord {P : Type} {PT : Point R P} {LP : LawfulPoint P}
  (ps : list P) (t : R) (i : nat) : R :=
  bezier_poly (map (fun p => coord p i) ps) t.
