(** Arc length of a Bezier curve, and inscribed polylines. *)
From Coq Require Import Reals List.
From Coquelicot Require Import Coquelicot.
From Verif Require Import Model.Point Spec.Sums Spec.Lawful Spec.Bernstein.
Import ListNotations.
Local Open Scope R_scope.

(** |B'(t)| *)
Definition speed {P : Type} {PT : Point R P} {LP : LawfulPoint P} (ps : list P) (t : R) : R :=
  sqrt (Rsum (fun i => Derive (fun t => curve_coord ps t i) t * Derive (fun t => curve_coord ps t i) t)
             (p_dim (P := P))).

(** integral of |B'| over [0,1] *)
Definition arc_length {P : Type} {PT : Point R P} {LP : LawfulPoint P} (ps : list P) : R :=
  RInt (speed ps) 0 1.

(** length of the polyline through f(0), f(1/n), ..., f(1) *)
Definition polyline {P : Type} {PT : Point R P} {LP : LawfulPoint P} (f : R -> P) (n : nat) : R :=
  Rsum (fun i => dist (f (INR i / INR n)) (f (INR (i + 1) / INR n))) n.

(** [L] bounds the legs of the control polygon *)
Definition leg_bound {P : Type} {PT : Point R P} {LP : LawfulPoint P} (ps : list P) (L : R) : Prop :=
  0 <= L /\ forall k p q, nth_error ps k = Some p -> nth_error ps (S k) = Some q -> dist p q <= L.

(** length of the control polygon *)
Fixpoint polygon_length {P : Type} {PT : Point R P} {LP : LawfulPoint P} (ps : list P) : R :=
  match ps with
  | p :: ((q :: _) as rest) => dist p q + polygon_length rest
  | _ => 0
  end.
