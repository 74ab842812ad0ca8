(** Distance from a point to a curve piece. *)
From Coq Require Import Reals.
From Verif Require Import Model.Point Spec.Sums Spec.Lawful.
Local Open Scope R_scope.

(** [d] is the least distance from [p] to the points [f u], 0 <= u <= 1. *)
Definition is_min_dist {P : Type} {PT : Point R P} {LP : LawfulPoint P}
  (f : R -> P) (p : P) (d : R) : Prop :=
  (exists u, 0 <= u <= 1 /\ d = dist p (f u)) /\
  (forall u, 0 <= u <= 1 -> d <= dist p (f u)).

(** Inner product of two difference vectors: (p - o) . (q - o). *)
Definition inner {P : Type} {PT : Point R P} {LP : LawfulPoint P} (o p q : P) : R :=
  Rsum (fun i => (coord p i - coord o i) * (coord q i - coord o i)) (p_dim (P := P)).
