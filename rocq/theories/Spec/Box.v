(** What a bounding box of a curve piece [f u], 0 <= u <= 1, is. *)
From Coq Require Import Reals List.
From Verif Require Import Model.Point Spec.Sums Spec.Lawful.
Import ListNotations.
Local Open Scope R_scope.

(** one pair per axis *)
Definition box_shape {P : Type} {PT : Point R P} (bounds : list (R * R)) : Prop :=
  length bounds = p_dim (P := P).

(** on axis [i] the box contains the curve, up to [slack] on both sides *)
Definition box_contains {P : Type} {PT : Point R P} {LP : LawfulPoint P}
  (f : R -> P) (bounds : list (R * R)) (i : nat) (slack : R) : Prop :=
  exists lo hi, nth_error bounds i = Some (lo, hi) /\
    forall t, 0 <= t <= 1 -> lo - slack <= coord (f t) i <= hi + slack.

(** on axis [i] both bounds are values of the curve *)
Definition box_attained {P : Type} {PT : Point R P} {LP : LawfulPoint P}
  (f : R -> P) (bounds : list (R * R)) (i : nat) : Prop :=
  exists lo hi, nth_error bounds i = Some (lo, hi) /\
    (exists t, 0 <= t <= 1 /\ coord (f t) i = lo) /\
    (exists t, 0 <= t <= 1 /\ coord (f t) i = hi).
