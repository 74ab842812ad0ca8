(** Knot insertion: a further knot in a span, and the control points that go with it. *)
From Coq Require Import Reals List Arith.
From Verif Require Import Model.Point Spec.Sums Spec.Lawful Spec.Basis.
Import ListNotations.
Local Open Scope R_scope.

(** [x] behind knot [k] *)
Definition insert_knot (k : nat) (x : R) (ks : list R) : list R := firstn (S k) ks ++ x :: skipn (S k) ks.

Section Points.
  Context {P : Type} {PT : Point R P} {LP : LawfulPoint P}.
  (** Boehm's rule: the points up to k-D stay, the next D lie on the legs of the old
      polygon, the rest moves up by one *)
  Definition inserted_points (D k : nat) (x : R) (ks : list R) (ps qs : list P) : Prop :=
    length qs = S (length ps) /\
    (forall j, (j <= k - D)%nat -> nth j qs p_default = nth j ps p_default) /\
    (forall j i, (k - D < j <= k)%nat -> (i < p_dim (P := P))%nat ->
      let a := (x - nth j ks 0) / (nth (j + D) ks 0 - nth j ks 0) in
      coord (nth j qs p_default) i = a * coord (nth j ps p_default) i + (1 - a) * coord (nth (j - 1) ps p_default) i) /\
    (forall j, (k < j <= length ps)%nat -> nth j qs p_default = nth (j - 1) ps p_default).
End Points.
