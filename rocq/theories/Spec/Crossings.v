(** Hyperplanes and how often a sequence of points changes sides. *)
From Coq Require Import Reals List Arith.
From Verif Require Import Model.Point Spec.Sums Spec.Lawful.
Local Open Scope R_scope.

Section Crossings.
  Context {P : Type} {PT : Point R P} {LP : LawfulPoint P}.

  (** w . p; the points with [level w p = c] form a hyperplane *)
  Definition level (w : nat -> R) (p : P) : R := Rsum (fun i => w i * coord p i) (p_dim (P := P)).

  (** m + 1 of the points, in order, lie strictly on alternating sides: the control
      polygon crosses the hyperplane at least m times *)
  Definition polygon_crosses (w : nat -> R) (c : R) (ps : list P) (m : nat) : Prop :=
    exists idx : nat -> nat,
      (forall j, (j < m)%nat -> (idx j < idx (S j))%nat) /\
      (forall j, (j <= m)%nat -> (idx j < length ps)%nat) /\
      (forall j, (j < m)%nat ->
        (level w (nth (idx j) ps p_default) - c) * (level w (nth (idx (S j)) ps p_default) - c) < 0).
End Crossings.

(** numbers in order, rising or falling *)
Definition mono3 (x y z : R) : Prop := x <= y <= z \/ z <= y <= x.
Definition mono4 (x y z u : R) : Prop := x <= y <= z /\ z <= u \/ u <= z <= y /\ y <= x.
