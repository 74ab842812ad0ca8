(** Cubic polynomials and their discriminant; points told apart by EPSILON. *)
From Coq Require Import Reals.
From Verif Require Import Base.Scalar Model.Point Inst.RealInst Spec.Sums Spec.Lawful.
Local Open Scope R_scope.

Definition cubic_value (a b c d t : R) : R := a * t ^ 3 + b * t ^ 2 + c * t + d.

(** positive: three real roots; negative: one; zero: a multiple root *)
Definition discriminant (a b c d : R) : R :=
  18 * a * b * c * d - 4 * b ^ 3 * d + b ^ 2 * c ^ 2 - 4 * a * c ^ 3 - 27 * a ^ 2 * d ^ 2.

(** two points that the EPSILON tests tell apart *)
Definition far_apart {E : Eps} {P : Type} {PT : Point R P} {LP : LawfulPoint P} (p q : P) : Prop :=
  eps < dist p q /\ eps <= dist p q * dist p q.

(** curves that the solvers take for a single point: all points within EPSILON, or
    the ends closer than the square root of EPSILON and the inner control points at the start *)
Section Skipped.
  Context {E : Eps} {P : Type} {PT : Point R P} {LP : LawfulPoint P}.
  Definition quad_skipped (s k e : P) : Prop :=
    (dist s e <= eps /\ dist s k <= eps) \/ (dist s e * dist s e < eps /\ dist s k = 0).
  Definition cubic_skipped (s k1 k2 e : P) : Prop :=
    (dist s e <= eps /\ dist s k1 <= eps /\ dist e k2 <= eps) \/
    (dist s e * dist s e < eps /\ dist s k1 <= eps /\ dist s k2 <= eps).
End Skipped.
