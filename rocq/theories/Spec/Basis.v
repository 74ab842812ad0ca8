(** B-spline basis functions (Cox-de Boor recursion) and B-spline curves. *)
From Coq Require Import Reals List Arith.
From Verif Require Import Model.Point Spec.Sums Spec.Lawful.
Import ListNotations.
Local Open Scope R_scope.

(** quotient with the usual convention 0 for a vanishing denominator *)
Definition quot (a b : R) : R := if Req_EM_T b 0 then 0 else a / b.

(** N_{i,p}(t) over the knots U *)
Fixpoint basis (U : nat -> R) (p i : nat) (t : R) : R :=
  match p with
  | O => if Rle_dec (U i) t then if Rlt_dec t (U (i + 1)%nat) then 1 else 0 else 0
  | S p' =>
      quot (t - U i) (U (i + p)%nat - U i) * basis U p' i t
      + quot (U (i + p + 1)%nat - t) (U (i + p + 1)%nat - U (i + 1)%nat) * basis U p' (i + 1) t
  end.

(** coordinate [i] of sum_j N_{j,D}(t) P_j *)
Definition spline_coord {P : Type} {PT : Point R P} {LP : LawfulPoint P}
  (D : nat) (ks : list R) (ps : list P) (t : R) (i : nat) : R :=
  Rsum (fun j => basis (fun m => nth m ks 0) D j t * coord (nth j ps p_default) i) (length ps).

(** non-decreasing list *)
Definition sorted (ks : list R) : Prop :=
  forall i j, (i <= j < length ks)%nat -> nth i ks 0 <= nth j ks 0.

(** [k] is the knot span of [t] *)
Definition in_span (ks : list R) (k : nat) (t : R) : Prop :=
  (k + 1 < length ks)%nat /\ nth k ks 0 <= t < nth (k + 1) ks 0.

(** the knots of the derivative: first and last knot removed *)
Definition inner_knots (ks : list R) : list R := removelast (tl ks).
