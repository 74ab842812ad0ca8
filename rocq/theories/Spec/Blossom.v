(** Blossoms (polar forms) and the polynomials they stand for. *)
From Coq Require Import Reals List Arith Permutation.
From Verif Require Import Spec.Sums Spec.Bernstein.
Import ListNotations.
Local Open Scope R_scope.

(** symmetric, and affine in each argument *)
Definition blossom (F : list R -> R) : Prop :=
  (forall l l', Permutation l l' -> F l = F l') /\
  (forall a x y l, F ((1 - a) * x + a * y :: l) = (1 - a) * F (x :: l) + a * F (y :: l)).

(** the [n] knots after the knot [j] *)
Definition after (U : nat -> R) (j n : nat) : list R := map U (seq (j + 1) n).

(** three blossoms: the product [(y - x_1) ... (y - x_n)], the sum of all products of [m]
    different arguments, and the sum of the arguments *)
Definition factors (y : R) (l : list R) : R := fold_right (fun x a => (y - x) * a) 1 l.
Fixpoint products (m : nat) (l : list R) : R :=
  match m, l with
  | O, _ => 1
  | S _, [] => 0
  | S m', x :: l' => x * products m' l' + products m l'
  end.
Definition total (l : list R) : R := fold_right Rplus 0 l.
(** Greville abscissa: the average of the [n] knots after the knot [j] *)
Definition greville (U : nat -> R) (n j : nat) : R := total (after U j n) / INR n.
(** the polynomial with coefficients [a] and its blossom *)
Definition poly (a : nat -> R) (n : nat) (t : R) : R := Rsum (fun m => a m * t ^ m) (S n).
Definition polar (a : nat -> R) (n : nat) (l : list R) : R :=
  Rsum (fun m => a m * (products m l / INR (binom n m))) (S n).
