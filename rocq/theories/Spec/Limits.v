(** One-sided limits and the weight of the last basis function of a knot span. *)
From Coq Require Import Reals.
Local Open Scope R_scope.

Definition left_limit (f : R -> R) (x l : R) : Prop :=
  forall e, 0 < e -> exists h, 0 < h /\ forall t, x - h < t < x -> Rabs (f t - l) < e.

(** f 0 * ... * f (n-1) *)
Fixpoint Rprod (f : nat -> R) (n : nat) : R :=
  match n with
  | O => 1
  | S m => Rprod f m * f m
  end.

(** (t - U k)^D / ((U (k+1) - U k) ... (U (k+D) - U k)) *)
Definition span_weight (U : nat -> R) (D k : nat) (t : R) : R :=
  (t - U k) ^ D / Rprod (fun r => U (k + 1 + r)%nat - U k) D.
