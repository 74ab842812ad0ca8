(** Functions that are [n] times continuously differentiable at a point. *)
From Coq Require Import Reals.
Local Open Scope R_scope.

Fixpoint smooth (n : nat) (f : R -> R) (x : R) : Prop :=
  match n with
  | O => continuity_pt f x
  | S n' => exists g d, 0 < d /\ (forall y, Rabs (y - x) < d -> derivable_pt_lim f y (g y)) /\ smooth n' g x
  end.
