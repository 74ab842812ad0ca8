(** Finite sums. *)
From Coq Require Import Reals.
Local Open Scope R_scope.

(** f 0 + ... + f (n-1) *)
Fixpoint Rsum (f : nat -> R) (n : nat) : R :=
  match n with
  | O => 0
  | S m => Rsum f m + f m
  end.
