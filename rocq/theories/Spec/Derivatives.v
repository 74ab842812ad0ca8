(** Repeated differentiation. *)
From Coq Require Import Reals List.
From Verif Require Import Base.Outcome Base.Scalar Model.Point Model.Bezier.
Local Open Scope R_scope.

(** [derivative()] called [k] times *)
Fixpoint derivative_times {T : Type} {ST : Scalar T} {P : Type} {PT : Point T P}
  (k : nat) (c : bezier P) : outcome (bezier P) :=
  match k with
  | O => Ret c
  | S k => bind (bezier_derivative c) (derivative_times k)
  end.

(** [g] is the [k]-th derivative of [f] *)
Inductive nth_derivative : nat -> (R -> R) -> (R -> R) -> Prop :=
| nth_zero f g : (forall t, f t = g t) -> nth_derivative 0 f g
| nth_succ k f f' g : (forall t, derivable_pt_lim f t (f' t)) -> nth_derivative k f' g -> nth_derivative (S k) f g.

