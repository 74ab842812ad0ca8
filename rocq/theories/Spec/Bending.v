(** Points of the plane that bend up: each lies on or below the chord of any two around it. *)
From Coq Require Import Reals Arith.
Local Open Scope R_scope.

Definition below_chord (x0 y0 x y x1 y1 : R) : Prop := (x1 - x0) * y <= (x1 - x) * y0 + (x - x0) * y1.
(** the points (x_0, y_0), ..., (x_(n-1), y_(n-1)) *)
Definition rises_ever_steeper (x y : nat -> R) (n : nat) : Prop :=
  forall a b c, (a < b < c)%nat -> (c < n)%nat -> below_chord (x a) (y a) (x b) (y b) (x c) (y c).
