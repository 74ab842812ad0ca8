(** Monotone functions on [0,1], and boxes spanned by two values. *)
From Coq Require Import Reals List.
Local Open Scope R_scope.

Definition monotone (f : R -> R) : Prop :=
  (forall a b, 0 <= a <= b -> b <= 1 -> f a <= f b) \/ (forall a b, 0 <= a <= b -> b <= 1 -> f b <= f a).

(** on axis [i] the box runs exactly from the smaller to the larger of [x] and [y] *)
Definition spans (bounds : list (R * R)) (i : nat) (x y : R) : Prop :=
  nth_error bounds i = Some (Rmin x y, Rmax x y).
