(** What a bounding box computed in floating point should be: on every axis the
    curve [f i t], 0 <= t <= 1, lies between the bounds up to [slack], and both
    bounds are near values of the curve. *)
From Coq Require Import Reals List.
From Verif Require Import Model.Point Inst.FloatInst Spec.Rounding.
Import ListNotations.
Local Open Scope R_scope.

Section Boxes.
  Context {F : Format}.

  Definition holds_axis (lo hi : float) (f : R -> R) (slack : R) : Prop :=
    fin lo /\ fin hi /\ forall t, 0 <= t <= 1 -> val lo - slack <= f t <= val hi + slack.
  Definition tight_axis (lo hi : float) (f : R -> R) (slack : R) : Prop :=
    (exists t, 0 <= t <= 1 /\ Rabs (val lo - f t) <= slack) /\
    (exists t, 0 <= t <= 1 /\ Rabs (val hi - f t) <= slack).

  Definition encloses (n : nat) (bounds : list (float * float)) (f : nat -> R -> R) (outer inner : R) : Prop :=
    forall i, (i < n)%nat -> exists lo hi, nth_error bounds i = Some (lo, hi) /\
      holds_axis lo hi (f i) outer /\ tight_axis lo hi (f i) inner.
End Boxes.
