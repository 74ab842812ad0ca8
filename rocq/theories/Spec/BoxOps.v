(** Curves run backwards; one bounding box inside another, or inside the union of two,
    on one axis and up to a slack. *)
From Coq Require Import Reals List.
From Verif Require Import Model.Line Model.Quadratic Model.Cubic.
Import ListNotations.
Local Open Scope R_scope.

Definition line_reverse {P} (l : line P) : line P := Line (l_end l) (l_start l).
Definition quad_reverse {P} (c : quad P) : quad P := Quad (q_end c) (q_ctrl c) (q_start c).
Definition cubic_reverse {P} (c : cubic P) : cubic P := Cubic (c_end c) (c_ctrl2 c) (c_ctrl1 c) (c_start c).

Definition box_inside (b b' : list (R * R)) (i : nat) (slack : R) : Prop :=
  exists lo hi lo' hi', nth_error b i = Some (lo, hi) /\ nth_error b' i = Some (lo', hi') /\
    lo' - slack <= lo /\ hi <= hi' + slack.

Definition box_covered (b b1 b2 : list (R * R)) (i : nat) (slack : R) : Prop :=
  exists lo hi lo1 hi1 lo2 hi2, nth_error b i = Some (lo, hi) /\
    nth_error b1 i = Some (lo1, hi1) /\ nth_error b2 i = Some (lo2, hi2) /\
    Rmin lo1 lo2 - slack <= lo /\ hi <= Rmax hi1 hi2 + slack.
