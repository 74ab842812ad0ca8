(** Bounding boxes of the pieces of a curve, for tests of whether two curves meet. *)
From Coq Require Import Reals List.
From Verif Require Import Base.Outcome Inst.FloatInst Spec.Rounding Spec.Subdivision.
Import ListNotations.
Local Open Scope R_scope.

(** the boxes of the pieces after [k] rounds of halving, in order *)
Definition boxes_of {A B : Type} (halve : A -> outcome (A * A)) (box : A -> outcome B) (k : nat) (c : A) (bs : list B) : Prop :=
  exists l, halved halve k c = Ret l /\ Forall2 (fun q b => box q = Ret b) l bs.

(** a box in n dimensions; [x] is the list of coordinates of a point *)
Definition in_box (n : nat) (b : list (R * R)) (x : nat -> R) (slack : R) : Prop :=
  forall i, (i < n)%nat -> exists lo hi, nth_error b i = Some (lo, hi) /\ lo - slack <= x i <= hi + slack.

(** on some axis there is a gap of more than [g] between the boxes *)
Definition apart (n : nat) (b b' : list (R * R)) (g : R) : Prop :=
  exists i lo hi lo' hi', (i < n)%nat /\ nth_error b i = Some (lo, hi) /\ nth_error b' i = Some (lo', hi') /\
    (hi + g < lo' \/ hi' + g < lo).

(** the boxes contain the curve [f], up to [slack]; none is wider than [w], and each has a
    point of the curve in it, up to [touch] *)
Definition covered (n : nat) (f : R -> nat -> R) (bs : list (list (R * R))) (slack touch w : R) : Prop :=
  (forall t, 0 <= t <= 1 -> exists b, In b bs /\ in_box n b (f t) slack) /\
  (forall b, In b bs -> (exists t, 0 <= t <= 1 /\ in_box n b (f t) touch) /\
     forall i lo hi, (i < n)%nat -> nth_error b i = Some (lo, hi) -> hi - lo <= w).

(** the numbers in a box of floats *)
Definition real_box {F : Format} (b : list (float * float)) : list (R * R) := map (fun p => (val (fst p), val (snd p))) b.
