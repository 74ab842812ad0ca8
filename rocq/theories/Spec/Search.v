(** "1. coarse search over the whole curve, 2. fine search around the minimum yielded by the coarse
    search" (quadratic_bezier.rs:196-198): the least of 64 samples, then of 64 more around it. *)
From Coq Require Import Reals Arith Lra.
Local Open Scope R_scope.

(** the nearest parameter of the curve *)
Definition clip (u : R) : R := Rmax 0 (Rmin 1 u).

Definition refined_minimum (h : R -> R) (d : R) : Prop :=
  exists j, (j < 64)%nat /\ (forall i, (i < 64)%nat -> h (INR j / 64) <= h (INR i / 64)) /\
    d <= h (INR j / 64) /\
    (forall i, (i < 64)%nat -> d <= h (clip (INR j / 64 + (INR i - 32) / 4096))) /\
    (d = h (INR j / 64) \/ exists i, (i < 64)%nat /\ d = h (clip (INR j / 64 + (INR i - 32) / 4096))).

Example clip_ex : clip (-1) = 0 /\ clip 2 = 1 /\ clip (1/3) = 1/3.
Proof. unfold clip, Rmax, Rmin. repeat split; repeat destruct (Rle_dec _ _); lra. Qed.
