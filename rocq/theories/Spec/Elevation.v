(** The same curve written with one more control point (degree elevation):
    q_j = j/(n+1) p_(j-1) + (1 - j/(n+1)) p_j, where n+1 is the number of control
    points of [ps]. *)
From Coq Require Import Reals List Arith.
From Verif Require Import Model.Point Spec.Lawful.
Local Open Scope R_scope.

Definition raised {P : Type} {PT : Point R P} {LP : LawfulPoint P} (ps qs : list P) : Prop :=
  length qs = S (length ps) /\
  forall j i, (j <= length ps)%nat -> (i < p_dim (P := P))%nat ->
    coord (nth j qs p_default) i =
      INR j / INR (length ps) * coord (nth (j - 1) ps p_default) i
      + (1 - INR j / INR (length ps)) * coord (nth j ps p_default) i.
