(** C97, C47 and C124 at the knots: where m knots coincide the curve is D - m times continuously
    differentiable, and the control points the code computes for the derivative are right there too. *)
From Coq Require Import Reals List Arith Lia Lra.
From Verif Require Import Base.Outcome Base.Scalar Model.Point Model.BSpline Model.Repairs Inst.RealInst
  Spec.Sums Spec.Lawful Spec.Basis Spec.Smooth Spec.Points
  Proofs.RealTac Proofs.BoxSpec Proofs.BSplineCE Proofs.SplineSmooth.
Import ListNotations.
Local Open Scope R_scope.

(** no D - n + 1 knots coincide at x: n continuous derivatives *)
Theorem C97_curve_smooth {E : Eps} {P : Type} {PT : Point R P} {LP : LawfulPoint P} n (D : nat) (ks : list R) (ps : list P) x i :
  (forall i j, (i <= j < length ks)%nat -> nth i ks 0 <= nth j ks 0) -> length ks = (length ps + D + 1)%nat ->
  (D < length ps)%nat -> (n <= D)%nat -> nth D ks 0 < x < nth (length ps) ks 0 -> (i < p_dim (P := P))%nat ->
  (forall j, (j + (D - n) < length ks)%nat -> ~ (nth j ks 0 = x /\ nth (j + (D - n)) ks 0 = x)) ->
  smooth n (fun t => spline_coord D ks ps t i) x.
Proof. exact (spline_smooth n D ks ps x i). Qed.

Section Code.
  Context {E : Eps} {P : Type} {PT : Point R P} {LP : LawfulPoint P}.
  Variables (D : nat) (ks : list R) (ps : list P) (s : bspline R P).
  Hypothesis Hnew : bspline_new D ks ps = Ret (Ok s).
  Local Notation C := (length ps).
  Local Notation U i := (nth i ks 0).

  (** [C47_control_points_partial] at the knots as well, D of them coinciding excepted;
      missing, as there: [eval] of the result *)
  Theorem C47_at_knots_partial x : (1 <= D)%nat -> U D < x < U C ->
    (forall j, (j + D - 1 < length ks)%nat -> ~ (U j = x /\ U (j + D - 1) = x)) ->
    exists s', bspline_derivative s = Ret s' /\ bs_degree s' = (D - 1)%nat /\ bs_knots s' = ks /\
      length (bs_points s') = (C - 1)%nat /\
      exists d, 0 < d /\ forall y, Rabs (y - x) < d -> forall i, (i < p_dim (P := P))%nat ->
        derivable_pt_lim (fun y => spline_coord D ks ps y i) y
          (spline_coord (D - 1) (inner_knots ks) (bs_points s') y i).
  Proof. exact (spline_derivative_at D ks ps s x Hnew). Qed.

  Section Repaired.
    Variable e : R -> P.
    Hypothesis He : forall y, U D <= y <= U C -> fixed_eval s y = Ret (Ok (e y)).
    Theorem C124_smooth n x i : (n <= D)%nat -> U D < x < U C -> (i < p_dim (P := P))%nat ->
      (forall j, (j + (D - n) < length ks)%nat -> ~ (U j = x /\ U (j + (D - n)) = x)) ->
      smooth n (fun t => coord (e t) i) x.
    Proof. exact (fixed_smooth D ks ps s Hnew e He n x i). Qed.
    Theorem C124_derivative_at_knots x : (1 <= D)%nat -> U D < x < U C ->
      (forall j, (j + D - 1 < length ks)%nat -> ~ (U j = x /\ U (j + D - 1) = x)) ->
      exists s' p, fixed_derivative s = Ret s' /\ fixed_eval s' x = Ret (Ok p) /\
        forall i, (i < p_dim (P := P))%nat -> derivable_pt_lim (fun y => coord (e y) i) x (coord p i).
    Proof. exact (fixed_derivative_at D ks ps s Hnew e He x). Qed.
  End Repaired.
End Code.

(** ** Instances *)
Local Existing Instance Eps64.
Local Notation ks2 := [0;0;0;1;2;2;2].
Local Notation ps2 := [pt2 0 0; pt2 1 2; pt2 3 2; pt2 4 0].

(** the quadratic of [C97_jump_refuted], at the knot where the evaluation jumps: one continuous derivative *)
Example C97_smooth_ex i : (i < 2)%nat -> smooth 1 (fun t => spline_coord 2 ks2 ps2 t i) 1.
Proof.
  intros Hi. apply C97_curve_smooth; [|reflexivity|cbn; lia|lia|cbn; lra|exact Hi|].
  - intros a b [Hab Hb]. cbn [length] in Hb. do 7 (destruct b as [|b]; [do 7 (destruct a as [|a]; [first [lia|cbn; lra]|]); lia|]). lia.
  - intros j Hj. cbn [length] in Hj. do 7 (destruct j as [|j]; [cbn; lra|]). lia.
Qed.
(** and its derivative there, from the control points of [bspline_derivative] *)
Example C47_at_knots_ex : exists s s', bspline_new 2 ks2 ps2 = Ret (Ok s) /\ bspline_derivative s = Ret s' /\
  derivable_pt_lim (fun y => spline_coord 2 ks2 ps2 y 0) 1 (spline_coord 1 [0;0;1;2;2] (bs_points s') 1 0).
Proof.
  destruct (new_exists 2 ks2 ps2) as (s & Hs); [|reflexivity|cbn; lia|].
  - intros a b [Hab Hb]. cbn [length] in Hb. do 7 (destruct b as [|b]; [do 7 (destruct a as [|a]; [first [lia|cbn; lra]|]); lia|]). lia.
  - exists s. destruct (C47_at_knots_partial 2 ks2 ps2 s Hs 1) as (s' & E1 & _ & _ & _ & d & Hd & H); [lia|cbn; lra| |].
    + intros j Hj. cbn [length] in Hj. do 7 (destruct j as [|j]; [cbn; lra|]). lia.
    + exists s'. split; [exact Hs|]. split; [exact E1|].
      apply (H 1); [rewrite Rminus_diag_eq, Rabs_R0 by reflexivity; exact Hd|cbn; lia].
Qed.

(** no more derivatives than that: the hat, at its single knot, has no derivative *)
Example C97_smooth_sharp : ~ smooth 1 (fun t => spline_coord 1 [0;0;1;2;2] [pt1 0; pt1 1; pt1 0] t 0) 1.
Proof.
  intros (g & d & Hd & H & _).
  specialize (H 1 ltac:(rewrite Rminus_diag_eq, Rabs_R0 by reflexivity; exact Hd)).
  assert (V : forall t, 0 < t < 2 -> spline_coord 1 [0;0;1;2;2] [pt1 0; pt1 1; pt1 0] t 0 = if Rlt_dec t 1 then t else 2 - t).
  { intros t Ht. unfold spline_coord. cbn [length Rsum nth]. rewrite !coord_pt1. cbn [basis Nat.add nth].
    assert (Q1 : forall a, quot a (1 - 0) = a) by (intros a; unfold quot; destruct Req_EM_T; [lra|field]).
    assert (Q2 : forall a, quot a (2 - 1) = a) by (intros a; unfold quot; destruct Req_EM_T; [lra|field]).
    rewrite !Q1, !Q2. repeat (destruct Rle_dec; try lra); repeat (destruct Rlt_dec; try lra). }
  destruct (H (1/2) ltac:(lra)) as (r & Hr). set (h := Rmin (r / 2) (1/2)).
  assert (Hh : 0 < h) by (apply Rmin_pos; [apply Rmult_lt_0_compat; [apply cond_pos|lra]|lra]).
  assert (H1 : h < r) by (eapply Rle_lt_trans; [apply Rmin_l|]; pose proof (cond_pos r); lra).
  assert (H2 : h <= 1/2) by apply Rmin_r.
  pose proof (Hr h ltac:(lra) ltac:(rewrite Rabs_pos_eq by lra; exact H1)) as A.
  pose proof (Hr (- h) ltac:(lra) ltac:(rewrite Rabs_left by lra; lra)) as B.
  rewrite !V in A, B by lra.
  destruct (Rlt_dec 1 1); [lra|]. destruct (Rlt_dec (1 + h) 1); [lra|]. destruct (Rlt_dec (1 + - h) 1); [|lra].
  replace ((2 - (1 + h) - (2 - 1)) / h) with (- 1) in A by (field; lra).
  replace ((1 + - h - (2 - 1)) / - h) with 1 in B by (field; lra).
  apply Rabs_def2 in A. apply Rabs_def2 in B. lra.
Qed.
Print Assumptions C97_curve_smooth.
Print Assumptions C47_at_knots_partial.
Print Assumptions C124_smooth.
Print Assumptions C124_derivative_at_knots.
