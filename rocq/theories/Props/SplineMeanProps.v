(** C134: the mean of a clamped B-spline over its domain is the mean of its control points, each weighted
    with the distance of the knots between which it acts.  For the curve and for the repaired
    evaluation (C124); for the code the exact integral it misses on each span ([_partial]), and a line
    whose mean is wrong ([_refuted]). *)
From Coq Require Import Reals List Arith Lia Lra.
From Coquelicot Require Import Coquelicot.
From Verif Require Import Base.Outcome Base.Scalar Model.Point Model.BSpline Model.Repairs Inst.RealInst
  Spec.Sums Spec.Lawful Spec.Basis Spec.Limits Spec.Points
  Proofs.PointFacts Proofs.RealTac Proofs.BoxSpec Proofs.BSplineCE Proofs.BSplineRange Proofs.SplineSmooth Proofs.BSplineJump Proofs.SplineMean Proofs.SplineMeanCE.
Import ListNotations.
Local Open Scope R_scope.

(** one basis function, over any interval that holds its support *)
Theorem C134_basis U D j a b : (forall a b, (j <= a <= b)%nat -> (b <= j + D + 1)%nat -> U a <= U b) ->
  a <= U j -> U (j + D + 1)%nat <= b -> is_RInt (basis U D j) a b ((U (j + D + 1)%nat - U j) / INR (S D)).
Proof. exact (basis_integral U D j a b). Qed.

Section Curve.
  Context {P : Type} {PT : Point R P} {LP : LawfulPoint P}.
  Variables (D : nat) (ks : list R) (ps : list P).
  Local Notation C := (length ps).
  Local Notation U i := (nth i ks 0).
  Hypotheses (Hs : forall i j, (i <= j < length ks)%nat -> U i <= U j) (HK : length ks = (C + D + 1)%nat) (HC : (D < C)%nat).
  Hypotheses (H0 : U 0 = U D) (H1 : U C = U (C + D)).
  Theorem C134_curve i : is_RInt (fun t => spline_coord D ks ps t i) (U D) (U C)
    (Rsum (fun j => (U (j + D + 1) - U j) / INR (S D) * coord (nth j ps p_default) i) C).
  Proof. exact (curve_mean D ks ps Hs HK HC H0 H1 i). Qed.
  Theorem C134_weights : Rsum (fun j => (U (j + D + 1) - U j) / INR (S D)) C = U C - U D.
  Proof. exact (mean_weights D ks ps Hs HK HC H0 H1). Qed.
End Curve.

Section Code.
  Context {E : Eps} {P : Type} {PT : Point R P} {LP : LawfulPoint P}.
  Variables (D : nat) (ks : list R) (ps : list P) (s : bspline R P).
  Hypothesis Hnew : bspline_new D ks ps = Ret (Ok s).
  Local Notation C := (length ps).
  Local Notation U i := (nth i ks 0).

  (** the integral of curve minus evaluation; not 0 unless the control point is.
      Missing: the first EPSILON of the span *)
  Theorem C134_span_partial k (e : R -> P) i : bs_kind s <> Unclamped -> (D <= k < C)%nat -> U k + eps <= U (k + 1) ->
    (forall t, U k + eps <= t < U (k + 1) -> bspline_eval s t = Ret (Ok (e t))) -> (i < p_dim (P := P))%nat ->
    is_RInt (fun t => spline_coord D ks ps t i - coord (e t) i) (U k + eps) (U (k + 1))
      (((U (k + 1) - U k) ^ S D - eps ^ S D) / (INR (S D) * Rprod (fun r => U (k + 1 + r) - U k) D) * coord (nth k ps p_default) i).
  Proof. exact (span_defect D ks ps s Hnew k e i). Qed.

  Theorem C124_mean (e : R -> P) i : (forall y, U D <= y <= U C -> fixed_eval s y = Ret (Ok (e y))) ->
    U 0 = U D -> U C = U (C + D) -> (i < p_dim (P := P))%nat ->
    is_RInt (fun t => coord (e t) i) (U D) (U C)
      (Rsum (fun j => (U (j + D + 1) - U j) / INR (S D) * coord (nth j ps p_default) i) C).
  Proof. exact (fixed_mean D ks ps s Hnew e i). Qed.
End Code.

Section Line.
  Local Existing Instance Eps64.
  (** the line from 0 to 1: whatever integral the code's values have, it is not 1/2 *)
  Theorem C134_refuted : exists s : bspline R P1, bspline_new 1 [0;0;1;1] [pt1 0; pt1 1] = Ret (Ok s) /\
    knot_domain s = Ret (0, 1) /\
    (Rsum (fun j => (nth (j + 1 + 1) [0;0;1;1] 0 - nth j [0;0;1;1] 0) / INR 2 * coord (nth j [pt1 0; pt1 1] p_default) 0) 2 = / 2) /\
    forall e, (forall t, 0 <= t <= 1 -> bspline_eval s t = Ret (Ok (e t))) -> ~ is_RInt (fun t => coord (e t) 0) 0 1 (/ 2).
  Proof. exact line_mean_ce. Qed.
End Line.

(** ** Instances *)
Section Instances.
  Local Existing Instance Eps64.
  (** weights 1/3, 2/3, 2/3, 1/3 on [0, 2] *)
  Example C134_ex : is_RInt (fun t => spline_coord 2 [0;0;0;1;2;2;2] [pt2 0 0; pt2 1 2; pt2 3 2; pt2 4 0] t 1) 0 2 (8 / 3).
  Proof.
    assert (S : forall a b, (a <= b < 7)%nat -> nth a [0;0;0;1;2;2;2] 0 <= nth b [0;0;0;1;2;2;2] 0).
    { intros a b [Hab Hb]. do 7 (destruct b as [|b]; [do 7 (destruct a as [|a]; [first [lia|cbn; lra]|]); lia|]). lia. }
    pose proof (C134_curve 2 [0;0;0;1;2;2;2] [pt2 0 0; pt2 1 2; pt2 3 2; pt2 4 0] S eq_refl ltac:(cbn; lia) eq_refl eq_refl 1%nat) as H.
    match type of H with is_RInt _ _ _ ?v => replace (8 / 3) with v; [exact H|] end.
    cbn. field.
  Qed.
  (** on the line from 0 to 1 the code misses the whole integral *)
  Example C134_span_ex : exists (s : bspline R P1) e, bspline_new 1 [0;0;1;1] [pt1 0; pt1 1] = Ret (Ok s) /\
    (forall t, eps <= t < 1 -> bspline_eval s t = Ret (Ok (e t))) /\
    is_RInt (fun t => spline_coord 1 [0;0;1;1] [pt1 0; pt1 1] t 0 - coord (e t) 0) (0 + eps) 1 ((1 - eps ^ 2) / 2).
  Proof.
    destruct line_clamped as (s & Hs & Hk).
    assert (L : eps < 1) by (change (/ 2 ^ 52 < 1); rewrite <- Rinv_1; apply Rinv_lt_contravar; [rewrite Rmult_1_l; apply pow_lt; lra|apply Rlt_pow_R1; [lra|lia]]).
    assert (He : forall t, 0 + eps <= t < 1 -> bspline_eval s t = Ret (Ok (match bspline_eval s t with Ret (Ok p) => p | _ => p_default end))).
    { intros t Ht. destruct (eval_in_span 1 [0;0;1;1] [pt1 0; pt1 1] s Hs t 1 ltac:(congruence) ltac:(cbn; lia) ltac:(cbn [nth Nat.add]; lra)) as (p & -> & _). reflexivity. }
    exists s, (fun t => match bspline_eval s t with Ret (Ok p) => p | _ => p_default end).
    split; [exact Hs|]. split; [intros t Ht; apply He; lra|].
    pose proof (C134_span_partial 1 [0;0;1;1] [pt1 0; pt1 1] s Hs 1 _ 0 ltac:(congruence) ltac:(cbn; lia) ltac:(cbn [nth Nat.add]; lra) He ltac:(cbn; lia)) as H.
    match type of H with is_RInt _ _ _ ?v => replace ((1 - eps ^ 2) / 2) with v; [exact H|] end.
    cbn -[eps]. field.
  Qed.
End Instances.
Print Assumptions C134_basis.
Print Assumptions C134_curve.
Print Assumptions C134_weights.
Print Assumptions C134_span_partial.
Print Assumptions C124_mean.
Print Assumptions C134_refuted.
