(** C128: a B-spline keeps the order of its control points along every direction and is no
    longer than its control polygon.  The curve does; the code does at the knots
    ([_partial]) and fails between them ([_refuted]); the repaired evaluation does
    everywhere (C124). *)
From Coq Require Import Reals List Arith Lia Lra.
From Verif Require Import Base.Outcome Base.Scalar Model.Point Model.BSpline Model.Repairs Inst.RealInst
  Spec.Sums Spec.Lawful Spec.Basis Spec.Metric Spec.Length Spec.Crossings Spec.SplinePoints Spec.Points
  Proofs.SplineOrder Proofs.RepairOrder Props.BSplineProps.
Import ListNotations.
Local Open Scope R_scope.

(** the curve itself, for any nondecreasing knots, multiple or not *)
Section Curve.
  Context {P : Type} {PT : Point R P} {LP : LawfulPoint P}.
  Variables (D : nat) (ks : list R) (ps : list P).
  Local Notation C := (length ps).
  Local Notation U i := (nth i ks 0).
  Hypotheses (Hs : forall i j, (i <= j < length ks)%nat -> U i <= U j) (HK : (C + D + 1 <= length ks)%nat) (HC : (D < C)%nat).

  Theorem C128_curve_order w t u p q : (forall k, (S k < C)%nat -> level w (nth k ps p_default) <= level w (nth (S k) ps p_default)) ->
    t <= u -> curve_point D ks ps t p -> curve_point D ks ps u q -> level w p <= level w q.
  Proof. exact (curve_order D ks ps Hs HK HC w t u p q). Qed.
  Theorem C128_curve_length ts qs : curve_points D ks ps ts qs ->
    (forall i j, (i <= j < length ts)%nat -> nth i ts 0 <= nth j ts 0) -> polygon_length qs <= polygon_length ps.
  Proof. exact (curve_length D ks ps Hs HK HC ts qs). Qed.
End Curve.

Section Code.
  Context {E : Eps} {P : Type} {PT : Point R P} {LP : LawfulPoint P}.
  Variables (D : nat) (ks : list R) (ps : list P) (s : bspline R P).
  Hypothesis Hnew : bspline_new D ks ps = Ret (Ok s).
  Local Notation C := (length ps).
  Local Notation U i := (nth i ks 0).

  Section Knots.
    Hypotheses (HD : (1 <= D)%nat) (Hkind : bs_kind s <> Unclamped)
      (Hsep : forall i j, (i < j < length ks)%nat -> U i < U j -> eps <= U j - U i).
    (** the values at the knots of the domain; missing: the parameters between them *)
    Theorem C128_order_at_knots_partial w j k p q :
      (forall k, (S k < C)%nat -> level w (nth k ps p_default) <= level w (nth (S k) ps p_default)) ->
      (D <= j <= k)%nat -> (k <= C)%nat -> bspline_eval s (U j) = Ret (Ok p) -> bspline_eval s (U k) = Ret (Ok q) ->
      level w p <= level w q.
    Proof. exact (knots_order D ks ps s Hnew HD Hkind Hsep w j k p q). Qed.
    Theorem C128_length_at_knots_partial qs : length qs = (C - D + 1)%nat ->
      (forall i, (i < length qs)%nat -> bspline_eval s (U (D + i)) = Ret (Ok (nth i qs p_default))) ->
      polygon_length qs <= polygon_length ps.
    Proof. exact (knots_length D ks ps s Hnew HD Hkind Hsep qs). Qed.
  End Knots.

  Section Repaired.
    Hypotheses (Hend : U C = U (C + D)) (Hlast : U (C - 1) < U C).
    Theorem C124_order w t u p q :
      (forall k, (S k < C)%nat -> level w (nth k ps p_default) <= level w (nth (S k) ps p_default)) ->
      U D <= t -> t <= u -> u <= U C -> fixed_eval s t = Ret (Ok p) -> fixed_eval s u = Ret (Ok q) ->
      level w p <= level w q.
    Proof. exact (fixed_order D ks ps s Hnew Hend Hlast w t u p q). Qed.
    Theorem C124_spline_length n a : (0 < n)%nat -> fixed_bspline_arclen s n = Ret a -> a <= polygon_length ps.
    Proof. exact (fixed_length D ks ps s Hnew Hend Hlast n a). Qed.
  End Repaired.
End Code.

Local Existing Instance Eps64.
(** both control points are 1; the values at 0, 1/2, 1 are 1, 1/2, 1 *)
Theorem C128_order_refuted : exists s : bspline R P1,
  bspline_new 1 [0;0;1;1] [pt1 1; pt1 1] = Ret (Ok s) /\ bs_kind s = Clamped /\
  bspline_eval s 0 = Ret (Ok (pt1 1)) /\ bspline_eval s (1/2) = Ret (Ok (pt1 (1/2))) /\
  bspline_eval s 1 = Ret (Ok (pt1 1)) /\
  polygon_length [pt1 1; pt1 1] = 0 /\ polygon_length [pt1 1; pt1 (1/2); pt1 1] = 1.
Proof. exact order_violated. Qed.

(** the quadratic of C38_ex runs to the right: its control points do, and its knots are apart *)
Example C128_ex s p q r : bspline_new 2 [0;0;0;1;2;2;2] [pt2 0 0; pt2 1 2; pt2 3 2; pt2 4 0] = Ret (Ok s) -> bs_kind s = Clamped ->
  bspline_eval s 0 = Ret (Ok p) -> bspline_eval s 1 = Ret (Ok q) -> bspline_eval s 2 = Ret (Ok r) ->
  coord p 0 <= coord q 0 <= coord r 0 /\
  polygon_length [p; q; r] <= polygon_length [pt2 0 0; pt2 1 2; pt2 3 2; pt2 4 0].
Proof.
  intros Hnew Hk Ep Eq Er.
  assert (Hsep : forall i j, (i < j < length [0;0;0;1;2;2;2])%nat -> nth i [0;0;0;1;2;2;2] 0 < nth j [0;0;0;1;2;2;2] 0 ->
    eps <= nth j [0;0;0;1;2;2;2] 0 - nth i [0;0;0;1;2;2;2] 0).
  { intros i j Hij. change eps with (/ 2 ^ 52). assert (H1 : / 2 ^ 52 <= / 1) by (apply Rinv_le_contravar; [lra|apply pow_R1_Rle; lra]).
    cbn [length] in Hij. do 7 (destruct j as [|j]; [do 7 (destruct i as [|i]; [cbn [nth]; lra|]); lia|]). lia. }
  pose (w := fun i => if Nat.eqb i 0 then 1 else 0).
  assert (L : forall p : P2, level w p = coord p 0).
  { intros x. unfold level. change (p_dim (P := P2)) with 2%nat. cbn [Rsum]. unfold w. cbn [Nat.eqb]. ring. }
  assert (Hw : forall k, (S k < length [pt2 0 0; pt2 1 2; pt2 3 2; pt2 4 0])%nat ->
    level w (nth k [pt2 0 0; pt2 1 2; pt2 3 2; pt2 4 0] p_default) <= level w (nth (S k) [pt2 0 0; pt2 1 2; pt2 3 2; pt2 4 0] p_default)).
  { intros k Hk'. rewrite !L. cbn [length] in Hk'. do 3 (destruct k as [|k]; [cbn [nth]; change (coord (pt2 ?x ?y) 0) with x; cbn; lra|]). lia. }
  assert (Hu : bs_kind s <> Unclamped) by congruence.
  rewrite <- !L. split; [split|].
  - apply (C128_order_at_knots_partial _ _ _ _ Hnew ltac:(lia) Hu Hsep w 2 3 p q Hw); cbn [length]; [lia|lia|exact Ep|exact Eq].
  - apply (C128_order_at_knots_partial _ _ _ _ Hnew ltac:(lia) Hu Hsep w 3 4 q r Hw); cbn [length]; [lia|lia|exact Eq|exact Er].
  - apply (C128_length_at_knots_partial _ _ _ _ Hnew ltac:(lia) Hu Hsep [p; q; r] eq_refl).
    intros i Hi. cbn [length] in Hi. destruct i as [|[|[|i]]]; [exact Ep|exact Eq|exact Er|lia].
Qed.

Print Assumptions C128_curve_order.
Print Assumptions C128_curve_length.
Print Assumptions C128_order_at_knots_partial.
Print Assumptions C128_length_at_knots_partial.
Print Assumptions C124_order.
Print Assumptions C124_spline_length.
Print Assumptions C128_order_refuted.
