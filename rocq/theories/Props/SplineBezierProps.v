(** C135: every span of a B-spline is a Bezier curve of the same degree, with its points in the hull of
    the control points that act on the span.  For the curve, for the repaired evaluation (C124), and for
    the code of a spline clamped at a side: its values from EPSILON after the first knot of the span on
    are those of [Bezier::eval] too, the last of the control points replaced by the origin. *)
From Coq Require Import Reals List Arith Lia Lra.
From Verif Require Import Base.Outcome Base.Scalar Model.Point Model.Bezier Model.BSpline Model.Repairs Inst.RealInst
  Spec.Sums Spec.Lawful Spec.Basis Spec.Hull Spec.Points
  Proofs.PointFacts Proofs.RealTac Proofs.BSplineGeneric Proofs.RepairSpline Proofs.SplineBezier Props.BSplineProps.
Import ListNotations.
Local Open Scope R_scope.

Theorem C135_curve {E : Eps} {P : Type} {PT : Point R P} {LP : LawfulPoint P} (D : nat) (ks : list R) (ps : list P) k :
  sorted ks -> length ks = (length ps + D + 1)%nat -> (D <= k < length ps)%nat -> nth k ks 0 < nth (k + 1) ks 0 ->
  exists qs, length qs = (D + 1)%nat /\ (forall q, In q qs -> in_hull (firstn (D + 1) (skipn (k - D) ps)) q) /\
    forall t, nth k ks 0 <= t < nth (k + 1) ks 0 ->
      exists p, bezier_eval (Bezier qs) ((t - nth k ks 0) / (nth (k + 1) ks 0 - nth k ks 0)) = Ret p /\
        forall i, (i < p_dim (P := P))%nat -> coord p i = spline_coord D ks ps t i.
Proof. exact (curve_bezier D ks ps k). Qed.

Section Code.
  Context {E : Eps} {P : Type} {PT : Point R P} {LP : LawfulPoint P}.
  Variables (D : nat) (ks : list R) (ps : list P) (s : bspline R P).
  Hypothesis Hnew : bspline_new D ks ps = Ret (Ok s).
  Local Notation U i := (nth i ks 0).
  Local Notation C := (length ps).

  Theorem C135_span k : bs_kind s <> Unclamped -> (D <= k < C)%nat -> U k < U (k + 1) ->
    exists qs, length qs = (D + 1)%nat /\ (forall q, In q qs -> in_hull (firstn D (skipn (k - D) ps) ++ [p_default]) q) /\
      forall t, U k + eps <= t < U (k + 1) -> exists p, bspline_eval s t = Ret (Ok p) /\
        bezier_eval (Bezier qs) ((t - U k) / (U (k + 1) - U k)) = Ret p.
  Proof. exact (code_bezier D ks ps s Hnew k). Qed.

  (** the last knot of the domain belongs to the last span *)
  Theorem C124_span_bezier k : (D <= k < C)%nat -> U k < U (k + 1) ->
    exists qs, length qs = (D + 1)%nat /\ (forall q, In q qs -> in_hull (firstn (D + 1) (skipn (k - D) ps)) q) /\
      forall t, U k <= t -> t < U (k + 1) \/ (t = U (k + 1) /\ k + 1 = C)%nat -> exists p, fixed_eval s t = Ret (Ok p) /\
        bezier_eval (Bezier qs) ((t - U k) / (U (k + 1) - U k)) = Ret p.
  Proof. exact (fixed_bezier D ks ps s Hnew k). Qed.
End Code.

(** ** Instances: the quadratic of C38_ex on [0, 1] and on [1, 2] *)
Section Instances.
  Local Existing Instance Eps64.
  Ltac entries :=
    unfold span_points; cbn [bs_degree seq map Nat.add]; repeat (apply f_equal2; [|try reflexivity]);
    apply lp_ext; intros i Hi; cbn [bez]; unfold ratio, cpoint, knot;
    cbn [erase firstn skipn app bs_degree bs_knots bs_points nth Nat.add Nat.sub Nat.min INR];
    coords; change (p_dim (P := P2)) with 2%nat in Hi;
    (destruct i as [|[|i]]; [| |exfalso; lia]);
    repeat match goal with
      | |- context [coord (pt2 ?x ?y) 0] => change (coord (pt2 x y) 0%nat) with x
      | |- context [coord (pt2 ?x ?y) 1] => change (coord (pt2 x y) 1%nat) with y end;
    field.

  (** [0, 1], the whole curve: (0,0), (1,2), (2,2) *)
  Example C135_ex_curve : span_points (BSpline 2 [0;0;0;1;2;2;2] Clamped [pt2 0 0; pt2 1 2; pt2 3 2; pt2 4 0]) 2
    = [pt2 0 0; pt2 1 2; pt2 2 2].
  Proof. entries. Qed.
  Example C135_ex : exists s, bspline_new 2 [0;0;0;1;2;2;2] [pt2 0 0; pt2 1 2; pt2 3 2; pt2 4 0] = Ret (Ok s) /\
    (forall t, 0 + eps <= t < 1 -> exists p, bspline_eval s t = Ret (Ok p) /\
       bezier_eval (Bezier [pt2 0 0; pt2 1 2; pt2 (/ 2) 1]) ((t - 0) / (1 - 0)) = Ret p) /\
    (forall t, 1 + eps <= t < 2 -> exists p, bspline_eval s t = Ret (Ok p) /\
       bezier_eval (Bezier [pt2 2 2; pt2 3 2; pt2 0 0]) ((t - 1) / (2 - 1)) = Ret p).
  Proof.
    assert (A : span_points (BSpline 2 [0;0;0;1;2;2;2] Clamped (erase p_default 2 [pt2 0 0; pt2 1 2; pt2 3 2; pt2 4 0])) 2
      = [pt2 0 0; pt2 1 2; pt2 (/ 2) 1]) by entries.
    assert (B : span_points (BSpline 2 [0;0;0;1;2;2;2] Clamped (erase p_default 3 [pt2 0 0; pt2 1 2; pt2 3 2; pt2 4 0])) 3
      = [pt2 2 2; pt2 3 2; pt2 0 0]) by entries.
    destruct C38_ex as (s & H & Hk). exists s. split; [exact H|]. split; intros t Ht.
    - rewrite <- A. exact (code_span 2 _ _ s H 2 t ltac:(congruence) ltac:(cbn; lia) Ht).
    - rewrite <- B. exact (code_span 2 _ _ s H 3 t ltac:(congruence) ltac:(cbn; lia) Ht).
  Qed.
End Instances.
Print Assumptions C135_curve.
Print Assumptions C135_span.
Print Assumptions C124_span_bezier.
