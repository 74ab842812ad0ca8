(** C97: the B-spline curve is continuous where at most D knots coincide; the evaluation
    inside a span, its velocity, and its jumps at the inner knots (exact arithmetic). *)
From Coq Require Import Reals List Arith Lia Lra.
From Verif Require Import Base.Outcome Base.Scalar Model.Point Model.BSpline Inst.RealInst
  Spec.Sums Spec.Lawful Spec.Basis Spec.Limits Spec.Points
  Proofs.BSplineJump Props.BSplineProps.
Import ListNotations.
Local Open Scope R_scope.

(** the specification itself *)
Theorem C97_curve_continuous {P : Type} {PT : Point R P} {LP : LawfulPoint P} (D : nat) (ks : list R) (ps : list P) x i :
  sorted ks -> (length ps + D + 1 <= length ks)%nat ->
  (forall j, (j <= length ps)%nat -> ~ (nth j ks 0 = x /\ nth (j + D) ks 0 = x)) ->
  continuity_pt (fun t => spline_coord D ks ps t i) x.
Proof. exact (spline_continuous D ks ps x i). Qed.

Section Jumps.
  Context {E : Eps} {P : Type} {PT : Point R P} {LP : LawfulPoint P}.
  Variables (D : nat) (ks : list R) (ps : list P) (s : bspline R P).
  Hypothesis Hnew : bspline_new D ks ps = Ret (Ok s).
  Local Notation C := (length ps).
  Local Notation U i := (nth i ks 0).

  (** C44 with the dropped term in closed form *)
  Theorem C97_in_span t k : bs_kind s <> Unclamped -> (D <= k < C)%nat -> U k + eps <= t < U (k + 1) ->
    exists p, bspline_eval s t = Ret (Ok p) /\ forall i, (i < p_dim (P := P))%nat ->
      coord p i = spline_coord D ks ps t i
        - (t - U k) ^ D / Rprod (fun r => U (k + 1 + r) - U k) D * coord (nth k ps p_default) i.
  Proof. exact (eval_in_span D ks ps s Hnew t k). Qed.
  Theorem C97_velocity t k i : (1 <= D)%nat -> bs_kind s <> Unclamped -> (D <= k < C)%nat -> U k + eps < t < U (k + 1) ->
    (i < p_dim (P := P))%nat ->
    exists s' f, bspline_derivative s = Ret s' /\
      (forall y, U k + eps <= y < U (k + 1) -> exists p, bspline_eval s y = Ret (Ok p) /\ coord p i = f y) /\
      derivable_pt_lim f t (spline_coord (D - 1) (inner_knots ks) (bs_points s') t i
        - INR D * (t - U k) ^ (D - 1) / Rprod (fun r => U (k + 1 + r) - U k) D * coord (nth k ps p_default) i).
  Proof. exact (eval_velocity D ks ps s Hnew t k i). Qed.

  (** x = U (k+1) an inner knot at which no D + 1 knots coincide *)
  Section Knot.
    Variable k : nat.
    Hypotheses (Hkind : bs_kind s <> Unclamped) (Hk : (D <= k)%nat) (HC : (k + 1 < C)%nat)
      (Hgap : eps < U (k + 1) - U k)
      (Hmult : forall j, (j <= C)%nat -> ~ (U j = U (k + 1) /\ U (j + D) = U (k + 1))).
    Local Notation x := (U (k + 1)).
    Theorem C97_left_limit e : 0 < e -> exists h, 0 < h /\ forall t, x - h < t < x ->
      exists p, bspline_eval s t = Ret (Ok p) /\ forall i, (i < p_dim (P := P))%nat ->
        Rabs (coord p i - (spline_coord D ks ps x i - span_weight (fun m => U m) D k x * coord (nth k ps p_default) i)) < e.
    Proof. exact (eval_left_limit D ks ps s Hnew k Hkind Hk HC Hgap Hmult e). Qed.
    Theorem C97_weight : 0 < span_weight (fun m => U m) D k x <= 1.
    Proof.
      pose proof eps_pos. apply (weight_range01 (fun m => U m)); [apply (monoU D ks ps s Hnew); lia|lra|reflexivity].
    Qed.
    (** the evaluation is continuous at x from the left only if control point k is the origin *)
    Theorem C97_continuous_iff : (1 <= D)%nat -> x < U (k + 2) ->
      (forall i, (i < C + D)%nat -> U i < x -> eps <= x - U i) ->
      (forall e, 0 < e -> exists h, 0 < h /\ forall t, x - h < t < x ->
        exists p q, bspline_eval s t = Ret (Ok p) /\ bspline_eval s x = Ret (Ok q) /\
          forall i, (i < p_dim (P := P))%nat -> Rabs (coord p i - coord q i) < e) <->
      (forall i, (i < p_dim (P := P))%nat -> coord (nth k ps p_default) i = 0).
    Proof. exact (knot_continuous_iff D ks ps s Hnew k Hkind Hk HC Hgap Hmult). Qed.
  End Knot.
End Jumps.

(** the quadratic of C38_ex has one inner knot, 1 = U 3, and its third control point is (3, 2):
    the evaluation jumps there *)
Section Example_.
  Local Existing Instance Eps64.
  Lemma eps_half : eps < / 2.
  Proof.
    change (/ 2 ^ 52 < / 2). apply Rinv_lt_contravar; [apply Rmult_lt_0_compat; [lra|apply pow_lt; lra]|].
    replace 2 with (2 ^ 1) at 1 by ring. apply Rlt_pow; [lra|lia].
  Qed.
  Theorem C97_jump_refuted : exists s, bspline_new 2 [0;0;0;1;2;2;2] [pt2 0 0; pt2 1 2; pt2 3 2; pt2 4 0] = Ret (Ok s) /\
    ~ (forall e, 0 < e -> exists h, 0 < h /\ forall t, 1 - h < t < 1 ->
        exists p q, bspline_eval s t = Ret (Ok p) /\ bspline_eval s 1 = Ret (Ok q) /\
          forall i, (i < 2)%nat -> Rabs (coord p i - coord q i) < e).
  Proof.
    destruct C38_ex as (s & H & Hkind). exists s. split; [exact H|]. intros Hc. pose proof eps_half as He.
    assert (X := proj1 (C97_continuous_iff 2 [0;0;0;1;2;2;2] [pt2 0 0; pt2 1 2; pt2 3 2; pt2 4 0] s H 2
      ltac:(congruence) ltac:(lia) ltac:(cbn; lia) ltac:(cbn [nth Nat.add]; lra)
      ltac:(intros j Hj; cbn [length] in Hj; do 5 (destruct j as [|j]; [cbn [nth Nat.add]; lra|]); lia)
      ltac:(lia) ltac:(cbn [nth Nat.add]; lra)
      ltac:(intros i Hi; cbn [length Nat.add] in Hi; do 6 (destruct i as [|i]; [cbn [nth Nat.add]; lra|]); lia)) Hc 0%nat ltac:(cbn; lia)).
    cbn in X. lra.
  Qed.
End Example_.

Print Assumptions C97_curve_continuous.
Print Assumptions C97_in_span.
Print Assumptions C97_velocity.
Print Assumptions C97_left_limit.
Print Assumptions C97_weight.
Print Assumptions C97_continuous_iff.
Print Assumptions C97_jump_refuted.
