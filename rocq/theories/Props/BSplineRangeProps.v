(** C90, C91: where the results of [BSpline::eval] lie, and its limit at the right end.
    U i is knot i, C the number of control points. *)
From Coq Require Import Reals List Arith Lia Lra.
From Verif Require Import Base.Outcome Base.Scalar Model.Point Model.BSpline Inst.RealInst
  Spec.Sums Spec.Lawful Spec.Points Spec.Hull Spec.Basis Spec.Stability
  Proofs.PointFacts Proofs.RealTac Proofs.BSplineEval Proofs.BSplineRange Proofs.BSplineRangeCE Props.BSplineProps.
Import ListNotations.
Local Open Scope R_scope.

Section Range.
  Context {E : Eps} {P : Type} {PT : Point R P} {LP : LawfulPoint P}.
  Variables (D : nat) (ks : list R) (ps : list P) (s : bspline R P).
  Hypothesis Hnew : bspline_new D ks ps = Ret (Ok s).
  Local Notation C := (length ps).
  Local Notation U i := (nth i ks 0).

  (** C90: whatever the kind of the knot vector, a returned point is a convex combination
      of the control points and the origin, except at the last knot of a spline clamped at
      its start only *)
  Theorem C90_hull t p : bspline_eval s t = Ret (Ok p) ->
    ~ (bs_kind s = ClampedStart /\ t = U (C + D) /\ U C < t) -> in_hull (ps ++ [p_default]) p.
  Proof. exact (eval_in_hull D ks ps s Hnew t p). Qed.
  Theorem C90_norm t p M : 0 <= M -> (forall q, In q ps -> dist q p_default <= M) ->
    bspline_eval s t = Ret (Ok p) ->
    ~ (bs_kind s = ClampedStart /\ t = U (C + D) /\ U C < t) -> dist p p_default <= M.
  Proof. exact (eval_norm D ks ps s Hnew t p M). Qed.
  (** control points moved by [d] at most *)
  Theorem C90_stable qs s' d t : bspline_new D ks qs = Ret (Ok s') -> 0 <= d -> near_points ps qs d ->
    (bspline_eval s t = Panic -> bspline_eval s' t = Panic) /\
    (forall e, bspline_eval s t = Ret (Err e) -> bspline_eval s' t = Ret (Err e)) /\
    (forall p, bspline_eval s t = Ret (Ok p) -> exists q, bspline_eval s' t = Ret (Ok q) /\
       (~ (bs_kind s = ClampedStart /\ t = U (C + D) /\ U C < t) -> dist p q <= d)).
  Proof. intros Hnew' Hd Hn. exact (eval_near D ks ps s Hnew qs s' d Hnew' Hd Hn t). Qed.

  (** C91: in a span k whose right end is a D-fold knot the result goes to the origin *)
  Theorem C91_decay t k M : 0 <= M -> (forall q, In q ps -> dist q p_default <= M) ->
    (D <= k < C)%nat -> bs_kind s <> Unclamped -> U k + eps <= t < U (k + 1) -> U (k + D) = U (k + 1) ->
    exists p, bspline_eval s t = Ret (Ok p) /\
      dist p p_default <= INR D * M * ((U (k + 1) - t) / (U (k + 1) - U k)).
  Proof.
    intros HM Hq Hk Hu Ht Hm. pose proof (eps_pos).
    pose proof (U_le D ks ps s Hnew D k ltac:(pose proof (sizes D ks ps s Hnew); lia)).
    pose proof (U_le D ks ps s Hnew (k + 1) C ltac:(pose proof (sizes D ks ps s Hnew); lia)).
    apply (eval_decay D ks ps s Hnew t k M); auto; try lra. apply good_clamped; auto. lra.
  Qed.
  Theorem C91_limit k : (D <= k < C)%nat -> bs_kind s <> Unclamped ->
    eps < U (k + 1) - U k -> U (k + D) = U (k + 1) ->
    forall e, 0 < e -> exists h, 0 < h /\ forall t, U (k + 1) - h < t < U (k + 1) ->
      exists p, bspline_eval s t = Ret (Ok p) /\ dist p p_default < e.
  Proof. exact (eval_limit_end D ks ps s Hnew k). Qed.
  (** at the end of the domain, where the last control point is returned: no continuity *)
  Theorem C91_continuous_iff : bs_kind s <> Unclamped -> (1 <= D)%nat ->
    eps < U C - U (C - 1) -> U (C + D - 1) = U C ->
    (forall e, 0 < e -> exists h, 0 < h /\ forall t, U C - h < t < U C ->
       exists p x, bspline_eval s t = Ret (Ok p) /\ bspline_eval s (U C) = Ret (Ok x) /\ dist p x < e) <->
    nth (C - 1) ps p_default = p_default.
  Proof. exact (eval_end_continuous_iff D ks ps s Hnew). Qed.
End Range.

Section Examples.
  Local Existing Instance Eps64.

  (** the exception of C90: control points 1 and 1, value -2 at the end of the reported domain *)
  Theorem C90_last_knot_refuted : exists s : bspline R P1,
    bspline_new 1 [0;0;1;3] [pt1 1; pt1 1] = Ret (Ok s) /\ bs_kind s = ClampedStart /\
    knot_domain s = Ret (0, 3) /\ bspline_eval s 3 = Ret (Ok (pt1 (-2))) /\
    ~ in_hull [pt1 1; pt1 1; p_default] (pt1 (-2)).
  Proof. exact overshoot_ce. Qed.

  (** the quadratic of C38_ex and one with its last control point moved: hypotheses of C90 *)
  Example C90_ex : exists s s', bspline_new 2 [0;0;0;1;2;2;2] [pt2 0 0; pt2 1 2; pt2 3 2; pt2 4 0] = Ret (Ok s) /\
    bspline_new 2 [0;0;0;1;2;2;2] [pt2 0 0; pt2 1 2; pt2 3 2; pt2 4 1] = Ret (Ok s') /\
    near_points [pt2 0 0; pt2 1 2; pt2 3 2; pt2 4 0] [pt2 0 0; pt2 1 2; pt2 3 2; pt2 4 1] 1.
  Proof.
    destruct C38_ex as (s & H & _).
    assert (H' : exists s, bspline_new 2 [0;0;0;1;2;2;2] [pt2 0 0; pt2 1 2; pt2 3 2; pt2 4 1] = Ret (Ok s)).
    { apply C38_accepts. exact (proj1 (C38_accepts 2 _ _) (ex_intro _ s H)). }
    destruct H' as (s' & H'). exists s, s'. split; [exact H|]. split; [exact H'|]. split; [reflexivity|].
    intros k p q Hp Hq. do 3 (destruct k as [|k]; [injection Hp as <-; injection Hq as <-; rewrite Metric.dist_refl; lra|]).
    destruct k as [|k]; [|destruct k; discriminate]. injection Hp as <-. injection Hq as <-.
    unfold dist. apply Rle_trans with (sqrt 1); [|rewrite sqrt_1; lra]. apply sqrt_le_1_alt. cbn. lra.
  Qed.
  (** its last control point is (4, 0), so it jumps at its end: hypotheses of C91_continuous_iff *)
  Example C91_ex : exists s, bspline_new 2 [0;0;0;1;2;2;2] [pt2 0 0; pt2 1 2; pt2 3 2; pt2 4 0] = Ret (Ok s) /\
    bs_kind s <> Unclamped /\ (let ks := [0;0;0;1;2;2;2] in eps < nth 4 ks 0 - nth (4 - 1) ks 0 /\ nth (4 + 2 - 1) ks 0 = nth 4 ks 0) /\
    pt2 4 0 <> p_default.
  Proof.
    destruct C38_ex as (s & H & Hk). exists s. split; [exact H|]. split; [congruence|]. split.
    - cbn [nth Nat.sub Nat.add]. split; [|reflexivity]. change (/ 2 ^ 52 < 2 - 1).
      replace (2 - 1) with (/ 1) by lra. apply Rinv_lt_contravar; [rewrite Rmult_1_l; apply pow_lt; lra|].
      apply Rlt_pow_R1; [lra|lia].
    - intros H0. pose proof (f_equal (fun p => coord p 0) H0) as H1. cbn in H1. lra.
  Qed.
End Examples.

Print Assumptions C90_hull.
Print Assumptions C90_norm.
Print Assumptions C90_stable.
Print Assumptions C91_decay.
Print Assumptions C91_limit.
Print Assumptions C91_continuous_iff.
Print Assumptions C90_last_knot_refuted.
