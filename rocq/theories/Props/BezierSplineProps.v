(** C89: B-splines with the knots of a Bezier curve, D+1 times [a] and D+1 times [b]. *)
From Coq Require Import Reals List Arith Lia Lra.
From Verif Require Import Base.Outcome Base.Scalar Model.Point Model.Bezier Model.BSpline Inst.RealInst
  Spec.Sums Spec.Lawful Spec.Points Spec.Basis Spec.Bernstein
  Proofs.PointFacts Proofs.RealTac Proofs.BSplineEval Proofs.BezierSpline Props.BSplineProps.
Import ListNotations.
Local Open Scope R_scope.

Section Splines.
  Context {E : Eps} {P : Type} {PT : Point R P} {LP : LawfulPoint P}.

  (** the textbook spline over these knots is the textbook Bezier curve *)
  Theorem C89_spec D a b (ps : list P) t i : a < b -> length ps = (D + 1)%nat -> a <= t < b ->
    spline_coord D (repeat a (D + 1) ++ repeat b (D + 1)) ps t i = curve_coord ps ((t - a) / (b - a)) i.
  Proof. intros Hab HC. exact (bezier_spline_coord D a b ps Hab HC t i). Qed.
  (** the code evaluates the Bezier curve whose last control point is moved to the origin *)
  Theorem C89_eval D a b (ps : list P) s t : a < b -> length ps = (D + 1)%nat ->
    bspline_new D (repeat a (D + 1) ++ repeat b (D + 1)) ps = Ret (Ok s) ->
    a <= t < b -> t = a \/ eps <= t - a ->
    exists p, bspline_eval s t = Ret (Ok p) /\
      (forall i, (i < p_dim (P := P))%nat ->
        coord p i = curve_coord ps ((t - a) / (b - a)) i - ((t - a) / (b - a)) ^ D * coord (nth D ps p_default) i) /\
      bezier_eval (Bezier (firstn D ps ++ [p_default])) ((t - a) / (b - a)) = Ret p.
  Proof. intros Hab HC Hnew. exact (bezier_spline_eval D a b ps Hab HC s Hnew t). Qed.
  Theorem C89_right_iff D a b (ps : list P) s t : a < b -> length ps = (D + 1)%nat ->
    bspline_new D (repeat a (D + 1) ++ repeat b (D + 1)) ps = Ret (Ok s) ->
    (1 <= D)%nat -> a < t < b -> eps <= t - a ->
    (exists p, bspline_eval s t = Ret (Ok p) /\ bezier_eval (Bezier ps) ((t - a) / (b - a)) = Ret p) <->
    nth D ps p_default = p_default.
  Proof. intros Hab HC Hnew. exact (bezier_spline_right_iff D a b ps Hab HC s Hnew t). Qed.
  Theorem C89_start D a b (ps : list P) s t : a < b -> length ps = (D + 1)%nat ->
    bspline_new D (repeat a (D + 1) ++ repeat b (D + 1)) ps = Ret (Ok s) ->
    (1 <= D)%nat -> a <= t < b -> t - a < eps ->
    bspline_eval s t = Ret (Ok (nth 0 ps p_default)).
  Proof. intros Hab HC Hnew. exact (bezier_spline_start D a b ps HC s Hnew t). Qed.
End Splines.

Section Examples.
  Local Existing Instance Eps64.
  (** knots 0,0,0,1,1,1: at 1/2 the parabola through 0, 2, 4 is at 2, the spline at 1 *)
  Example C89_ex : exists s : bspline R P1,
    bspline_new 2 (repeat 0 (2 + 1) ++ repeat 1 (2 + 1)) [pt1 0; pt1 2; pt1 4] = Ret (Ok s) /\
    bezier_eval (Bezier [pt1 0; pt1 2; pt1 4]) (1/2) = Ret (pt1 2) /\
    bspline_eval s (1/2) = Ret (Ok (pt1 1)).
  Proof.
    assert (He : eps <= 1/2).
    { change (/ 2 ^ 52 <= 1/2). rewrite <- (Rmult_1_l (/ 2 ^ 52)). unfold Rdiv. rewrite !Rmult_1_l.
      apply Rinv_le_contravar; [lra|]. replace 2 with (2 ^ 1) at 1 by ring. apply Rle_pow; [lra|lia]. }
    assert (H : exists s, bspline_new 2 (repeat 0 (2 + 1) ++ repeat 1 (2 + 1)) [pt1 0; pt1 2; pt1 4] = Ret (Ok s)).
    { apply C38_accepts. cbn [repeat app length Nat.add]. split; [lia|]. split; [lia|]. intros i Hi.
      do 5 (destruct i as [|i]; [cbn [repeat app nth Nat.add]; apply Rltb_false; change (s_lit 0) with 0; lra|]). lia. }
    destruct H as (s & H). exists s. split; [exact H|].
    assert (Hu : (1/2 - 0) / (1 - 0) = 1/2) by lra. split.
    - destruct (BezierReal.bezier_eval_spec [pt1 0; pt1 2; pt1 4] (1/2) ltac:(discriminate)) as (x & Hx & HX).
      rewrite Hx. f_equal. apply lp_ext. intros i Hi. rewrite (HX i Hi).
      change (p_dim (P := P1)) with 1%nat in Hi. assert (i = 0%nat) by lia. subst i.
      cbv [curve_coord bezier_poly bernstein binom Rsum map length nth coord pow]. simpl. lra.
    - destruct (C89_eval 2 0 1 [pt1 0; pt1 2; pt1 4] s (1/2) ltac:(lra) eq_refl H ltac:(lra) ltac:(lra)) as (p & Hp & HP & _).
      rewrite Hp. do 2 f_equal. apply lp_ext. intros i Hi. rewrite (HP i Hi), Hu.
      change (p_dim (P := P1)) with 1%nat in Hi. assert (i = 0%nat) by lia. subst i. simpl.
      cbv [curve_coord bezier_poly bernstein binom]. simpl. lra.
  Qed.
End Examples.

Print Assumptions C89_spec.
Print Assumptions C89_eval.
Print Assumptions C89_right_iff.
Print Assumptions C89_start.
