(** C44, every parameter of the true domain.  [eps <= t - U k]: the value of
    C44_value_partial.  Less than EPSILON after the knot U k the code takes the
    weight of every knot that close for 0; control point k is then not missing, and
    the curve is met up to D eps / (U (k+1) - U k) times the spread of the control
    points of the span. *)
From Coq Require Import Reals List Arith Lia Lra.
From Verif Require Import Base.Outcome Base.Scalar Model.Point Model.BSpline Inst.RealInst
  Spec.Lawful Spec.Points Spec.Basis Proofs.RealTac Proofs.BSplineGeneric Proofs.BSplineEval Proofs.SplineNear.
Import ListNotations.
Local Open Scope R_scope.

Theorem C44_everywhere_partial {E : Eps} {P : Type} {PT : Point R P} {LP : LawfulPoint P} D ks (ps : list P) s t
  (U := fun i => nth i ks 0) (C := length ps) :
  bspline_new D ks ps = Ret (Ok s) -> (1 <= D)%nat -> bs_kind s <> Unclamped -> U D <= t < U C ->
  exists k p, (D <= k < C)%nat /\ U k <= t < U (k + 1)%nat /\ bspline_eval s t = Ret (Ok p) /\
    (eps <= t - U k -> forall i, (i < p_dim (P := P))%nat ->
       coord p i = spline_coord D ks ps t i - basis U D k t * coord (nth k ps p_default) i) /\
    (t - U k < eps -> forall i lo hi, (i < p_dim (P := P))%nat ->
       (forall m, (k - D <= m <= k)%nat -> lo <= coord (nth m ps p_default) i <= hi) ->
       Rabs (coord p i - spline_coord D ks ps t i) <= INR D * (eps / (U (k + 1)%nat - U k)) * (hi - lo)).
Proof. exact (fun H => eval_everywhere D ks ps s H t). Qed.

(** the middle probe of an unclamped spline *)
Theorem C44_unclamped_near_partial {E : Eps} {P : Type} {PT : Point R P} {LP : LawfulPoint P} D ks (ps : list P) s t
  (U := fun i => nth i ks 0) (C := length ps) (k := ((C + D + 1) / 2)%nat) :
  bspline_new D ks ps = Ret (Ok s) -> (1 <= D)%nat -> bs_kind s = Unclamped -> (k < C)%nat ->
  U k <= t < U (k + 1)%nat -> t - U k < eps ->
  exists p, bspline_eval s t = Ret (Ok p) /\
    forall i lo hi, (i < p_dim (P := P))%nat ->
       (forall m, (k - D <= m <= k)%nat -> lo <= coord (nth m ps p_default) i <= hi) ->
       Rabs (coord p i - spline_coord D ks ps t i) <= INR D * (eps / (U (k + 1)%nat - U k)) * (hi - lo).
Proof. exact (fun H => unclamped_near_knot D ks ps s H t). Qed.

(** knots 0,0,0,1,3,3,3: half of EPSILON after the knot 1 the curve is met up to EPSILON
    times the spread of the last three control points, 9 - 2; and 1 + eps/2 is in the
    span of the knot 3 of the list *)
Example C44_near_ex : let E := Eps64 in
  exists (s : bspline R P1) p, bspline_new 2 [0;0;0;1;3;3;3] [pt1 0; pt1 2; pt1 4; pt1 9] = Ret (Ok s) /\
    bspline_eval s (1 + eps / 2) = Ret (Ok p) /\
    Rabs (coord p 0 - spline_coord 2 [0;0;0;1;3;3;3] [pt1 0; pt1 2; pt1 4; pt1 9] (1 + eps / 2) 0) <= eps * 7.
Proof.
  intros E. destruct (proj2 (new_ok_iff (ST := RScalar) 2 [0;0;0;1;3;3;3] [pt1 0; pt1 2; pt1 4; pt1 9])) as [s H].
  { split; [cbn; lia|]. split; [reflexivity|]. intros i Hi. cbn [length] in Hi. rs. apply Rltb_false.
    do 6 (destruct i as [|i]; [cbn; lra|]). lia. }
  assert (He : 0 < eps < 1).
  { change (0 < / 2 ^ 52 < 1). assert (1 < 2 ^ 52) by (replace 1 with (2 ^ 0) by ring; apply Rlt_pow; [lra|lia]).
    split; [apply Rinv_0_lt_compat; lra|]. rewrite <- Rinv_1. apply Rinv_lt_contravar; lra. }
  assert (K : bs_kind s <> Unclamped).
  { destruct (kind_spec _ _ _ _ H) as [[_ A] _]. destruct A as [A|A]; [cbn [nth]; lra|rewrite A; discriminate|rewrite A; discriminate]. }
  destruct (C44_everywhere_partial _ _ _ _ (1 + eps / 2) H) as (k & p & Hk & Hb & Ep & _ & V); cbn [nth length] in *;
    [lia|exact K|lra|].
  assert (k = 3%nat).
  { cbn [length] in Hk. assert (k = 2 \/ k = 3)%nat as [-> | ->] by lia; [cbn [nth Nat.add] in Hb; lra|reflexivity]. }
  subst k. exists s, p. split; [exact H|]. split; [exact Ep|]. cbn [nth Nat.add] in V.
  specialize (V ltac:(lra) 0%nat 2 9 ltac:(cbn; lia)).
  eapply Rle_trans; [apply V|].
  - intros m Hm. cbn [Nat.sub] in Hm. assert (m = 1 \/ m = 2 \/ m = 3)%nat as [->|[->| ->]] by lia; cbn; lra.
  - cbn [INR]. right. field.
Qed.
Print Assumptions C44_everywhere_partial.
