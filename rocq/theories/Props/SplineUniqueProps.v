(** C131: a B-spline is determined by its values. *)
From Coq Require Import Reals List Arith Lia Lra.
From Verif Require Import Base.Outcome Base.Scalar Model.Point Model.BSpline Model.Repairs Inst.RealInst
  Spec.Sums Spec.Lawful Spec.Basis Spec.Points
  Proofs.PointFacts Proofs.RealTac Proofs.BSplineGeneric Proofs.BSplineEval Proofs.BasisIndependent Proofs.SplineUnique.
Import ListNotations.
Local Open Scope R_scope.

(** ** The curve *)
Section Curve.
  Variables (D C : nat) (ks : list R).
  Hypothesis Hs : sorted ks.
  Hypothesis HK : length ks = (C + D + 1)%nat.
  Local Notation U i := (nth i ks 0).

  (** any piece of a span determines the D+1 coefficients of the span *)
  Theorem C131_piece (c c' : nat -> R) k a b : (D <= k < C)%nat -> a < b -> U k <= a -> b <= U (k + 1) ->
    (forall t, a < t < b -> Rsum (fun j => basis (fun m => U m) D j t * c j) C
                          = Rsum (fun j => basis (fun m => U m) D j t * c' j) C) ->
    forall j, (k - D <= j <= k)%nat -> c j = c' j.
  Proof. exact (piece_determines D ks C Hs HK c c' k a b). Qed.
  (** a control point is determined if its support meets the domain in an interval ... *)
  Theorem C131_curve {P : Type} {PT : Point R P} {LP : LawfulPoint P} (ps qs : list P) j :
    length ps = C -> length qs = C -> (j < C)%nat -> (D < C)%nat ->
    (forall t i, U D <= t < U C -> (i < p_dim (P := P))%nat -> spline_coord D ks ps t i = spline_coord D ks qs t i) ->
    U (Nat.max j D) < U (Nat.min (j + D + 1) C) -> nth j ps p_default = nth j qs p_default.
  Proof. exact (curve_determines D ks C Hs HK ps qs j). Qed.
  (** ... and otherwise has no influence *)
  Theorem C131_curve_unused {P : Type} {PT : Point R P} {LP : LawfulPoint P} (ps qs : list P) j t i :
    length ps = C -> length qs = C -> (j < C)%nat ->
    (forall m, (m < C)%nat -> m <> j -> nth m ps p_default = nth m qs p_default) ->
    U (Nat.min (j + D + 1) C) <= U (Nat.max j D) -> U D <= t < U C -> (i < p_dim (P := P))%nat ->
    spline_coord D ks ps t i = spline_coord D ks qs t i.
  Proof. exact (curve_ignores D ks C Hs HK ps qs j t i). Qed.
End Curve.

(** ** [eval] *)
Section Eval.
  Context {E : Eps} {P : Type} {PT : Point R P} {LP : LawfulPoint P}.
  Variables (D : nat) (ks : list R) (ps qs : list P) (s s' : bspline R P).
  Hypothesis Hp : bspline_new D ks ps = Ret (Ok s).
  Hypothesis Hq : bspline_new D ks qs = Ret (Ok s').
  Local Notation C := (length ps).
  Local Notation U i := (nth i ks 0).

  (** full for the repaired evaluation *)
  Theorem C124_unique j : (j < C)%nat -> (forall t, U D <= t < U C -> fixed_eval s t = fixed_eval s' t) ->
    U (Nat.max j D) < U (Nat.min (j + D + 1) C) -> nth j ps p_default = nth j qs p_default.
  Proof. exact (unique_fixed D ks ps qs s s' Hp Hq j). Qed.

  Section Clamped.
    Hypothesis Hkind : bs_kind s <> Unclamped.

    (** Missing for the full statement, in which the condition on j is
        [U (max j D) < U (min (j+D+1) C)]: the control points whose support meets the
        domain in the single span that starts at knot j, because the code leaves P_k out
        of span k (C131_lost).  Spans not longer than EPSILON and unclamped splines are
        excluded too. *)
    Theorem C131_eval_partial j : (j < C)%nat -> (forall t, U D <= t <= U C -> bspline_eval s t = bspline_eval s' t) ->
      (forall k, (D <= k < C)%nat -> U k < U (k + 1) -> U k + eps < U (k + 1)) ->
      j = (C - 1)%nat \/ U (Nat.max (j + 1) D) < U (Nat.min (j + D + 1) C) ->
      nth j ps p_default = nth j qs p_default.
    Proof. exact (unique_eval D ks ps qs s s' Hp Hq Hkind j). Qed.
    (** one span: the D points before its own *)
    Theorem C131_span_partial k j : (D <= k < C)%nat -> U k + eps < U (k + 1) ->
      (forall t, U k < t < U (k + 1) -> bspline_eval s t = bspline_eval s' t) ->
      (k - D <= j < k)%nat -> nth j ps p_default = nth j qs p_default.
    Proof. exact (unique_span D ks ps qs s s' Hp Hq Hkind k j). Qed.
    (** increasing knots, degree at least 1: all control points *)
    Theorem C131_simple_partial : (1 <= D)%nat -> (forall k, (D <= k < C)%nat -> U k + eps < U (k + 1)) ->
      (forall t, U D <= t <= U C -> bspline_eval s t = bspline_eval s' t) -> ps = qs.
    Proof. exact (unique_simple D ks ps qs s s' Hp Hq Hkind). Qed.
    (** the condition of C131_eval_partial is sharp *)
    Theorem C131_lost j t : (j + 1 < C)%nat ->
      (forall m, (m < C)%nat -> m <> j -> nth m ps p_default = nth m qs p_default) ->
      U (Nat.min (j + D + 1) C) <= U (Nat.max (j + 1) D) -> U D <= t <= U C ->
      bspline_eval s t = bspline_eval s' t.
    Proof. exact (ignored_eval D ks ps qs s s' Hp Hq Hkind j t). Qed.
  End Clamped.
End Eval.

(** the clamped quadratic on 0,0,0,1,2,2,2: every support meets the domain *)
Example C131_ex (ks := [0;0;0;1;2;2;2]) j : (j < 4)%nat -> nth (Nat.max j 2) ks 0 < nth (Nat.min (j + 2 + 1) 4) ks 0.
Proof. intros Hj. do 4 (destruct j as [|j]; [simpl; lra|]). lia. Qed.
(** with a double end knot too many it does not: P_0 on 0,0,0,1,1 of degree 1 *)
Example C131_unused_ex (ks := [0;0;0;1;1]) : nth (Nat.min (0 + 1 + 1) 3) ks 0 <= nth (Nat.max 0 1) ks 0.
Proof. simpl. lra. Qed.

(** hypotheses of C131_simple_partial: the quadratic on 0,0,0,1,2,2,2 *)
Example C131_simple_ex (E := Eps64) : exists s : bspline R P1,
  bspline_new 2 [0;0;0;1;2;2;2] [pt1 0; pt1 1; pt1 5; pt1 2] = Ret (Ok s) /\ bs_kind s <> Unclamped /\
  forall k, (2 <= k < 4)%nat -> nth k [0;0;0;1;2;2;2] 0 + eps < nth (k + 1) [0;0;0;1;2;2;2] 0.
Proof.
  assert (He : 0 < eps < 1).
  { split; [apply eps_pos|]. change eps with (/ 2 ^ 52). rewrite <- Rinv_1. apply Rinv_lt_contravar.
    - rewrite Rmult_1_l. apply pow_lt. lra.
    - apply Rlt_pow_R1; [lra|lia]. }
  assert (N : exists s, bspline_new 2 [0;0;0;1;2;2;2] [pt1 0; pt1 1; pt1 5; pt1 2] = Ret (Ok s)).
  { apply new_ok_iff. split; [simpl; lia|]. split; [reflexivity|].
    intros i Hi. do 6 (destruct i as [|i]; [rs; apply Rltb_false; simpl; lra|]). simpl in Hi. lia. }
  destruct N as (s & Hs). exists s. split; [exact Hs|]. split.
  - intros Hk. destruct (kind_spec _ _ _ _ Hs) as [[_ A] _]. rewrite Hk in A. simpl in A.
    destruct (A ltac:(lra)); discriminate.
  - intros k Hk. do 4 (destruct k as [|k]; [try lia; simpl; lra|]). lia.
Qed.

(** degree 0: the value on [0, 1) is the origin whatever the control point, though the
    support of the control point is [0, 1) *)
Theorem C131_degree0_refuted (E := Eps64) : exists s s' : bspline R P1,
  bspline_new 0 [0;1;2] [pt1 1; pt1 5] = Ret (Ok s) /\ bspline_new 0 [0;1;2] [pt1 3; pt1 5] = Ret (Ok s') /\
  (forall t, 0 <= t <= 2 -> bspline_eval s t = bspline_eval s' t) /\
  nth (Nat.max 0 0) [0;1;2] 0 < nth (Nat.min (0 + 0 + 1) 2) [0;1;2] 0 /\ pt1 1 <> pt1 3.
Proof.
  destruct lost_degree0 as (s & s' & Hp & Hq & He). exists s, s'. split; [exact Hp|]. split; [exact Hq|].
  split; [exact He|]. split; [simpl; lra|]. intros H. apply (f_equal (fun p => coord p 0)) in H. cbn in H. lra.
Qed.

Print Assumptions C131_piece.
Print Assumptions C131_curve.
Print Assumptions C131_curve_unused.
Print Assumptions C124_unique.
Print Assumptions C131_eval_partial.
Print Assumptions C131_span_partial.
Print Assumptions C131_simple_partial.
Print Assumptions C131_lost.
Print Assumptions C131_degree0_refuted.
