(** C129: a further knot with the control points of Boehm's rule gives the same curve.
    C130: a hyperplane crosses a B-spline no more often than its control polygon.
    Both hold for the curve and for the repaired evaluation (C124); for the code at the
    knots ([_partial]) but not between them ([_refuted]). *)
From Coq Require Import Reals List Arith Lia Lra.
From Verif Require Import Base.Outcome Base.Scalar Model.Point Model.BSpline Model.Repairs Inst.RealInst
  Spec.Sums Spec.Lawful Spec.Basis Spec.Crossings Spec.SplinePoints Spec.Insertion Spec.Points
  Proofs.SplineCrossings Proofs.InsertionEval Props.BSplineProps.
Import ListNotations.
Local Open Scope R_scope.

Section Curve.
  Context {P : Type} {PT : Point R P} {LP : LawfulPoint P}.
  Variables (D : nat) (ks : list R) (ps : list P).
  Local Notation C := (length ps).
  Local Notation U i := (nth i ks 0).
  Hypotheses (Hs : forall i j, (i <= j < length ks)%nat -> U i <= U j) (HK : length ks = (C + D + 1)%nat) (HC : (D < C)%nat).

  Theorem C129_curve k x qs t i : (D <= k < C)%nat -> U k <= x < U (k + 1) -> inserted_points D k x ks ps qs ->
    (i < p_dim (P := P))%nat -> spline_coord D (insert_knot k x ks) qs t i = spline_coord D ks ps t i.
  Proof. exact (fun Hk Hx Hq => insert_curve D k x ks ps qs Hs HK Hk Hx Hq t i). Qed.
  Theorem C130_curve w c ts qs m : curve_points D ks ps ts qs ->
    (forall i j, (i <= j < length ts)%nat -> nth i ts 0 <= nth j ts 0) ->
    polygon_crosses w c qs m -> polygon_crosses w c ps m.
  Proof. exact (curve_crosses D ks ps Hs (Nat.eq_le_incl _ _ (eq_sym HK)) HC w c ts qs m). Qed.
End Curve.

Section Code.
  Context {E : Eps} {P : Type} {PT : Point R P} {LP : LawfulPoint P}.
  Variables (D : nat) (ks : list R) (ps : list P) (s : bspline R P).
  Hypothesis Hnew : bspline_new D ks ps = Ret (Ok s).
  Local Notation C := (length ps).
  Local Notation U i := (nth i ks 0).

  Section Insertion.
    Variables (k : nat) (x : R) (qs : list P).
    Hypotheses (Hk : (D <= k < C)%nat) (Hx : U k <= x < U (k + 1)) (Hq : inserted_points D k x ks ps qs).
    Theorem C129_accepted : exists s', bspline_new D (insert_knot k x ks) qs = Ret (Ok s').
    Proof. exact (insert_accepts D k x ks ps qs s Hnew Hk Hx Hq). Qed.

    Variable s' : bspline R P.
    Hypothesis Hnew' : bspline_new D (insert_knot k x ks) qs = Ret (Ok s').
    Theorem C124_insertion t : U D <= t < U C -> fixed_eval s' t = fixed_eval s t.
    Proof. exact (insert_fixed D k x ks ps qs s Hnew Hk Hx Hq s' Hnew' t). Qed.

    Hypotheses (HD : (1 <= D)%nat) (Hkind : bs_kind s <> Unclamped) (Hkind' : bs_kind s' <> Unclamped)
      (Hsep : forall i j, (i < j < length ks + 1)%nat -> nth i (insert_knot k x ks) 0 < nth j (insert_knot k x ks) 0 ->
        eps <= nth j (insert_knot k x ks) 0 - nth i (insert_knot k x ks) 0).
    (** missing: the parameters between the knots *)
    Theorem C129_at_knots_partial j : (D <= j <= C)%nat -> bspline_eval s' (U j) = bspline_eval s (U j).
    Proof. exact (insert_at_knots D k x ks ps qs s Hnew Hk Hx Hq s' Hnew' HD Hkind Hkind' Hsep j). Qed.
    (** at the new knot the new spline is on the curve, wherever the old one was *)
    Theorem C129_new_knot : exists p, bspline_eval s' x = Ret (Ok p) /\ curve_point D ks ps x p.
    Proof. exact (insert_new_knot D k x ks ps qs s Hnew Hk Hx Hq s' Hnew' HD Hkind' Hsep). Qed.
  End Insertion.

  (** missing: the parameters between the knots *)
  Theorem C130_at_knots_partial w c qs m : (1 <= D)%nat -> bs_kind s <> Unclamped ->
    (forall i j, (i < j < length ks)%nat -> U i < U j -> eps <= U j - U i) ->
    length qs = (C - D + 1)%nat ->
    (forall i, (i < length qs)%nat -> bspline_eval s (U (D + i)) = Ret (Ok (nth i qs p_default))) ->
    polygon_crosses w c qs m -> polygon_crosses w c ps m.
  Proof. exact (knots_crosses D ks ps s Hnew w c qs m). Qed.
  Theorem C124_crossings w c ts qs m : U C = U (C + D) -> U (C - 1) < U C -> length ts = length qs ->
    (forall i j, (i <= j < length ts)%nat -> nth i ts 0 <= nth j ts 0) ->
    (forall i, (i < length ts)%nat -> U D <= nth i ts 0 <= U C /\ fixed_eval s (nth i ts 0) = Ret (Ok (nth i qs p_default))) ->
    polygon_crosses w c qs m -> polygon_crosses w c ps m.
  Proof. exact (fixed_crosses D ks ps s Hnew w c ts qs m). Qed.
End Code.

Local Existing Instance Eps64.
(** the constant spline of C44_clamped_refuted with the knot 1/2 inserted *)
Theorem C129_insertion_refuted : exists s s' : bspline R P1,
  bspline_new 1 [0;0;1;1] [pt1 1; pt1 1] = Ret (Ok s) /\
  bspline_new 1 (insert_knot 1 (1/2) [0;0;1;1]) [pt1 1; pt1 1; pt1 1] = Ret (Ok s') /\
  bs_kind s = Clamped /\ bs_kind s' = Clamped /\
  bspline_eval s (1/2) = Ret (Ok (pt1 (1/2))) /\ bspline_eval s' (1/2) = Ret (Ok (pt1 1)).
Proof. exact insert_violated. Qed.
Example C129_ex : inserted_points 1 1 (1/2) [0;0;1;1] [pt1 1; pt1 1] [pt1 1; pt1 1; pt1 1].
Proof. exact pts_half. Qed.
(** a quadratic: the corner at (1,2) is cut *)
Example C129_quadratic : inserted_points 2 2 (1/2) [0;0;0;1;2;2;2] [pt2 0 0; pt2 1 2; pt2 3 2; pt2 4 0]
  [pt2 0 0; pt2 (1/2) 1; pt2 (3/2) 2; pt2 3 2; pt2 4 0].
Proof.
  split; [reflexivity|]. split; [|split].
  - intros j Hj. replace j with 0%nat by lia. reflexivity.
  - intros j i Hj Hi. cbn zeta. assert (j = 1%nat \/ j = 2%nat) as [-> | ->] by lia;
      (destruct i as [|[|i]]; [| |cbn in Hi; lia]); cbn; lra.
  - intros j Hj. cbn [length] in Hj. assert (j = 3%nat \/ j = 4%nat) as [-> | ->] by lia; reflexivity.
Qed.

Theorem C130_crossings_refuted : exists s : bspline R P1,
  bspline_new 1 [0;0;1;1] [pt1 1; pt1 1] = Ret (Ok s) /\ bs_kind s = Clamped /\
  bspline_eval s 0 = Ret (Ok (pt1 1)) /\ bspline_eval s (1/2) = Ret (Ok (pt1 (1/2))) /\
  bspline_eval s 1 = Ret (Ok (pt1 1)) /\
  polygon_crosses (fun _ => 1) (3/4) [pt1 1; pt1 (1/2); pt1 1] 2 /\
  forall m, polygon_crosses (fun _ => 1) (3/4) [pt1 1; pt1 1] m -> m = 0%nat.
Proof. exact crosses_violated. Qed.
(** the quadratic of C38_ex: low, high, low at the knots, so its polygon crosses twice *)
Example C130_ex s p q r c : bspline_new 2 [0;0;0;1;2;2;2] [pt2 0 0; pt2 1 2; pt2 3 2; pt2 4 0] = Ret (Ok s) -> bs_kind s = Clamped ->
  bspline_eval s 0 = Ret (Ok p) -> bspline_eval s 1 = Ret (Ok q) -> bspline_eval s 2 = Ret (Ok r) ->
  coord p 1 < c < coord q 1 -> coord r 1 < c ->
  polygon_crosses (fun i => if Nat.eqb i 1 then 1 else 0) c [pt2 0 0; pt2 1 2; pt2 3 2; pt2 4 0] 2.
Proof.
  intros Hnew Hk Ep Eq Er Hpq Hr.
  apply (C130_at_knots_partial 2 [0;0;0;1;2;2;2] [pt2 0 0; pt2 1 2; pt2 3 2; pt2 4 0] s Hnew _ _ [p; q; r] 2); [lia|congruence| |reflexivity| |].
  - intros i j Hij. change eps with (/ 2 ^ 52). assert (H1 : / 2 ^ 52 <= / 1) by (apply Rinv_le_contravar; [lra|apply pow_R1_Rle; lra]).
    cbn [length] in Hij. do 7 (destruct j as [|j]; [do 7 (destruct i as [|i]; [cbn [nth]; lra|]); lia|]). lia.
  - intros i Hi. cbn [length] in Hi. destruct i as [|[|[|i]]]; [exact Ep|exact Eq|exact Er|lia].
  - assert (L : forall p : P2, level (fun i => if Nat.eqb i 1 then 1 else 0) p = coord p 1).
    { intros z. unfold level. change (p_dim (P := P2)) with 2%nat. cbn [Rsum Nat.eqb]. ring. }
    exists (fun j => j). split; [intros; lia|]. split; [intros j Hj; cbn; lia|].
    intros [|[|j]] Hj; [| |lia]; cbn [nth]; rewrite !L.
    + assert (H : 0 < (c - coord p 1) * (coord q 1 - c)) by (apply Rmult_lt_0_compat; lra). lra.
    + assert (H : 0 < (c - coord r 1) * (coord q 1 - c)) by (apply Rmult_lt_0_compat; lra). lra.
Qed.

Print Assumptions C129_curve.
Print Assumptions C130_curve.
Print Assumptions C129_accepted.
Print Assumptions C124_insertion.
Print Assumptions C129_at_knots_partial.
Print Assumptions C129_new_knot.
Print Assumptions C130_at_knots_partial.
Print Assumptions C124_crossings.
Print Assumptions C129_insertion_refuted.
Print Assumptions C130_crossings_refuted.
