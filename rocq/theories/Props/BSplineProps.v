(** C38-C50, C60, C61: B-splines.  C38 and C42 hold for every scalar type; the
    rest is about exact arithmetic.  U i is knot i, C the number of control points. *)
From Coq Require Import Reals List Arith Lia Lra.
From Verif Require Import Base.Outcome Base.Scalar Model.Point Model.BSpline Inst.RealInst
  Spec.Sums Spec.Lawful Spec.Metric Spec.Hull Spec.Length Spec.Points Spec.Basis Spec.Probes
  Proofs.BSplineGeneric Proofs.BSplineReal Proofs.BSplineEval Proofs.BasisCalc
  Proofs.BSplineArclen Proofs.BSplinePanic Proofs.BSplineDeriv Proofs.BSplineCE Proofs.SplineTail.
Import ListNotations.
Local Open Scope R_scope.

Section Generic.
  Context {T P : Type} {ST : Scalar T} {PT : Point T P}.

  (** C38 *)
  Theorem C38_accepts D ks (ps : list P) :
    (exists s, bspline_new D ks ps = Ret (Ok s)) <->
    (D < length ps)%nat /\ length ks = (length ps + D + 1)%nat /\
    forall i, (i + 1 < length ks)%nat -> s_ltb (nth (i + 1) ks (s_lit 0)) (nth i ks (s_lit 0)) = false.
  Proof. exact (new_ok_iff D ks ps). Qed.
  Theorem C38_errors D ks (ps : list P) :
    ((length ps <= D)%nat -> bspline_new D ks ps = Ret (Err TooFewControlPoints)) /\
    ((D < length ps)%nat -> (length ks < length ps + D + 1)%nat -> bspline_new D ks ps = Ret (Err TooFewKnots)) /\
    ((D < length ps)%nat -> (length ps + D + 1 < length ks)%nat -> bspline_new D ks ps = Ret (Err TooManyKnots)) /\
    ((D < length ps)%nat -> length ks = (length ps + D + 1)%nat ->
     (exists i, (i + 1 < length ks)%nat /\ s_ltb (nth (i + 1) ks (s_lit 0)) (nth i ks (s_lit 0)) = true) ->
     bspline_new D ks ps = Ret (Err DecreasingKnots)).
  Proof. exact (new_errors D ks ps). Qed.
  Theorem C38_stores D ks (ps : list P) s : bspline_new D ks ps = Ret (Ok s) ->
    bs_degree s = D /\ bspline_knots s = ks /\ bspline_control_points s = ps.
  Proof. exact (new_fields D ks ps s). Qed.

  (** C42: no assumption at all on comparisons or arithmetic *)
  Theorem C42_clamped_eval_total D ks (ps : list P) s t :
    bspline_new D ks ps = Ret (Ok s) -> bs_kind s = Clamped -> exists r, bspline_eval s t = Ret r.
  Proof. exact (fun H => clamped_eval_total s t (new_wf D ks ps s H)). Qed.

  (** C49, termination: every knot vector, kind and parameter *)
  Theorem C49_terminates_partial D ks (ps : list P) s t :
    bspline_new D ks ps = Ret (Ok s) -> knot_span_start_for_t s t <> Stuck.
  Proof. exact (fun H => span_terminates s t (new_wf D ks ps s H)). Qed.
End Generic.

Section Exact.
  Context {E : Eps} {P : Type} {PT : Point R P} {LP : LawfulPoint P}.
  Variables (D : nat) (ks : list R) (ps : list P) (s : bspline R P).
  Hypothesis Hnew : bspline_new D ks ps = Ret (Ok s).
  Local Notation C := (length ps).
  Local Notation U i := (nth i ks 0).

  (** C39.  Full statement: for float knots too; NaN knots break it there. *)
  Theorem C39_sorted_partial : sorted ks.
  Proof. exact (ks_sorted D ks ps s Hnew). Qed.

  (** C61 *)
  Theorem C61_kind :
    (bs_kind s = Clamped \/ bs_kind s = ClampedStart <-> U D - U 0 < eps) /\
    (bs_kind s = Clamped \/ bs_kind s = ClampedEnd <-> U (C + D) - U C < eps).
  Proof. exact (kind_spec D ks ps s Hnew). Qed.

  (** C40.  Full statement: for every kind.  The two half clamped kinds get a
      domain that is too large by at least EPSILON. *)
  Theorem C40_domain_partial : bs_kind s = Clamped \/ bs_kind s = Unclamped ->
    knot_domain s = Ret (U D, U C).
  Proof. exact (domain_right D ks ps s Hnew). Qed.
  Theorem C40_domain_refuted :
    (bs_kind s = ClampedStart -> knot_domain s = Ret (U D, U (C + D)) /\ U C + eps <= U (C + D)) /\
    (bs_kind s = ClampedEnd -> knot_domain s = Ret (U 0, U C) /\ U 0 + eps <= U D).
  Proof. exact (domain_too_large D ks ps s Hnew). Qed.

  (** C41 *)
  Theorem C41_domain_error t lo hi : knot_domain s = Ret (lo, hi) ->
    (bspline_eval s t = Ret (Err KnotDomainViolation) <-> ~ (lo <= t <= hi)).
  Proof. exact (eval_domain_iff D ks ps s Hnew t lo hi). Qed.

  (** C43.  Full statement: for every kind and every t in knot_domain.  See the
      three panics below. *)
  Theorem C43_eval_ok_partial t : bs_kind s <> Unclamped -> U D <= t <= U C ->
    exists p, bspline_eval s t = Ret (Ok p).
  Proof. exact (eval_ok D ks ps s Hnew t). Qed.

  (** C49, the right span.  Full statement: Unclamped too. *)
  Theorem C49_span_partial t : bs_kind s <> Unclamped -> U D <= t < U C ->
    exists k, knot_span_start_for_t s t = Ret (Some k) /\ (D <= k < C)%nat /\ U k <= t < U (k + 1).
  Proof. exact (fun Hk Ht => span_good D ks ps s Hnew t (good_clamped D ks ps s t Hk Ht)). Qed.
  (** the unclamped search never goes left of its first probe, the middle knot *)
  Theorem C49_unclamped_partial t : bs_kind s = Unclamped -> t < U C ->
    exists k, knot_span_start_for_t s t = Ret (Some k) /\
      ((C + D + 1) / 2 <= k)%nat /\ (k + 1 < length ks)%nat /\ t < U (k + 1) /\
      (t < U ((C + D + 1) / 2 + 1) -> k = ((C + D + 1) / 2)%nat).
  Proof. exact (span_unclamped D ks ps s Hnew t). Qed.

  (** exactly which span each search returns.  The half clamped ones answer on all
      of the too large domain of C40. *)
  Theorem C49_clamped_start t : bs_kind s = ClampedStart ->
    (t < U D \/ U (C + D) < t -> knot_span_start_for_t s t = Ret None) /\
    (U D <= t < U (C + D) -> exists k, knot_span_start_for_t s t = Ret (Some k) /\
       (D <= k < C + D)%nat /\ U k <= t < U (k + 1)) /\
    (t = U (C + D) -> knot_span_start_for_t s t = Ret (Some (C - 1)%nat)).
  Proof. exact (span_clamped_start_spec D ks ps s Hnew t). Qed.
  Theorem C49_clamped_end t : bs_kind s = ClampedEnd ->
    (t < U 0 \/ U C < t -> knot_span_start_for_t s t = Ret None) /\
    (U 0 <= t < U C -> exists k, knot_span_start_for_t s t = Ret (Some k) /\
       (k < C)%nat /\ U k <= t < U (k + 1)) /\
    (t = U C -> knot_span_start_for_t s t = Ret (Some (C - 1)%nat)).
  Proof. exact (span_clamped_end_spec D ks ps s Hnew t). Qed.
  (** the unclamped search returns the first probe whose span ends right of t *)
  Theorem C49_unclamped_probes t : bs_kind s = Unclamped -> t < U C ->
    exists i, let k := probe (C + D + 1) i in
      knot_span_start_for_t s t = Ret (Some k) /\ (k + 1 < length ks)%nat /\ t < U (k + 1) /\
      (forall j, (j < i)%nat -> U (probe (C + D + 1) j + 1) <= t).
  Proof. rewrite (proj2 (sizes D ks ps s Hnew)). exact (span_unclamped_spec D ks ps s Hnew t). Qed.

  (** C43, exactly when eval panics, and where it returns a point, for the three
      kinds that are not Clamped (C42 settles Clamped, C41 the rest of the line) *)
  Theorem C43_C71_clamped_start_panics t : bs_kind s = ClampedStart ->
    (bspline_eval s t = Panic <-> U (C + 1) <= t < U (C + D) /\ t <> U C) /\
    (U D <= t <= U C \/ U C <= t < U (C + 1) \/ t = U (C + D) -> exists p, bspline_eval s t = Ret (Ok p)).
  Proof. exact (clamped_start_panic_iff D ks ps s Hnew t). Qed.
  Theorem C43_C71_clamped_end_panics t : bs_kind s = ClampedEnd ->
    (bspline_eval s t = Panic <-> U 0 <= t < U D) /\
    (U D <= t <= U C -> exists p, bspline_eval s t = Ret (Ok p)).
  Proof. exact (clamped_end_panic_iff D ks ps s Hnew t). Qed.
  Theorem C43_C71_unclamped_panics t : bs_kind s = Unclamped ->
    (bspline_eval s t = Panic <->
       U D <= t < U C /\ forall j, (probe (C + D + 1) j <= C)%nat -> U (probe (C + D + 1) j + 1) <= t) /\
    (bspline_eval s t <> Panic -> U D <= t <= U C -> exists p, bspline_eval s t = Ret (Ok p)).
  Proof. exact (unclamped_panic_iff D ks ps s Hnew t). Qed.

  (** C44.  Full statement: coord p i = spline_coord D ks ps t i.  The code drops
      control point k of the span [U k, U (k+1)). *)
  Theorem C44_value_partial t : bs_kind s <> Unclamped -> U D <= t < U C ->
    (forall i, (i < C + D)%nat -> U i < t -> eps <= t - U i) ->
    exists k p, (D <= k < C)%nat /\ U k <= t < U (k + 1) /\ bspline_eval s t = Ret (Ok p) /\
      forall i, (i < p_dim (P := P))%nat ->
        coord p i = spline_coord D ks ps t i - basis (fun m => U m) D k t * coord (nth k ps p_default) i.
  Proof. exact (fun Hk Ht => eval_value D ks ps s Hnew t (good_clamped D ks ps s t Hk Ht)). Qed.
  Theorem C44_unclamped_middle_partial t : bs_kind s = Unclamped ->
    U ((C + D + 1) / 2) <= t < U ((C + D + 1) / 2 + 1) -> t < U C ->
    (forall i, (i < C + D)%nat -> U i < t -> eps <= t - U i) ->
    exists k p, (D <= k < C)%nat /\ U k <= t < U (k + 1) /\ bspline_eval s t = Ret (Ok p) /\
      forall i, (i < p_dim (P := P))%nat ->
        coord p i = spline_coord D ks ps t i - basis (fun m => U m) D k t * coord (nth k ps p_default) i.
  Proof. exact (fun Hk Ht Hc => eval_value D ks ps s Hnew t (good_unclamped D ks ps s t Hk Ht Hc)). Qed.
  (** the same wherever the unclamped search is right: in the spans of its probes *)
  Theorem C44_unclamped_probes_partial t i (k := probe (C + D + 1) i) : bs_kind s = Unclamped ->
    (k < C)%nat -> U k <= t < U (k + 1) -> (forall i, (i < C + D)%nat -> U i < t -> eps <= t - U i) ->
    exists p, bspline_eval s t = Ret (Ok p) /\ forall i, (i < p_dim (P := P))%nat ->
      coord p i = spline_coord D ks ps t i - basis (fun m => U m) D k t * coord (nth k ps p_default) i.
  Proof. exact (probe_value D ks ps s Hnew t i). Qed.
  (** clamped at the start only, in the first span past U C: no control point is
      dropped, but the basis functions of the C control points no longer sum to 1 *)
  Theorem C44_clamped_start_tail_partial t : bs_kind s = ClampedStart -> U C < t < U (C + 1) ->
    (forall i, (i <= C)%nat -> U i < t -> eps <= t - U i) ->
    exists p, bspline_eval s t = Ret (Ok p) /\
      forall i, (i < p_dim (P := P))%nat -> coord p i = spline_coord D ks ps t i.
  Proof. exact (tail_value D ks ps s Hnew t). Qed.
  (** at a knot the dropped term vanishes and the value is right *)
  Theorem C44_at_knots_partial k : (1 <= D)%nat -> (k < C)%nat -> bs_kind s <> Unclamped ->
    U D <= U k < U C -> U k < U (k + 1) ->
    (forall i, (i < C + D)%nat -> U i < U k -> eps <= U k - U i) ->
    exists p, bspline_eval s (U k) = Ret (Ok p) /\
      forall i, (i < p_dim (P := P))%nat -> coord p i = spline_coord D ks ps (U k) i.
  Proof. exact (fun H1 H2 Hk Ht => eval_at_knot D ks ps s Hnew k H1 H2 (good_clamped D ks ps s (U k) Hk Ht)). Qed.

  (** C45.  Full statement: the first control point too for every clamped spline;
      degree 0 breaks it (below). *)
  Theorem C45_last : bspline_eval s (U C) = Ret (Ok (nth (C - 1) ps p_default)).
  Proof. exact (eval_last D ks ps s Hnew). Qed.
  Theorem C45_first_partial : (1 <= D)%nat -> bs_kind s = Clamped \/ bs_kind s = ClampedStart ->
    U D < U (D + 1) -> bspline_eval s (U D) = Ret (Ok (nth 0 ps p_default)).
  Proof. exact (eval_first D ks ps s Hnew). Qed.

  (** C60 *)
  Theorem C60_hull t : bs_kind s <> Unclamped -> U D <= t < U C ->
    exists k p, (D <= k < C)%nat /\ U k <= t < U (k + 1) /\ bspline_eval s t = Ret (Ok p) /\
      in_hull (firstn D (skipn (k - D) ps) ++ [p_default]) p.
  Proof. exact (fun Hk Ht => eval_hull D ks ps s Hnew t (good_clamped D ks ps s t Hk Ht)). Qed.

  (** C47.  Full statement: bs_knots s' = inner_knots ks, so that [eval] of s' is
      the derivative.  The code keeps all K knots; only the control points are
      those of the derivative. *)
  Theorem C47_control_points_partial t : (1 <= D)%nat -> U D < t < U C ->
    (forall i, (i < length ks)%nat -> U i <> t) ->
    exists s', bspline_derivative s = Ret s' /\ bs_degree s' = (D - 1)%nat /\
      length (bs_points s') = (C - 1)%nat /\
      forall i, (i < p_dim (P := P))%nat ->
        derivable_pt_lim (fun y => spline_coord D ks ps y i) t
          (spline_coord (D - 1) (inner_knots ks) (bs_points s') t i).
  Proof. exact (fun HD Ht => spline_derivative D ks ps s t Hnew HD Ht). Qed.

  (** What [eval] of the result gives instead, with Q the control points of the
      derivative.  Left of the knot U (C-1) it is a sum over the untrimmed knots,
      each Q_j with the weight due to Q_(j-1), less the last term; at U (C-1) it is the last Q;
      right of it, on the whole last span, an error - except for ClampedStart. *)
  Section EvalDerivative.
    Variable s' : bspline R P.
    Hypothesis HD : (1 <= D)%nat.
    Hypothesis Hder : bspline_derivative s = Ret s'.
    Theorem C47_eval_value_partial t : bs_kind s <> Unclamped -> U (D - 1) <= t < U (C - 1) ->
      (forall i, (i < C)%nat -> U i < t -> eps <= t - U i) ->
      exists k p, (D - 1 <= k < C - 1)%nat /\ U k <= t < U (k + 1) /\ bspline_eval s' t = Ret (Ok p) /\
        forall i, (i < p_dim (P := P))%nat -> coord p i = spline_coord (D - 1) ks (bs_points s') t i
          - basis (fun m => U m) (D - 1) k t * coord (nth k (bs_points s') p_default) i.
    Proof. exact (deriv_value D ks ps s s' Hnew HD Hder t). Qed.
    Theorem C47_eval_last : bspline_eval s' (U (C - 1)) = Ret (Ok (nth (C - 2) (bs_points s') p_default)).
    Proof. exact (deriv_last D ks ps s s' Hnew HD Hder). Qed.
    Theorem C47_last_span_refuted t : bs_kind s <> ClampedStart -> U (C - 1) < t ->
      bspline_eval s' t = Ret (Err KnotDomainViolation).
    Proof. exact (deriv_last_span_error D ks ps s s' Hnew HD Hder t). Qed.
    Theorem C47_clamped_start_last_span_partial t : bs_kind s = ClampedStart -> U (C - 1) < t < U C ->
      (forall i, (i < C)%nat -> U i < t -> eps <= t - U i) ->
      exists p, bspline_eval s' t = Ret (Ok p) /\
        forall i, (i < p_dim (P := P))%nat -> coord p i = spline_coord (D - 1) ks (bs_points s') t i.
    Proof. exact (deriv_last_span_value D ks ps s s' Hnew HD Hder t). Qed.
    Theorem C47_clamped_start_panics_refuted t : bs_kind s = ClampedStart -> (2 <= D)%nat ->
      U (C - 1) < t -> U C <= t < U (C + D) -> bspline_eval s' t = Panic.
    Proof. exact (deriv_start_panics D ks ps s s' Hnew HD Hder t). Qed.
    Theorem C47_degree1_refuted t : D = 1%nat -> bs_kind s <> Unclamped -> U (D - 1) <= t < U (C - 1) ->
      bspline_eval s' t = Ret (Ok p_default).
    Proof. exact (deriv_degree1 D ks ps s s' Hnew HD Hder t). Qed.
    (** no spline of constant velocity has it reported between two knots *)
    Theorem C47_constant_velocity_refuted t v p : bs_kind s <> Unclamped -> U (D - 1) <= t < U (C - 1) ->
      (forall i, (i < C)%nat -> U i < t -> eps <= t - U i) -> (forall i, (i < C)%nat -> U i <> t) ->
      (forall q, In q (bs_points s') -> q = v) -> v <> p_default ->
      bspline_eval s' t = Ret (Ok p) -> p <> v.
    Proof. exact (deriv_constant_wrong D ks ps s s' Hnew HD Hder t v p). Qed.
  End EvalDerivative.

  (** C48.  Full statement: without the last term, and for every domain. *)
  Theorem C48_arclen_partial n : bs_kind s = Clamped -> U D = 0 -> U C = 1 -> (0 < n)%nat ->
    exists e, (forall t, 0 <= t <= 1 -> bspline_eval s t = Ret (Ok (e t))) /\
      bspline_arclen s n = Ret (polyline e n + dist (nth (C - 1) ps p_default) p_default).
  Proof. exact (arclen_unit D ks ps s n Hnew). Qed.

  (** Any domain, any number of steps: each chord advances the parameter by [1/n]
      instead of [(b - a)/n], and points past the end of the domain are taken to be the origin. *)
  Theorem C48_domain_partial n : bs_kind s = Clamped ->
    let a := U D in let b := U C in
    exists e, (forall t, a <= t <= b -> bspline_eval s t = Ret (Ok (e t))) /\ (forall t, b < t -> e t = p_default) /\
      bspline_arclen s n = Ret (Rsum (fun i =>
        dist (e (a + INR i / INR n * (b - a))) (e (a + INR i / INR n * (b - a) + 1 / INR n))) (n + 1)).
  Proof. exact (arclen_domain D ks ps s n Hnew). Qed.

  (** C50 *)
  Theorem C50_local ps' s' t k : bspline_new D ks ps' = Ret (Ok s') ->
    bs_kind s <> Unclamped -> (D <= k < C)%nat -> U k <= t < U (k + 1) ->
    (forall i, (k - D <= i < k)%nat -> nth i ps p_default = nth i ps' p_default) ->
    bspline_eval s t = bspline_eval s' t.
  Proof. exact (eval_local_span D ks ps ps' s s' t k Hnew). Qed.
End Exact.

(** The basis functions are non-negative and sum to one on the domain, hence
    the specification of C44 keeps a constant control polygon constant. *)
Theorem C44_basis_nonneg (U : nat -> R) t p i :
  (forall a b, (i <= a <= b)%nat -> (b <= i + p + 1)%nat -> U a <= U b) -> 0 <= basis U p i t.
Proof. exact (basis_nonneg U t p i). Qed.
Theorem C44_partition_of_unity D C ks t : sorted ks -> (C + D + 1 <= length ks)%nat ->
  nth D ks 0 <= t < nth C ks 0 -> Rsum (fun j => basis (fun m => nth m ks 0) D j t) C = 1.
Proof. exact (partition_of_unity D C ks t). Qed.

(** ** Refutations (EPSILON of an f64 build) *)
Section Refuted.
Local Existing Instance Eps64.

(** panics inside the reported domain, one for each kind that is not Clamped *)
Theorem C43_unclamped_refuted : exists s : bspline R P1,
  bspline_new 3 [0;1;2;3;4;5;6;7;8;9;10;11;12;13] (repeat (pt1 1) 10) = Ret (Ok s) /\
  bs_kind s = Unclamped /\ knot_domain s = Ret (3, 10) /\ bspline_eval s (17/2) = Panic.
Proof. exact unclamped_panic. Qed.
Theorem C43_clamped_start_refuted : exists s : bspline R P1,
  bspline_new 2 [0;0;0;1;2;3] (repeat (pt1 1) 3) = Ret (Ok s) /\
  bs_kind s = ClampedStart /\ knot_domain s = Ret (0, 3) /\ bspline_eval s (5/2) = Panic.
Proof. exact clamped_start_panic. Qed.
Theorem C43_clamped_end_refuted : exists s : bspline R P1,
  bspline_new 1 [0;1;2;2] (repeat (pt1 1) 2) = Ret (Ok s) /\
  bs_kind s = ClampedEnd /\ knot_domain s = Ret (0, 2) /\ bspline_eval s (1/2) = Panic.
Proof. exact clamped_end_panic. Qed.

Theorem C44_clamped_refuted : exists s : bspline R P1,
  bspline_new 1 [0;0;1;1] [pt1 1; pt1 1] = Ret (Ok s) /\ bs_kind s = Clamped /\
  spline_coord 1 [0;0;1;1] [pt1 1; pt1 1] (1/2) 0 = 1 /\
  bspline_eval s (1/2) = Ret (Ok (pt1 (1/2))).
Proof. exact constant_not_constant. Qed.
Theorem C44_unclamped_refuted : exists s : bspline R P1,
  bspline_new 1 [0;1;2;3] [pt1 0; pt1 2] = Ret (Ok s) /\ bs_kind s = Unclamped /\
  knot_domain s = Ret (1, 2) /\
  spline_coord 1 [0;1;2;3] [pt1 0; pt1 2] (3/2) 0 = 1 /\
  bspline_eval s (3/2) = Ret (Ok (pt1 2)).
Proof. exact uniform_wrong. Qed.

Theorem C45_degree0_refuted : exists s : bspline R P1,
  bspline_new 0 [0;1] [pt1 1] = Ret (Ok s) /\ bs_kind s = Clamped /\
  knot_domain s = Ret (0, 1) /\ bspline_eval s 0 = Ret (Ok (pt1 0)).
Proof. exact degree0_origin. Qed.

Theorem C47_derivative_refuted : exists s s' : bspline R P1,
  bspline_new 1 [0;0;1;1] [pt1 0; pt1 1] = Ret (Ok s) /\ bspline_derivative s = Ret s' /\
  bs_points s' = [pt1 1] /\ bs_degree s' = 0%nat /\ length (bs_knots s') = 4%nat /\
  knot_domain s' = Ret (0, 1) /\ bspline_eval s' (1/2) = Ret (Err KnotDomainViolation).
Proof. exact derivative_ce. Qed.

(** a quadratic of velocity 2: the hypotheses of C47_constant_velocity_refuted hold
    at 1/2 (C44_ex), those of C47_last_span_refuted at 3/2 *)
Example C47_ex : exists s s' : bspline R P1,
  bspline_new 2 [0;0;0;1;2;2;2] [pt1 0; pt1 1; pt1 3; pt1 4] = Ret (Ok s) /\ bs_kind s = Clamped /\
  bspline_derivative s = Ret s' /\ bs_points s' = [pt1 2; pt1 2; pt1 2] /\
  bspline_eval s' (1/2) = Ret (Ok (pt1 1)) /\ bspline_eval s' (3/2) = Ret (Err KnotDomainViolation).
Proof. exact constant_velocity. Qed.

(** a constant curve of positive length *)
Theorem C48_arclen_refuted : exists s : bspline R P1,
  bspline_new 1 [0;0;1;1] [pt1 1; pt1 1] = Ret (Ok s) /\ bspline_arclen s 1 = Ret 1.
Proof. exact arclen_ce. Qed.

Theorem C49_unclamped_refuted : exists s : bspline R P1,
  bspline_new 3 [0;1;2;3;4;5;6;7] (repeat (pt1 1) 4) = Ret (Ok s) /\
  knot_span_start_for_t s (7/2) = Ret (Some 4%nat).
Proof. exact unclamped_wrong_span. Qed.

(** ** Concrete splines meeting the hypotheses *)
(** a clamped quadratic over [0,2] with an inner knot *)
Example C38_ex : exists s, bspline_new 2 [0;0;0;1;2;2;2] [pt2 0 0; pt2 1 2; pt2 3 2; pt2 4 0] = Ret (Ok s) /\
  bs_kind s = Clamped.
Proof.
  assert (H : exists s, bspline_new 2 [0;0;0;1;2;2;2] [pt2 0 0; pt2 1 2; pt2 3 2; pt2 4 0] = Ret (Ok s)).
  { apply C38_accepts. cbn [length]. split; [lia|]. split; [lia|]. intros i Hi.
    do 6 (destruct i as [|i]; [cbn [nth Nat.add]; apply Rltb_false; change (s_lit 0) with 0; lra|]). lia. }
  destruct H as (s & H). exists s. split; [exact H|].
  destruct (C61_kind _ _ _ _ H) as [Hf Hb]. cbn [nth length Nat.add] in Hf, Hb. pose proof eps_pos as He.
  destruct (proj2 Hf ltac:(lra)) as [|Hk]; [assumption|].
  destruct (proj2 Hb ltac:(lra)) as [|Hk']; [assumption|congruence].
Qed.
(** the same with the last control point moved: C50 in the first span *)
Example C50_ex s s' : bspline_new 2 [0;0;0;1;2;2;2] [pt2 0 0; pt2 1 2; pt2 3 2; pt2 4 0] = Ret (Ok s) -> bs_kind s = Clamped ->
  bspline_new 2 [0;0;0;1;2;2;2] [pt2 0 0; pt2 1 2; pt2 3 2; pt2 9 9] = Ret (Ok s') -> bspline_eval s (1/2) = bspline_eval s' (1/2).
Proof.
  intros H K H'. apply (C50_local _ _ _ _ H _ _ (1/2) 2 H'); cbn; try lra; try lia; try congruence.
  intros [|[|i]] Hi; try reflexivity. lia.
Qed.
(** t = 1/2 in the first span: hypotheses of C43, C44, C49, C50, C60; t = 1 for C44_at_knots *)
Example C44_ex : let ks := [0;0;0;1;2;2;2] in
  nth 2 ks 0 <= 1/2 < nth 4 ks 0 /\ nth 2 ks 0 <= 1/2 < nth (2 + 1) ks 0 /\
  (forall i, (i < 4 + 2)%nat -> nth i ks 0 < 1/2 -> eps <= 1/2 - nth i ks 0) /\
  (forall i, (i < 4 + 2)%nat -> nth i ks 0 < nth 3 ks 0 -> eps <= nth 3 ks 0 - nth i ks 0) /\
  (forall i, (i < 7)%nat -> nth i ks 0 <> 1/2) /\
  nth 2 ks 0 < nth (2 + 1) ks 0.
Proof.
  assert (He : eps <= 1/2).
  { change (/ 2 ^ 52 <= 1/2). rewrite <- (Rmult_1_l (/ 2 ^ 52)). unfold Rdiv. rewrite !Rmult_1_l.
    apply Rinv_le_contravar; [lra|]. replace 2 with (2 ^ 1) at 1 by ring. apply Rle_pow; [lra|lia]. }
  cbn [nth Nat.add]. repeat split; try lra.
  - intros i Hi. do 6 (destruct i as [|i]; [lra|]). lia.
  - intros i Hi. do 6 (destruct i as [|i]; [lra|]). lia.
  - intros i Hi. do 7 (destruct i as [|i]; [lra|]). lia.
Qed.
(** quadratic, 3 control points, knots 0,0,0,1,2,3 at 3/2; cubic, 10 control points,
    knots 0, 1, ..., 13: the probe 7 and t = 15/2 *)
Example C44_tail_ex : let ks := [0;0;0;1;2;3] in
  nth 3 ks 0 < 3/2 < nth (3 + 1) ks 0 /\ (forall i, (i <= 3)%nat -> nth i ks 0 < 3/2 -> eps <= 3/2 - nth i ks 0) /\
  probe (10 + 3 + 1) 0 = 7%nat /\ (7 < 10)%nat.
Proof.
  assert (He : eps <= 1/2).
  { change (/ 2 ^ 52 <= 1/2). rewrite <- (Rmult_1_l (/ 2 ^ 52)). unfold Rdiv. rewrite !Rmult_1_l.
    apply Rinv_le_contravar; [lra|]. replace 2 with (2 ^ 1) at 1 by ring. apply Rle_pow; [lra|lia]. }
  cbn [nth Nat.add]. split; [lra|]. split; [|split; [reflexivity|lia]].
  intros i Hi. do 4 (destruct i as [|i]; [lra|]). lia.
Qed.
(** the panic ranges of the three splines of C43_*_refuted: [2,3), [0,1) and, with
    the probes 7, 11, 13 for 14 knots of which only 7 is at most C = 10, [8,10) *)
Example C43_ex : (nth (3 + 1) [0;0;0;1;2;3] 0 = 2 /\ nth (3 + 2) [0;0;0;1;2;3] 0 = 3) /\
  (nth 0 [0;1;2;2] 0 = 0 /\ nth 1 [0;1;2;2] 0 = 1) /\
  (probe 14 0 = 7 /\ forall j, probe 14 (S j) > 10)%nat.
Proof.
  repeat split. intros j. assert (H : (11 <= probe 14 (S j))%nat); [|lia].
  induction j as [|j IH]; [cbn; lia|]. cbn [probe] in *. lia.
Qed.
(** a spline over [0,1] for C48 *)
Example C48_ex : let ks := [0;0;1;1] in nth 1 ks 0 = 0 /\ nth 2 ks 0 = 1.
Proof. split; reflexivity. Qed.
End Refuted.

Print Assumptions C38_accepts.
Print Assumptions C38_errors.
Print Assumptions C38_stores.
Print Assumptions C42_clamped_eval_total.
Print Assumptions C49_terminates_partial.
Print Assumptions C39_sorted_partial.
Print Assumptions C61_kind.
Print Assumptions C40_domain_partial.
Print Assumptions C40_domain_refuted.
Print Assumptions C41_domain_error.
Print Assumptions C43_eval_ok_partial.
Print Assumptions C49_span_partial.
Print Assumptions C49_unclamped_partial.
Print Assumptions C49_clamped_start.
Print Assumptions C49_clamped_end.
Print Assumptions C49_unclamped_probes.
Print Assumptions C43_C71_clamped_start_panics.
Print Assumptions C43_C71_clamped_end_panics.
Print Assumptions C43_C71_unclamped_panics.
Print Assumptions C44_value_partial.
Print Assumptions C44_unclamped_middle_partial.
Print Assumptions C44_unclamped_probes_partial.
Print Assumptions C44_clamped_start_tail_partial.
Print Assumptions C44_at_knots_partial.
Print Assumptions C45_last.
Print Assumptions C45_first_partial.
Print Assumptions C60_hull.
Print Assumptions C47_control_points_partial.
Print Assumptions C47_eval_value_partial.
Print Assumptions C47_eval_last.
Print Assumptions C47_last_span_refuted.
Print Assumptions C47_clamped_start_last_span_partial.
Print Assumptions C47_clamped_start_panics_refuted.
Print Assumptions C47_degree1_refuted.
Print Assumptions C47_constant_velocity_refuted.
Print Assumptions C48_arclen_partial.
Print Assumptions C48_domain_partial.
Print Assumptions C50_local.
Print Assumptions C44_basis_nonneg.
Print Assumptions C44_partition_of_unity.
Print Assumptions C43_unclamped_refuted.
Print Assumptions C43_clamped_start_refuted.
Print Assumptions C43_clamped_end_refuted.
Print Assumptions C44_clamped_refuted.
Print Assumptions C44_unclamped_refuted.
Print Assumptions C45_degree0_refuted.
Print Assumptions C47_derivative_refuted.
Print Assumptions C48_arclen_refuted.
Print Assumptions C49_unclamped_refuted.
