(** C124: the violated properties hold for the functions of Model/Repairs.v, which
    differ from the code only in the lines named there. *)
From Coq Require Import Reals List Arith Lia Lra.
From Verif Require Import Base.Outcome Base.Scalar Model.Point Model.Line Model.Quadratic Model.Cubic
  Model.Bezier Model.BSpline Model.Segment Model.Repairs Inst.RealInst
  Spec.Sums Spec.Lawful Spec.Metric Spec.Length Spec.Maps Spec.Basis Spec.Limits Spec.Points Spec.Search
  Proofs.BoxSpec Proofs.BSplineCE Proofs.Repairs Proofs.RepairSpline.
Import ListNotations.
Local Open Scope R_scope.

Section Curves.
  Context {E : Eps} {P : Type} {PT : Point R P} {LP : LawfulPoint P}.

  (** C04 and the linear case of C52 *)
  Theorem C124_line_split (s : line P) t u :
    line_eval (fst (fixed_line_split s t)) u = line_eval s (t * u) /\
    line_eval (snd (fixed_line_split s t)) u = line_eval s (t + u * (1 - t)).
  Proof. exact (fixed_split_value s t u). Qed.
  Theorem C124_segment_split (s : segment P) t u :
    segment_eval (fst (fixed_segment_split s t)) u = segment_eval s (t * u) /\
    segment_eval (snd (fixed_segment_split s t)) u = segment_eval s (t + u * (1 - t)).
  Proof. exact (fixed_segment_value s t u). Qed.

  (** C05, for every segment and point *)
  Theorem C124_line_distance (s : line P) p :
    exists d, fixed_line_distance s p = Ret d /\ is_min_dist (line_eval s) p d.
  Proof. exact (fixed_distance_min s p). Qed.

  (** and the code's result wherever C05_distance_partial covers it *)
  Theorem C124_distance_agrees (s : line P) p : let n := dist (l_end s) (l_start s) * dist (l_end s) (l_start s) in
    eps <= n -> inner (l_start s) p (l_end s) / n < 1 -> fixed_line_distance s p = line_distance_to_point s p.
  Proof. exact (fixed_distance_agrees s p). Qed.

  (** C16: now an equivalence *)
  Theorem C124_quad_is_linear (c : quad P) tol : fixed_quad_is_linear c tol = Ret true <->
    eps <= dist (q_start c) (q_end c) * dist (q_start c) (q_end c) /\
    exists u, 0 <= u <= 1 /\ dist (q_ctrl c) (line_eval (Line (q_start c) (q_end c)) u) <= tol.
  Proof. exact (fixed_quad_linear_iff c tol). Qed.
  Theorem C124_cubic_is_linear (c : cubic P) tol : fixed_cubic_is_linear c tol = Ret true <->
    eps <= dist (c_start c) (c_end c) * dist (c_start c) (c_end c) /\
    (exists u, 0 <= u <= 1 /\ dist (c_ctrl1 c) (line_eval (Line (c_start c) (c_end c)) u) <= tol) /\
    exists u, 0 <= u <= 1 /\ dist (c_ctrl2 c) (line_eval (Line (c_start c) (c_end c)) u) <= tol.
  Proof. exact (fixed_cubic_linear_iff c tol). Qed.

  (** C21 *)
  Theorem C124_dd (c : cubic P) t i : fixed_cubic_dd c t i = p_axis (quad_eval (cubic_derivative c) t) i.
  Proof. exact (fixed_dd_value c t i). Qed.

  (** C34 *)
  Theorem C124_arclen (q : quad P) (c : cubic P) (ps : list P) n : (0 < n)%nat -> ps <> [] ->
    fixed_quad_arclen q n = Ret (polyline (quad_eval q) n) /\
    fixed_cubic_arclen c n = Ret (polyline (cubic_eval c) n) /\
    exists f, (forall t, bezier_eval (Bezier ps) t = Ret (f t)) /\
      fixed_bezier_arclen (Bezier ps) n = Ret (polyline f n).
  Proof.
    exact (fun Hn Hne => conj (fixed_quad_arclen_value q n Hn)
      (conj (fixed_cubic_arclen_value c n Hn) (fixed_bezier_arclen_value ps n Hn Hne))).
  Qed.

  (** C36: the minimum over the samples of the two passes that the documentation describes *)
  Theorem C124_quad_distance (c : quad P) p : exists d, fixed_quad_distance c p = Ret d /\
    refined_minimum (fun u => dist p (quad_eval c u)) d.
  Proof. exact (fixed_quad_distance_on c p). Qed.
  Theorem C124_cubic_distance (c : cubic P) p : exists d, fixed_cubic_distance c p = Ret d /\
    refined_minimum (fun u => dist p (cubic_eval c u)) d.
  Proof. exact (fixed_cubic_distance_on c p). Qed.
  Theorem C124_bezier_distance (ps : list P) p : ps <> [] ->
    exists f d, (forall t, bezier_eval (Bezier ps) t = Ret (f t)) /\ fixed_bezier_distance (Bezier ps) p = Ret d /\
    refined_minimum (fun u => dist p (f u)) d.
  Proof. exact (fixed_bezier_distance_on ps p). Qed.
  (** which is the distance to a point of the curve, and at most that to any sample of the first pass *)
  Theorem C124_never_underestimates (h : R -> R) d : refined_minimum h d ->
    (exists u, 0 <= u <= 1 /\ d = h u) /\ forall i, (i < 64)%nat -> d <= h (INR i / 64).
  Proof. exact (refined_on h d). Qed.
End Curves.

(** ** B-splines, of every kind *)
Section Splines.
  Context {E : Eps} {P Q : Type} {PT : Point R P} {QT : Point R Q} {LP : LawfulPoint P} {LQ : LawfulPoint Q}.
  Variables (D : nat) (ks : list R) (ps : list P) (s : bspline R P).
  Hypothesis Hnew : bspline_new D ks ps = Ret (Ok s).
  Local Notation C := (length ps).
  Local Notation U i := (nth i ks 0).

  (** C40, C49 *)
  Theorem C124_domain : fixed_knot_domain s = Ret (U D, U C).
  Proof. exact (new_fixed_domain D ks ps s Hnew). Qed.
  Theorem C124_span t : U D <= t < U C ->
    exists k, fixed_span s t = Ret (Some k) /\ (D <= k < C)%nat /\ U k <= t < U (k + 1).
  Proof. exact (new_fixed_span D ks ps s Hnew t). Qed.

  (** C43 and C41 *)
  Theorem C124_no_panic t :
    (U D <= t <= U C -> exists p, fixed_eval s t = Ret (Ok p)) /\
    (fixed_eval s t = Ret (Err KnotDomainViolation) <-> ~ (U D <= t <= U C)).
  Proof. exact (conj (new_fixed_total D ks ps s Hnew t) (new_fixed_error D ks ps s Hnew t)). Qed.

  (** C44: the B-spline curve, with no condition on the distance of [t] to the knots *)
  Theorem C124_value t : U D <= t < U C -> exists p, fixed_eval s t = Ret (Ok p) /\
    forall i, (i < p_dim (P := P))%nat -> coord p i = spline_coord D ks ps t i.
  Proof. exact (new_fixed_value D ks ps s Hnew t). Qed.
  (** and at the right end, for a nonempty last span, its limit from the left *)
  Theorem C124_value_right_end i (f : R -> R) : (i < p_dim (P := P))%nat -> U (C - 1) < U C ->
    (forall t, U D <= t < U C -> f t = spline_coord D ks ps t i) ->
    exists p, fixed_eval s (U C) = Ret (Ok p) /\ left_limit f (U C) (coord p i).
  Proof. exact (new_fixed_limit D ks ps s Hnew i f). Qed.

  (** C45: degree 0 included *)
  Theorem C124_first : U 0 = U D -> U D < U (D + 1) -> fixed_eval s (U D) = Ret (Ok (nth 0 ps p_default)).
  Proof. exact (new_fixed_first D ks ps s Hnew). Qed.
  Theorem C124_last : U C = U (C + D) -> U (C - 1) < U C ->
    fixed_eval s (U C) = Ret (Ok (nth (C - 1) ps p_default)).
  Proof. exact (new_fixed_last D ks ps s Hnew). Qed.

  (** C47 *)
  Theorem C124_derivative t e : (1 <= D)%nat -> U D < t < U C -> (forall i, (i < length ks)%nat -> U i <> t) ->
    (forall y, U D <= y <= U C -> fixed_eval s y = Ret (Ok (e y))) ->
    exists s' p, fixed_derivative s = Ret s' /\ fixed_eval s' t = Ret (Ok p) /\
      fixed_knot_domain s' = Ret (U D, U C) /\
      forall i, (i < p_dim (P := P))%nat -> derivable_pt_lim (fun y => coord (e y) i) t (coord p i).
  Proof. exact (fixed_derivative_value D ks ps s t e Hnew). Qed.

  (** C48, for every domain *)
  Theorem C124_spline_arclen n : (0 < n)%nat -> exists e,
    (forall t, U D <= t <= U C -> fixed_eval s t = Ret (Ok (e t))) /\
    fixed_bspline_arclen s n = Ret (polyline (fun u => e (U D + u * (U C - U D))) n).
  Proof. exact (new_fixed_arclen D ks ps s Hnew n). Qed.

  (** C79, for every affine map *)
  Theorem C124_moves (F : P -> Q) s' t : affine_map F -> bspline_new D ks (map F ps) = Ret (Ok s') ->
    fixed_eval s' t = omap (rmap F) (fixed_eval s t).
  Proof. exact (new_fixed_aff D ks ps s Hnew F s' t). Qed.
End Splines.

(** ** The cases that refute the properties for the code *)
(** C04: the midpoint of the first half of the line from 0 to 4 *)
Example C124_split_ex {E : Eps} : line_eval (fst (fixed_line_split (Line (pt1 0) (pt1 4)) (1/2))) 1 = line_eval (Line (pt1 0) (pt1 4)) (1/2).
Proof. rewrite (proj1 (C124_line_split (Line (pt1 0) (pt1 4)) (1/2) 1)). f_equal. lra. Qed.
Local Existing Instance Eps64.
(** C16: the first condition of the equivalence *)
Example C124_linear_ex :
  eps <= dist (q_start (Quad (pt1 0) (pt1 9) (pt1 1))) (q_end (Quad (pt1 0) (pt1 9) (pt1 1)))
       * dist (q_start (Quad (pt1 0) (pt1 9) (pt1 1))) (q_end (Quad (pt1 0) (pt1 9) (pt1 1))).
Proof.
  cbn [q_start q_end]. change eps with (/ 2 ^ 52). rewrite dist_pt1, Rabs_left by lra.
  replace (- (0 - 1) * - (0 - 1)) with (/ 1) by field. apply Rinv_le_contravar; [lra|]. apply pow_R1_Rle. lra.
Qed.

(** C44, clamped: the constant spline [C44_clamped_refuted] is constant *)
Example C124_constant_ex : exists s : bspline R P1,
  bspline_new 1 [0;0;1;1] [pt1 1; pt1 1] = Ret (Ok s) /\
  bspline_eval s (1/2) = Ret (Ok (pt1 (1/2))) /\ fixed_eval s (1/2) = Ret (Ok (pt1 1)).
Proof.
  destruct constant_not_constant as (s & Hnew & _ & Hv & Ev). exists s. split; [exact Hnew|]. split; [exact Ev|].
  destruct (C124_value _ _ _ _ Hnew (1/2)) as (p & Ep & Hp); [simpl; lra|].
  rewrite Ep. do 2 f_equal. apply lp_ext. intros [|i] Hi; [|cbn in Hi; lia]. rewrite (Hp 0%nat Hi). exact Hv.
Qed.
(** C44, unclamped: the spline of [C44_unclamped_refuted] *)
Example C124_uniform_ex : exists s : bspline R P1,
  bspline_new 1 [0;1;2;3] [pt1 0; pt1 2] = Ret (Ok s) /\
  bspline_eval s (3/2) = Ret (Ok (pt1 2)) /\ fixed_eval s (3/2) = Ret (Ok (pt1 1)).
Proof.
  destruct uniform_wrong as (s & Hnew & _ & _ & Hv & Ev). exists s. split; [exact Hnew|]. split; [exact Ev|].
  destruct (C124_value _ _ _ _ Hnew (3/2)) as (p & Ep & Hp); [simpl; lra|].
  rewrite Ep. do 2 f_equal. apply lp_ext. intros [|i] Hi; [|cbn in Hi; lia]. rewrite (Hp 0%nat Hi). exact Hv.
Qed.
(** C43: the parameters that panic are evaluated when they lie in [U_D, U_C], and
    rejected when they do not *)
Example C124_no_panic_ex : exists s1 s2 : bspline R P1, exists p,
  bspline_new 3 [0;1;2;3;4;5;6;7;8;9;10;11;12;13] (repeat (pt1 1) 10) = Ret (Ok s1) /\
  bspline_eval s1 (17/2) = Panic /\ fixed_eval s1 (17/2) = Ret (Ok p) /\
  bspline_new 2 [0;0;0;1;2;3] (repeat (pt1 1) 3) = Ret (Ok s2) /\
  bspline_eval s2 (5/2) = Panic /\ fixed_eval s2 (5/2) = Ret (Err KnotDomainViolation).
Proof.
  destruct unclamped_panic as (s1 & N1 & _ & _ & P1'). destruct clamped_start_panic as (s2 & N2 & _ & _ & P2').
  destruct (proj1 (C124_no_panic _ _ _ _ N1 (17/2))) as (p & Ep); [simpl; lra|].
  exists s1, s2, p. repeat split; auto. apply (C124_no_panic _ _ _ _ N2). simpl. lra.
Qed.
(** C47, C45: the derivative of the line from 0 to 1, and its two ends *)
Example C124_derivative_ex : exists s s' : bspline R P1, exists p,
  bspline_new 1 [0;0;1;1] [pt1 0; pt1 1] = Ret (Ok s) /\
  fixed_eval s 0 = Ret (Ok (pt1 0)) /\ fixed_eval s 1 = Ret (Ok (pt1 1)) /\
  fixed_derivative s = Ret s' /\ fixed_knot_domain s' = Ret (0, 1) /\ fixed_eval s' (1/2) = Ret (Ok p).
Proof.
  destruct derivative_ce as (s & s0 & Hnew & _). exists s.
  destruct (C124_spline_arclen _ _ _ _ Hnew 1) as (e & He & _); [lia|].
  destruct (C124_derivative _ _ _ _ Hnew (1/2) e) as (s' & p & E1 & E2 & E3 & _).
  - lia.
  - simpl. lra.
  - intros i Hi. do 4 (destruct i as [|i]; [simpl; lra|]). simpl in Hi. lia.
  - exact He.
  - exists s', p. split; [exact Hnew|]. split; [|split; [|split; [exact E1|split; [exact E3|exact E2]]]].
    + apply (C124_first _ _ _ _ Hnew); simpl; lra.
    + apply (C124_last _ _ _ _ Hnew); simpl; lra.
Qed.

Print Assumptions C124_line_split.
Print Assumptions C124_segment_split.
Print Assumptions C124_line_distance.
Print Assumptions C124_distance_agrees.
Print Assumptions C124_quad_is_linear.
Print Assumptions C124_cubic_is_linear.
Print Assumptions C124_dd.
Print Assumptions C124_arclen.
Print Assumptions C124_quad_distance.
Print Assumptions C124_cubic_distance.
Print Assumptions C124_bezier_distance.
Print Assumptions C124_never_underestimates.
Print Assumptions C124_domain.
Print Assumptions C124_span.
Print Assumptions C124_no_panic.
Print Assumptions C124_value.
Print Assumptions C124_value_right_end.
Print Assumptions C124_first.
Print Assumptions C124_last.
Print Assumptions C124_derivative.
Print Assumptions C124_spline_arclen.
Print Assumptions C124_moves.
