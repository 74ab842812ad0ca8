(** C03-C08: line segments, in exact arithmetic, for every lawful point type. *)
From Coq Require Import Reals List Arith Lia Lra.
From Verif Require Import Base.Outcome Base.Scalar Model.Point Model.Line Inst.RealInst
  Spec.Sums Spec.Lawful Spec.Bernstein Spec.Metric Spec.Box Spec.Points
  Proofs.PointFacts Proofs.ExactEval Proofs.LineFacts Proofs.BoxSpec.
Import ListNotations.
Local Open Scope R_scope.

Section Line.
  Context {E : Eps} {P : Type} {PT : Point R P} {LP : LawfulPoint P}.

  (** C03 *)
  Theorem C03_eval (s : line P) t i : (i < p_dim (P := P))%nat ->
    coord (line_eval s t) i = curve_coord [l_start s; l_end s] t i.
  Proof. exact (line_eval_spec s t i). Qed.
  Theorem C03_start (s : line P) : line_eval s 0 = l_start s.
  Proof. exact (line_eval_0 s). Qed.
  Theorem C03_end (s : line P) : line_eval s 1 = l_end s.
  Proof. exact (line_eval_1 s). Qed.
  Theorem C03_between (s : line P) t i : (i < p_dim (P := P))%nat -> 0 <= t <= 1 ->
    Rmin (coord (l_start s) i) (coord (l_end s) i) <= coord (line_eval s t) i
    <= Rmax (coord (l_start s) i) (coord (l_end s) i).
  Proof. exact (line_eval_between s t i). Qed.

  (** C04.  Full statement: for all [s t u],
      [line_eval (fst (line_split s t)) u = line_eval s (t * u)] and
      [line_eval (snd (line_split s t)) u = line_eval s (t + u * (1 - t))].
      It is false ([C04_split_refuted] below): [split] subtracts the end points
      the wrong way round.  What the halves do trace: *)
  Theorem C04_split_partial (s : line P) t u :
    line_eval (fst (line_split s t)) u = line_eval s (- (t * u)) /\
    line_eval (snd (line_split s t)) u = line_eval s (- t + u * (1 + t)).
  Proof. exact (line_split_behaviour s t u). Qed.
  Theorem C04_split_correct_iff_partial (s : line P) t :
    (forall u, line_eval (fst (line_split s t)) u = line_eval s (t * u) /\
               line_eval (snd (line_split s t)) u = line_eval s (t + u * (1 - t)))
    <-> t = 0 \/ l_start s = l_end s.
  Proof. exact (line_split_correct_iff s t). Qed.

  (** C05.  Full statement: [line_distance_to_point s p = Ret d] with
      [is_min_dist (line_eval s) p d], for all [s p].  False
      ([C05_distance_refuted]).  It holds when the segment is not degenerate and
      the projection of [p] falls before the end point: *)
  Theorem C05_distance_partial (s : line P) p :
    eps <= dist (l_end s) (l_start s) * dist (l_end s) (l_start s) ->
    inner (l_start s) p (l_end s) / (dist (l_end s) (l_start s) * dist (l_end s) (l_start s)) < 1 ->
    exists d, line_distance_to_point s p = Ret d /\ is_min_dist (line_eval s) p d.
  Proof. exact (line_distance_min s p). Qed.
  (** past the end point the distance to the wrong end is returned *)
  Theorem C05_distance_beyond_partial (s : line P) p :
    eps <= dist (l_end s) (l_start s) * dist (l_end s) (l_start s) ->
    1 <= inner (l_start s) p (l_end s) / (dist (l_end s) (l_start s) * dist (l_end s) (l_start s)) ->
    line_distance_to_point s p = Ret (dist p (l_start s)) /\
    is_min_dist (line_eval s) p (dist p (l_end s)).
  Proof. exact (line_distance_beyond s p). Qed.
  (** segments shorter than sqrt(EPSILON) are treated as their start point *)
  Theorem C05_distance_short_partial (s : line P) p :
    dist (l_end s) (l_start s) * dist (l_end s) (l_start s) < eps ->
    line_distance_to_point s p = Ret (dist p (l_start s)) /\
    forall u, 0 <= u <= 1 -> dist p (l_start s) <= dist p (line_eval s u) + sqrt eps.
  Proof. exact (line_distance_short s p). Qed.

  (** C06 *)
  Theorem C06_never_underestimates (s : line P) p : exists u, 0 <= u <= 1 /\
    line_distance_to_point s p = Ret (dist p (line_eval s u)).
  Proof. exact (line_distance_on_segment s p). Qed.

  (** C07 *)
  Theorem C07_bounding_box (s : line P) : exists bounds, line_bounding_box s = Ret bounds /\
    box_shape (P := P) bounds /\
    forall i, (i < p_dim (P := P))%nat ->
      box_contains (line_eval s) bounds i 0 /\ box_attained (line_eval s) bounds i.
  Proof. exact (line_box s). Qed.

  (** C08 *)
  Theorem C08_derivative (s : line P) t i : (i < p_dim (P := P))%nat ->
    derivable_pt_lim (fun t => coord (line_eval s t) i) t (coord (line_derivative s) i).
  Proof. exact (line_derivative_lim s t i). Qed.
  Theorem C08_axis (s : line P) t i : line_axis s t i = p_axis (line_eval s t) i.
  Proof. exact (line_axis_eval s t i). Qed.
End Line.

Theorem C04_split_refuted {E : Eps} : exists (s : line P1) t u, 0 < t < 1 /\ 0 <= u <= 1 /\
  line_eval (fst (line_split s t)) u <> line_eval s (t * u) /\
  line_eval (snd (line_split s t)) (1 - u) <> line_eval s (t + (1 - u) * (1 - t)).
Proof. exact line_split_ce. Qed.

(** the query point is on the segment, yet the returned distance is positive *)
Theorem C05_distance_refuted {E : Eps} : exists (s : line P1) p d,
  line_distance_to_point s p = Ret d /\ is_min_dist (line_eval s) p 0 /\ 0 < d.
Proof. exact line_distance_ce. Qed.

(** a segment and a query point meeting the hypotheses of [C05_distance_partial] *)
Section Ex.
Local Existing Instance Eps64.
Example C05_ex :
  let s := Line (pt2 0 0) (pt2 2 0) in let p := pt2 1 5 in
  @eps Eps64 <= dist (l_end s) (l_start s) * dist (l_end s) (l_start s) /\
  inner (l_start s) p (l_end s) / (dist (l_end s) (l_start s) * dist (l_end s) (l_start s)) < 1.
Proof.
  assert (H : dist (pt2 2 0) (pt2 0 0) * dist (pt2 2 0) (pt2 0 0) = 4).
  { unfold dist. rewrite sqrt_sqrt; cbn; lra. }
  cbn [l_start l_end]. rewrite H. split.
  - pose proof eps64_le_1. lra.
  - unfold inner. cbn. lra.
Qed.
End Ex.
Example C03_ex {E : Eps} : coord (line_eval (Line (pt2 1 2) (pt2 3 6)) (1/2)) 1 = 4.
Proof. cbn. lra. Qed.
Example C07_ex {E : Eps} : line_bounding_box (Line (pt2 1 6) (pt2 3 2)) = Ret [(1, 3); (2, 6)].
Proof.
  rewrite line_bbox_value. cbn [p_dim PointN_Point seq map l_start l_end].
  cbn [coord PointN_lawful nth pt2 pt pn_arr].
  rewrite Rmin_left, Rmax_right, Rmin_right, Rmax_left by lra. reflexivity.
Qed.

Print Assumptions C03_eval.
Print Assumptions C03_start.
Print Assumptions C03_end.
Print Assumptions C03_between.
Print Assumptions C04_split_partial.
Print Assumptions C04_split_correct_iff_partial.
Print Assumptions C04_split_refuted.
Print Assumptions C05_distance_partial.
Print Assumptions C05_distance_beyond_partial.
Print Assumptions C05_distance_short_partial.
Print Assumptions C05_distance_refuted.
Print Assumptions C06_never_underestimates.
Print Assumptions C07_bounding_box.
Print Assumptions C08_derivative.
Print Assumptions C08_axis.
