(** C141: the length of an adaptively flattened curve, exact arithmetic. *)
From Coq Require Import Reals List Arith Lia Lra.
From Verif Require Import Base.Outcome Base.Scalar Model.Point Model.Line Model.Quadratic Model.Cubic
  Inst.RealInst Spec.Sums Spec.Lawful Spec.Metric Spec.Length Spec.Adaptive Spec.Points
  Proofs.PointFacts Proofs.RealTac Proofs.Metric Proofs.ExactEval Proofs.LineFacts Proofs.Linearity Proofs.BoxSpec Proofs.Adaptive Proofs.FlatLength.
Import ListNotations.
Local Open Scope R_scope.

Section Flat.
  Context {E : Eps} {P : Type} {PT : Point R P} {LP : LawfulPoint P}.

  (** C141: a piece accepted by [is_a_point(tol) || is_linear(tol)] is at least as long as
      its chord and at most 2 tol (cubic: 4 tol) longer *)
  Theorem C141_quad_piece (q : quad P) tol : 0 <= tol ->
    (if quad_is_a_point q tol then Ret true else quad_is_linear q tol) = Ret true ->
    dist (q_start q) (q_end q) <= arc_length (quad_control_points q) <= dist (q_start q) (q_end q) + 2 * tol.
  Proof. exact (quad_piece_length q tol). Qed.
  Theorem C141_cubic_piece (q : cubic P) tol : 0 <= tol ->
    (if cubic_is_a_point q tol then Ret true else cubic_is_linear q tol) = Ret true ->
    dist (c_start q) (c_end q) <= arc_length (cubic_control_points q) <= dist (c_start q) (c_end q) + 4 * tol.
  Proof. exact (cubic_piece_length q tol). Qed.

  (** C141: the chords of the flattened curve (Spec/Adaptive.v) together *)
  Theorem C141_quad (c : quad P) tol d l : 0 <= tol ->
    flattened (fun q => if quad_is_a_point q tol then Ret true else quad_is_linear q tol)
      (fun q => quad_split q (/ 2)) d c = Ret (Some l) ->
    let s := fold_right (fun q s => dist (q_start q) (q_end q) + s) 0 l in
    s <= arc_length (quad_control_points c) <= s + INR (length l) * (2 * tol).
  Proof. exact (quad_flat_length c tol d l). Qed.
  Theorem C141_cubic (c : cubic P) tol d l : 0 <= tol ->
    flattened (fun q => if cubic_is_a_point q tol then Ret true else cubic_is_linear q tol)
      (fun q => cubic_split q (/ 2)) d c = Ret (Some l) ->
    let s := fold_right (fun q s => dist (c_start q) (c_end q) + s) 0 l in
    s <= arc_length (cubic_control_points c) <= s + INR (length l) * (4 * tol).
  Proof. exact (cubic_flat_length c tol d l). Qed.
End Flat.

(** a cubic whose inner control points lie on the chord in the wrong order: accepted with
    tolerance 0, hence of length 1, although its control polygon has length 2 *)
Definition back : cubic P1 := Cubic (pt1 0) (pt1 (3 / 4)) (pt1 (1 / 4)) (pt1 1).
Example C141_back : let E := Eps64 in
  cubic_is_linear back 0 = Ret true /\ arc_length (cubic_control_points back) = 1 /\
  polygon_length (cubic_control_points back) = 2.
Proof.
  intros E0.
  assert (S1 : sqd (cubic_baseline back) = 1).
  { unfold sqd. cbn [back cubic_baseline l_start l_end c_start c_end]. rewrite dist_pt1, Rabs_right by lra. lra. }
  assert (N : forall x, 0 <= x < 1 -> proj (cubic_baseline back) (pt1 x) < 1 /\ near (cubic_baseline back) 0 (pt1 x)).
  { intros x Hx. split.
    - unfold proj, inner. rewrite S1. change (p_dim (P := P1)) with 1%nat. cbn [Rsum back cubic_baseline l_start l_end c_start c_end]. rewrite !coord_pt1. lra.
    - exists x. split; [lra|]. right. rewrite <- (dist_refl (pt1 x)). f_equal. apply lp_ext. intros i Hi. change (i < 1)%nat in Hi.
      replace i with 0%nat by lia. rewrite line_eval_coord by (change (0 < 1)%nat; lia).
      cbn [back cubic_baseline l_start l_end c_start c_end]. rewrite !coord_pt1. ring. }
  assert (A : cubic_is_linear back 0 = Ret true).
  { apply cubic_is_linear_complete; try apply N; cbn [back c_ctrl1 c_ctrl2]; try lra. rewrite S1. cbn [eps E0 Eps64]. lra. }
  split; [exact A|]. split.
  - destruct (C141_cubic_piece back 0) as [L U]; [lra| |].
    + destruct (cubic_is_a_point back 0); [reflexivity|exact A].
    + assert (W : dist (c_start back) (c_end back) = 1)
        by (cbn [back c_start c_end]; rewrite dist_pt1, Rabs_left by lra; lra). lra.
  - unfold back. cbn [cubic_control_points polygon_length c_start c_ctrl1 c_ctrl2 c_end]. rewrite !dist_pt1.
    rewrite (Rabs_left (0 - 3 / 4)), (Rabs_right (3 / 4 - 1 / 4)), (Rabs_left (1 / 4 - 1)) by lra. lra.
Qed.
(** a quadratic with legs up to 2, flattened to 1/100 in nine rounds *)
Example C141_ex {E : Eps} : exists l,
  flattened (fun q => if quad_is_a_point q (/ 100) then Ret true else quad_is_linear q (/ 100))
    (fun q => quad_split q (/ 2)) 9 (Quad (pt1 0) (pt1 1) (pt1 3)) = Ret (Some l).
Proof.
  destruct (quad_adaptive (Quad (pt1 0) (pt1 1) (pt1 3)) (/ 100) 2 9) as (l & H & _); [|lra|simpl; lra|exists l; exact H].
  split; [lra|]. intros [|[|[|k]]] p q; cbn; intros Hp Hq; try discriminate;
    injection Hp as <-; injection Hq as <-; rewrite dist_pt1, Rabs_left; lra.
Qed.

Print Assumptions C141_quad_piece.
Print Assumptions C141_cubic_piece.
Print Assumptions C141_quad.
Print Assumptions C141_cubic.
