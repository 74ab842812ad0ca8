(** Where the code does not commute with scaling and translation. *)
From Coq Require Import Reals QArith Qreals List Arith Lia Lra Psatz.
From Verif Require Import Base.Outcome Base.Scalar Model.Point Model.Line Model.Quadratic Model.BSpline
  Inst.RealInst Inst.RatInst Spec.Sums Spec.Lawful Spec.Points Spec.Maps
  Proofs.OutcomeFacts Proofs.PointFacts Proofs.RealTac Proofs.Metric Proofs.ExactEval Proofs.LineFacts Proofs.BoxSpec
  Proofs.BSplineEval Proofs.Transfer Proofs.BSplineCE.
Import ListNotations.
Local Open Scope R_scope.

Section Scale.
  Context {E : Eps}.
  Definition twice (p : P1) : P1 := pt1 (2 * coord p 0).
  Definition up (p : P1) : P1 := pt1 (coord p 0 + 1).

  Lemma P1_eta (p : P1) : p = pt1 (coord p 0).
  Proof. apply lp_ext. intros i Hi. rewrite P1_dim in Hi. destruct i; [|lia]. reflexivity. Qed.
  Lemma twice_similar : similarity 2 twice.
  Proof.
    split; [lra|]. split.
    - exists (fun _ _ => 2), (fun _ => 0). intros p j Hj. rewrite P1_dim in *. destruct j; [|lia].
      cbn [Rsum]. change (2 * coord p 0 = 0 + 2 * coord p 0 + 0). ring.
    - intros p q. unfold twice. rewrite dist_pt1. rewrite (P1_eta p) at 2. rewrite (P1_eta q) at 2. rewrite dist_pt1.
      rewrite <- (Rabs_pos_eq 2) at 3 by lra. rewrite <- Rabs_mult. f_equal. ring.
  Qed.
  Lemma up_moves : translation (fun _ => 1) up.
  Proof. intros p i Hi. rewrite P1_dim in Hi. destruct i; [|lia]. reflexivity. Qed.

  Lemma scale_ce : exists (a b p : P1) d d',
    line_distance_to_point (Line a b) p = Ret d /\ line_distance_to_point (Line (twice a) (twice b)) (twice p) = Ret d' /\
    d' < 2 * d /\ (forall tol, 0 <= tol -> quad_is_linear (Quad a p b) tol = Ret false /\
      quad_is_linear (Quad (twice a) (twice p) (twice b)) (2 * tol) = Ret true).
  Proof.
    pose proof eps_pos as He. set (w := sqrt eps).
    assert (Hw : 0 < w) by now apply sqrt_lt_R0. assert (Hww : w * w = eps) by (apply sqrt_sqrt; lra).
    assert (H1 : sqd (Line (pt1 0) (pt1 (3 / 4 * w))) < eps).
    { rewrite sqd_pt1. nra. }
    assert (H2 : eps <= sqd (Line (twice (pt1 0)) (twice (pt1 (3 / 4 * w))))).
    { unfold twice. rewrite !coord_pt1, sqd_pt1. nra. }
    set (a := pt1 0). set (b := pt1 (3 / 4 * w)). set (p := pt1 (3 / 8 * w)).
    assert (D1 : line_distance_to_point (Line a b) p = Ret (3 / 8 * w)).
    { rewrite line_distance_value. destruct (Rlt_dec _ _) as [_|H]; [|exfalso; apply H; exact H1].
      cbn [l_start]. unfold p, a. rewrite dist_pt1, Rabs_pos_eq by lra. f_equal. ring. }
    assert (D2 : line_distance_to_point (Line (twice a) (twice b)) (twice p) = Ret 0).
    { rewrite line_distance_value. destruct (Rlt_dec _ _) as [H|_]; [exfalso; fold a b in H2; lra|].
      assert (Hp : proj (Line (twice a) (twice b)) (twice p) = / 2).
      { unfold proj, twice, a, b, p. cbn [l_start l_end]. rewrite !coord_pt1, inner_pt1, sqd_pt1. field. lra. }
      rewrite Hp. destruct (Rlt_dec (/ 2) 1) as [_|H]; [|lra]. rewrite Rmax_right by lra. f_equal.
      assert (He' : line_eval (Line (twice a) (twice b)) (/ 2) = twice p).
      { apply lp_ext. intros i Hi. rewrite line_eval_coord by exact Hi. rewrite P1_dim in Hi. destruct i; [|lia].
        cbn [l_start l_end]. unfold twice, a, b, p. rewrite !coord_pt1. field. }
      rewrite He'. apply dist_refl. }
    exists a, b, p, (3 / 8 * w), 0. split; [exact D1|]. split; [exact D2|]. split; [lra|].
    intros tol Ht. unfold quad_is_linear, quad_are_points_colinear, quad_baseline. cbn [q_start q_ctrl q_end].
    rewrite D2, !sqlen_sub. cbn [bind]. rs.
    unfold sqd in H1, H2. cbn [l_start l_end] in H1, H2. fold a b in H1, H2. split.
    - rewrite Rltb_true by (rewrite dist_sym; exact H1). reflexivity.
    - rewrite Rltb_false by (rewrite dist_sym; lra). rewrite Rleb_true by lra. reflexivity.
  Qed.
End Scale.

Section Move.
  Local Existing Instance QEps64.
  Local Existing Instance Eps64.
  Lemma move_ce : exists s s' : bspline R P1,
    bspline_new 1 [0;0;1;1] [pt1 0; pt1 0] = Ret (Ok s) /\
    bspline_new 1 [0;0;1;1] [up (pt1 0); up (pt1 0)] = Ret (Ok s') /\
    bspline_eval s (1/2) = Ret (Ok (pt1 0)) /\ bspline_eval s' (1/2) = Ret (Ok (pt1 (1/2))) /\
    up (pt1 0) <> pt1 (1/2).
  Proof.
    assert (Hu : up (pt1 0) = pt1 1) by (unfold up; rewrite coord_pt1; f_equal; ring).
    rewrite !Hu. destruct zero_stays_zero as (s & H0 & H1). destruct constant_not_constant as (s' & H2 & _ & _ & H3).
    exists s, s'. repeat (split; [assumption|]).
    intros H. apply (f_equal (fun p => coord p 0)) in H. rewrite !coord_pt1 in H. lra.
  Qed.
End Move.
