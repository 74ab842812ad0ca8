(** Quadratics along the unit circle: how close eight and sixteen of them come. *)
From Coq Require Import Reals ZArith List Arith Lia Lra Psatz.
From Coquelicot Require Import Coquelicot.
From Verif Require Import Base.Outcome Base.Scalar Model.Point Model.Line Model.Quadratic Inst.RealInst
  Spec.Sums Spec.Lawful Spec.Bernstein Spec.Length Spec.Points Spec.Circle Spec.QuadCircle
  Proofs.PointFacts Proofs.ExactEval Proofs.Metric Proofs.BezierReal Proofs.Calculus Proofs.CurveCalc
  Proofs.ArclenFacts Proofs.Cardano Proofs.Circle Proofs.CircleLength.
Import ListNotations.
Local Open Scope R_scope.

Section Radius.
  Context {E : Eps}.

  Lemma radial_quad (c : quad P2) t :
    radial (quad_eval c t) = sqrt (coord (quad_eval c t) 0 * coord (quad_eval c t) 0 + coord (quad_eval c t) 1 * coord (quad_eval c t) 1) - 1.
  Proof.
    unfold radial. rewrite lp_sqlen. change (p_dim (P := PointN R 2)) with 2%nat. cbn [Rsum s_sub s_sqrt s_lit RScalar].
    rewrite Rplus_0_l. reflexivity.
  Qed.
  Lemma radial_sqrt (c : quad P2) t y : coord (quad_eval c t) 0 * coord (quad_eval c t) 0 + coord (quad_eval c t) 1 * coord (quad_eval c t) 1 = y ->
    radial (quad_eval c t) = sqrt y - 1.
  Proof. intros <-. apply radial_quad. Qed.

  (** ** Tangent arcs *)
  Section Arc.
    Variables psi a : R.
    Hypothesis Ha : 0 < cos a.

    Lemma one_psi : cos psi * cos psi + sin psi * sin psi = 1.
    Proof. pose proof (sin2_cos2 psi) as H. unfold Rsqr in H. lra. Qed.
    Lemma one_a : sin a * sin a = 1 - cos a * cos a.
    Proof. pose proof (sin2_cos2 a) as H. unfold Rsqr in H. lra. Qed.

    Let X t := cos a + 2 * (t * (1 - t)) * (/ cos a - cos a).
    Let Y t := (2 * t - 1) * sin a.
    Lemma arc_x t : coord (quad_eval (tangent_arc psi a) t) 0 = X t * cos psi - Y t * sin psi.
    Proof.
      rewrite quad_eval_coord by (cbn; lia). unfold tangent_arc, rim, corner. cbn [q_start q_ctrl q_end].
      cbn. rewrite cos_minus, cos_plus. unfold X, Y. ring.
    Qed.
    Lemma arc_y t : coord (quad_eval (tangent_arc psi a) t) 1 = X t * sin psi + Y t * cos psi.
    Proof.
      rewrite quad_eval_coord by (cbn; lia). unfold tangent_arc, rim, corner. cbn [q_start q_ctrl q_end].
      cbn. rewrite sin_minus, sin_plus. unfold X, Y. ring.
    Qed.
    Lemma arc_square t : coord (quad_eval (tangent_arc psi a) t) 0 * coord (quad_eval (tangent_arc psi a) t) 0 +
      coord (quad_eval (tangent_arc psi a) t) 1 * coord (quad_eval (tangent_arc psi a) t) 1
      = 1 + (2 * (t * (1 - t)) * (sin a * sin a / cos a)) ^ 2.
    Proof.
      rewrite arc_x, arc_y.
      replace ((X t * cos psi - Y t * sin psi) * (X t * cos psi - Y t * sin psi) + (X t * sin psi + Y t * cos psi) * (X t * sin psi + Y t * cos psi))
        with ((X t * X t + Y t * Y t) * (cos psi * cos psi + sin psi * sin psi)) by ring.
      rewrite one_psi. replace (Y t * Y t) with ((2 * t - 1) ^ 2 * (sin a * sin a)) by (unfold Y; ring).
      rewrite one_a. unfold X. field. lra.
    Qed.
    Lemma arc_radial t : radial (quad_eval (tangent_arc psi a) t) = sqrt (1 + (2 * (t * (1 - t)) * (sin a * sin a / cos a)) ^ 2) - 1.
    Proof. apply radial_sqrt, arc_square. Qed.

    Definition bulge := (1 - cos a) ^ 2 / (2 * cos a).
    Lemma bulge_pos : 0 <= bulge.
    Proof. unfold bulge. apply Rmult_le_pos; [apply pow2_ge_0|]. apply Rlt_le, Rinv_0_lt_compat. lra. Qed.
    Lemma bulge_square : (1 + bulge) * (1 + bulge) = 1 + (2 * / 4 * (sin a * sin a / cos a)) ^ 2.
    Proof. rewrite one_a. unfold bulge. field. lra. Qed.
    Theorem arc_range t : 0 <= t <= 1 -> 0 <= radial (quad_eval (tangent_arc psi a) t) <= bulge.
    Proof.
      intros Ht. rewrite arc_radial. pose proof (unit_product t Ht) as U. pose proof bulge_pos.
      assert (0 <= sin a * sin a / cos a).
      { apply Rmult_le_pos; [apply (Rle_0_sqr (sin a))|apply Rlt_le, Rinv_0_lt_compat; lra]. }
      set (g := sin a * sin a / cos a) in *. split.
      - assert (1 <= sqrt (1 + (2 * (t * (1 - t)) * g) ^ 2)); [|lra].
        rewrite <- sqrt_1 at 1. apply sqrt_le_1_alt. pose proof (pow2_ge_0 (2 * (t * (1 - t)) * g)). lra.
      - assert (sqrt (1 + (2 * (t * (1 - t)) * g) ^ 2) <= 1 + bulge); [|lra].
        rewrite <- (sqrt_square (1 + bulge)) by lra. apply sqrt_le_1_alt. rewrite bulge_square. fold g.
        apply Rplus_le_compat_l. apply pow_incr. split; [apply Rmult_le_pos; lra|].
        apply Rmult_le_compat_r; lra.
    Qed.
    Theorem arc_middle : radial (quad_eval (tangent_arc psi a) (/ 2)) = bulge.
    Proof.
      rewrite arc_radial. replace (/ 2 * (1 - / 2)) with (/ 4) by field. rewrite <- bulge_square.
      pose proof bulge_pos. rewrite sqrt_square; lra.
    Qed.
  End Arc.

  Lemma cos_low x : 1 - x * x / 2 <= cos x.
  Proof.
    assert (H : cos x = 1 - 2 * (sin (x / 2) * sin (x / 2))).
    { replace x with (2 * (x / 2)) at 1 by field. rewrite cos_2a_sin. unfold Rsqr. ring. }
    assert (S : Rabs (sin (x / 2)) <= Rabs (x / 2)).
    { destruct (Rle_or_lt 0 (x / 2)) as [P|P].
      - rewrite (Rabs_pos_eq (x / 2)) by lra. destruct (Req_dec (x / 2) 0) as [->|N]; [rewrite sin_0, Rabs_R0; lra|].
        apply Rabs_le. split; [|left; apply sin_lt_x; lra].
        destruct (Rle_or_lt (x / 2) PI); [pose proof (sin_ge_0 (x / 2)); lra|].
        pose proof (SIN_bound (x / 2)). pose proof pi_range. lra.
      - rewrite <- (Rabs_Ropp (x / 2)), <- Rabs_Ropp, <- sin_neg. set (y := - (x / 2)). assert (0 < y) by (unfold y; lra).
        rewrite (Rabs_pos_eq y) by lra. apply Rabs_le. split; [|left; now apply sin_lt_x].
        destruct (Rle_or_lt y PI); [pose proof (sin_ge_0 y); lra|].
        pose proof (SIN_bound y). pose proof pi_range. lra. }
    assert (Q : sin (x / 2) * sin (x / 2) <= x / 2 * (x / 2)).
    { rewrite <- (Rabs_pos_eq (sin (x / 2) * sin (x / 2))), <- (Rabs_pos_eq (x / 2 * (x / 2))) by apply Rle_0_sqr.
      rewrite !Rabs_mult. apply Rmult_le_compat; auto using Rabs_pos. }
    rewrite H. lra.
  Qed.

  (** ** Rings *)
  Lemma ring_in n q : In q (tangent_ring n) -> exists k, (k < n)%nat /\ q = tangent_arc (2 * PI * INR k / INR n) (PI / INR n).
  Proof.
    unfold tangent_ring. intros H. apply in_map_iff in H. destruct H as (k & <- & H). apply in_seq in H.
    exists k. split; [lia|reflexivity].
  Qed.
  Lemma angle n : (3 <= n)%nat -> 0 < PI / INR n <= PI / 3.
  Proof.
    intros Hn. pose proof PI_RGT_0.
    assert (3 <= INR n) by (replace 3 with (INR 3) by (rewrite INR_IZR_INZ; reflexivity); now apply le_INR).
    split; [apply Rdiv_lt_0_compat; lra|]. unfold Rdiv. apply Rmult_le_compat_l; [lra|]. apply Rinv_le_contravar; lra.
  Qed.
  Lemma cos_half n : (3 <= n)%nat -> / 2 <= cos (PI / INR n).
  Proof.
    intros Hn. pose proof (angle n Hn). pose proof PI_RGT_0. replace (/ 2) with (1 / 2) by field. rewrite <- cos_PI3.
    apply cos_decr_1; lra.
  Qed.
  (** the error falls with the fourth power of the number of pieces *)
  Theorem ring_rate n q t : (3 <= n)%nat -> In q (tangent_ring n) -> 0 <= t <= 1 ->
    0 <= radial (quad_eval q t) <= (PI / INR n) ^ 4 / 4.
  Proof.
    intros Hn Hq Ht. destruct (ring_in n q Hq) as (k & _ & ->). pose proof (cos_half n Hn) as C.
    pose proof (arc_range (2 * PI * INR k / INR n) (PI / INR n) ltac:(lra) t Ht) as [A B]. split; [exact A|].
    eapply Rle_trans; [exact B|]. unfold bulge. pose proof (cos_low (PI / INR n)) as L. pose proof (COS_bound (PI / INR n)) as U.
    set (x := PI / INR n) in *. set (c := cos x) in *.
    apply Rle_trans with ((1 - c) ^ 2 / 1).
    - unfold Rdiv. apply Rmult_le_compat_l; [apply pow2_ge_0|]. apply Rinv_le_contravar; lra.
    - assert ((1 - c) ^ 2 <= (x * x / 2) ^ 2) by (apply pow_incr; lra).
      replace (x ^ 4 / 4) with ((x * x / 2) ^ 2) by field. lra.
  Qed.

  Lemma cos_pi8 : cos (PI / 8) * cos (PI / 8) = (1 + / sqrt 2) / 2.
  Proof.
    pose proof (cos_2a_cos (PI / 8)) as H. replace (2 * (PI / 8)) with (PI / 4) in H by field. rewrite cos_PI4 in H.
    replace (1 / sqrt 2) with (/ sqrt 2) in H by (unfold Rdiv; ring). lra.
  Qed.
  Lemma cos_pi16 : cos (PI / 16) * cos (PI / 16) = (1 + cos (PI / 8)) / 2.
  Proof.
    pose proof (cos_2a_cos (PI / 16)) as H. replace (2 * (PI / 16)) with (PI / 8) in H by field. lra.
  Qed.
  Lemma root2 : 14142135 / 10000000 <= sqrt 2 <= 14142136 / 10000000.
  Proof.
    split; [rewrite <- (sqrt_square (14142135 / 10000000)) by lra|rewrite <- (sqrt_square (14142136 / 10000000)) by lra];
      apply sqrt_le_1_alt; lra.
  Qed.
  Lemma inv_root2 : / sqrt 2 = sqrt 2 / 2.
  Proof.
    pose proof root2. assert (Q : sqrt 2 * sqrt 2 = 2) by (apply sqrt_sqrt; lra).
    apply (Rmult_eq_reg_l (sqrt 2)); [|lra]. rewrite Rinv_r by lra. lra.
  Qed.
  Lemma square_range x lo hi : 0 < x -> 0 <= lo -> 0 <= hi -> lo * lo <= x * x <= hi * hi -> lo <= x <= hi.
  Proof. intros Hx Hl Hh [A B]. split; nra. Qed.
  Lemma pi8_range : 923879 / 1000000 <= cos (PI / 8) <= 923880 / 1000000.
  Proof.
    pose proof cos_pi8 as Q. rewrite inv_root2 in Q. pose proof root2.
    assert (0 < cos (PI / 8)) by (pose proof (cos_half 8 ltac:(lia)) as C; simpl INR in C; replace (PI / (1 + 1 + 1 + 1 + 1 + 1 + 1 + 1)) with (PI / 8) in C by (f_equal; ring); lra).
    apply square_range; lra.
  Qed.
  Lemma pi16_range : 980785 / 1000000 <= cos (PI / 16) <= 980786 / 1000000.
  Proof.
    pose proof cos_pi16 as Q. pose proof pi8_range. pose proof PI_RGT_0.
    assert (0 < cos (PI / 16)) by (apply cos_gt_0; lra).
    apply square_range; lra.
  Qed.
  Lemma INR8 : INR 8 = 8. Proof. rewrite INR_IZR_INZ. reflexivity. Qed.
  Lemma INR16 : INR 16 = 16. Proof. rewrite INR_IZR_INZ. reflexivity. Qed.

  Theorem ring_16 q t : In q (tangent_ring 16) -> 0 <= t <= 1 -> Rabs (radial (quad_eval q t)) <= max_drift.
  Proof.
    intros Hq Ht. destruct (ring_in 16 q Hq) as (k & _ & ->). rewrite INR16. pose proof pi16_range as C.
    pose proof (arc_range (2 * PI * INR k / 16) (PI / 16) ltac:(lra) t Ht) as [A B]. rewrite Rabs_pos_eq by exact A.
    eapply Rle_trans; [exact B|]. unfold bulge, max_drift. set (c := cos (PI / 16)) in *.
    apply (Rmult_le_reg_r (2 * c)); [lra|]. unfold Rdiv at 1. rewrite Rmult_assoc, Rinv_l, Rmult_1_r by lra. nra.
  Qed.
  Theorem ring_8 q : In q (tangent_ring 8) ->
    (forall t, 0 <= t <= 1 -> 0 <= radial (quad_eval q t) <= 3137 / 1000000) /\
    3135 / 1000000 <= radial (quad_eval q (/ 2)).
  Proof.
    intros Hq. destruct (ring_in 8 q Hq) as (k & _ & ->). rewrite INR8. pose proof pi8_range as C.
    assert (B : 3135 / 1000000 <= bulge (PI / 8) <= 3137 / 1000000).
    { unfold bulge. set (c := cos (PI / 8)) in *. split; apply (Rmult_le_reg_r (2 * c)); try lra;
        unfold Rdiv at 2; try unfold Rdiv at 1; rewrite ?Rmult_assoc, ?Rinv_l, ?Rmult_1_r by lra; nra. }
    split.
    - intros t Ht. pose proof (arc_range (2 * PI * INR k / 8) (PI / 8) ltac:(lra) t Ht). lra.
    - rewrite arc_middle by lra. lra.
  Qed.

  (** ** Eight pieces are too few *)
  Lemma radial_square (c : quad P2) t e : 0 <= e <= 1 -> Rabs (radial (quad_eval c t)) <= e ->
    1 - 2 * e <= coord (quad_eval c t) 0 * coord (quad_eval c t) 0 + coord (quad_eval c t) 1 * coord (quad_eval c t) 1 <= 1 + 2 * e + e * e.
  Proof.
    intros He H. rewrite radial_quad in H. set (y := coord (quad_eval c t) 0 * _ + _) in *.
    assert (0 <= y) by (unfold y; apply Rplus_le_le_0_compat; apply Rle_0_sqr).
    apply Rabs_le_between in H. pose proof (sqrt_pos y). pose proof (sqrt_sqrt y ltac:(assumption)) as Q. split; nra.
  Qed.

  (** four differences of the squared radius give the squared second difference of the control points *)
  Lemma fourth_difference x0 x1 x2 :
    let f t := ((1-t)*(1-t)*x0 + 2*t*(1-t)*x1 + t*t*x2) * ((1-t)*(1-t)*x0 + 2*t*(1-t)*x1 + t*t*x2) in
    f 0 - 4 * f (/ 4) + 6 * f (/ 2) - 4 * f (3 / 4) + f 1 = 3 / 32 * ((x0 - 2 * x1 + x2) * (x0 - 2 * x1 + x2)).
  Proof. cbv beta zeta. field. Qed.

  Lemma middle_split x0 x1 x2 k : 0 < k ->
    let b := (1 - / 2) * (1 - / 2) * x0 + 2 * / 2 * (1 - / 2) * x1 + / 2 * / 2 * x2 in
    b * b <= (1 + k) * ((x0 + x2) * (x0 + x2) / 4) + (1 + / k) * ((x0 - 2 * x1 + x2) * (x0 - 2 * x1 + x2) / 16).
  Proof.
    intros Hk. cbv beta zeta. set (m := (x0 + x2) / 2). set (d := (x0 - 2 * x1 + x2) / 4).
    replace ((1 - / 2) * (1 - / 2) * x0 + 2 * / 2 * (1 - / 2) * x1 + / 2 * / 2 * x2) with (m - d) by (unfold m, d; field).
    replace ((x0 + x2) * (x0 + x2) / 4) with (m * m) by (unfold m; field).
    replace ((x0 - 2 * x1 + x2) * (x0 - 2 * x1 + x2) / 16) with (d * d) by (unfold d; field).
    assert (Q : 0 <= / k * ((k * m + d) * (k * m + d))).
    { apply Rmult_le_pos; [apply Rlt_le, Rinv_0_lt_compat; lra|apply Rle_0_sqr]. }
    replace (/ k * ((k * m + d) * (k * m + d))) with (k * (m * m) + 2 * (m * d) + / k * (d * d)) in Q by (field; lra).
    replace ((m - d) * (m - d)) with (m * m - 2 * (m * d) + d * d) by ring. lra.
  Qed.

  Definition drift_8 : R := / 4000.
  Theorem wide_piece (c : quad P2) :
    (coord (q_start c) 0 + coord (q_end c) 0) * (coord (q_start c) 0 + coord (q_end c) 0) +
    (coord (q_start c) 1 + coord (q_end c) 1) * (coord (q_start c) 1 + coord (q_end c) 1) <= (2 + sqrt 2) * ((1 + drift_8) * (1 + drift_8)) ->
    exists t, In t [0; / 4; / 2; 3 / 4; 1] /\ drift_8 < Rabs (radial (quad_eval c t)).
  Proof.
    intros Hw.
    assert (D : (exists t, In t [0; / 4; / 2; 3 / 4; 1] /\ drift_8 < Rabs (radial (quad_eval c t))) \/
                (forall t, In t [0; / 4; / 2; 3 / 4; 1] -> Rabs (radial (quad_eval c t)) <= drift_8)).
    { generalize [0; / 4; / 2; 3 / 4; 1]. intros l. induction l as [|t l IH]; [right; intros t []|].
      destruct (Rle_or_lt (Rabs (radial (quad_eval c t))) drift_8) as [L|L].
      - destruct IH as [(u & Hu & H)|IH]; [left; exists u; split; [now right|exact H]|].
        right. intros u [<-|Hu]; auto.
      - left. exists t. split; [now left|exact L]. }
    destruct D as [D|D]; [exact D|]. exfalso.
    assert (He : 0 <= drift_8 <= 1) by (unfold drift_8; lra).
    pose proof (radial_square c _ _ He (D 0 ltac:(cbn; tauto))) as F0.
    pose proof (radial_square c _ _ He (D (/ 4) ltac:(cbn; tauto))) as F1.
    pose proof (radial_square c _ _ He (D (/ 2) ltac:(cbn; tauto))) as F2.
    pose proof (radial_square c _ _ He (D (3 / 4) ltac:(cbn; tauto))) as F3.
    pose proof (radial_square c _ _ He (D 1 ltac:(cbn; tauto))) as F4.
    rewrite !quad_eval_coord in F0, F1, F2, F3, F4 by (cbn; lia).
    generalize dependent (coord (q_start c) 0). generalize (coord (q_ctrl c) 0). intros x1 x0.
    generalize dependent (coord (q_start c) 1). generalize (coord (q_ctrl c) 1). intros y1 y0.
    generalize (coord (q_end c) 0) (coord (q_end c) 1). intros x2 y2. intros.
    pose proof (fourth_difference x0 x1 x2) as DX. pose proof (fourth_difference y0 y1 y2) as DY. cbv beta zeta in DX, DY.
    pose proof (middle_split x0 x1 x2 (79 / 1000) ltac:(lra)) as MX. pose proof (middle_split y0 y1 y2 (79 / 1000) ltac:(lra)) as MY.
    cbv beta zeta in MX, MY. pose proof root2. unfold drift_8 in *.
    set (d := (x0 - 2 * x1 + x2) * (x0 - 2 * x1 + x2) + (y0 - 2 * y1 + y2) * (y0 - 2 * y1 + y2)).
    assert (Dd : 3 / 32 * d <= 16 * (2 * / 4000 + / 4000 * / 4000)) by (unfold d; lra).
    unfold d in Dd. lra.
  Qed.

  Lemma rim_x r th : coord (rim r th) 0 = r * cos th. Proof. reflexivity. Qed.
  Lemma rim_y r th : coord (rim r th) 1 = r * sin th. Proof. reflexivity. Qed.

  Lemma cos_wide x : PI / 4 <= x <= 7 * PI / 4 -> cos x <= / sqrt 2.
  Proof.
    intros Hx. pose proof PI_RGT_0. replace (/ sqrt 2) with (cos (PI / 4)) by (rewrite cos_PI4; unfold Rdiv; ring).
    destruct (Rle_or_lt x PI).
    - apply cos_decr_1; lra.
    - replace (cos x) with (cos (2 * PI - x)).
      + apply cos_decr_1; lra.
      + replace (2 * PI - x) with (- x + 2 * INR 1 * PI) by (simpl; ring). rewrite cos_period. apply cos_neg.
  Qed.

  (** a piece that covers an eighth of the circle or more *)
  Theorem eighth_piece (c : quad P2) r0 r1 th0 th1 : 0 < r0 -> 0 < r1 ->
    q_start c = rim r0 th0 -> q_end c = rim r1 th1 -> PI / 4 <= th1 - th0 <= 7 * PI / 4 ->
    exists t, In t [0; / 4; / 2; 3 / 4; 1] /\ drift_8 < Rabs (radial (quad_eval c t)).
  Proof.
    intros H0 H1 Hs He Hw.
    assert (Rs : forall r th t, 0 < r -> coord (quad_eval c t) 0 = r * cos th -> coord (quad_eval c t) 1 = r * sin th ->
      radial (quad_eval c t) = r - 1).
    { intros r th t Hr Hx Hy. rewrite radial_quad, Hx, Hy.
      replace (r * cos th * (r * cos th) + r * sin th * (r * sin th)) with (r * r * (cos th * cos th + sin th * sin th)) by ring.
      rewrite one_psi, Rmult_1_r, sqrt_square by lra. reflexivity. }
    assert (A0 : radial (quad_eval c 0) = r0 - 1).
    { apply (Rs r0 th0); [exact H0| |]; rewrite quad_eval_coord by (cbn; lia); rewrite Hs, ?rim_x, ?rim_y; ring. }
    assert (A1 : radial (quad_eval c 1) = r1 - 1).
    { apply (Rs r1 th1); [exact H1| |]; rewrite quad_eval_coord by (cbn; lia); rewrite He, ?rim_x, ?rim_y; ring. }
    destruct (Rle_or_lt (Rabs (r0 - 1)) drift_8) as [L0|L0].
    2:{ exists 0. rewrite A0. cbn [In]. tauto. }
    destruct (Rle_or_lt (Rabs (r1 - 1)) drift_8) as [L1|L1].
    2:{ exists 1. rewrite A1. cbn [In]. tauto. }
    apply Rabs_le_between in L0. apply Rabs_le_between in L1.
    apply wide_piece. rewrite Hs, He, !rim_x, !rim_y.
    assert (Q : (r0 * cos th0 + r1 * cos th1) * (r0 * cos th0 + r1 * cos th1) + (r0 * sin th0 + r1 * sin th1) * (r0 * sin th0 + r1 * sin th1)
      = r0 * r0 * (cos th0 * cos th0 + sin th0 * sin th0) + r1 * r1 * (cos th1 * cos th1 + sin th1 * sin th1)
        + 2 * (r0 * r1) * cos (th1 - th0)) by (rewrite cos_minus; ring).
    rewrite Q, !one_psi, !Rmult_1_r. pose proof (cos_wide _ Hw) as C. rewrite inv_root2 in C. pose proof root2.
    assert (B : r0 * r1 <= (1 + drift_8) * (1 + drift_8)) by (apply Rmult_le_compat; lra).
    assert (B0 : r0 * r0 <= (1 + drift_8) * (1 + drift_8)) by (apply Rmult_le_compat; lra).
    assert (B1 : r1 * r1 <= (1 + drift_8) * (1 + drift_8)) by (apply Rmult_le_compat; lra).
    assert (P : 0 < r0 * r1) by (apply Rmult_lt_0_compat; lra).
    apply Rle_trans with (r0 * r0 + r1 * r1 + 2 * (r0 * r1) * (sqrt 2 / 2)).
    - apply Rplus_le_compat_l. apply Rmult_le_compat_l; lra.
    - assert (2 * (r0 * r1) * (sqrt 2 / 2) <= 2 * ((1 + drift_8) * (1 + drift_8)) * (sqrt 2 / 2)) by (apply Rmult_le_compat_r; lra).
      lra.
  Qed.

  Lemma wide_gap (th : nat -> R) w n : (0 < n)%nat -> th n - th 0%nat = INR n * w -> exists k, (k < n)%nat /\ w <= th (k + 1)%nat - th k.
  Proof.
    intros Hn H.
    assert (D : (exists k, (k < n)%nat /\ w <= th (k + 1)%nat - th k) \/ forall k, (k < n)%nat -> th (k + 1)%nat - th k < w).
    { clear. induction n as [|n IH]; [right; lia|]. destruct IH as [(k & Hk & L)|IH]; [left; exists k; split; [lia|exact L]|].
      destruct (Rle_or_lt w (th (n + 1)%nat - th n)) as [L|L]; [left; exists n; split; [lia|exact L]|].
      right. intros k Hk. destruct (Nat.eq_dec k n) as [->|]; [exact L|apply IH; lia]. }
    destruct D as [D|D]; [exact D|]. exfalso.
    assert (S : forall m, (m <= n)%nat -> (0 < m)%nat -> th m - th 0%nat < INR m * w).
    { intros m. induction m as [|m IH]; [lia|]. intros Hm _. pose proof (D m ltac:(lia)) as Dm. rewrite Nat.add_1_r in Dm.
      rewrite S_INR. destruct m as [|m]; [simpl INR; lra|]. specialize (IH ltac:(lia) ltac:(lia)). lra. }
    specialize (S n (le_n _) Hn). lra.
  Qed.

  (** the test with its thousand samples per piece *)
  Theorem eight_fail (cs : list (quad P2)) th rad : length cs = 8%nat -> goes_round cs th rad ->
    exists c i, In c cs /\ (i < 1000)%nat /\ drift_8 < Rabs (radial (quad_eval c (INR i / INR 1000))).
  Proof.
    intros HL (Hr & Hrad & Hp). rewrite HL in Hr, Hrad.
    destruct (wide_gap th (PI / 4) 8 ltac:(lia)) as (k & Hk & Hg); [rewrite INR8; lra|].
    destruct (nth_error cs k) as [c|] eqn:Ec; [|apply nth_error_None in Ec; lia].
    destruct (Hp k c Ec) as (R0 & Hs & He & Hu).
    assert (Next : exists c', In c' cs /\ 0 < rad (k + 1)%nat /\ quad_eval c' 0 = quad_eval c 1 \/
      (exists c', In c' cs /\ 0 < rad (k + 1)%nat /\ radial (quad_eval c' 0) = radial (quad_eval c 1))).
    { destruct (Nat.eq_dec k 7) as [->|N].
      - destruct (nth_error cs 0) as [c'|] eqn:E'; [|apply nth_error_None in E'; lia].
        destruct (Hp 0%nat c' E') as (R0' & Hs' & _). exists c'. right. exists c'. split; [apply (nth_error_In _ _ E')|].
        cbn [Nat.add] in *. rewrite Hrad in *. split; [exact R0'|].
        rewrite !radial_quad. f_equal. f_equal. rewrite !quad_eval_coord by (cbn; lia). rewrite Hs', He, !rim_x, !rim_y.
        rewrite Hr. replace (th 0%nat + 2 * PI) with (th 0%nat + 2 * INR 1 * PI) by (simpl INR; ring).
        rewrite cos_period, sin_period. ring.
      - destruct (nth_error cs (k + 1)) as [c'|] eqn:E'; [|apply nth_error_None in E'; lia].
        destruct (Hp (k + 1)%nat c' E') as (R0' & Hs' & _). exists c'. right. exists c'. split; [apply (nth_error_In _ _ E')|].
        split; [exact R0'|]. rewrite !radial_quad. f_equal. f_equal. rewrite !quad_eval_coord by (cbn; lia). rewrite Hs', He. ring. }
    assert (Next' : exists c', In c' cs /\ 0 < rad (k + 1)%nat /\ radial (quad_eval c' 0) = radial (quad_eval c 1)).
    { destruct Next as (c' & [(A & B & C)|N]); [exists c'; rewrite C; auto|exact N]. }
    destruct Next' as (c' & Hc' & R1 & Hn).
    pose proof (nth_error_In _ _ Ec) as Hc.
    destruct (eighth_piece c (rad k) (rad (k + 1)%nat) (th k) (th (k + 1)%nat) R0 R1 Hs He (conj Hg Hu)) as (t & Ht & H).
    assert (T : forall i x, IZR (Z.of_nat i) / 1000 = x -> INR i / INR 1000 = x).
    { intros i x <-. rewrite !INR_IZR_INZ. reflexivity. }
    destruct Ht as [<-|[<-|[<-|[<-|[<-|[]]]]]].
    - exists c, 0%nat. rewrite (T 0%nat 0) by (simpl; field). repeat split; [exact Hc|lia|exact H].
    - exists c, 250%nat. rewrite (T 250%nat (/ 4)) by (simpl; field). repeat split; [exact Hc|lia|exact H].
    - exists c, 500%nat. rewrite (T 500%nat (/ 2)) by (simpl; field). repeat split; [exact Hc|lia|exact H].
    - exists c, 750%nat. rewrite (T 750%nat (3 / 4)) by (simpl; field). repeat split; [exact Hc|lia|exact H].
    - exists c', 0%nat. rewrite (T 0%nat 0) by (simpl; field). rewrite Hn. repeat split; [exact Hc'|lia|exact H].
  Qed.

  (** the ring meets the hypothesis *)
  Theorem ring_round n : (3 <= n)%nat -> goes_round (tangent_ring n) (fun k => (2 * INR k - 1) * PI / INR n) (fun _ => 1).
  Proof.
    intros Hn. pose proof PI_RGT_0.
    assert (3 <= INR n) by (replace 3 with (INR 3) by (rewrite INR_IZR_INZ; reflexivity); now apply le_INR).
    assert (Ln : length (tangent_ring n) = n) by (unfold tangent_ring; now rewrite map_length, seq_length).
    split; [rewrite Ln; simpl INR; field; lra|]. split; [reflexivity|]. intros k c Hk.
    assert (Hlt : (k < n)%nat) by (rewrite <- Ln; apply nth_error_Some; congruence).
    unfold tangent_ring in Hk. rewrite nth_error_map in Hk.
    rewrite (nth_error_nth' _ 0%nat) in Hk by (now rewrite seq_length). rewrite seq_nth in Hk by exact Hlt.
    cbn [option_map Nat.add] in Hk. injection Hk as <-. split; [lra|]. cbn [tangent_arc q_start q_end]. rewrite plus_INR. change (INR 1) with 1.
    split; [f_equal; field; lra|]. split; [f_equal; field; lra|].
    replace ((2 * (INR k + 1) - 1) * PI / INR n - (2 * INR k - 1) * PI / INR n) with (2 * (PI / INR n)) by (field; lra).
    pose proof (angle n Hn). lra.
  Qed.

  (** the four quadratics of the commented-out test *)
  Theorem todo_middle (c : R) q : circle_constant c -> In q (todo_quadrants c) -> radial (quad_eval q (/ 2)) <= - (8 / 100).
  Proof.
    intros Hc Hq. pose proof (c_range c Hc) as C.
    assert (S : coord (quad_eval q (/ 2)) 0 * coord (quad_eval q (/ 2)) 0 + coord (quad_eval q (/ 2)) 1 * coord (quad_eval q (/ 2)) 1
      = 9 / 16 + (1 + 2 * c) * (1 + 2 * c) / 16).
    { rewrite !quad_eval_coord by (cbn; lia). destruct Hq as [<-|[<-|[<-|[<-|[]]]]]; cbn; field. }
    rewrite (radial_sqrt _ _ _ S).
    assert (sqrt (9 / 16 + (1 + 2 * c) * (1 + 2 * c) / 16) <= 92 / 100); [|lra].
    rewrite <- (sqrt_square (92 / 100)) by lra. apply sqrt_le_1_alt. nra.
  Qed.
End Radius.
