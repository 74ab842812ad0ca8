(** The circumference of rings of quadratics. *)
From Coq Require Import Reals ZArith List Arith Lia Lra Psatz.
From Coquelicot Require Import Coquelicot.
From Verif Require Import Base.Outcome Base.Scalar Model.Point Model.Line Model.Quadratic Inst.RealInst
  Spec.Sums Spec.Lawful Spec.Bernstein Spec.Length Spec.Points Spec.Circle Spec.QuadCircle
  Proofs.PointFacts Proofs.ExactEval Proofs.Metric Proofs.BezierReal Proofs.Calculus Proofs.CurveCalc
  Proofs.ArclenFacts Proofs.Cardano Proofs.Circle Proofs.CircleLength Proofs.QuadCircle.
Import ListNotations.
Local Open Scope R_scope.

Section Length.
  Context {E : Eps}.

  Lemma quad_speed (q : quad P2) t : speed (quad_control_points q) t
    = sqrt ((2 * ((1 - t) * (coord (q_ctrl q) 0 - coord (q_start q) 0) + t * (coord (q_end q) 0 - coord (q_ctrl q) 0))) ^ 2 +
            (2 * ((1 - t) * (coord (q_ctrl q) 1 - coord (q_start q) 1) + t * (coord (q_end q) 1 - coord (q_ctrl q) 1))) ^ 2).
  Proof.
    rewrite speed_vel by discriminate. unfold vel, nrm, sq.
    change (p_dim (P := P2)) with 2%nat. cbn [Rsum]. f_equal. rewrite Rplus_0_l.
    destruct q as [p0 p1 p2]. cbn [q_start q_ctrl q_end].
    unfold quad_control_points, dcoord, cs. cbn [q_start q_ctrl q_end]. cbn [length Nat.sub Nat.add dc nth].
    generalize (coord p0 0) (coord p1 0) (coord p2 0) (coord p0 1) (coord p1 1) (coord p2 1). intros. simpl INR. ring.
  Qed.
  Lemma quad_ex_speed (q : quad P2) : ex_RInt (speed (quad_control_points q)) 0 1.
  Proof.
    apply (ex_RInt_ext (vel (p_dim (P := P2)) (dcoord (quad_control_points q)))).
    - intros t _. symmetry. apply speed_vel. discriminate.
    - apply ex_vel. intros. apply dcoord_continuous.
  Qed.

  (** upper bound from the mean of the squared speed *)
  Lemma poly_RInt c0 c1 c2 c3 c4 : is_RInt (fun t => c0 + c1 * t + c2 * t ^ 2 + c3 * t ^ 3 + c4 * t ^ 4) 0 1
    (c0 + c1 / 2 + c2 / 3 + c3 / 4 + c4 / 5).
  Proof.
    pose (F := fun t => c0 * t + c1 * t ^ 2 / 2 + c2 * t ^ 3 / 3 + c3 * t ^ 4 / 4 + c4 * t ^ 5 / 5).
    replace (c0 + c1 / 2 + c2 / 3 + c3 / 4 + c4 / 5) with (F 1 - F 0) by (unfold F; field).
    apply (is_RInt_derive F).
    - intros t _. unfold F. auto_derive; auto. field.
    - intros t _. apply (ex_derive_continuous (fun t => c0 + c1 * t + c2 * t ^ 2 + c3 * t ^ 3 + c4 * t ^ 4)).
      auto_derive. auto.
  Qed.
  Lemma length_upper (q : quad P2) v c0 c1 c2 c3 c4 : 0 < v ->
    (forall t, 0 <= t <= 1 -> speed (quad_control_points q) t <= c0 + c1 * t + c2 * t ^ 2 + c3 * t ^ 3 + c4 * t ^ 4) ->
    arc_length (quad_control_points q) <= c0 + c1 / 2 + c2 / 3 + c3 / 4 + c4 / 5.
  Proof.
    intros _ H. rewrite <- (is_RInt_unique _ _ _ _ (poly_RInt c0 c1 c2 c3 c4)).
    apply RInt_le; [lra|apply quad_ex_speed|eexists; apply poly_RInt|]. intros t Ht. apply H. lra.
  Qed.
  Lemma length_lower (q : quad P2) c0 c1 c2 c3 c4 :
    (forall t, 0 <= t <= 1 -> c0 + c1 * t + c2 * t ^ 2 + c3 * t ^ 3 + c4 * t ^ 4 <= speed (quad_control_points q) t) ->
    c0 + c1 / 2 + c2 / 3 + c3 / 4 + c4 / 5 <= arc_length (quad_control_points q).
  Proof.
    intros H. rewrite <- (is_RInt_unique _ _ _ _ (poly_RInt c0 c1 c2 c3 c4)).
    apply RInt_le; [lra|eexists; apply poly_RInt|apply quad_ex_speed|]. intros t Ht. apply H. lra.
  Qed.

  Section Arc.
    Variables psi a : R.
    Hypothesis Ha : 0 < cos a.
    Hypothesis Sa : 0 < sin a.
    Let k := (sin a / cos a) ^ 2.
    Let ps := quad_control_points (tangent_arc psi a).

    Lemma arc_speed t : speed ps t = 2 * sin a * sqrt (1 + (2 * t - 1) ^ 2 * k).
    Proof.
      unfold ps. rewrite quad_speed.
      replace (2 * sin a) with (sqrt ((2 * sin a) * (2 * sin a))) by (apply sqrt_square; lra).
      rewrite <- sqrt_mult_alt by nra. f_equal.
      unfold tangent_arc, rim, corner. cbn [q_start q_ctrl q_end].
      cbn -[pow]. rewrite cos_minus, cos_plus, sin_minus, sin_plus.
      pose proof (one_psi psi) as P1. pose proof (one_a a) as A1.
      set (cp := cos psi) in *. set (sp := sin psi) in *.
      set (X := 2 * (1 - 2 * t) * (/ cos a - cos a)). set (Y := 2 * sin a).
      match goal with |- ?l = _ => replace l with ((X * cp - Y * sp) ^ 2 + (X * sp + Y * cp) ^ 2) by (unfold X, Y; ring) end.
      replace ((X * cp - Y * sp) ^ 2 + (X * sp + Y * cp) ^ 2) with ((X ^ 2 + Y ^ 2) * (cp * cp + sp * sp)) by ring.
      rewrite P1. replace (Y ^ 2) with (4 * (sin a * sin a)) by (unfold Y; ring).
      fold Y; replace (Y * Y * (1 + (2 * t - 1) ^ 2 * k))
        with (4 * (sin a * sin a) * (1 + (2 * t - 1) ^ 2 * ((sin a * sin a) / (cos a * cos a)))) by (unfold k, Y; field; lra).
      rewrite A1. unfold X. field. lra.
    Qed.

    Lemma root_up y : 0 <= y -> sqrt (1 + y) <= 1 + y / 2.
    Proof. intros Hy. rewrite <- (sqrt_square (1 + y / 2)) by lra. apply sqrt_le_1_alt. nra. Qed.
    Lemma root_low y : 0 <= y <= 1 -> 1 + y / 2 - y ^ 2 / 8 <= sqrt (1 + y).
    Proof.
      intros Hy. assert (0 <= 1 + y / 2 - y ^ 2 / 8) by nra.
      rewrite <- (sqrt_square (1 + y / 2 - y ^ 2 / 8)) by lra. apply sqrt_le_1_alt.
      assert (0 <= y ^ 3 * (8 - y)) by (apply Rmult_le_pos; [apply pow_le|]; lra). lra.
    Qed.
    Lemma square_unit t : 0 <= t <= 1 -> 0 <= (2 * t - 1) ^ 2 <= 1.
    Proof. intros H. pose proof (unit_product t H). pose proof (pow2_ge_0 (2 * t - 1)). split; [lra|]. replace ((2 * t - 1) ^ 2) with (1 - 4 * (t * (1 - t))) by ring. lra. Qed.
    Lemma k_pos : 0 <= k. Proof. apply pow2_ge_0. Qed.

    Theorem arc_long : arc_length ps <= 2 * sin a * (1 + k / 6).
    Proof.
      pose proof k_pos. eapply Rle_trans.
      - apply (length_upper (tangent_arc psi a) 1 (2 * sin a * (1 + k / 2)) (2 * sin a * (- 2 * k)) (2 * sin a * (2 * k)) 0 0); [lra|].
        intros t Ht. fold ps. rewrite arc_speed. pose proof (square_unit t Ht).
        assert (sqrt (1 + (2 * t - 1) ^ 2 * k) <= 1 + (2 * t - 1) ^ 2 * k / 2) by (apply root_up, Rmult_le_pos; lra).
        apply Rle_trans with (2 * sin a * (1 + (2 * t - 1) ^ 2 * k / 2)); [apply Rmult_le_compat_l; lra|].
        apply Req_le. field.
      - apply Req_le. field.
    Qed.
    Theorem arc_short : k <= 1 -> 2 * sin a * (1 + k / 6 - k ^ 2 / 40) <= arc_length ps.
    Proof.
      intros Hk. pose proof k_pos. eapply Rle_trans.
      2: apply (length_lower (tangent_arc psi a) (2 * sin a * (1 + k / 2 - k ^ 2 / 8)) (2 * sin a * (- 2 * k + k ^ 2))
           (2 * sin a * (2 * k - 3 * k ^ 2)) (2 * sin a * (4 * k ^ 2)) (2 * sin a * (- 2 * k ^ 2))).
      - apply Req_le. field.
      - intros t Ht. fold ps. rewrite arc_speed. pose proof (square_unit t Ht) as W.
        assert (B : 0 <= (2 * t - 1) ^ 2 * k <= 1).
        { split; [apply Rmult_le_pos; lra|]. rewrite <- (Rmult_1_l 1). apply Rmult_le_compat; lra. }
        pose proof (root_low _ B) as L.
        apply Rle_trans with (2 * sin a * (1 + (2 * t - 1) ^ 2 * k / 2 - ((2 * t - 1) ^ 2 * k) ^ 2 / 8)); [|apply Rmult_le_compat_l; lra].
        apply Req_le. field.
    Qed.
    Lemma arc_least_speed t : 0 <= t <= 1 -> 2 * sin a <= speed ps t.
    Proof.
      intros Ht. rewrite arc_speed. rewrite <- (Rmult_1_r (2 * sin a)) at 1. apply Rmult_le_compat_l; [lra|].
      rewrite <- sqrt_1 at 1. apply sqrt_le_1_alt. pose proof (square_unit t Ht). pose proof k_pos.
      assert (0 <= (2 * t - 1) ^ 2 * k) by (apply Rmult_le_pos; lra). lra.
    Qed.
    Lemma arc_legs : leg_bound ps (sin a / cos a).
    Proof.
      assert (0 < sin a / cos a) by (apply Rdiv_lt_0_compat; lra).
      split; [lra|]. intros j p q Hp Hq.
      unfold dist. change (p_dim (P := P2)) with 2%nat. cbn [Rsum]. rewrite Rplus_0_l.
      rewrite <- (sqrt_square (sin a / cos a)) by lra. apply sqrt_le_1_alt. apply Req_le.
      pose proof (one_psi psi) as P1. pose proof (one_a a) as A1.
      assert (Q : forall u v, u * u = (/ cos a - cos a) * (/ cos a - cos a) -> v * v = sin a * sin a ->
        (u * cos psi - v * sin psi) * (u * cos psi - v * sin psi) + (u * sin psi + v * cos psi) * (u * sin psi + v * cos psi)
        = sin a / cos a * (sin a / cos a)).
      { intros u v Hu Hv.
        replace ((u * cos psi - v * sin psi) * (u * cos psi - v * sin psi) + (u * sin psi + v * cos psi) * (u * sin psi + v * cos psi))
          with ((u * u + v * v) * (cos psi * cos psi + sin psi * sin psi)) by ring.
        rewrite P1, Hu, Hv. replace (sin a / cos a * (sin a / cos a)) with (sin a * sin a / (cos a * cos a)) by (field; lra).
        rewrite A1. field. lra. }
      destruct j as [|[|[|j]]]; cbn in Hp, Hq; try discriminate; try (destruct j; discriminate);
        injection Hp as <-; injection Hq as <-; cbn; rewrite ?cos_minus, ?cos_plus, ?sin_minus, ?sin_plus.
      - rewrite <- (Q (cos a - / cos a) (- sin a)) by ring. ring.
      - rewrite <- (Q (/ cos a - cos a) (- sin a)) by ring. ring.
    Qed.
    Lemma arc_first u : 0 <= u <= 1 -> 2 * u * sin a <= dist (quad_eval (tangent_arc psi a) 0) (quad_eval (tangent_arc psi a) u).
    Proof.
      intros Hu. unfold dist. change (p_dim (P := P2)) with 2%nat. cbn [Rsum]. rewrite Rplus_0_l.
      rewrite <- (sqrt_square (2 * u * sin a)) by (apply Rmult_le_pos; lra). apply sqrt_le_1_alt.
      rewrite !arc_x, !arc_y by exact Ha. pose proof (one_psi psi) as P1.
      set (d := 2 * (u * (1 - u)) * (/ cos a - cos a)).
      match goal with |- _ <= ?l => replace l with ((d * d + 2 * u * sin a * (2 * u * sin a)) * (cos psi * cos psi + sin psi * sin psi))
        by (unfold d; ring) end.
      rewrite P1. pose proof (Rle_0_sqr d) as Q. unfold Rsqr in Q. lra.
    Qed.
  End Arc.

  (** ** Eight arcs *)
  Lemma quotient_range lo hi n d : 0 < d -> lo * d <= n <= hi * d -> lo <= n / d <= hi.
  Proof.
    intros Hd [A B]. split; apply (Rmult_le_reg_r d); try lra; unfold Rdiv; rewrite Rmult_assoc, Rinv_l, Rmult_1_r by lra; lra.
  Qed.
  Lemma sin8 : 38268343 / 100000000 <= sin (PI / 8) <= 38268344 / 100000000.
  Proof.
    pose proof cos_pi8 as Q. rewrite inv_root2 in Q. pose proof (one_a (PI / 8)) as A. pose proof PI_RGT_0.
    assert (0 < sin (PI / 8)) by (apply sin_gt_0; lra).
    assert (R2 : 14142135623 / 10000000000 <= sqrt 2 <= 14142135624 / 10000000000).
    { split; [rewrite <- (sqrt_square (14142135623 / 10000000000)) by lra|rewrite <- (sqrt_square (14142135624 / 10000000000)) by lra];
        apply sqrt_le_1_alt; lra. }
    apply square_range; lra.
  Qed.
  Lemma tan8 : 171572 / 1000000 <= (sin (PI / 8) / cos (PI / 8)) ^ 2 <= 171574 / 1000000.
  Proof.
    pose proof cos_pi8 as Q. rewrite inv_root2 in Q. pose proof (one_a (PI / 8)) as A. pose proof pi8_range as C. pose proof root2.
    replace ((sin (PI / 8) / cos (PI / 8)) ^ 2) with (sin (PI / 8) * sin (PI / 8) / (cos (PI / 8) * cos (PI / 8))) by (field; lra).
    rewrite A, Q.
    apply quotient_range; lra.
  Qed.

  Lemma eighth_length psi : 78668 / 100000 <= arc_length (quad_control_points (tangent_arc psi (PI / 8))) <= 78726 / 100000 /\
    78668961 / 100000000 - 5 / 1000000 <= arc_length (quad_control_points (tangent_arc psi (PI / 8))).
  Proof.
    pose proof sin8 as S. pose proof tan8 as T. pose proof pi8_range as C.
    pose proof (arc_long psi (PI / 8) ltac:(lra) ltac:(lra)) as U.
    pose proof (arc_short psi (PI / 8) ltac:(lra) ltac:(lra) ltac:(lra)) as L.
    set (k := (sin (PI / 8) / cos (PI / 8)) ^ 2) in *.
    assert (Uk : 1 + k / 6 <= 1 + 171574 / 6000000) by lra.
    assert (Lk : 1027859 / 1000000 <= 1 + k / 6 - k ^ 2 / 40) by nra.
    assert (A : 2 * sin (PI / 8) * (1 + k / 6) <= 2 * (38268344 / 100000000) * (1 + 171574 / 6000000)) by (apply Rmult_le_compat; lra).
    assert (B : 2 * (38268343 / 100000000) * (1027859 / 1000000) <= 2 * sin (PI / 8) * (1 + k / 6 - k ^ 2 / 40)) by (apply Rmult_le_compat; lra).
    lra.
  Qed.

  (** sum over a list of pieces *)
  Lemma sum_pieces (l : list (quad P2)) m lo hi :
    (forall q, In q l -> exists a, quad_arclen q m = Ret a /\ lo <= a <= hi) ->
    exists xs, Forall2 (fun q a => quad_arclen q m = Ret a) l xs /\
      INR (length l) * lo <= fold_right Rplus 0 xs <= INR (length l) * hi.
  Proof.
    induction l as [|q l IH]; intros H.
    - exists []. split; [constructor|]. simpl. lra.
    - destruct (H q (or_introl eq_refl)) as (a & Ea & Ha).
      destruct IH as (xs & Hx & Hs); [intros; apply H; now right|].
      exists (a :: xs). split; [now constructor|]. cbn [fold_right length]. rewrite S_INR. lra.
  Qed.
  Lemma sum_lengths (l : list (quad P2)) lo hi :
    (forall q, In q l -> lo <= arc_length (quad_control_points q) <= hi) ->
    INR (length l) * lo <= fold_right Rplus 0 (map (fun q => arc_length (quad_control_points q)) l) <= INR (length l) * hi.
  Proof.
    induction l as [|q l IH]; intros H; [simpl; lra|]. cbn [map fold_right length]. rewrite S_INR.
    pose proof (H q (or_introl eq_refl)). specialize (IH (fun q Hq => H q (or_intror Hq))). lra.
  Qed.
  Lemma ring_length n : length (tangent_ring n) = n.
  Proof. unfold tangent_ring. now rewrite map_length, seq_length. Qed.

  (** the circumference of the eight is off by more than the test allows *)
  Theorem ring_circumference :
    2 * PI + / 100 < fold_right Rplus 0 (map (fun q => arc_length (quad_control_points q)) (tangent_ring 8)) < 2 * PI + / 60.
  Proof.
    pose proof (sum_lengths (tangent_ring 8) (78668961 / 100000000 - 5 / 1000000) (78726 / 100000)) as H.
    rewrite ring_length, INR8 in H. pose proof pi32_bounds as Pi. unfold pi32 in Pi.
    assert (A : forall q, In q (tangent_ring 8) -> 78668961 / 100000000 - 5 / 1000000 <= arc_length (quad_control_points q) <= 78726 / 100000).
    { intros q Hq. destruct (ring_in 8 q Hq) as (k & _ & ->). rewrite INR8. pose proof (eighth_length (2 * PI * INR k / 8)). lra. }
    specialize (H A). lra.
  Qed.

  Lemma eighth_sum psi m : (1000 <= m)%nat -> exists x, quad_arclen (tangent_arc psi (PI / 8)) m = Ret x /\
    arc_length (quad_control_points (tangent_arc psi (PI / 8))) - 166 / 100 / INR m <= x <=
    arc_length (quad_control_points (tangent_arc psi (PI / 8))) - 76 / 100 / INR m.
  Proof.
    intros Hm. pose proof sin8 as S. pose proof tan8 as T. pose proof pi8_range as C.
    assert (Hl : leg_bound (quad_control_points (tangent_arc psi (PI / 8))) (41422 / 100000)).
    { destruct (arc_legs psi (PI / 8) ltac:(lra) ltac:(lra)) as [_ B]. split; [lra|]. intros k p q Hp Hq.
      eapply Rle_trans; [apply (B k p q Hp Hq)|]. apply (quotient_range 0); lra. }
    destruct (quad_arclen_bounds (tangent_arc psi (PI / 8)) m _ ltac:(lia) Hl) as (x & Ex & _ & Lo).
    destruct (quad_arclen_value (tangent_arc psi (PI / 8)) m ltac:(lia)) as (x' & Ex' & Hx).
    rewrite Ex in Ex'. injection Ex' as <-. exists x. split; [exact Ex|].
    assert (M : 1000 <= INR m) by (replace 1000 with (INR 1000) by (rewrite INR_IZR_INZ; reflexivity); now apply le_INR).
    assert (I : 0 < / INR m <= / 1000) by (split; [apply Rinv_0_lt_compat|apply Rinv_le_contravar]; lra).
    pose proof (polyline_upper (quad_eval (tangent_arc psi (PI / 8))) _ m (traces_quad _) ltac:(discriminate) ltac:(lia)) as U.
    pose proof (arc_first psi (PI / 8) ltac:(lra) (/ INR m) ltac:(lra)) as F.
    assert (76 / 100 / INR m <= 2 * / INR m * sin (PI / 8)).
    { unfold Rdiv. apply Rle_trans with (2 * sin (PI / 8) * / INR m); [apply Rmult_le_compat_r; lra|lra]. }
    split; [|lra].
    assert (4 * (41422 / 100000) / INR m <= 166 / 100 / INR m); [|lra].
    unfold Rdiv at 1 3. apply Rmult_le_compat_r; lra.
  Qed.

  (** at 1000 steps the missing first chords bring it within the allowed error; at 50000 they do not *)
  Theorem ring_test : exists xs, Forall2 (fun q a => quad_arclen q 1000 = Ret a) (tangent_ring 8) xs /\
    Rabs (fold_right Rplus 0 xs - 2 * PI) < / 100.
  Proof.
    assert (M : INR 1000 = 1000) by (rewrite INR_IZR_INZ; reflexivity).
    destruct (sum_pieces (tangent_ring 8) 1000 (785 / 1000) (78650 / 100000)) as (xs & Hx & Hs).
    - intros q Hq. destruct (ring_in 8 q Hq) as (k & _ & ->). rewrite INR8.
      destruct (eighth_sum (2 * PI * INR k / 8) 1000 (le_n _)) as (x & Ex & H). exists x. split; [exact Ex|].
      rewrite M in H. pose proof (eighth_length (2 * PI * INR k / 8)). lra.
    - exists xs. split; [exact Hx|]. rewrite ring_length, INR8 in Hs. pose proof pi_range. apply Rabs_def1; lra.
  Qed.
  Theorem ring_test_fails m : (50 * 1000 <= m)%nat -> exists xs, Forall2 (fun q a => quad_arclen q m = Ret a) (tangent_ring 8) xs /\
    2 * PI + / 100 < fold_right Rplus 0 xs.
  Proof.
    intros Hm.
    assert (M : 50000 <= INR m).
    { apply le_INR in Hm. rewrite mult_INR, !INR_IZR_INZ in Hm. simpl IZR in Hm. rewrite INR_IZR_INZ. lra. }
    assert (I : 0 < / INR m <= / 50000) by (split; [apply Rinv_0_lt_compat|apply Rinv_le_contravar]; lra).
    destruct (sum_pieces (tangent_ring 8) m (78668961 / 100000000 - 5 / 1000000 - 166 / 100 / 50000) 1) as (xs & Hx & Hs).
    - intros q Hq. destruct (ring_in 8 q Hq) as (k & _ & ->). rewrite INR8.
      destruct (eighth_sum (2 * PI * INR k / 8) m ltac:(lia)) as (x & Ex & H). exists x. split; [exact Ex|].
      pose proof (eighth_length (2 * PI * INR k / 8)). unfold Rdiv in *. lra.
    - exists xs. split; [exact Hx|]. rewrite ring_length, INR8 in Hs. pose proof pi32_bounds as Pi. unfold pi32 in Pi. lra.
  Qed.

  (** the four of the commented-out test are too short however many steps are taken *)
  Lemma todo_length (c : R) q : circle_constant c -> In q (todo_quadrants c) -> arc_length (quad_control_points q) <= 153 / 100.
  Proof.
    intros Hc Hq. pose proof (c_range c Hc) as C.
    assert (Sp : forall t, speed (quad_control_points q) t = sqrt (4 * ((1 - t) ^ 2 + (c - 1 + t * (1 - 2 * c)) ^ 2))).
    { intros t. rewrite quad_speed. destruct Hq as [<-|[<-|[<-|[<-|[]]]]]; unfold corner; cbn [q_start q_ctrl q_end]; cbn -[pow];
        f_equal; ring. }
    set (v := 153 / 100). eapply Rle_trans.
    - apply (length_upper q 1 (v / 2 + 2 / v * (1 + (c - 1) ^ 2)) (2 / v * (- 2 + 2 * ((c - 1) * (1 - 2 * c))))
        (2 / v * (1 + (1 - 2 * c) ^ 2)) 0 0); [lra|].
      intros t _. rewrite Sp. set (y := 4 * ((1 - t) ^ 2 + (c - 1 + t * (1 - 2 * c)) ^ 2)).
      assert (0 <= y) by (unfold y; pose proof (pow2_ge_0 (1 - t)); pose proof (pow2_ge_0 (c - 1 + t * (1 - 2 * c))); lra).
      assert (sqrt y <= v / 2 + y / (2 * v)).
      { pose proof (sqrt_sqrt y ltac:(assumption)) as Q. pose proof (pow2_ge_0 (sqrt y - v)) as W.
        assert (sqrt y * (2 * v) <= v * v + y) by lra.
        apply (Rmult_le_reg_r (2 * v)); [unfold v; lra|].
        replace ((v / 2 + y / (2 * v)) * (2 * v)) with (v * v + y) by (field; unfold v; lra). lra. }
      eapply Rle_trans; [eassumption|]. apply Req_le. unfold y. field. unfold v. lra.
    - unfold v. nra.
  Qed.
  Theorem todo_circumference (c : R) m : circle_constant c ->
    exists xs, Forall2 (fun q a => quad_arclen q m = Ret a) (todo_quadrants c) xs /\ fold_right Rplus 0 xs < 2 * PI - / 10.
  Proof.
    intros Hc. destruct (sum_pieces (todo_quadrants c) m 0 (153 / 100)) as (xs & Hx & Hs).
    - intros q Hq. pose proof (todo_length c q Hc Hq) as L. destruct m as [|m].
      + exists 0. split; [apply quad_arclen_zero|lra].
      + destruct (quad_arclen_value q (S m) ltac:(lia)) as (a & Ea & Ha). exists a. split; [exact Ea|].
        pose proof (polyline_upper (quad_eval q) _ (S m) (traces_quad q) ltac:(discriminate) ltac:(lia)) as U.
        pose proof (dist_nonneg (quad_eval q 0) (quad_eval q (/ INR (S m)))) as D.
        split; [|lra].
        rewrite polyline_first in Ha by lia.
        match type of Ha with _ = _ + ?r => assert (0 <= r); [|lra] end.
        apply Rsum_nonneg. intros i _. apply dist_nonneg.
    - exists xs. split; [exact Hx|]. cbn [todo_quadrants length] in Hs. rewrite (INR_IZR_INZ 4) in Hs. simpl IZR in Hs. pose proof pi_range. lra.
  Qed.
End Length.
