(** The length of the cubic approximation of the unit circle. *)
From Coq Require Import Reals ZArith List Arith Lia Lra Psatz.
From Coquelicot Require Import Coquelicot.
From Verif Require Import Base.Outcome Base.Scalar Model.Point Model.Cubic Inst.RealInst
  Spec.Sums Spec.Lawful Spec.Bernstein Spec.Length Spec.Points Spec.Circle
  Proofs.PointFacts Proofs.ExactEval Proofs.Metric Proofs.BezierReal Proofs.Calculus Proofs.CurveCalc
  Proofs.ArclenFacts Proofs.Cardano Proofs.Circle.
Import ListNotations.
Local Open Scope R_scope.

Lemma pi_range : 31415926 / 10000000 <= PI <= 31415928 / 10000000.
Proof. pose proof pi32_bounds as H. unfold pi32 in H. lra. Qed.

Section Length.
  Context {E : Eps}.
  Variables (c : R) (ps : list P2).
  Hypothesis Hc : circle_constant c.
  Hypothesis Hq : quarter c (map (fun p => coord p 0) ps) (map (fun p => coord p 1) ps).

  (** square of the speed in terms of s = t (1 - t) *)
  Definition pace (s : R) : R := 9 * (c * c + (4 * c - 8 * (c * c)) * s + fall c * (s * s)).

  Lemma four_points : exists p0 p1 p2 p3, ps = [p0; p1; p2; p3].
  Proof.
    assert (L : length ps = 4%nat).
    { rewrite <- (map_length (fun p => coord p 0)).
      destruct Hq as [[-> _]|[[-> _]|[[-> _]|[-> _]]]]; reflexivity. }
    destruct ps as [|p0 [|p1 [|p2 [|p3 [|]]]]]; try discriminate. eauto.
  Qed.
  Lemma ps_nonempty : ps <> [].
  Proof. destruct four_points as (p0 & p1 & p2 & p3 & ->). discriminate. Qed.
  Lemma ps_length : length ps = 4%nat.
  Proof. destruct four_points as (p0 & p1 & p2 & p3 & ->). reflexivity. Qed.

  Lemma speed_pace t : speed ps t = sqrt (pace (t * (1 - t))).
  Proof.
    rewrite speed_vel by exact ps_nonempty. unfold vel, nrm, sq.
    change (p_dim (P := P2)) with 2%nat. cbn [Rsum]. f_equal. rewrite Rplus_0_l.
    destruct four_points as (p0 & p1 & p2 & p3 & Ep). pose proof Hq as H. rewrite Ep in H |- *.
    cbn [map] in H. unfold dcoord, cs. cbn [length Nat.sub Nat.add dc nth].
    rewrite (INR_IZR_INZ 3). cbn [Z.of_nat]. unfold pace, fall.
    revert H; generalize (coord p0 0) (coord p1 0) (coord p2 0) (coord p3 0) (coord p0 1) (coord p1 1) (coord p2 1) (coord p3 1);
      intros x0 x1 x2 x3 y0 y1 y2 y3 H;
      destruct H as [[A B]|[[A B]|[[A B]|[A B]]]]; injection A as -> -> -> ->; injection B as -> -> -> ->; simpl IZR; ring.
  Qed.

  Lemma pace_range s : 0 <= s <= / 4 -> 15359 / 10000 * (15359 / 10000) <= pace s <= 16558 / 10000 * (16558 / 10000).
  Proof.
    intros Hs. pose proof (c_range c Hc) as C. pose proof (fall_range c Hc) as B.
    assert (C2 : 3046101 / 10000000 <= c * c <= 3046102 / 10000000) by nra.
    set (k := 4 * c - 8 * (c * c)).
    assert (K : - 229222 / 1000000 <= k <= - 229219 / 1000000) by (unfold k; lra).
    unfold pace. fold k. set (f := fall c) in *.
    assert (S2 : 0 <= s * s <= s * / 4) by nra.
    assert (X : k * s + f * (s * s) <= 0).
    { assert (f * (s * s) <= f * (s * / 4)) by (apply Rmult_le_compat_l; lra). nra. }
    assert (Y : k * / 4 + f * (/ 4 * / 4) <= k * s + f * (s * s)).
    { assert (0 <= (/ 4 - s) * (- (k + f * (s + / 4)))); [|lra].
      apply Rmult_le_pos; [lra|]. nra. }
    split; lra.
  Qed.

  Lemma speed_range t : 0 <= t <= 1 -> 15359 / 10000 <= speed ps t <= 16558 / 10000.
  Proof.
    intros Ht. rewrite speed_pace. pose proof (pace_range _ (unit_product t Ht)) as [A B]. split.
    - rewrite <- (sqrt_square (15359 / 10000)) by lra. now apply sqrt_le_1_alt.
    - rewrite <- (sqrt_square (16558 / 10000)) by lra. now apply sqrt_le_1_alt.
  Qed.

  (** integral of a linear function of the squared speed *)
  Definition primitive (al be t : R) : R :=
    al * t + be * 9 * (c * c * t + (4 * c - 8 * (c * c)) * (t * t / 2 - t * t * t / 3)
                       + fall c * (t * t * t / 3 - t * t * t * t / 2 + t * t * t * t * t / 5)).
  Lemma primitive_RInt al be : is_RInt (fun t => al + be * pace (t * (1 - t))) 0 1 (primitive al be 1 - primitive al be 0).
  Proof.
    apply (is_RInt_derive (primitive al be)).
    - intros t _. unfold primitive, pace. auto_derive; auto. field.
    - intros t _. apply (ex_derive_continuous (fun t => al + be * pace (t * (1 - t)))).
      unfold pace. auto_derive. auto.
  Qed.
  Lemma primitive_value al be : primitive al be 1 - primitive al be 0
    = al + be * 9 * (c * c + (4 * c - 8 * (c * c)) / 6 + fall c / 30).
  Proof. unfold primitive. field. Qed.

  Lemma ex_speed : ex_RInt (speed ps) 0 1.
  Proof.
    apply (ex_RInt_ext (vel (p_dim (P := P2)) (dcoord ps))).
    - intros t _. symmetry. apply speed_vel, ps_nonempty.
    - apply ex_vel. intros. apply dcoord_continuous.
  Qed.

  Lemma length_range : 15702 / 10000 <= arc_length ps <= 15713 / 10000.
  Proof.
    pose proof (c_range c Hc) as C. pose proof (fall_range c Hc) as B.
    assert (C2 : 3046101 / 10000000 <= c * c <= 3046102 / 10000000) by nra.
    set (v0 := 15359 / 10000). set (v1 := 16558 / 10000).
    assert (Lo : forall t, 0 <= t <= 1 -> v0 * v1 / (v0 + v1) + / (v0 + v1) * pace (t * (1 - t)) <= speed ps t).
    { intros t Ht. pose proof (speed_range t Ht) as R. fold v0 v1 in R.
      assert (Sq : speed ps t * speed ps t = pace (t * (1 - t))).
      { rewrite speed_pace. apply sqrt_sqrt. pose proof (pace_range _ (unit_product t Ht)). lra. }
      rewrite <- Sq. apply (Rmult_le_reg_l (v0 + v1)); [unfold v0, v1; lra|].
      replace ((v0 + v1) * (v0 * v1 / (v0 + v1) + / (v0 + v1) * (speed ps t * speed ps t)))
        with (v0 * v1 + speed ps t * speed ps t) by (field; unfold v0, v1; lra).
      assert (0 <= (speed ps t - v0) * (v1 - speed ps t)) by (apply Rmult_le_pos; lra). lra. }
    assert (Up : forall t, 0 <= t <= 1 -> speed ps t <= 157 / 200 + / (157 / 50) * pace (t * (1 - t))).
    { intros t Ht.
      assert (Sq : speed ps t * speed ps t = pace (t * (1 - t))).
      { rewrite speed_pace. apply sqrt_sqrt. pose proof (pace_range _ (unit_product t Ht)). lra. }
      rewrite <- Sq. pose proof (Rle_0_sqr (speed ps t - 157 / 100)) as Q. unfold Rsqr in Q. lra. }
    split.
    - apply Rle_trans with (RInt (fun t => v0 * v1 / (v0 + v1) + / (v0 + v1) * pace (t * (1 - t))) 0 1).
      + rewrite (is_RInt_unique _ _ _ _ (primitive_RInt _ _)), primitive_value. unfold v0, v1. lra.
      + apply RInt_le; [lra|eexists; apply primitive_RInt|apply ex_speed|]. intros t Ht. apply Lo. lra.
    - apply Rle_trans with (RInt (fun t => 157 / 200 + / (157 / 50) * pace (t * (1 - t))) 0 1).
      + apply RInt_le; [lra|apply ex_speed|eexists; apply primitive_RInt|]. intros t Ht. apply Up. lra.
      + rewrite (is_RInt_unique _ _ _ _ (primitive_RInt _ _)), primitive_value. lra.
  Qed.

  Lemma legs : leg_bound ps (64 / 100).
  Proof.
    split; [lra|]. intros k p q Hp Hq'. pose proof (c_range c Hc) as C.
    unfold dist. change (p_dim (P := P2)) with 2%nat. cbn [Rsum]. rewrite Rplus_0_l.
    rewrite <- (sqrt_square (64 / 100)) by lra. apply sqrt_le_1_alt.
    destruct four_points as (p0 & p1 & p2 & p3 & Ep). pose proof Hq as H. rewrite Ep in H, Hp, Hq'. cbn [map] in H.
    destruct k as [|[|[|[|k]]]]; cbn in Hp, Hq'; try discriminate; try (destruct k; discriminate);
      injection Hp as <-; injection Hq' as <-;
      revert H; generalize (coord p0 0) (coord p1 0) (coord p2 0) (coord p3 0) (coord p0 1) (coord p1 1) (coord p2 1) (coord p3 1);
      intros x0 x1 x2 x3 y0 y1 y2 y3 H;
      destruct H as [[A B]|[[A B]|[[A B]|[A B]]]]; injection A as -> -> -> ->; injection B as -> -> -> ->; nra.
  Qed.

  Lemma first_chord (f : R -> P2) m : traces f ps -> (0 < m)%nat -> dist (f 0) (f (/ INR m)) <= 16558 / 10000 / INR m.
  Proof.
    intros Hf Hm. rewrite (dist_chord f ps 0 (/ INR m) Hf).
    assert (1 <= INR m) by (apply (le_INR 1); lia).
    assert (Hi : 0 < / INR m <= 1).
    { split; [apply Rinv_0_lt_compat; lra|]. rewrite <- Rinv_1. apply Rinv_le_contravar; lra. }
    replace (16558 / 10000 / INR m) with (16558 / 10000 * (/ INR m - 0)) by (unfold Rdiv; ring).
    apply (chord_bound (p_dim (P := P2)) (fun i t => curve_coord ps t i) (dcoord ps)).
    - intros i t _. apply dcoord_lim, ps_nonempty.
    - lra.
    - intros t Ht. rewrite <- speed_vel by exact ps_nonempty. apply speed_range. lra.
  Qed.

  (** what is summed from the second chord on *)
  Lemma quarter_sum (f : R -> P2) m a : traces f ps -> (1000 <= m)%nat ->
    a + dist (f 0) (f (/ INR m)) = polyline f m -> 15684 / 10000 <= a <= 15713 / 10000.
  Proof.
    intros Hf Hm Ha.
    assert (M : 1000 <= INR m) by (replace 1000 with (INR 1000) by (rewrite INR_IZR_INZ; reflexivity); now apply le_INR).
    pose proof length_range as LR.
    pose proof (polyline_upper f ps m Hf ps_nonempty ltac:(lia)) as U.
    pose proof (polyline_lower_regular f ps m (64 / 100) (15359 / 10000) Hf ps_nonempty ltac:(lia) legs ltac:(lra)
      (fun t Ht => proj1 (speed_range t Ht))) as L.
    rewrite ps_length in L. cbn [Nat.sub] in L. rewrite (INR_IZR_INZ 3), (INR_IZR_INZ 2) in L. cbn [Z.of_nat] in L. simpl IZR in L.
    pose proof (first_chord f m Hf ltac:(lia)) as FC. pose proof (dist_nonneg (f 0) (f (/ INR m))) as D0.
    assert (I : 0 < / INR m <= / 1000) by (split; [apply Rinv_0_lt_compat|apply Rinv_le_contravar]; lra).
    assert (I2 : / INR m * / INR m <= / 1000 * / 1000) by (apply Rmult_le_compat; lra).
    replace ((3 * 2 * (64 / 100)) ^ 2 / (6 * (15359 / 10000) * INR m ^ 2))
      with ((3 * 2 * (64 / 100)) ^ 2 / (6 * (15359 / 10000)) * (/ INR m * / INR m)) in L by (field; lra).
    unfold Rdiv at 1 in FC. lra.
  Qed.
End Length.

Section Circumference.
  Context {E : Eps}.
  Lemma quarter_arclen (c : R) q m : circle_constant c -> In q (quadrants c) -> (1000 <= m)%nat ->
    exists a, cubic_arclen q m = Ret a /\ 15684 / 10000 <= a <= 15713 / 10000.
  Proof.
    intros Hc Hq Hm. destruct (cubic_arclen_value q m ltac:(lia)) as (a & Ea & Ha). exists a. split; [exact Ea|].
    exact (quarter_sum c _ Hc (quadrants_quarter c q Hq) (cubic_eval q) m a (traces_cubic q) Hm Ha).
  Qed.

  Lemma circumference_exact (c : R) m : circle_constant c -> (1000 <= m)%nat ->
    exists a1 a2 a3 a4, cubic_arclen (quadrant_1 c) m = Ret a1 /\ cubic_arclen (quadrant_2 c) m = Ret a2 /\
      cubic_arclen (quadrant_3 c) m = Ret a3 /\ cubic_arclen (quadrant_4 c) m = Ret a4 /\
      Rabs (a1 + a2 + a3 + a4 - 2 * PI) < / 100.
  Proof.
    intros Hc Hm. pose proof pi_range.
    destruct (quarter_arclen c (quadrant_1 c) m Hc ltac:(unfold quadrants; cbn [In]; tauto) Hm) as (a1 & E1 & R1).
    destruct (quarter_arclen c (quadrant_2 c) m Hc ltac:(unfold quadrants; cbn [In]; tauto) Hm) as (a2 & E2 & R2).
    destruct (quarter_arclen c (quadrant_3 c) m Hc ltac:(unfold quadrants; cbn [In]; tauto) Hm) as (a3 & E3 & R3).
    destruct (quarter_arclen c (quadrant_4 c) m Hc ltac:(unfold quadrants; cbn [In]; tauto) Hm) as (a4 & E4 & R4).
    exists a1, a2, a3, a4. repeat split; auto. apply Rabs_def1; lra.
  Qed.
End Circumference.
