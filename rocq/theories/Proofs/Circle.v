(** The cubic approximation of the unit circle, in exact arithmetic. *)
From Coq Require Import Reals ZArith List Arith Lia Lra Psatz.
From Coquelicot Require Import Coquelicot.
From Verif Require Import Base.Outcome Base.Scalar Model.Point Model.Cubic Inst.RealInst
  Spec.Sums Spec.Lawful Spec.Bernstein Spec.Points Spec.Circle
  Proofs.PointFacts Proofs.ExactEval.
Import ListNotations.
Local Open Scope R_scope.

Section Numbers.
  Variable c : R.
  Hypothesis Hc : circle_constant c.

  Definition rise : R := 9 * (c * c) + 6 * c - 6.
  Definition fall : R := 18 * (c * c) - 24 * c + 8.
  (** |B|^2 - 1 in terms of s = t (1 - t) *)
  Definition drift (s : R) : R := rise * (s * s) - fall * (s * s * s).

  Lemma c_range : 551915024493 / 1000000000000 <= c <= 551915024495 / 1000000000000.
  Proof. unfold circle_constant in Hc. apply Rabs_le_between in Hc. lra. Qed.

  Lemma rise_range : 5298189530 / 100000000000 <= rise <= 5298189535 / 100000000000.
  Proof. pose proof c_range. unfold rise. split; nra. Qed.
  Lemma fall_range : 2370229088 / 10000000000 <= fall <= 2370229089 / 10000000000.
  Proof. pose proof c_range. unfold fall. split; nra. Qed.

  Lemma drift_upper s : 0 <= s -> drift s <= 2 * max_drift + max_drift * max_drift - 5 / 1000000000.
  Proof.
    intros Hs. pose proof rise_range as A. pose proof fall_range as B. unfold drift, max_drift.
    set (b := 2370229088 / 10000000000) in *. set (s0 := 1490206 / 10000000).
    assert (S2 : 0 <= s * s) by (apply Rmult_le_pos; assumption).
    assert (S3 : 0 <= s * s * s) by (apply Rmult_le_pos; assumption).
    assert (U : rise * (s * s) - fall * (s * s * s) <= 3 / 2 * s0 * b * (s * s) - b * (s * s * s)).
    { assert (rise <= 3 / 2 * s0 * b) by (unfold s0, b; lra).
      pose proof (Rmult_le_compat_r _ _ _ S2 H). pose proof (Rmult_le_compat_r _ _ _ S3 (proj1 B)). lra. }
    assert (Q : 0 <= b * ((s - s0) * (s - s0) * (s + s0 / 2))).
    { apply Rmult_le_pos; [unfold b; lra|]. apply Rmult_le_pos; [apply Rle_0_sqr|unfold s0; lra]. }
    replace (b * ((s - s0) * (s - s0) * (s + s0 / 2)))
      with (b * (s * s * s) - 3 / 2 * s0 * b * (s * s) + b * (s0 * s0 * s0) / 2) in Q by field.
    assert (b * (s0 * s0 * s0) / 2 <= 2 * (19608 / 100000000) + 19608 / 100000000 * (19608 / 100000000) - 5 / 1000000000); [unfold b, s0; lra|lra].
  Qed.

  Lemma drift_lower s : 0 <= s <= / 4 -> - 2 * max_drift + max_drift * max_drift + 5 / 1000000000 <= drift s.
  Proof.
    intros Hs. pose proof rise_range as A. pose proof fall_range as B. unfold drift, max_drift.
    assert (S2 : 0 <= s * s <= / 16) by nra.
    replace (rise * (s * s) - fall * (s * s * s)) with (s * s * (rise - fall * s)) by ring.
    assert (K : - 6274 / 1000000 <= rise - fall * s) by nra.
    assert (K2 : rise - fall / 4 <= rise - fall * s) by nra.
    assert (V : - 62738320 / 10000000000 <= rise - fall / 4) by lra.
    assert (W : - (62738320 / 10000000000) / 16 <= s * s * (rise - fall * s)).
    { apply Rle_trans with (s * s * (- (62738320 / 10000000000))).
      - replace (- (62738320 / 10000000000) / 16) with (/ 16 * - (62738320 / 10000000000)) by field.
        assert ((/ 16 - s * s) * (62738320 / 10000000000) >= 0); [apply Rle_ge, Rmult_le_pos; lra|lra].
      - apply Rmult_le_compat_l; lra. }
    lra.
  Qed.
End Numbers.

(** the control coordinates of a quarter of the circle *)
Definition quarter (c : R) (xs ys : list R) : Prop :=
  (xs = [0; c; 1; 1] /\ ys = [1; 1; c; 0]) \/ (xs = [1; 1; c; 0] /\ ys = [0; - c; -1; -1]) \/
  (xs = [0; - c; -1; -1] /\ ys = [-1; -1; - c; 0]) \/ (xs = [-1; -1; - c; 0] /\ ys = [0; c; 1; 1]).

Lemma quarter_drift c xs ys t : quarter c xs ys ->
  bezier_poly xs t * bezier_poly xs t + bezier_poly ys t * bezier_poly ys t = 1 + drift c (t * (1 - t)).
Proof.
  intros [[-> ->]|[[-> ->]|[[-> ->]|[-> ->]]]]; rewrite !poly3; unfold drift, rise, fall; ring.
Qed.

Lemma radius_near c s : circle_constant c -> 0 <= s <= / 4 ->
  Rabs (sqrt (1 + drift c s) - 1) <= max_drift - 2 / 1000000000.
Proof.
  intros Hc Hs. pose proof (drift_upper c Hc s ltac:(lra)) as U. pose proof (drift_lower c Hc s Hs) as L.
  unfold max_drift in *. set (h := 2 / 1000000000) in *.
  apply Rabs_le. split.
  - assert (1 - (19608 / 100000000 - h) <= sqrt (1 + drift c s)); [|lra].
    rewrite <- (sqrt_square (1 - (19608 / 100000000 - h))) by (unfold h; lra).
    apply sqrt_le_1_alt. unfold h. lra.
  - assert (sqrt (1 + drift c s) <= 1 + (19608 / 100000000 - h)); [|lra].
    rewrite <- (sqrt_square (1 + (19608 / 100000000 - h))) by (unfold h; lra).
    apply sqrt_le_1_alt. unfold h. lra.
Qed.

Lemma unit_product t : 0 <= t <= 1 -> 0 <= t * (1 - t) <= / 4.
Proof. intros. pose proof (Rle_0_sqr (t - / 2)) as Q. unfold Rsqr in Q. split; [apply Rmult_le_pos; lra|lra]. Qed.

Section Exact.
  Context {E : Eps}.

  Lemma quadrants_quarter (c : R) q : In q (quadrants c) ->
    quarter c (map (fun p => coord p 0) (cubic_control_points q)) (map (fun p => coord p 1) (cubic_control_points q)).
  Proof.
    intros [<-|[<-|[<-|[<-|[]]]]]; unfold quarter; cbn.
    - left. split; reflexivity.
    - right. left. split; reflexivity.
    - right. right. left. split; reflexivity.
    - right. right. right. split; reflexivity.
  Qed.

  Lemma circle_exact (c t : R) q : circle_constant c -> In q (quadrants c) -> 0 <= t <= 1 ->
    Rabs (radial (cubic_eval q t)) <= max_drift.
  Proof.
    intros Hc Hq Ht. unfold radial. cbn [s_sub s_sqrt s_lit RScalar].
    assert (L : p_sqlen (cubic_eval q t) = 1 + drift c (t * (1 - t))).
    { rewrite lp_sqlen. change (p_dim (P := PointN R 2)) with 2%nat. cbn [Rsum].
      rewrite !cubic_eval_spec by (cbn; lia). unfold curve_coord.
      rewrite <- (quarter_drift c _ _ t (quadrants_quarter c q Hq)). rewrite Rplus_0_l. reflexivity. }
    rewrite L. pose proof (radius_near c _ Hc (unit_product t Ht)). lra.
  Qed.

  (** the bound is nearly attained *)
  Lemma circle_middle (c : R) q : circle_constant c -> In q (quadrants c) ->
    radial (cubic_eval q (/ 2)) <= - (19607 / 100000000).
  Proof.
    intros Hc Hq. unfold radial. cbn [s_sub s_sqrt s_lit RScalar].
    assert (L : p_sqlen (cubic_eval q (/ 2)) = 1 + drift c (/ 4)).
    { rewrite lp_sqlen. change (p_dim (P := PointN R 2)) with 2%nat. cbn [Rsum].
      rewrite !cubic_eval_spec by (cbn; lia). unfold curve_coord.
      replace (/ 4) with (/ 2 * (1 - / 2)) by field.
      rewrite <- (quarter_drift c _ _ (/ 2) (quadrants_quarter c q Hq)). rewrite Rplus_0_l. reflexivity. }
    rewrite L. pose proof (rise_range c Hc). pose proof (fall_range c Hc).
    assert (sqrt (1 + drift c (/ 4)) <= 1 - 19607 / 100000000); [|lra].
    rewrite <- (sqrt_square (1 - 19607 / 100000000)) by lra. apply sqrt_le_1_alt. unfold drift. lra.
  Qed.
End Exact.
