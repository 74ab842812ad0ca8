(** C138 in IEEE-754 arithmetic, for every binary format with at least 11 bits. *)
From Coq Require Import Reals List Arith ZArith Lia Lra.
From Flocq Require Import Core.Core IEEE754.BinarySingleNaN.
From Verif Require Import Base.Outcome Base.Scalar Model.Point Model.Line Model.Quadratic Model.Cubic
  Inst.FloatInst Spec.Sums Spec.Bernstein Spec.Rounding Spec.Componentwise Spec.FloatPoints Spec.FloatCurves Spec.Adaptive
  Proofs.FloatFacts Proofs.FloatBound Proofs.FloatPoint Proofs.FloatNear Proofs.FloatNorm Proofs.FloatCurve Proofs.FloatFlat Proofs.FloatSplineEval
  Proofs.AdaptiveRound.
Import ListNotations.
Local Open Scope R_scope.

Section Round.
  Context {F : Format} {P : Type} {PT : Point float P} {CP : CwPoint float P}.
  Notation D := (p_dim (P := P)).
  (** coordinates of magnitude at most N, growing to at most M over the halvings *)
  Variables M N : R.
  Hypotheses (HN : 0 <= N <= M) (HD0 : (0 < D)%nat) (HD : 64 * INR (D + 1) * uro <= 1).
  Hypothesis Big : 64 * INR (D + 1) * ((M + 1) * (M + 1)) <= fmax.
  Variables (tol h : float) (d : nat).
  Hypotheses (Ft : fin tol) (Ht : val tol * val tol <= fmax) (Fh : fin h) (Vh : val h = / 2).
  (** rounding error of a distance, and of a midpoint *)
  Notation e := (sqrt (INR D) * ((6 * INR D + 35) * uro * M + 4 * sqrt eta)).
  Notation step := (6 * uro * M + 2 * eta).

  (** C138: halving a quadratic curve until [is_a_point(tol) || is_linear(tol)] ends within [d]
      rounds as soon as [tol] exceeds the size of the curve over 2^d by the rounding errors,
      and every point of the exact curve is within [tol], up to rounding, of a chord *)
  Theorem C138_quad_round (c : quad P) : (forall p, In p (quad_control_points c) -> bounded N p) ->
    N + INR d * (2 * step) <= M ->
    sqrt (INR D) * (4 * N / 2 ^ d + 8 * step) + e + 3 * sqrt eta <= (1 - 2 * uro) * Rabs (val tol) ->
    exists l, flattened (fun q => if quad_is_a_point q tol then Ret true else quad_is_linear q tol)
        (fun q => quad_split q h) d c = Ret (Some l) /\ (length l <= 2 ^ d)%nat /\
      forall t, 0 <= t <= 1 -> exists q v, In q l /\ 0 <= v <= 1 /\
        gap (P := P) (exact_at (quad_control_points c) t) (exact_at [q_start q; q_end q] v)
          <= (1 + 3 * uro) * Rabs (val tol) + 2 * sqrt eta + e + INR d * (sqrt (INR D) * (11 * uro * M + 3 * eta)).
  Proof. exact (quad_adaptive_round M N HN HD0 HD Big tol h d Ft Ht Fh Vh c). Qed.

  (** C138: the same for cubic curves *)
  Theorem C138_cubic_round (c : cubic P) : (forall p, In p (cubic_control_points c) -> bounded N p) ->
    N + INR d * (3 * step) <= M ->
    sqrt (INR D) * (6 * N / 2 ^ d + 18 * step) + e + 3 * sqrt eta <= (1 - 2 * uro) * Rabs (val tol) ->
    exists l, flattened (fun q => if cubic_is_a_point q tol then Ret true else cubic_is_linear q tol)
        (fun q => cubic_split q h) d c = Ret (Some l) /\ (length l <= 2 ^ d)%nat /\
      forall t, 0 <= t <= 1 -> exists q v, In q l /\ 0 <= v <= 1 /\
        gap (P := P) (exact_at (cubic_control_points c) t) (exact_at [c_start q; c_end q] v)
          <= (1 + 3 * uro) * Rabs (val tol) + 2 * sqrt eta + e + INR d * (sqrt (INR D) * (16 * uro * M + 4 * eta)).
  Proof. exact (cubic_adaptive_round M N HN HD0 HD Big tol h d Ft Ht Fh Vh c). Qed.
End Round.

(** f64, the curves through (0,0), (2,1), (3,1), (4,1), tolerance 1/1024: within 15 and 16 rounds *)
Section Concrete.
  #[local] Existing Instance Binary64.
  Notation P2 := (PointN float 2).
  Definition d0 : P2 := fpt2 (flt 0 0) (flt 0 0).
  Definition d1 : P2 := fpt2 (flt 2 0) (flt 1 0).
  Definition d2 : P2 := fpt2 (flt 3 0) (flt 1 0).
  Definition d3 : P2 := fpt2 (flt 4 0) (flt 1 0).
  Lemma d_bounded p : In p [d0; d1; d2; d3] -> bounded 4 p.
  Proof. intros [<-|[<-|[<-|[<-|[]]]]]; apply bounded_int2; try lia; rewrite Rabs_right by lra; lra. Qed.
  Lemma d_dim : INR (p_dim (P := P2)) = 2. Proof. simpl. ring. Qed.
  Lemma d_dim1 : INR (p_dim (P := P2) + 1) = 3. Proof. simpl. ring. Qed.
  Lemma d_pos : (0 < p_dim (P := P2))%nat. Proof. cbn. lia. Qed.
  Lemma d_ok : 64 * INR (p_dim (P := P2) + 1) * uro <= 1.
  Proof. pose proof uro_64. rewrite d_dim1. lra. Qed.
  Lemma d_big : 64 * INR (p_dim (P := P2) + 1) * ((5 + 1) * (5 + 1)) <= fmax.
  Proof. pose proof fmax_64. rewrite d_dim1. lra. Qed.
  Lemma d_half : fin (flt 1 (-1)) /\ val (flt 1 (-1)) = / 2. Proof. apply flt_pow; lia. Qed.
  Lemma d_tol : fin (flt 1 (-10)) /\ val (flt 1 (-10)) = / 1024. Proof. apply flt_pow; lia. Qed.
  Lemma d_errs k : 0 <= k <= / 1400 ->
    sqrt (INR (p_dim (P := P2))) * (k + 18 * (6 * uro * 5 + 2 * eta))
    + sqrt (INR (p_dim (P := P2))) * ((6 * INR (p_dim (P := P2)) + 35) * uro * 5 + 4 * sqrt eta) + 3 * sqrt eta
    <= 1.42 * k + / 1000000000.
  Proof.
    intros Hk. rewrite d_dim. pose proof uro_64 as U. pose proof uro_pos. pose proof (@sqrt_eta Binary64) as [S0 S1].
    pose proof (@eta_uro Binary64) as EU. pose proof eta_pos.
    assert (A : sqrt 2 <= 1.42) by (rewrite <- (sqrt_square 1.42) by lra; apply sqrt_le_1_alt; lra).
    pose proof (sqrt_pos 2). assert (V : sqrt eta <= / 100000000000) by lra. assert (V2 : eta <= / 100000000000) by lra.
    rewrite <- Rmult_plus_distr_l.
    apply Rle_trans with (1.42 * (k + 18 * (6 * uro * 5 + 2 * eta) + ((6 * 2 + 35) * uro * 5 + 4 * sqrt eta)) + 3 * sqrt eta); [|lra].
    apply Rplus_le_compat_r, Rmult_le_compat_r; lra.
  Qed.

  Example C138_case_quad : exists l, flattened
    (fun q => if quad_is_a_point q (flt 1 (-10)) then Ret true else quad_is_linear q (flt 1 (-10)))
    (fun q => quad_split q (flt 1 (-1))) 15 (Quad d0 d1 d3) = Ret (Some l) /\ (length l <= 2 ^ 15)%nat.
  Proof.
    destruct d_half as [Fh Vh]. destruct d_tol as [Ft Vt].
    pose proof uro_64 as U. pose proof uro_pos. pose proof (@eta_uro Binary64) as EU. pose proof eta_pos.
    pose proof (@sqrt_eta Binary64) as [S0 S1]. pose proof fmax_64.
    assert (V2 : eta <= / 100000000000) by lra.
    destruct (C138_quad_round 5 4 ltac:(lra) d_pos d_ok d_big (flt 1 (-10)) (flt 1 (-1)) 15 Ft
      ltac:(rewrite Vt; lra) Fh Vh (Quad d0 d1 d3)) as (l & E & L & _).
    - intros p [<-|[<-|[<-|[]]]]; apply d_bounded; cbn; tauto.
    - replace (INR 15) with 15 by (simpl; ring). lra.
    - rewrite Vt, (Rabs_right (/ 1024)) by lra.
      replace (4 * 4 / 2 ^ 15) with (/ 2048) by (simpl; field).
      pose proof (d_errs (/ 2048) ltac:(lra)) as DE. pose proof (sqrt_pos (INR (p_dim (P := P2)))).
      assert (sqrt (INR (p_dim (P := P2))) * (/ 2048 + 8 * (6 * uro * 5 + 2 * eta))
              <= sqrt (INR (p_dim (P := P2))) * (/ 2048 + 18 * (6 * uro * 5 + 2 * eta))) by (apply Rmult_le_compat_l; lra).
      lra.
    - exists l. now split.
  Qed.
  Example C138_case_cubic : exists l, flattened
    (fun q => if cubic_is_a_point q (flt 1 (-10)) then Ret true else cubic_is_linear q (flt 1 (-10)))
    (fun q => cubic_split q (flt 1 (-1))) 16 (Cubic d0 d1 d2 d3) = Ret (Some l) /\ (length l <= 2 ^ 16)%nat.
  Proof.
    destruct d_half as [Fh Vh]. destruct d_tol as [Ft Vt].
    pose proof uro_64 as U. pose proof uro_pos. pose proof (@eta_uro Binary64) as EU. pose proof eta_pos.
    pose proof (@sqrt_eta Binary64) as [S0 S1]. pose proof fmax_64.
    assert (V2 : eta <= / 100000000000) by lra.
    destruct (C138_cubic_round 5 4 ltac:(lra) d_pos d_ok d_big (flt 1 (-10)) (flt 1 (-1)) 16 Ft
      ltac:(rewrite Vt; lra) Fh Vh (Cubic d0 d1 d2 d3)) as (l & E & L & _).
    - intros p Hp. apply d_bounded. exact Hp.
    - replace (INR 16) with 16 by (simpl; ring). lra.
    - rewrite Vt, (Rabs_right (/ 1024)) by lra.
      replace (6 * 4 / 2 ^ 16) with (3 / 8192) by (simpl; field).
      pose proof (d_errs (3 / 8192) ltac:(lra)) as DE. lra.
    - exists l. now split.
  Qed.
End Concrete.

Print Assumptions C138_quad_round.
Print Assumptions C138_cubic_round.
