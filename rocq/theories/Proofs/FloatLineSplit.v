(** C04 in IEEE-754 arithmetic: where [split] of a line segment cuts. *)
From Coq Require Import Reals List Arith ZArith Lia Lra Psatz.
From Flocq Require Import Core.Core IEEE754.BinarySingleNaN.
From Verif Require Import Base.Outcome Base.Scalar Model.Point Model.Line Model.Repairs Inst.FloatInst
  Spec.Sums Spec.Bernstein Spec.Rounding Spec.Componentwise Spec.FloatPoints Spec.FloatCurves
  Proofs.FloatFacts Proofs.FloatBound Proofs.FloatPoint Proofs.FloatDd.
Import ListNotations.
Local Open Scope R_scope.

Section LineSplit.
  Context {F : Format} {P : Type} {PT : Point float P} {CP : CwPoint float P}.
  Variable M : R.
  Hypothesis HM : 0 <= M.
  Hypothesis HF : 16 * M <= fmax.

  (** a + (b - c) t *)
  Lemma mix_err (a b c t : float) : fin a -> Rabs (val a) <= M -> fin b -> Rabs (val b) <= M -> fin c -> Rabs (val c) <= M ->
    fin t -> 0 <= val t <= 1 ->
    fin (s_add a (s_mul (s_sub b c) t)) /\
    Rabs (val (s_add a (s_mul (s_sub b c) t)) - (val a + (val b - val c) * val t)) <= 10 * (uro * M + eta).
  Proof.
    intros Fa Ba Fb Bb Fc Bc Ft Ht. pose proof (@uro_pos F) as U0. pose proof (@uro_small F) as U1. pose proof (@eta_pos F) as E0.
    pose proof (@fmax_ge F) as FM.
    assert (UM : 0 <= uro * M) by (apply Rmult_le_pos; lra). assert (UM1 : uro * M <= / 2048 * M) by (apply Rmult_le_compat_r; lra).
    set (g := uro * M + eta).
    assert (D0 : Rabs (val b - val c) <= 2 * M) by (unfold Rminus; eapply Rle_trans; [apply Rabs_triang|]; rewrite Rabs_Ropp; lra).
    destruct (sub_ok b c Fb Fc) as [Fs Vs]; [lra|].
    pose proof (rnd_sum_err (val b) (- val c) (val_float b) (float_opp _ (val_float c))) as R0. change (val b + - val c) with (val b - val c) in R0.
    rewrite <- Vs in R0. set (d := s_sub b c) in *. set (v := val b - val c) in *.
    assert (R1 : Rabs (val d - v) <= 2 * (uro * M)).
    { eapply Rle_trans; [exact R0|]. assert (uro * Rabs v <= uro * (2 * M)) by (apply Rmult_le_compat_l; lra). lra. }
    assert (E1 : Rabs (val d * val t - v * val t) <= 2 * (uro * M)).
    { rewrite <- Rmult_minus_distr_r, Rabs_mult, (Rabs_right (val t)) by lra.
      eapply Rle_trans; [apply Rmult_le_compat_l; [apply Rabs_pos|apply Ht]|]. lra. }
    assert (V1 : Rabs (v * val t) <= 2 * M).
    { rewrite Rabs_mult, (Rabs_right (val t)) by lra. eapply Rle_trans; [apply Rmult_le_compat_l; [apply Rabs_pos|apply Ht]|]. lra. }
    assert (B1 : Rabs (val d * val t) <= 3 * M).
    { replace (val d * val t) with (v * val t + (val d * val t - v * val t)) by ring. eapply Rle_trans; [apply Rabs_triang|]. lra. }
    destruct (mul_ok d t Fs Ft) as [Fm Vm]; [lra|].
    assert (TM : tm M (s_mul d t) (v * val t) 2 6).
    { split; [exact Fm|]. split; [exact V1|]. rewrite Vm. pose proof (rnd_err (val d * val t)) as R2.
      replace (rnd (val d * val t) - v * val t) with ((rnd (val d * val t) - val d * val t) + (val d * val t - v * val t)) by ring.
      eapply Rle_trans; [apply Rabs_triang|].
      assert (uro * Rabs (val d * val t) <= uro * (3 * M)) by (apply Rmult_le_compat_l; lra). lra. }
    assert (TA : tm M a (val a) 1 0).
    { split; [exact Fa|]. split; [lra|]. rewrite Rminus_diag_eq, Rabs_R0 by reflexivity. lra. }
    pose proof (tm_plus M HM HF _ _ _ _ 1 2 3 0 6 10 TA TM ltac:(lra) ltac:(lra) ltac:(lra) ltac:(lra) ltac:(lra) ltac:(lra)) as (G1 & _ & G2).
    split; [exact G1|exact G2].
  Qed.

  Lemma line_poly a b x : bezier_poly [a; b] x = a * (1 - x) + b * x.
  Proof. unfold bezier_poly, bernstein. cbn. ring. Qed.

  (** both halves from the error at the cut *)
  Lemma halves_err (a b cut T u g : R) : 0 <= u <= 1 -> 0 <= g -> Rabs (cut - (a + (b - a) * T)) <= g ->
    Rabs (bezier_poly [a; cut] u - bezier_poly [a; b] (T * u)) <= g /\ Rabs (bezier_poly [cut; b] u - bezier_poly [a; b] (T + u * (1 - T))) <= g.
  Proof.
    intros Hu Hg E. rewrite !line_poly. split.
    - replace (a * (1 - u) + cut * u - (a * (1 - T * u) + b * (T * u))) with ((cut - (a + (b - a) * T)) * u) by ring.
      rewrite Rabs_mult, (Rabs_right u) by lra. eapply Rle_trans; [apply (Rmult_le_compat_l _ _ 1); [apply Rabs_pos|lra]|]. rewrite Rmult_1_r. exact E.
    - replace (cut * (1 - u) + b * u - (a * (1 - (T + u * (1 - T))) + b * (T + u * (1 - T))))
        with ((cut - (a + (b - a) * T)) * (1 - u)) by ring.
      rewrite Rabs_mult, (Rabs_right (1 - u)) by lra.
      eapply Rle_trans; [apply (Rmult_le_compat_l _ _ 1); [apply Rabs_pos|lra]|]. rewrite Rmult_1_r. exact E.
  Qed.

  Lemma slack_pos : 0 <= 10 * (uro * M + eta).
  Proof. pose proof (@uro_pos F). pose proof (@eta_pos F). assert (0 <= uro * M) by (apply Rmult_le_pos; lra). lra. Qed.

  Theorem line_split_err (s l r : line P) t : line_split s t = (l, r) -> fin t -> 0 <= val t <= 1 -> bounded M (l_start s) -> bounded M (l_end s) ->
    l_start l = l_start s /\ l_end l = l_start r /\ l_end r = l_end s /\
    forall i, (i < p_dim (P := P))%nat -> fin (cw (l_end l) i) /\ forall u, 0 <= u <= 1 ->
      Rabs (exact_at [l_start l; l_end l] u i - exact_at [l_start s; l_end s] (- (val t * u)) i) <= 10 * (uro * M + eta) /\
      Rabs (exact_at [l_start r; l_end r] u i - exact_at [l_start s; l_end s] (- val t + u * (1 + val t)) i) <= 10 * (uro * M + eta).
  Proof.
    intros E Ft Ht A B. injection E as <- <-. cbn [l_start l_end]. repeat (split; [reflexivity|]). intros i Hi.
    unfold exact_at. cbn [map]. rewrite cw_add, cw_mul, cw_sub by exact Hi. destruct (A i Hi) as [A1 A2]. destruct (B i Hi) as [B1 B2].
    destruct (mix_err _ _ _ t A1 A2 A1 A2 B1 B2 Ft Ht) as [G1 G2]. split; [exact G1|]. intros u Hu.
    replace (- (val t * u)) with (- val t * u) by ring. replace (1 + val t) with (1 - - val t) by ring.
    apply halves_err; [exact Hu|apply slack_pos|]. eapply Rle_trans; [|exact G2]. right. f_equal. ring.
  Qed.
  Theorem fixed_line_split_err (s l r : line P) t : fixed_line_split s t = (l, r) -> fin t -> 0 <= val t <= 1 -> bounded M (l_start s) -> bounded M (l_end s) ->
    l_start l = l_start s /\ l_end l = l_start r /\ l_end r = l_end s /\
    forall i, (i < p_dim (P := P))%nat -> fin (cw (l_end l) i) /\ forall u, 0 <= u <= 1 ->
      Rabs (exact_at [l_start l; l_end l] u i - exact_at [l_start s; l_end s] (val t * u) i) <= 10 * (uro * M + eta) /\
      Rabs (exact_at [l_start r; l_end r] u i - exact_at [l_start s; l_end s] (val t + u * (1 - val t)) i) <= 10 * (uro * M + eta).
  Proof.
    intros E Ft Ht A B. injection E as <- <-. cbn [l_start l_end]. repeat (split; [reflexivity|]). intros i Hi.
    unfold exact_at. cbn [map]. rewrite cw_add, cw_mul, cw_sub by exact Hi. destruct (A i Hi) as [A1 A2]. destruct (B i Hi) as [B1 B2].
    destruct (mix_err _ _ _ t A1 A2 B1 B2 A1 A2 Ft Ht) as [G1 G2]. split; [exact G1|]. intros u Hu.
    apply halves_err; [exact Hu|apply slack_pos|exact G2].
  Qed.
End LineSplit.
