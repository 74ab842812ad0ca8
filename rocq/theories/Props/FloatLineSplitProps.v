(** C04 in IEEE-754 arithmetic, for every binary format with at least 11 bits: the halves
    of a line segment the code returns, and those of the repaired [split] (C124). *)
From Coq Require Import Reals List Arith ZArith Lia Lra.
From Flocq Require Import Core.Core IEEE754.BinarySingleNaN.
From Verif Require Import Base.Outcome Base.Scalar Model.Point Model.Line Model.Repairs Inst.FloatInst
  Spec.Sums Spec.Bernstein Spec.Rounding Spec.Componentwise Spec.FloatPoints Spec.FloatCurves
  Proofs.FloatFacts Proofs.FloatPoint Proofs.FloatBound Proofs.FloatCurve Proofs.FloatHalf Proofs.FloatLineSplit
  Props.FloatCurveProps Props.FloatDdProps.
Import ListNotations.
Local Open Scope R_scope.

Section Floats.
  Context {F : Format} {P : Type} {PT : Point float P} {CP : CwPoint float P}.
  Variable M : R.
  Hypotheses (HM : 0 <= M) (HF : 16 * M <= fmax).

  (** Full statement: as for the repaired split below.  False ([C04_float_refuted]); the halves
      follow the segment extended backwards, as over the reals ([C04_split_partial]). *)
  Theorem C04_float_partial (s l r : line P) t : line_split s t = (l, r) -> fin t -> 0 <= val t <= 1 -> bounded M (l_start s) -> bounded M (l_end s) ->
    l_start l = l_start s /\ l_end l = l_start r /\ l_end r = l_end s /\
    forall i, (i < p_dim (P := P))%nat -> fin (cw (l_end l) i) /\ forall u, 0 <= u <= 1 ->
      Rabs (exact_at [l_start l; l_end l] u i - exact_at [l_start s; l_end s] (- (val t * u)) i) <= 10 * (uro * M + eta) /\
      Rabs (exact_at [l_start r; l_end r] u i - exact_at [l_start s; l_end s] (- val t + u * (1 + val t)) i) <= 10 * (uro * M + eta).
  Proof. exact (line_split_err M HM HF s l r t). Qed.

  Theorem C124_line_split_float (s l r : line P) t : fixed_line_split s t = (l, r) -> fin t -> 0 <= val t <= 1 ->
    bounded M (l_start s) -> bounded M (l_end s) ->
    l_start l = l_start s /\ l_end l = l_start r /\ l_end r = l_end s /\
    forall i, (i < p_dim (P := P))%nat -> fin (cw (l_end l) i) /\ forall u, 0 <= u <= 1 ->
      Rabs (exact_at [l_start l; l_end l] u i - exact_at [l_start s; l_end s] (val t * u) i) <= 10 * (uro * M + eta) /\
      Rabs (exact_at [l_start r; l_end r] u i - exact_at [l_start s; l_end s] (val t + u * (1 - val t)) i) <= 10 * (uro * M + eta).
  Proof. exact (fixed_line_split_err M HM HF s l r t). Qed.
End Floats.

(** the f64 segment from (0,0) to (4,1), cut at one half *)
Section Concrete.
  #[local] Existing Instance Binary64.
  Example C124_line_split_case : forall l r, fixed_line_split (Line a0 a2) s_half = (l, r) ->
    Rabs (exact_at [l_start l; l_end l] 1 0 - exact_at [a0; a2] (val s_half * 1) 0) <= 10 * (uro * 4 + eta).
  Proof.
    intros l r E. destruct half_in as [H1 H2]. pose proof fmax_64.
    destruct (C124_line_split_float 4 ltac:(lra) ltac:(lra) (Line a0 a2) l r s_half E H1 H2) as (_ & _ & _ & G); try (apply a_bounded; cbn; tauto).
    apply (proj2 (G 0%nat ltac:(cbn; lia)) 1). lra.
  Qed.

  (** the first half ends 4 away from the middle of the segment *)
  Theorem C04_float_refuted : exists l r, line_split (Line a0 a2) s_half = (l, r) /\
    3 < Rabs (exact_at [l_start l; l_end l] 1 0 - exact_at [a0; a2] (val s_half * 1) 0).
  Proof.
    destruct (line_split (Line a0 a2) s_half) as [l r] eqn:E. exists l, r. split; [reflexivity|].
    destruct half_in as [H1 H2]. pose proof fmax_64.
    destruct (C04_float_partial 4 ltac:(lra) ltac:(lra) (Line a0 a2) l r s_half E H1 H2) as (_ & _ & _ & G); try (apply a_bounded; cbn; tauto).
    destruct (proj2 (G 0%nat ltac:(cbn; lia)) 1 ltac:(lra)) as [G1 _]. clear G. cbn [l_start l_end] in G1.
    set (y := exact_at [l_start l; l_end l] 1 0) in *. rewrite (proj2 (@FloatHalf.half_ok Binary64)) in *.
    assert (V0 : val (cw a0 0) = 0) by exact (proj2 (lit_small 0 ltac:(lia))).
    assert (V2 : val (cw a2 0) = 4) by exact (proj2 (lit_small 4 ltac:(lia))).
    assert (X : forall x, exact_at [a0; a2] x 0 = 4 * x).
    { intros x. unfold exact_at. cbn [map]. rewrite line_poly, V0, V2. ring. }
    rewrite X in *. pose proof uro_64 as U. pose proof (@eta_uro Binary64) as EU. pose proof (@uro_pos Binary64) as U0.
    apply Rabs_le_inv in G1. rewrite Rabs_left by lra. lra.
  Qed.
End Concrete.

Print Assumptions C04_float_partial.
Print Assumptions C124_line_split_float.
Print Assumptions C04_float_refuted.
