(** C143: [dd] of quadratics and cubics in IEEE-754 arithmetic, for every binary format
    with at least 11 bits. *)
From Coq Require Import Reals List Arith ZArith Lia Lra.
From Flocq Require Import Core.Core IEEE754.BinarySingleNaN.
From Verif Require Import Base.Outcome Base.Scalar Model.Point Model.Line Model.Quadratic Model.Cubic Model.Repairs Inst.FloatInst
  Spec.Sums Spec.Bernstein Spec.Rounding Spec.Componentwise Spec.FloatPoints Spec.FloatCurves
  Proofs.FloatFacts Proofs.FloatPoint Proofs.FloatBound Proofs.FloatCurve Proofs.FloatHalf Proofs.FloatDd Props.FloatCurveProps.
Import ListNotations.
Local Open Scope R_scope.

Section Floats.
  Context {F : Format} {P : Type} {PT : Point float P} {CP : CwPoint float P}.
  Notation D := (p_dim (P := P)).
  Variable M : R.
  Hypotheses (HM : 0 <= M) (HF : 16 * M <= fmax).

  (** a finite result, close to the derivative of the exact curve at the parameter *)
  Theorem C143_quad (q : quad P) t i : (i < D)%nat -> fin t -> 0 <= val t <= 1 ->
    (forall p, In p (quad_control_points q) -> bounded M p) ->
    exists x dv, quad_dd q t i = Ret x /\ fin x /\
      derivable_pt_lim (fun s => exact_at (quad_control_points q) s i) (val t) dv /\
      Rabs (val x - dv) <= 44 * (uro * M + eta).
  Proof. exact (quad_dd_err M HM HF q t i). Qed.

  (** Full statement: the same for cubics, as for [fixed_cubic_dd] below.  False
      ([C143_cubic_refuted]): besides rounding, the code is off by 3 t (1 - t) times
      the start point (C21).  That is its only fault: *)
  Theorem C143_cubic_partial (c : cubic P) t i : (i < D)%nat -> fin t -> 0 <= val t <= 1 ->
    (forall p, In p (cubic_control_points c) -> bounded M p) ->
    exists x dv, cubic_dd c t i = Ret x /\ fin x /\
      derivable_pt_lim (fun s => exact_at (cubic_control_points c) s i) (val t) dv /\
      Rabs (val x - (dv - 3 * val t * (1 - val t) * val (cw (c_start c) i))) <= 196 * (uro * M + eta).
  Proof. exact (cubic_dd_err M HM HF c t i). Qed.

  (** with the square in place *)
  Theorem C143_cubic_fixed (c : cubic P) t i : (i < D)%nat -> fin t -> 0 <= val t <= 1 ->
    (forall p, In p (cubic_control_points c) -> bounded M p) ->
    exists x dv, fixed_cubic_dd c t i = Ret x /\ fin x /\
      derivable_pt_lim (fun s => exact_at (cubic_control_points c) s i) (val t) dv /\
      Rabs (val x - dv) <= 205 * (uro * M + eta).
  Proof. exact (fixed_cubic_dd_err M HM HF c t i). Qed.
End Floats.

(** f64 curves through (0,0), (1,3), (4,1), (-2,2), at one half *)
Section Concrete.
  #[local] Existing Instance Binary64.

  Lemma half_in : fin s_half /\ 0 <= val s_half <= 1.
  Proof. destruct (@FloatHalf.half_ok Binary64) as [H V]. split; [exact H|]. rewrite V. lra. Qed.
  Lemma some_bounded ps p : (forall q, In q ps -> In q [a0; a1; a2; a3]) -> In p ps -> bounded 4 p.
  Proof. intros H Hp. exact (a_bounded p (H p Hp)). Qed.

  Example C143_quad_case : exists x dv, quad_dd (Quad a1 a2 a3) s_half 1 = Ret x /\ fin x /\
    derivable_pt_lim (fun s => exact_at [a1; a2; a3] s 1) (val s_half) dv /\ Rabs (val x - dv) <= 44 * (uro * 4 + eta).
  Proof.
    destruct half_in as [H1 H2]. pose proof fmax_64.
    apply (C143_quad 4 ltac:(lra) ltac:(lra) (Quad a1 a2 a3)); [cbn; lia|exact H1|exact H2|].
    intros p. apply some_bounded. cbn. tauto.
  Qed.
  Example C143_fixed_case : exists x dv, fixed_cubic_dd (Cubic a1 a2 a3 a0) s_half 1 = Ret x /\ fin x /\
    derivable_pt_lim (fun s => exact_at [a1; a2; a3; a0] s 1) (val s_half) dv /\ Rabs (val x - dv) <= 205 * (uro * 4 + eta).
  Proof.
    destruct half_in as [H1 H2]. pose proof fmax_64.
    apply (C143_cubic_fixed 4 ltac:(lra) ltac:(lra) (Cubic a1 a2 a3 a0)); [cbn; lia|exact H1|exact H2|].
    intros p. apply some_bounded. cbn. tauto.
  Qed.

  (** The full statement for the code fails: the result for the curve from (1,3) is off by
      more than 2, far beyond rounding. *)
  Theorem C143_cubic_refuted : exists x dv, cubic_dd (Cubic a1 a2 a3 a0) s_half 1 = Ret x /\ fin x /\
    derivable_pt_lim (fun s => exact_at [a1; a2; a3; a0] s 1) (val s_half) dv /\
    205 * (uro * 4 + eta) < 2 < Rabs (val x - dv).
  Proof.
    destruct half_in as [H1 H2]. pose proof fmax_64.
    destruct (C143_cubic_partial 4 ltac:(lra) ltac:(lra) (Cubic a1 a2 a3 a0) s_half 1) as (x & dv & E & Fx & Hd & Hx);
      [cbn; lia|exact H1|exact H2|intros p; apply some_bounded; cbn; tauto|].
    exists x, dv. split; [exact E|]. split; [exact Fx|]. split; [exact Hd|].
    rewrite (proj2 (@FloatHalf.half_ok Binary64)) in Hx. cbn [c_start] in Hx.
    assert (V : val (cw a1 1) = 3) by exact (proj2 (lit_small 3 ltac:(lia))).
    rewrite V in Hx. pose proof uro_64 as U. pose proof (@uro_pos Binary64) as U0. pose proof (@eta_uro Binary64) as EU. pose proof (@eta_pos Binary64) as E0.
    split; [lra|]. apply Rabs_le_inv in Hx. rewrite Rabs_left by lra. lra.
  Qed.
End Concrete.

Print Assumptions C143_quad.
Print Assumptions C143_cubic_partial.
Print Assumptions C143_cubic_fixed.
Print Assumptions C143_cubic_refuted.
