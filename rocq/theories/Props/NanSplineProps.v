(** C139 for B-splines, every float format. *)
From Coq Require Import List Arith ZArith Lia Bool.
From Flocq Require Import Core.Core IEEE754.BinarySingleNaN.
From Verif Require Import Base.Outcome Base.Scalar Model.Point Model.BSpline
  Inst.FloatInst Spec.Rounding Spec.Componentwise Spec.FloatPoints Proofs.FloatPoint Proofs.BSplineGeneric Proofs.NanSpline.
Import ListNotations.

(** C139: a point [eval] returns on a knot span, other than at the last knot, is NaN on each axis
    on which one of the D control points before the end of that span is NaN (the control point at
    the end of the span is not loaded, C44) *)
Theorem C139_spline_eval {F : Format} {P : Type} {PT : Point float P} {CP : CwPoint float P} (i D : nat) ks (ps : list P) s t p q :
  i < p_dim (P := P) -> bspline_new D ks ps = Ret (Ok s) -> bs_kind s = Clamped ->
  bspline_eval s t = Ret (Ok p) -> s_eqb t (nth (length ps) ks (s_lit 0)) = false ->
  exists k, D <= k < length ps /\ s_leb (nth k ks (s_lit 0)) t = true /\ s_ltb t (nth (k + 1) ks (s_lit 0)) = true /\
    forall j, k - D <= j < k -> nan (cw (nth j ps q) i) -> nan (cw p i).
Proof.
  intros Hi N Hk E Ne. pose proof (new_wf _ _ _ _ N) as W. destruct (new_fields _ _ _ _ N) as (A1 & A2 & A3).
  destruct (spline_nan i Hi s t p W Hk E) as (k & B1 & B2 & B3 & B4).
  - unfold knot. now rewrite A2, A3.
  - unfold knot in B2, B3. rewrite A1, A3 in B1. rewrite A2 in B2, B3. exists k. repeat split; try tauto.
    intros j Hj. rewrite (nth_indep ps q p_default) by lia. rewrite <- A3. apply B4. now rewrite A1.
Qed.

(** the segment from 0 over NaN to 2, degree 1: NaN on the second span, at the middle 0.5 of the first span it is not noticed *)
Example C139_spline_case : let F := Binary64 in
  match bspline_new 1 [flt 0 0; flt 0 0; flt 1 0; flt 2 0; flt 2 0] [fpt1 (flt 0 0); fpt1 B754_nan; fpt1 (flt 2 0)] with
  | Ret (Ok s) => match bspline_eval s (flt 1 (-1)), bspline_eval s (flt 3 (-1)) with
                  | Ret (Ok a), Ret (Ok b) => s_eqb (cw a 0) (flt 0 0) && s_is_nan (cw b 0)
                  | _, _ => false end
  | _ => false end = true.
Proof. vm_compute. reflexivity. Qed.

Print Assumptions C139_spline_eval.
