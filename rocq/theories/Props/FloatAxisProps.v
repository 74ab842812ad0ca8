(** C144: [axis(t, i)] beside the coordinate of [eval(t)]: the same operations for lines and
    quadratics, over every scalar; close to the exact curve for cubics in IEEE-754 arithmetic. *)
From Coq Require Import Reals List Arith ZArith Lia Lra.
From Flocq Require Import Core.Core IEEE754.BinarySingleNaN.
From Verif Require Import Base.Outcome Base.Scalar Model.Point Model.Line Model.Quadratic Model.Cubic Inst.FloatInst
  Spec.Sums Spec.Bernstein Spec.Rounding Spec.Componentwise Spec.FloatPoints Spec.FloatCurves
  Proofs.FloatFacts Proofs.FloatPoint Proofs.FloatCurve Proofs.FloatHalf Proofs.FloatAxis Props.FloatCurveProps Props.FloatDdProps.
Import ListNotations.
Local Open Scope R_scope.

(** every scalar type, every t, every axis (also one outside the dimension: both panic) *)
Section AnyScalar.
  Context {T P : Type} {S : Scalar T} {PT : Point T P} {CP : CwPoint T P}.
  Theorem C144_line (l : line P) t i : line_axis l t i = p_axis (line_eval l t) i.
  Proof. exact (line_axis_same l t i). Qed.
  Theorem C144_quad (q : quad P) t i : quad_axis q t i = p_axis (quad_eval q t) i.
  Proof. exact (quad_axis_same q t i). Qed.
  Theorem C144_cubic_panics_partial (c : cubic P) t i : (p_dim (P := P) <= i)%nat ->
    cubic_axis c t i = Panic /\ p_axis (cubic_eval c t) i = Panic.
  Proof. exact (cubic_axis_panics c t i). Qed.
End AnyScalar.

Section Floats.
  Context {F : Format} {P : Type} {PT : Point float P} {CP : CwPoint float P}.
  (** Full statement: [cubic_axis c t i = p_axis (cubic_eval c t) i] in every arithmetic.  True
      over the reals (C24), false in f64 ([C144_cubic_refuted]): the products are taken in
      another order.  Both stay close to the curve: *)
  Theorem C144_cubic_partial (c : cubic P) t i M : 0 <= M -> 16 * M <= fmax -> (i < p_dim (P := P))%nat -> fin t -> 0 <= val t <= 1 ->
    (forall p, In p (cubic_control_points c) -> bounded M p) ->
    exists x, cubic_axis c t i = Ret x /\ fin x /\
      Rabs (val x - exact_at (cubic_control_points c) (val t) i) <= 128 * (uro * M + eta).
  Proof. intros HM HF. exact (cubic_axis_err M HM HF c t i). Qed.
  (** and so to one another *)
  Theorem C144_cubic_close_partial (c : cubic P) t i M : 0 <= M -> 16 * M <= fmax -> (i < p_dim (P := P))%nat -> fin t -> 0 <= val t <= 1 ->
    (forall p, In p (cubic_control_points c) -> bounded M p) ->
    exists x y, cubic_axis c t i = Ret x /\ p_axis (cubic_eval c t) i = Ret y /\ Rabs (val x - val y) <= 167 * (uro * M + eta).
  Proof. intros HM HF. exact (cubic_axis_close M HM HF c t i). Qed.
End Floats.

Section Concrete.
  #[local] Existing Instance Binary64.
  Example C144_quad_case : quad_axis (Quad a1 a2 a3) (flt 5404319552844595 (-54)) 1 = p_axis (quad_eval (Quad a1 a2 a3) (flt 5404319552844595 (-54))) 1.
  Proof. apply C144_quad. Qed.
  Example C144_cubic_case : exists x, cubic_axis (Cubic a0 a1 a2 a3) s_half 1 = Ret x /\ fin x /\
    Rabs (val x - exact_at [a0; a1; a2; a3] (val s_half) 1) <= 128 * (uro * 4 + eta).
  Proof.
    destruct half_in as [H1 H2]. pose proof fmax_64.
    apply (C144_cubic_partial (Cubic a0 a1 a2 a3)); [lra|lra|cbn; lia|exact H1|exact H2|exact a_bounded].
  Qed.

  Example C144_close_case : exists x y, cubic_axis (Cubic a0 a1 a2 a3) s_half 1 = Ret x /\
    p_axis (cubic_eval (Cubic a0 a1 a2 a3) s_half) 1 = Ret y /\ Rabs (val x - val y) <= 167 * (uro * 4 + eta).
  Proof.
    destruct half_in as [H1 H2]. pose proof fmax_64.
    apply (C144_cubic_close_partial (Cubic a0 a1 a2 a3)); [lra|lra|cbn; lia|exact H1|exact H2|exact a_bounded].
  Qed.
  Example C144_panics_case : cubic_axis (Cubic a0 a1 a2 a3) s_half 2 = Panic /\ p_axis (cubic_eval (Cubic a0 a1 a2 a3) s_half) 2 = Panic.
  Proof. apply C144_cubic_panics_partial. cbn. lia. Qed.

  (** control points (0,0), (1,1), (0,0), (0,0), parameter the f64 nearest to 0.3 *)
  Definition z2 : PointN float 2 := fpt2 (flt 0 0) (flt 0 0).
  Definition w2 : PointN float 2 := fpt2 (flt 1 0) (flt 1 0).
  Theorem C144_cubic_refuted : exists x y, cubic_axis (Cubic z2 w2 z2 z2) (flt 5404319552844595 (-54)) 0 = Ret x /\
    p_axis (cubic_eval (Cubic z2 w2 z2 z2) (flt 5404319552844595 (-54))) 0 = Ret y /\ s_eqb x y = false.
  Proof. eexists _, _. split; [reflexivity|]. split; [reflexivity|]. vm_compute. reflexivity. Qed.
End Concrete.

Print Assumptions C144_line.
Print Assumptions C144_quad.
Print Assumptions C144_cubic_panics_partial.
Print Assumptions C144_cubic_partial.
Print Assumptions C144_cubic_close_partial.
Print Assumptions C144_cubic_refuted.
