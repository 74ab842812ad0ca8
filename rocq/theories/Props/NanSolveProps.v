(** C139: solving for a coordinate value when a number is NaN, every float format. *)
From Coq Require Import List Arith ZArith Lia Bool.
From Flocq Require Import Core.Core IEEE754.BinarySingleNaN.
From Verif Require Import Base.Outcome Base.Scalar Model.Point Model.Line Model.Quadratic Model.Cubic Model.Roots
  Inst.FloatInst Spec.Rounding Spec.Componentwise Spec.FloatPoints Proofs.FloatPoint Proofs.NanSolve.
Import ListNotations.

Section Nan.
  Context {F : Format} {P : Type} {PT : Point float P} {CP : CwPoint float P}.
  (** C139: no solution, and no panic, when the value or a control coordinate is NaN;
      the other coordinates are arbitrary *)
  Theorem C139_quad_solve i (q : quad P) v : i < p_dim (P := P) ->
    nan v \/ nan (cw (q_start q) i) \/ nan (cw (q_ctrl q) i) \/ nan (cw (q_end q) i) ->
    quad_solve_t_for_axis q v i = Ret [].
  Proof. intros Hi. exact (quad_solve_nan i Hi q v). Qed.
  (** whatever the functions powf, acos, cos and signum of the platform; for a NaN value
      acos and cos return NaN on NaN *)
  Theorem C139_cubic_solve {TT : ScalarTrans float} i (c : cubic P) v : i < p_dim (P := P) ->
    (nan v /\ (forall x, nan x -> nan (s_acos x)) /\ (forall x, nan x -> nan (s_cos x))) \/
      nan (cw (c_start c) i) \/ nan (cw (c_ctrl1 c) i) \/ nan (cw (c_ctrl2 c) i) \/ nan (cw (c_end c) i) ->
    cubic_solve_t_for_axis c v i = Ret [].
  Proof. intros Hi. exact (cubic_solve_nan i Hi c v). Qed.
End Nan.

(** the same curve has a solution for the value 1/2 and none for NaN *)
Example C139_solve_case : let F := Binary64 in let z := fpt1 (flt 0 0) in let o := fpt1 (flt 1 0) in
  let q := Quad z (fpt1 (flt 1 (-1))) o in
  match quad_solve_t_for_axis q (flt 1 (-1)) 0, quad_solve_t_for_axis q B754_nan 0 with
  | Ret [t], Ret [] => s_eqb t (flt 1 (-1))
  | _, _ => false end = true.
Proof. vm_compute. reflexivity. Qed.

Print Assumptions C139_quad_solve.
Print Assumptions C139_cubic_solve.
