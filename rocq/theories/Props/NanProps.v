(** C139: a NaN among the control points, every float format. *)
From Coq Require Import List Arith ZArith Lia Bool.
From Flocq Require Import Core.Core IEEE754.BinarySingleNaN.
From Verif Require Import Base.Outcome Base.Scalar Model.Point Model.Line Model.Quadratic Model.Cubic Model.Bezier
  Inst.FloatInst Spec.Rounding Spec.Componentwise Spec.FloatPoints Spec.Adaptive Proofs.FloatPoint Proofs.NanCurves.
Import ListNotations.

Section Nan.
  Context {F : Format} {P : Type} {PT : Point float P} {CP : CwPoint float P}.
  (** coordinate [i] is NaN in some control point *)
  Notation quad_bad q i := (nan (cw (q_start q) i) \/ nan (cw (q_ctrl q) i) \/ nan (cw (q_end q) i)).
  Notation cubic_bad c i := (nan (cw (c_start c) i) \/ nan (cw (c_ctrl1 c) i) \/ nan (cw (c_ctrl2 c) i) \/ nan (cw (c_end c) i)).

  (** C139: evaluation returns NaN on that axis, whatever the parameter *)
  Theorem C139_quad_eval i (q : quad P) t : i < p_dim (P := P) -> quad_bad q i ->
    nan (cw (quad_eval q t) i) /\ nan (cw (quad_eval_casteljau q t) i).
  Proof. intros Hi. exact (quad_nan i Hi q t). Qed.
  Theorem C139_cubic_eval i (c : cubic P) t : i < p_dim (P := P) -> cubic_bad c i ->
    nan (cw (cubic_eval c t) i) /\ nan (cw (cubic_eval_casteljau c t) i).
  Proof. intros Hi. exact (cubic_nan i Hi c t). Qed.
  Theorem C139_bezier_eval i (ps : list P) t q : i < p_dim (P := P) -> In q ps -> nan (cw q i) ->
    exists p, bezier_eval (Bezier ps) t = Ret p /\ nan (cw p i).
  Proof. intros Hi. exact (bezier_nan i Hi ps t q). Qed.

  (** C139: so does arclen from two steps on *)
  Theorem C139_quad_arclen i (q : quad P) n : i < p_dim (P := P) -> quad_bad q i -> 2 <= n ->
    exists r, quad_arclen q n = Ret r /\ nan r.
  Proof. intros Hi. exact (quad_arclen_nan i Hi q n). Qed.
  Theorem C139_cubic_arclen i (c : cubic P) n : i < p_dim (P := P) -> cubic_bad c i -> 2 <= n ->
    exists r, cubic_arclen c n = Ret r /\ nan r.
  Proof. intros Hi. exact (cubic_arclen_nan i Hi c n). Qed.
  Theorem C139_bezier_arclen i (ps : list P) n q : i < p_dim (P := P) -> In q ps -> nan (cw q i) -> 2 <= n ->
    exists r, bezier_arclen (Bezier ps) n = Ret r /\ nan r.
  Proof. intros Hi. exact (bezier_arclen_nan i Hi ps n q). Qed.

  (** C139: distance_to_point returns the distance to the first control point *)
  Theorem C139_quad_distance i (q : quad P) p : i < p_dim (P := P) -> quad_bad q i ->
    quad_distance_to_point q p = Ret (s_sqrt (p_sqlen (p_sub p (q_start q)))).
  Proof. intros Hi. exact (quad_distance_nan i Hi q p). Qed.
  Theorem C139_cubic_distance i (c : cubic P) p : i < p_dim (P := P) -> cubic_bad c i ->
    cubic_distance_to_point c p = Ret (s_sqrt (p_sqlen (p_sub p (c_start c)))).
  Proof. intros Hi. exact (cubic_distance_nan i Hi c p). Qed.
  Theorem C139_bezier_distance i (ps : list P) p q d : i < p_dim (P := P) -> In q ps -> nan (cw q i) ->
    bezier_distance_to_point (Bezier ps) p = Ret (s_sqrt (p_sqlen (p_sub p (nth 0 ps d)))).
  Proof. intros Hi. exact (bezier_distance_nan i Hi ps p q d). Qed.

  (** C139: neither linear nor a point, whatever the tolerance; adaptive flattening
      (Spec/Adaptive.v) does not end, wherever it splits *)
  Theorem C139_quad_flat i (q : quad P) tol : i < p_dim (P := P) -> quad_bad q i ->
    quad_is_linear q tol = Ret false /\ quad_is_a_point q tol = false.
  Proof. intros Hi. exact (quad_flat_nan i Hi q tol). Qed.
  Theorem C139_cubic_flat i (c : cubic P) tol : i < p_dim (P := P) -> cubic_bad c i ->
    cubic_is_linear c tol = Ret false /\ cubic_is_a_point c tol = false.
  Proof. intros Hi. exact (cubic_flat_nan i Hi c tol). Qed.
  Theorem C139_quad_flatten i (q : quad P) tol t d l : i < p_dim (P := P) -> quad_bad q i ->
    flattened (fun q => if quad_is_a_point q tol then Ret true else quad_is_linear q tol)
      (fun q => quad_split q t) d q <> Ret (Some l).
  Proof. intros Hi. exact (quad_flatten_nan i Hi q tol t d l). Qed.
  Theorem C139_cubic_flatten i (c : cubic P) tol t d l : i < p_dim (P := P) -> cubic_bad c i ->
    flattened (fun q => if cubic_is_a_point q tol then Ret true else cubic_is_linear q tol)
      (fun q => cubic_split q t) d c <> Ret (Some l).
  Proof. intros Hi. exact (cubic_flatten_nan i Hi c tol t d l). Qed.

  (** C139: the box of a NaN inner control point is the box of the end points; a NaN
      end point panics (C57) *)
  Theorem C139_quad_box i (q : quad P) bounds : i < p_dim (P := P) -> nan (cw (q_ctrl q) i) ->
    quad_bounding_box q = Ret bounds -> let s := cw (q_start q) i in let e := cw (q_end q) i in
    (nth_error bounds i = Some (s, e) /\ s_leb s e = true) \/ (nth_error bounds i = Some (e, s) /\ s_leb e s = true).
  Proof. intros Hi. exact (quad_box_ctrl_nan i Hi q bounds). Qed.
  Theorem C139_cubic_box i (c : cubic P) bounds : i < p_dim (P := P) -> nan (cw (c_ctrl1 c) i) \/ nan (cw (c_ctrl2 c) i) ->
    cubic_bounding_box c = Ret bounds -> let s := cw (c_start c) i in let e := cw (c_end c) i in
    (nth_error bounds i = Some (s, e) /\ s_leb s e = true) \/ (nth_error bounds i = Some (e, s) /\ s_leb e s = true).
  Proof. intros Hi. exact (cubic_box_ctrl_nan i Hi c bounds). Qed.
End Nan.

(** a box and a distance that look in order although every inner point of the curve is NaN *)
Example C139_case : let F := Binary64 in let z := fpt1 (flt 0 0) in let o := fpt1 (flt 1 0) in
  match quad_bounding_box (Quad o (fpt1 B754_nan) z), quad_distance_to_point (Quad o (fpt1 B754_nan) z) z with
  | Ret [(lo, hi)], Ret d => s_eqb lo (flt 0 0) && s_eqb hi (flt 1 0) && s_eqb d (flt 1 0)
  | _, _ => false end = true.
Proof. vm_compute. reflexivity. Qed.

Print Assumptions C139_quad_eval.
Print Assumptions C139_cubic_eval.
Print Assumptions C139_bezier_eval.
Print Assumptions C139_quad_arclen.
Print Assumptions C139_cubic_arclen.
Print Assumptions C139_bezier_arclen.
Print Assumptions C139_quad_distance.
Print Assumptions C139_cubic_distance.
Print Assumptions C139_bezier_distance.
Print Assumptions C139_quad_flat.
Print Assumptions C139_cubic_flat.
Print Assumptions C139_quad_flatten.
Print Assumptions C139_cubic_flatten.
Print Assumptions C139_quad_box.
Print Assumptions C139_cubic_box.
