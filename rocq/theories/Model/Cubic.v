(** Model of src/cubic_bezier.rs (the Cardano solver [real_roots] is in
    Model/Roots.v). *)
From Coq Require Import ZArith List Arith Bool.
From Verif Require Import Base.Outcome Base.Scalar Model.Point Model.Line Model.Quadratic.
Import ListNotations.
Local Open Scope scalar_scope.
Local Open Scope point_scope.

(** [struct CubicBezier<P>] (cubic_bezier.rs:11-16), [new] (23-30). *)
Record cubic (P : Type) := Cubic { c_start : P; c_ctrl1 : P; c_ctrl2 : P; c_end : P }.
Arguments Cubic {P} c_start c_ctrl1 c_ctrl2 c_end.
Arguments c_start {P} c : rename.
Arguments c_ctrl1 {P} c : rename.
Arguments c_ctrl2 {P} c : rename.
Arguments c_end {P} c : rename.

Section Cubic.
  Context {T P : Type} {ST : Scalar T} {PT : Point T P}.

  (** cubic_bezier.rs:33-38 *)
  Definition cubic_eval (self : cubic P) (t : T) : P :=
    c_start self *^ (((- t) + s_lit 1) * ((- t) + s_lit 1) * ((- t) + s_lit 1))
      +^ c_ctrl1 self *^ (t * ((- t) + s_lit 1) * ((- t) + s_lit 1) * s_lit 3)
      +^ c_ctrl2 self *^ (t * t * ((- t) + s_lit 1) * s_lit 3)
      +^ c_end self *^ (t * t * t).

  (** cubic_bezier.rs:41-52 *)
  Definition cubic_eval_casteljau (self : cubic P) (t : T) : P :=
    let ctrl_1ab := c_start self +^ (c_ctrl1 self -^ c_start self) *^ t in
    let ctrl_1bc := c_ctrl1 self +^ (c_ctrl2 self -^ c_ctrl1 self) *^ t in
    let ctrl_1cd := c_ctrl2 self +^ (c_end self -^ c_ctrl2 self) *^ t in
    let ctrl_2ab := ctrl_1ab +^ (ctrl_1bc -^ ctrl_1ab) *^ t in
    let ctrl_2bc := ctrl_1bc +^ (ctrl_1cd -^ ctrl_1bc) *^ t in
    ctrl_2ab +^ (ctrl_2bc -^ ctrl_2ab) *^ t.

  (** cubic_bezier.rs:54-56 *)
  Definition cubic_control_points (self : cubic P) : list P :=
    [c_start self; c_ctrl1 self; c_ctrl2 self; c_end self].

  (** cubic_bezier.rs:60-71 *)
  Definition cubic_axis (self : cubic P) (t : T) (axis : nat) : outcome T :=
    let t2 := t * t in
    let t3 := t2 * t in
    let one_t := (- t) + s_lit 1 in
    let one_t2 := one_t * one_t in
    let one_t3 := one_t2 * one_t in
    let! s := p_axis (c_start self) axis in
    let! c1 := p_axis (c_ctrl1 self) axis in
    let! c2 := p_axis (c_ctrl2 self) axis in
    let! e := p_axis (c_end self) axis in
    Ret (one_t3 * s + one_t2 * t * c1 * s_lit 3 + one_t * t2 * c2 * s_lit 3 + t3 * e).

  (** cubic_bezier.rs:76-87.  Unlike the quadratic and generic versions the
      parameter is computed as [(t as scalar) * 1.0 / nsteps]; same operations. *)
  Definition cubic_arclen (self : cubic P) (nsteps : nat) : outcome T :=
    let stepsize := s_lit 1 / s_of_usize nsteps in
    for_in (range 1 nsteps) (s_lit 0) (fun i arclen =>
      let t := s_of_usize i * s_lit 1 / s_of_usize nsteps in
      let p1 := cubic_eval_casteljau self t in
      let p2 := cubic_eval_casteljau self (t + stepsize) in
      Ret (arclen + s_sqrt (p_sqlen (p1 -^ p2)))).

  (** cubic_bezier.rs:89-116 *)
  Definition cubic_split (self : cubic P) (t : T) : cubic P * cubic P :=
    let ctrl_1ab := c_start self +^ (c_ctrl1 self -^ c_start self) *^ t in
    let ctrl_1bc := c_ctrl1 self +^ (c_ctrl2 self -^ c_ctrl1 self) *^ t in
    let ctrl_1cd := c_ctrl2 self +^ (c_end self -^ c_ctrl2 self) *^ t in
    let ctrl_2ab := ctrl_1ab +^ (ctrl_1bc -^ ctrl_1ab) *^ t in
    let ctrl_2bc := ctrl_1bc +^ (ctrl_1cd -^ ctrl_1bc) *^ t in
    let ctrl_3ab := ctrl_2ab +^ (ctrl_2bc -^ ctrl_2ab) *^ t in
    (Cubic (c_start self) ctrl_1ab ctrl_2ab ctrl_3ab,
     Cubic ctrl_3ab ctrl_2bc ctrl_1cd (c_end self)).

  (** cubic_bezier.rs:121-127 *)
  Definition cubic_derivative (self : cubic P) : quad P :=
    Quad ((c_ctrl1 self -^ c_start self) *^ s_lit 3)
         ((c_ctrl2 self -^ c_ctrl1 self) *^ s_lit 3)
         ((c_end self -^ c_ctrl2 self) *^ s_lit 3).

  (** cubic_bezier.rs:138-149 *)
  Definition cubic_dd (self : cubic P) (t : T) (axis : nat) : outcome T :=
    let t2 := t * t in
    let c0 := t * s_lit (-3) + t * s_lit 6 - s_lit 3 in
    let c1 := t2 * s_lit 9 - t * s_lit 12 + s_lit 3 in
    let c2 := t2 * s_lit (-9) + t * s_lit 6 in
    let c3 := t2 * s_lit 3 in
    let! s := p_axis (c_start self) axis in
    let! k1 := p_axis (c_ctrl1 self) axis in
    let! k2 := p_axis (c_ctrl2 self) axis in
    let! e := p_axis (c_end self) axis in
    Ret (s * c0 + k1 * c1 + k2 * c2 + e * c3).

  (** cubic_bezier.rs:193-222 *)
  Definition cubic_distance_to_point (self : cubic P) (point : P) : outcome T :=
    search_distance (fun t => Ret (cubic_eval self t)) (c_start self) point.

  (** cubic_bezier.rs:224-229 *)
  Definition cubic_baseline (self : cubic P) : line P := Line (c_start self) (c_end self).

  (** cubic_bezier.rs:240-244; [&&] is short-circuiting: the second distance is
      only computed when the first test succeeds. *)
  Definition cubic_are_points_colinear (self : cubic P) (tolerance : T) : outcome bool :=
    let line := cubic_baseline self in
    let! d1 := line_distance_to_point line (c_ctrl1 self) in
    if d1 <=? tolerance then
      let! d2 := line_distance_to_point line (c_ctrl2 self) in
      Ret (d2 <=? tolerance)
    else Ret false.

  (** cubic_bezier.rs:231-238 *)
  Definition cubic_is_linear (self : cubic P) (tolerance : T) : outcome bool :=
    if p_sqlen (c_start self -^ c_end self) <? s_eps then Ret false
    else cubic_are_points_colinear self tolerance.

  (** cubic_bezier.rs:249-255 *)
  Definition cubic_is_a_point (self : cubic P) (tolerance : T) : bool :=
    let tolerance_squared := tolerance * tolerance in
    (p_sqlen (c_start self -^ c_end self) <=? tolerance_squared)
    && (p_sqlen (c_start self -^ c_ctrl1 self) <=? tolerance_squared)
    && (p_sqlen (c_end self -^ c_ctrl2 self) <=? tolerance_squared).

  (** cubic_bezier.rs:394-396: replace each root by the curve coordinate there *)
  Fixpoint cubic_eval_roots (self : cubic P) (dim : nat) (l : list T) : outcome (list T) :=
    match l with
    | [] => Ret []
    | t :: l' =>
        let! v := p_axis (cubic_eval_casteljau self t) dim in
        let! r := cubic_eval_roots self dim l' in Ret (v :: r)
    end.

  (** cubic_bezier.rs:384-407: one iteration of the bounding box loop *)
  Definition cubic_bbox_axis (self : cubic P) (dim : nat) : outcome (T * T) :=
    let derivative := cubic_derivative self in
    let a := q_start derivative +^ q_ctrl derivative *^ s_lit (-2) +^ q_end derivative in
    let b := q_start derivative *^ s_lit (-2) +^ q_ctrl derivative *^ s_lit 2 in
    let c := q_start derivative in
    let! a_dim := p_axis a dim in
    let! b_dim := p_axis b dim in
    let! c_dim := p_axis c dim in
    let! roots := quad_real_roots a_dim b_dim c_dim in
    let! extrema := av_extend 4 [] roots in
    let extrema := filter in_unit extrema in
    let! extrema := cubic_eval_roots self dim extrema in
    let! s := p_axis (c_start self) dim in
    let! extrema := av_push 4 extrema s in
    let! e := p_axis (c_end self) dim in
    let! extrema := av_push 4 extrema e in
    let! extrema := sort_by_partial_cmp extrema in
    let! lo := idx extrema 0 in
    let! hi := idx extrema (length extrema - 1) in
    Ret (lo, hi).

  (** cubic_bezier.rs:366-409 *)
  Definition cubic_bounding_box (self : cubic P) : outcome (list (T * T)) :=
    for_in (range 0 p_dim) (repeat (s_lit 0, s_lit 0) p_dim) (fun dim bounds =>
      let! b := cubic_bbox_axis self dim in
      set_idx bounds dim b).
End Cubic.
