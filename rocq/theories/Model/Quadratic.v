(** Model of src/quadratic_bezier.rs. *)
From Coq Require Import ZArith List Arith Bool.
From Verif Require Import Base.Outcome Base.Scalar Model.Point Model.Line.
Import ListNotations.
Local Open Scope scalar_scope.
Local Open Scope point_scope.

(** [struct QuadraticBezier<P>] (quadratic_bezier.rs:6-10), [new] (17-19). *)
Record quad (P : Type) := Quad { q_start : P; q_ctrl : P; q_end : P }.
Arguments Quad {P} q_start q_ctrl q_end.
Arguments q_start {P} q : rename.
Arguments q_ctrl {P} q : rename.
Arguments q_end {P} q : rename.

(** Keeps the roots strictly between 0 and 1: the closure passed to [retain] at
    quadratic_bezier.rs:311 and cubic_bezier.rs:392, and the loop test at
    quadratic_bezier.rs:286 and cubic_bezier.rs:357. *)
Definition in_unit {T : Type} {ST : Scalar T} (root : T) : bool :=
  (root >? s_lit 0) && (root <? s_lit 1).

(** The two-pass search shared verbatim by the three [distance_to_point]
    functions: quadratic_bezier.rs:199-226, cubic_bezier.rs:193-222,
    bezier.rs:89-118 (they differ only in [eval] and in how the first control
    point is named).  [eval] may panic (generic Bezier with no control points). *)
Section Search.
  Context {T P : Type} {ST : Scalar T} {PT : Point T P}.
  Definition nsteps : nat := 64.

  (** quadratic_bezier.rs:204-213: state is (tmin, dmin) *)
  Definition coarse_body (eval : T -> outcome P) (point : P) (i : nat) (st : T * T)
    : outcome (T * T) :=
    let t := s_of_usize i * s_lit 1 / s_of_usize nsteps in
    let! candidate := eval t in
    if p_sqlen (candidate -^ point) <? snd st
    then Ret (t, p_sqlen (candidate -^ point))
    else Ret st.

  (** quadratic_bezier.rs:215-224 *)
  Definition fine_body (eval : T -> outcome P) (point : P) (i : nat) (st : T * T)
    : outcome (T * T) :=
    let t := s_of_usize i * s_lit 1 / s_of_usize (nsteps * nsteps) in
    let! candidate := eval (fst st + t - t * (s_of_usize nsteps / s_lit 2)) in
    if p_sqlen (candidate -^ point) <? snd st
    then Ret (t, p_sqlen (candidate -^ point))
    else Ret st.

  Definition search_distance (eval : T -> outcome P) (first : P) (point : P) : outcome T :=
    let tmin := s_half in
    let dmin := p_sqlen (point -^ first) in
    let! st := for_in (range 0 nsteps) (tmin, dmin) (coarse_body eval point) in
    let! st := for_in (range 0 nsteps) st (fine_body eval point) in
    Ret (s_sqrt (snd st)).
End Search.

Section Quad.
  Context {T P : Type} {ST : Scalar T} {PT : Point T P}.

  (** quadratic_bezier.rs:22-28 *)
  Definition quad_eval (self : quad P) (t : T) : P :=
    let t2 := t * t in
    let one_t := (- t) + s_lit 1 in
    let one_t2 := one_t * one_t in
    q_start self *^ one_t2 +^ q_ctrl self *^ s_lit 2 *^ one_t *^ t +^ q_end self *^ t2.

  (** quadratic_bezier.rs:31-38 *)
  Definition quad_eval_casteljau (self : quad P) (t : T) : P :=
    let ctrl_1ab := q_start self +^ (q_ctrl self -^ q_start self) *^ t in
    let ctrl_1bc := q_ctrl self +^ (q_end self -^ q_ctrl self) *^ t in
    ctrl_1ab +^ (ctrl_1bc -^ ctrl_1ab) *^ t.

  (** quadratic_bezier.rs:40-42 *)
  Definition quad_control_points (self : quad P) : list P :=
    [q_start self; q_ctrl self; q_end self].

  (** quadratic_bezier.rs:44-64 *)
  Definition quad_split (self : quad P) (t : T) : quad P * quad P :=
    let ctrl_1ab := q_start self +^ (q_ctrl self -^ q_start self) *^ t in
    let ctrl_1bc := q_ctrl self +^ (q_end self -^ q_ctrl self) *^ t in
    let ctrl_2ab := ctrl_1ab +^ (ctrl_1bc -^ ctrl_1ab) *^ t in
    (Quad (q_start self) ctrl_1ab ctrl_2ab, Quad ctrl_2ab ctrl_1bc (q_end self)).

  (** quadratic_bezier.rs:70-78 *)
  Definition quad_axis (self : quad P) (t : T) (axis : nat) : outcome T :=
    let t2 := t * t in
    let one_t := (- t) + s_lit 1 in
    let one_t2 := one_t * one_t in
    let! s := p_axis (q_start self) axis in
    let! c := p_axis (q_ctrl self) axis in
    let! e := p_axis (q_end self) axis in
    Ret (s * one_t2 + c * s_lit 2 * one_t * t + e * t2).

  (** quadratic_bezier.rs:84-89 *)
  Definition quad_derivative (self : quad P) : line P :=
    Line ((q_ctrl self -^ q_start self) *^ s_lit 2) ((q_end self -^ q_ctrl self) *^ s_lit 2).

  (** quadratic_bezier.rs:100-107 *)
  Definition quad_dd (self : quad P) (t : T) (axis : nat) : outcome T :=
    let c0 := t * s_lit 2 - s_lit 2 in
    let c1 := s_lit 2 - s_lit 4 * t in
    let c2 := s_lit 2 * t in
    let! s := p_axis (q_start self) axis in
    let! c := p_axis (q_ctrl self) axis in
    let! e := p_axis (q_end self) axis in
    Ret (s * c0 + c * c1 + e * c2).

  (** quadratic_bezier.rs:148-159 *)
  Definition quad_arclen (self : quad P) (nsteps : nat) : outcome T :=
    let stepsize := s_lit 1 / s_of_usize nsteps in
    for_in (range 1 nsteps) (s_lit 0) (fun i arclen =>
      let t := s_of_usize i * s_lit 1 / s_of_usize nsteps in
      let p1 := quad_eval_casteljau self t in
      let p2 := quad_eval_casteljau self (t + stepsize) in
      Ret (arclen + s_sqrt (p_sqlen (p1 -^ p2)))).

  (** quadratic_bezier.rs:164-192: an [ArrayVec] of capacity 2 (self is unused) *)
  Definition quad_real_roots (a b c : T) : outcome (list T) :=
    if s_abs a <? s_eps then
      if s_abs b <? s_eps then Ret []
      else av_push 2 [] ((- c) / b)
    else
      let delta := b * b - a * c * s_lit 4 in
      if delta >? s_lit 0 then
        let sqrt_delta := s_sqrt delta in
        let! r := av_push 2 [] (((- b) - sqrt_delta) / (a * s_lit 2)) in
        av_push 2 r (((- b) + sqrt_delta) / (a * s_lit 2))
      else if s_abs delta <? s_eps then
        av_push 2 [] ((- b) / (a * s_lit 2))
      else Ret [].

  (** quadratic_bezier.rs:199-226 *)
  Definition quad_distance_to_point (self : quad P) (point : P) : outcome T :=
    search_distance (fun t => Ret (quad_eval self t)) (q_start self) point.

  (** quadratic_bezier.rs:230-235 *)
  Definition quad_baseline (self : quad P) : line P := Line (q_start self) (q_end self).

  (** quadratic_bezier.rs:250-253 *)
  Definition quad_are_points_colinear (self : quad P) (tolerance : T) : outcome bool :=
    let line := quad_baseline self in
    let! d := line_distance_to_point line (q_ctrl self) in
    Ret (d <=? tolerance).

  (** quadratic_bezier.rs:238-246 *)
  Definition quad_is_linear (self : quad P) (tolerance : T) : outcome bool :=
    if p_sqlen (q_start self -^ q_end self) <? s_eps then Ret false
    else quad_are_points_colinear self tolerance.

  (** quadratic_bezier.rs:257-262 *)
  Definition quad_is_a_point (self : quad P) (tolerance : T) : bool :=
    let tolerance_squared := tolerance * tolerance in
    (p_sqlen (q_start self -^ q_end self) <=? tolerance_squared)
    && (p_sqlen (q_start self -^ q_ctrl self) <=? tolerance_squared).

  (** quadratic_bezier.rs:271-292 (private, unused in the crate).  [||] and [&&]
      are short-circuiting in Rust; the right operand has no effect except a
      possible panic, which the bind keeps. *)
  Definition quad_solve_t_for_axis (self : quad P) (value : T) (axis : nat) : outcome (list T) :=
    let! skip :=
      if quad_is_a_point self s_eps then Ret true
      else
        let! col := quad_are_points_colinear self (s_lit 0) in
        Ret (col && (p_sqlen (q_start self -^ q_end self) <? s_eps)) in
    if skip then Ret []
    else
      let! s := p_axis (q_start self) axis in
      let! c := p_axis (q_ctrl self) axis in
      let! e := p_axis (q_end self) axis in
      let a := s + c * s_lit (-2) + e in
      let b := s * s_lit (-2) + c * s_lit 2 in
      let c := s - value in
      let! roots := quad_real_roots a b c in
      av_extend 3 [] (filter in_unit roots).

  (** quadratic_bezier.rs:313-315: replace each root by the curve coordinate there *)
  Fixpoint quad_eval_roots (self : quad P) (dim : nat) (l : list T) : outcome (list T) :=
    match l with
    | [] => Ret []
    | t :: l' =>
        let! v := p_axis (quad_eval_casteljau self t) dim in
        let! r := quad_eval_roots self dim l' in Ret (v :: r)
    end.

  (** quadratic_bezier.rs:305-326: one iteration of the bounding box loop *)
  Definition quad_bbox_axis (self : quad P) (dim : nat) : outcome (T * T) :=
    let derivative := quad_derivative self in
    let a := l_start derivative *^ s_lit (-1) +^ l_end derivative in
    let b := l_start derivative in
    let! a_dim := p_axis a dim in
    let! b_dim := p_axis b dim in
    let! roots := line_root a_dim b_dim in
    let! extrema := av_extend 3 [] roots in
    let extrema := filter in_unit extrema in
    let! extrema := quad_eval_roots self dim extrema in
    let! s := p_axis (q_start self) dim in
    let! extrema := av_push 3 extrema s in
    let! e := p_axis (q_end self) dim in
    let! extrema := av_push 3 extrema e in
    let! extrema := sort_by_partial_cmp extrema in
    let! lo := idx extrema 0 in
    let! hi := idx extrema (length extrema - 1) in
    Ret (lo, hi).

  (** quadratic_bezier.rs:295-328 *)
  Definition quad_bounding_box (self : quad P) : outcome (list (T * T)) :=
    for_in (range 0 p_dim) (repeat (s_lit 0, s_lit 0) p_dim) (fun dim bounds =>
      let! b := quad_bbox_axis self dim in
      set_idx bounds dim b).
End Quad.
