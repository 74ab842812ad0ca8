(** NOT the code of /repo: functions with the named lines changed, as in Model/Repairs.v, for
    the root finders, the end points in floating point and the test of the knots. *)
From Coq Require Import ZArith List Arith Bool.
From Verif Require Import Base.Outcome Base.Scalar Model.Point Model.Line Model.Quadratic Model.Cubic
  Model.BSpline Model.Roots.
Import ListNotations.
Local Open Scope scalar_scope.
Local Open Scope point_scope.

Section Roots.
  Context {T P : Type} {ST : Scalar T} {TT : ScalarTrans T} {PT : Point T P}.

  (** quadratic_bezier.rs:173, 174, 188: [== 0] instead of [< EPSILON] (C58, C64) *)
  Definition fixed_roots_square (a b c : T) : outcome (list T) :=
    if a =? s_lit 0 then
      if b =? s_lit 0 then Ret []
      else av_push 2 [] ((- c) / b)
    else
      let delta := b * b - a * c * s_lit 4 in
      if delta >? s_lit 0 then
        let sqrt_delta := s_sqrt delta in
        let! r := av_push 2 [] (((- b) - sqrt_delta) / (a * s_lit 2)) in
        av_push 2 r (((- b) + sqrt_delta) / (a * s_lit 2))
      else if delta =? s_lit 0 then
        av_push 2 [] ((- b) / (a * s_lit 2))
      else Ret [].

  (** cubic_bezier.rs:273-275, 289, 316: [== 0] instead of [< EPSILON]; cubic_bezier.rs:270: [pi]
      in the precision of the scalar (C59) *)
  Definition fixed_roots_cubic (pi a b c d : T) : outcome (list T) :=
    if a =? s_lit 0 then
      if b =? s_lit 0 then
        if c =? s_lit 0 then Ret []
        else av_push 3 [] ((- d) / c)
      else
        let delta := c * c - b * d * s_lit 4 in
        if delta >? s_lit 0 then
          let sqrt_delta := s_sqrt delta in
          let! r := av_push 3 [] (((- c) - sqrt_delta) / (b * s_lit 2)) in
          av_push 3 r (((- c) + sqrt_delta) / (b * s_lit 2))
        else if delta =? s_lit 0 then
          av_push 3 [] ((- c) / (b * s_lit 2))
        else Ret []
    else
      let frac_1_3 := s_lit 1 / s_lit 3 in
      let bn := b / a in
      let cn := c / a in
      let dn := d / a in
      let delta0 := (cn * s_lit 3 - bn * bn) / s_lit 9 in
      let delta1 := (bn * cn * s_lit 9 - dn * s_lit 27 - bn * bn * bn * s_lit 2) / s_lit 54 in
      let delta_01 := delta0 * delta0 * delta0 + delta1 * delta1 in
      if delta_01 >=? s_lit 0 then
        let delta_p_sqrt := delta1 + s_sqrt delta_01 in
        let delta_m_sqrt := delta1 - s_sqrt delta_01 in
        let s := s_signum delta_p_sqrt * s_powf (s_abs delta_p_sqrt) frac_1_3 in
        let t := s_signum delta_m_sqrt * s_powf (s_abs delta_m_sqrt) frac_1_3 in
        let! r := av_push 3 [] ((- bn) * frac_1_3 + (s + t)) in
        if ((s - t) =? s_lit 0) && negb ((s + t) =? s_lit 0) then
          av_push 3 r ((- bn) * frac_1_3 - (s + t) / s_lit 2)
        else Ret r
      else
        let theta := s_acos (delta1 / s_sqrt ((- delta0) * delta0 * delta0)) in
        let two_sqrt_delta0 := s_sqrt (- delta0) * s_lit 2 in
        let! r := av_push 3 [] (two_sqrt_delta0 * s_cos (theta * frac_1_3) - bn * frac_1_3) in
        let! r := av_push 3 r
          (two_sqrt_delta0 * s_cos ((theta + s_lit 2 * pi) * frac_1_3) - bn * frac_1_3) in
        av_push 3 r
          (two_sqrt_delta0 * s_cos ((theta + s_lit 4 * pi) * frac_1_3) - bn * frac_1_3).

  (** quadratic_bezier.rs:273-278 and cubic_bezier.rs:342-347 (early return) removed,
      quadratic_bezier.rs:286 and cubic_bezier.rs:357: [>=], [<=] instead of [>], [<] (C64) *)
  Definition in_closed_unit (t : T) : bool := (t >=? s_lit 0) && (t <=? s_lit 1).
  Definition fixed_quad_solve (self : quad P) (value : T) (axis : nat) : outcome (list T) :=
    let! s := p_axis (q_start self) axis in
    let! c := p_axis (q_ctrl self) axis in
    let! e := p_axis (q_end self) axis in
    let a := s + c * s_lit (-2) + e in
    let b := s * s_lit (-2) + c * s_lit 2 in
    let c := s - value in
    let! roots := fixed_roots_square a b c in
    av_extend 3 [] (filter in_closed_unit roots).
  Definition fixed_cubic_solve (pi : T) (self : cubic P) (value : T) (axis : nat) : outcome (list T) :=
    let! s := p_axis (c_start self) axis in
    let! k1 := p_axis (c_ctrl1 self) axis in
    let! k2 := p_axis (c_ctrl2 self) axis in
    let! e := p_axis (c_end self) axis in
    let a := (- s) + k1 * s_lit 3 - k2 * s_lit 3 + e in
    let b := s * s_lit 3 - k1 * s_lit 6 + k2 * s_lit 3 in
    let c := (- s) * s_lit 3 + k1 * s_lit 3 in
    let d := s - value in
    let! roots := fixed_roots_cubic pi a b c d in
    av_extend 3 [] (filter in_closed_unit roots).
End Roots.

Section Ends.
  Context {T P : Type} {ST : Scalar T} {PT : Point T P}.

  (** line.rs:23: [start * (1 - t) + end * t] (C63) *)
  Definition fixed_line_eval (self : line P) (t : T) : P :=
    l_start self *^ (s_lit 1 - t) +^ l_end self *^ t.
  (** quadratic_bezier.rs:27: the factor 2 last (C63) *)
  Definition fixed_quad_eval (self : quad P) (t : T) : P :=
    let t2 := t * t in
    let one_t := (- t) + s_lit 1 in
    let one_t2 := one_t * one_t in
    q_start self *^ one_t2 +^ q_ctrl self *^ one_t *^ t *^ s_lit 2 +^ q_end self *^ t2.
End Ends.

Section New.
  Context {T P : Type} {ST : Scalar T} {PT : Point T P}.

  (** bspline.rs:87: [!(w[0] <= w[1])] instead of [w[0] > w[1]] (C39) *)
  Fixpoint any_unordered (knots : list T) : bool :=
    match knots with
    | a :: ((b :: _) as rest) => negb (a <=? b) || any_unordered rest
    | _ => false
    end.
  Definition fixed_new (D : nat) (knots : list T) (control_points : list P)
    : outcome (result (bspline T P) BSplineError) :=
    if (length control_points <=? D)%nat then Ret (Err TooFewControlPoints)
    else if (length knots <? length control_points + 1 + D)%nat then Ret (Err TooFewKnots)
    else if (length control_points + 1 + D <? length knots)%nat then Ret (Err TooManyKnots)
    else if any_unordered knots then Ret (Err DecreasingKnots)
    else
      let! first := idx knots 0 in
      let is_clamped_front := all_close first (firstn (D + 1) knots) in
      let! kd := usub (length knots) D in
      let! from := usub kd 1 in
      let! km1 := usub (length knots) 1 in
      let! last := idx knots km1 in
      let is_clamped_back := all_close last (skipn from knots) in
      let knot_kind :=
        match is_clamped_front, is_clamped_back with
        | false, false => Unclamped
        | true, false => ClampedStart
        | false, true => ClampedEnd
        | true, true => Clamped
        end in
      Ret (Ok (BSpline D knots knot_kind control_points)).
End New.

Section Stable.
  Context {T P : Type} {ST : Scalar T} {PT : Point T P}.

  (** quadratic_bezier.rs:186-187: [q = -b - sign(b) sqrt(delta)], the roots [q / (2 a)] and [2 c / q],
      so that no two numbers of opposite sign are added (C73) *)
  Definition stable_roots (a b c : T) : outcome (list T) :=
    if s_abs a <? s_eps then
      if s_abs b <? s_eps then Ret []
      else av_push 2 [] ((- c) / b)
    else
      let delta := b * b - a * c * s_lit 4 in
      if delta >? s_lit 0 then
        let sqrt_delta := s_sqrt delta in
        let q := if b <? s_lit 0 then (- b) + sqrt_delta else (- b) - sqrt_delta in
        let! r := av_push 2 [] (q / (a * s_lit 2)) in
        av_push 2 r (c * s_lit 2 / q)
      else if s_abs delta <? s_eps then
        av_push 2 [] ((- b) / (a * s_lit 2))
      else Ret [].

  (** cubic_bezier.rs:366-409 with these roots *)
  Definition stable_bbox_axis (self : cubic P) (dim : nat) : outcome (T * T) :=
    let derivative := cubic_derivative self in
    let a := q_start derivative +^ q_ctrl derivative *^ s_lit (-2) +^ q_end derivative in
    let b := q_start derivative *^ s_lit (-2) +^ q_ctrl derivative *^ s_lit 2 in
    let c := q_start derivative in
    let! a_dim := p_axis a dim in
    let! b_dim := p_axis b dim in
    let! c_dim := p_axis c dim in
    let! roots := stable_roots a_dim b_dim c_dim in
    let! extrema := av_extend 4 [] roots in
    let extrema := filter in_unit extrema in
    let! extrema := cubic_eval_roots self dim extrema in
    let! s := p_axis (c_start self) dim in
    let! extrema := av_push 4 extrema s in
    let! e := p_axis (c_end self) dim in
    let! extrema := av_push 4 extrema e in
    let! extrema := sort_by_partial_cmp extrema in
    let! lo := idx extrema 0 in
    let! hi := idx extrema (length extrema - 1) in
    Ret (lo, hi).
  Definition stable_bounding_box (self : cubic P) : outcome (list (T * T)) :=
    for_in (range 0 p_dim) (repeat (s_lit 0, s_lit 0) p_dim) (fun dim bounds =>
      let! b := stable_bbox_axis self dim in
      set_idx bounds dim b).
End Stable.
