(** The functions that use [NativeFloat], for a point type of the user's own whose
    [Point::Scalar] is another type (point.rs:23-32).  [T] is [NativeFloat], [S] is
    [Point::Scalar].  Functions that do not appear here never touch [NativeFloat]: they are
    those of the other files, taken at [S] ([eval_casteljau], [line_eval], [quad_split],
    [is_a_point], [bspline_new], the knot searches ...).

    Where the code writes [x.into()] with no other constraint, [P::Scalar: Into<NativeFloat>]
    is the only bound of the trait that applies, so the result is a [NativeFloat].  A bare
    literal used as an operand is a [NativeFloat]; [0.0.into()] used as a [P::Scalar] is [from].
    [P::Scalar::epsilon()] is [s_eps] at [S], the constant [EPSILON] (lib.rs:66, 72) is [s_eps]
    at [T]. *)
From Coq Require Import ZArith List Arith Bool.
From Verif Require Import Base.Outcome Base.Scalar Model.Point Model.Line Model.Quadratic Model.Cubic Model.Bezier
  Model.BSpline Model.Segment Model.Roots.
Import ListNotations.
Local Open Scope scalar_scope.
Local Open Scope point_scope.

(** point.rs:24-32 *)
Class Mixed (T S : Type) := {
  m_from : T -> S;              (* From<NativeFloat> *)
  m_into : S -> T;              (* Into<NativeFloat> *)
  m_add : S -> T -> S;          (* Add<NativeFloat> *)
  m_sub : S -> T -> S;          (* Sub<NativeFloat> *)
  m_mul : S -> T -> S;          (* Mul<NativeFloat> *)
  m_div : S -> T -> S;          (* Div<NativeFloat> *)
  m_default : S                 (* Default *)
}.
(** point.rs:16: [Mul<NativeFloat, Output = Self>] *)
Class Scaled (T P : Type) := { p_scale : P -> T -> P }.

Notation "x +' c" := (m_add x c) (at level 50, left associativity) : scalar_scope.
Notation "x -' c" := (m_sub x c) (at level 50, left associativity) : scalar_scope.
Notation "x *' c" := (m_mul x c) (at level 40, left associativity) : scalar_scope.
Notation "x /' c" := (m_div x c) (at level 40, left associativity) : scalar_scope.
Notation "p *^' c" := (p_scale p c) (at level 40, left associativity) : point_scope.

Section TwoScalars.
  Context {T S P : Type} {NT : Scalar T} {SS : Scalar S} {MX : Mixed T S} {PT : Point S P} {PS : Scaled T P}.

  (** a literal and a [usize] as [NativeFloat] *)
  Definition n_lit (z : Z) : T := s_lit z.
  Definition n_of (n : nat) : T := s_of_usize n.

  (** line.rs:59-62 *)
  Definition dot_loop2 (v1 v2 : P) : outcome S :=
    for_in (range 0 p_dim) (m_from (n_lit 0)) (fun i dot =>
      let! a := p_axis v1 i in
      let! b := p_axis v2 i in
      Ret (dot + a * b)).

  (** line.rs:51-79 *)
  Definition line_distance_to_point2 (self : line P) (p : P) : outcome S :=
    let l2 := p_sqlen (l_end self -^ l_start self) in
    if l2 <? m_from (s_eps : T) then
      Ret (s_sqrt (p_sqlen (l_start self -^ p)))
    else
      let v1 := p -^ l_start self in
      let v2 := l_end self -^ l_start self in
      let! dot := dot_loop2 v1 v2 in
      let t := m_from (n_lit 0) in
      let t := if dot / l2 <? m_from (n_lit 1) then dot / l2 else t in
      let t := if t <? m_from (n_lit 0) then m_from (n_lit 0) else t in
      let projection := l_start self +^ (l_end self -^ l_start self) *^ t in
      Ret (s_sqrt (p_sqlen (p -^ projection))).

  (** line.rs:92-99 *)
  Definition line_root2 (a b : S) : outcome (list S) :=
    if s_abs a <? m_from (s_eps : T) then Ret []
    else av_push 1 [] ((- b) / a).

  (** line.rs:102-116 *)
  Definition line_bounding_box2 (self : line P) : outcome (list (S * S)) :=
    for_in (range 0 p_dim) (repeat (m_default (T := T), m_default (T := T)) p_dim) (fun i bounds =>
      let! s := p_axis (l_start self) i in
      let! e := p_axis (l_end self) i in
      if s <? e then set_idx bounds i (s, e) else set_idx bounds i (e, s)).

  (** quadratic_bezier.rs:311, 286, cubic_bezier.rs:392, 357 *)
  Definition in_unit2 (root : S) : bool :=
    (root >? m_from (n_lit 0)) && (root <? m_from (n_lit 1)).

  (** quadratic_bezier.rs:204-213, and the same loops in the other two files *)
  Definition coarse_body2 (eval : S -> outcome P) (point : P) (i : nat) (st : S * S) : outcome (S * S) :=
    let t := m_from (n_of i * n_lit 1 / n_of nsteps) in
    let! candidate := eval t in
    if p_sqlen (candidate -^ point) <? snd st
    then Ret (t, p_sqlen (candidate -^ point))
    else Ret st.

  (** quadratic_bezier.rs:215-224 *)
  Definition fine_body2 (eval : S -> outcome P) (point : P) (i : nat) (st : S * S) : outcome (S * S) :=
    let t := m_from (n_of i * n_lit 1 / n_of (nsteps * nsteps)) in
    let! candidate := eval (fst st + t - t *' (n_of nsteps / n_lit 2)) in
    if p_sqlen (candidate -^ point) <? snd st
    then Ret (t, p_sqlen (candidate -^ point))
    else Ret st.

  (** quadratic_bezier.rs:199-226, cubic_bezier.rs:193-222, bezier.rs:89-118 *)
  Definition search_distance2 (eval : S -> outcome P) (first : P) (point : P) : outcome S :=
    let tmin := m_from (s_half : T) in
    let dmin := p_sqlen (point -^ first) in
    let! st := for_in (range 0 nsteps) (tmin, dmin) (coarse_body2 eval point) in
    let! st := for_in (range 0 nsteps) st (fine_body2 eval point) in
    Ret (s_sqrt (snd st)).

  (** quadratic_bezier.rs:22-28 *)
  Definition quad_eval2 (self : quad P) (t : S) : P :=
    let t2 := t * t in
    let one_t := (- t) +' n_lit 1 in
    let one_t2 := one_t * one_t in
    q_start self *^ one_t2 +^ q_ctrl self *^' n_lit 2 *^ one_t *^ t +^ q_end self *^ t2.

  (** quadratic_bezier.rs:70-78 *)
  Definition quad_axis2 (self : quad P) (t : S) (axis : nat) : outcome S :=
    let t2 := t * t in
    let one_t := (- t) +' n_lit 1 in
    let one_t2 := one_t * one_t in
    let! s := p_axis (q_start self) axis in
    let! c := p_axis (q_ctrl self) axis in
    let! e := p_axis (q_end self) axis in
    Ret (s * one_t2 + c *' n_lit 2 * one_t * t + e * t2).

  (** quadratic_bezier.rs:84-89 *)
  Definition quad_derivative2 (self : quad P) : line P :=
    Line ((q_ctrl self -^ q_start self) *^' n_lit 2) ((q_end self -^ q_ctrl self) *^' n_lit 2).

  (** quadratic_bezier.rs:100-107: the weights are computed in [NativeFloat] *)
  Definition quad_dd2 (self : quad P) (t : S) (axis : nat) : outcome S :=
    let t : T := m_into t in
    let c0 := t * n_lit 2 - n_lit 2 in
    let c1 := n_lit 2 - n_lit 4 * t in
    let c2 := n_lit 2 * t in
    let! s := p_axis (q_start self) axis in
    let! c := p_axis (q_ctrl self) axis in
    let! e := p_axis (q_end self) axis in
    Ret (s *' c0 + c *' c1 + e *' c2).

  (** quadratic_bezier.rs:148-159 *)
  Definition quad_arclen2 (self : quad P) (nsteps : nat) : outcome S :=
    let stepsize := m_from (n_lit 1 / n_of nsteps) in
    for_in (range 1 nsteps) (m_from (n_lit 0)) (fun i arclen =>
      let t := m_from (n_of i * n_lit 1 / n_of nsteps) in
      let p1 := quad_eval_casteljau self t in
      let p2 := quad_eval_casteljau self (t + stepsize) in
      Ret (arclen + s_sqrt (p_sqlen (p1 -^ p2)))).

  (** quadratic_bezier.rs:164-192 *)
  Definition quad_real_roots2 (a b c : S) : outcome (list S) :=
    if s_abs a <? m_from (s_eps : T) then
      if s_abs b <? m_from (s_eps : T) then Ret []
      else av_push 2 [] ((- c) / b)
    else
      let delta := b * b - a * c *' n_lit 4 in
      if delta >? m_from (n_lit 0) then
        let sqrt_delta := s_sqrt delta in
        let! r := av_push 2 [] (((- b) - sqrt_delta) / (a *' n_lit 2)) in
        av_push 2 r (((- b) + sqrt_delta) / (a *' n_lit 2))
      else if s_abs delta <? m_from (s_eps : T) then
        av_push 2 [] ((- b) / (a *' n_lit 2))
      else Ret [].

  (** quadratic_bezier.rs:199-226 *)
  Definition quad_distance_to_point2 (self : quad P) (point : P) : outcome S :=
    search_distance2 (fun t => Ret (quad_eval2 self t)) (q_start self) point.

  (** quadratic_bezier.rs:250-253 *)
  Definition quad_are_points_colinear2 (self : quad P) (tolerance : S) : outcome bool :=
    let line := quad_baseline self in
    let! d := line_distance_to_point2 line (q_ctrl self) in
    Ret (d <=? tolerance).

  (** quadratic_bezier.rs:238-246 *)
  Definition quad_is_linear2 (self : quad P) (tolerance : S) : outcome bool :=
    if p_sqlen (q_start self -^ q_end self) <? m_from (s_eps : T) then Ret false
    else quad_are_points_colinear2 self tolerance.

  (** quadratic_bezier.rs:271-292 *)
  Definition quad_solve_t_for_axis2 (self : quad P) (value : S) (axis : nat) : outcome (list S) :=
    let! skip :=
      if quad_is_a_point self (m_from (s_eps : T)) then Ret true
      else
        let! col := quad_are_points_colinear2 self (m_from (n_lit 0)) in
        Ret (col && (p_sqlen (q_start self -^ q_end self) <? m_from (s_eps : T))) in
    if skip then Ret []
    else
      let! s := p_axis (q_start self) axis in
      let! c := p_axis (q_ctrl self) axis in
      let! e := p_axis (q_end self) axis in
      let a := s + c *' n_lit (-2) + e in
      let b := s *' n_lit (-2) + c *' n_lit 2 in
      let c := s -' m_into value in
      let! roots := quad_real_roots2 a b c in
      av_extend 3 [] (filter in_unit2 roots).

  (** quadratic_bezier.rs:305-326 *)
  Definition quad_bbox_axis2 (self : quad P) (dim : nat) : outcome (S * S) :=
    let derivative := quad_derivative2 self in
    let a := l_start derivative *^' n_lit (-1) +^ l_end derivative in
    let b := l_start derivative in
    let! a_dim := p_axis a dim in
    let! b_dim := p_axis b dim in
    let! roots := line_root2 a_dim b_dim in
    let! extrema := av_extend 3 [] roots in
    let extrema := filter in_unit2 extrema in
    let! extrema := quad_eval_roots self dim extrema in
    let! s := p_axis (q_start self) dim in
    let! extrema := av_push 3 extrema s in
    let! e := p_axis (q_end self) dim in
    let! extrema := av_push 3 extrema e in
    let! extrema := sort_by_partial_cmp extrema in
    let! lo := idx extrema 0 in
    let! hi := idx extrema (length extrema - 1) in
    Ret (lo, hi).

  (** quadratic_bezier.rs:295-328 *)
  Definition quad_bounding_box2 (self : quad P) : outcome (list (S * S)) :=
    for_in (range 0 p_dim) (repeat (m_from (n_lit 0), m_from (n_lit 0)) p_dim) (fun dim bounds =>
      let! b := quad_bbox_axis2 self dim in
      set_idx bounds dim b).

  (** cubic_bezier.rs:33-38 *)
  Definition cubic_eval2 (self : cubic P) (t : S) : P :=
    c_start self *^ (((- t) +' n_lit 1) * ((- t) +' n_lit 1) * ((- t) +' n_lit 1))
      +^ c_ctrl1 self *^ (t * ((- t) +' n_lit 1) * ((- t) +' n_lit 1) *' n_lit 3)
      +^ c_ctrl2 self *^ (t * t * ((- t) +' n_lit 1) *' n_lit 3)
      +^ c_end self *^ (t * t * t).

  (** cubic_bezier.rs:60-71 *)
  Definition cubic_axis2 (self : cubic P) (t : S) (axis : nat) : outcome S :=
    let t2 := t * t in
    let t3 := t2 * t in
    let one_t := (- t) +' n_lit 1 in
    let one_t2 := one_t * one_t in
    let one_t3 := one_t2 * one_t in
    let! s := p_axis (c_start self) axis in
    let! c1 := p_axis (c_ctrl1 self) axis in
    let! c2 := p_axis (c_ctrl2 self) axis in
    let! e := p_axis (c_end self) axis in
    Ret (one_t3 * s + one_t2 * t * c1 *' n_lit 3 + one_t * t2 * c2 *' n_lit 3 + t3 * e).

  (** cubic_bezier.rs:76-87: here [stepsize] is a [NativeFloat] and the division of the
      parameter is the mixed one *)
  Definition cubic_arclen2 (self : cubic P) (nsteps : nat) : outcome S :=
    let stepsize : T := n_lit 1 / n_of nsteps in
    for_in (range 1 nsteps) (m_from (n_lit 0)) (fun i arclen =>
      let t := m_from (n_of i) *' n_lit 1 /' n_of nsteps in
      let p1 := cubic_eval_casteljau self t in
      let p2 := cubic_eval_casteljau self (t +' stepsize) in
      Ret (arclen + s_sqrt (p_sqlen (p1 -^ p2)))).

  (** cubic_bezier.rs:89-116: [let t = t.into()] makes the parameter a [NativeFloat] *)
  Definition cubic_split2 (self : cubic P) (t : S) : cubic P * cubic P :=
    let t : T := m_into t in
    let ctrl_1ab := c_start self +^ (c_ctrl1 self -^ c_start self) *^' t in
    let ctrl_1bc := c_ctrl1 self +^ (c_ctrl2 self -^ c_ctrl1 self) *^' t in
    let ctrl_1cd := c_ctrl2 self +^ (c_end self -^ c_ctrl2 self) *^' t in
    let ctrl_2ab := ctrl_1ab +^ (ctrl_1bc -^ ctrl_1ab) *^' t in
    let ctrl_2bc := ctrl_1bc +^ (ctrl_1cd -^ ctrl_1bc) *^' t in
    let ctrl_3ab := ctrl_2ab +^ (ctrl_2bc -^ ctrl_2ab) *^' t in
    (Cubic (c_start self) ctrl_1ab ctrl_2ab ctrl_3ab,
     Cubic ctrl_3ab ctrl_2bc ctrl_1cd (c_end self)).

  (** cubic_bezier.rs:121-127 *)
  Definition cubic_derivative2 (self : cubic P) : quad P :=
    Quad ((c_ctrl1 self -^ c_start self) *^' n_lit 3)
         ((c_ctrl2 self -^ c_ctrl1 self) *^' n_lit 3)
         ((c_end self -^ c_ctrl2 self) *^' n_lit 3).

  (** cubic_bezier.rs:138-149 *)
  Definition cubic_dd2 (self : cubic P) (t : S) (axis : nat) : outcome S :=
    let t2 := t * t in
    let c0 := t *' n_lit (-3) + t *' n_lit 6 -' n_lit 3 in
    let c1 := t2 *' n_lit 9 - t *' n_lit 12 +' n_lit 3 in
    let c2 := t2 *' n_lit (-9) + t *' n_lit 6 in
    let c3 := t2 *' n_lit 3 in
    let! s := p_axis (c_start self) axis in
    let! k1 := p_axis (c_ctrl1 self) axis in
    let! k2 := p_axis (c_ctrl2 self) axis in
    let! e := p_axis (c_end self) axis in
    Ret (s * c0 + k1 * c1 + k2 * c2 + e * c3).

  (** cubic_bezier.rs:193-222 *)
  Definition cubic_distance_to_point2 (self : cubic P) (point : P) : outcome S :=
    search_distance2 (fun t => Ret (cubic_eval2 self t)) (c_start self) point.

  (** cubic_bezier.rs:240-244 *)
  Definition cubic_are_points_colinear2 (self : cubic P) (tolerance : S) : outcome bool :=
    let line := cubic_baseline self in
    let! d1 := line_distance_to_point2 line (c_ctrl1 self) in
    if d1 <=? tolerance then
      let! d2 := line_distance_to_point2 line (c_ctrl2 self) in
      Ret (d2 <=? tolerance)
    else Ret false.

  (** cubic_bezier.rs:231-238 *)
  Definition cubic_is_linear2 (self : cubic P) (tolerance : S) : outcome bool :=
    if p_sqlen (c_start self -^ c_end self) <? s_eps then Ret false
    else cubic_are_points_colinear2 self tolerance.

  (** cubic_bezier.rs:384-407 *)
  Definition cubic_bbox_axis2 (self : cubic P) (dim : nat) : outcome (S * S) :=
    let derivative := cubic_derivative2 self in
    let a := q_start derivative +^ q_ctrl derivative *^' n_lit (-2) +^ q_end derivative in
    let b := q_start derivative *^' n_lit (-2) +^ q_ctrl derivative *^' n_lit 2 in
    let c := q_start derivative in
    let! a_dim := p_axis a dim in
    let! b_dim := p_axis b dim in
    let! c_dim := p_axis c dim in
    let! roots := quad_real_roots2 a_dim b_dim c_dim in
    let! extrema := av_extend 4 [] roots in
    let extrema := filter in_unit2 extrema in
    let! extrema := cubic_eval_roots self dim extrema in
    let! s := p_axis (c_start self) dim in
    let! extrema := av_push 4 extrema s in
    let! e := p_axis (c_end self) dim in
    let! extrema := av_push 4 extrema e in
    let! extrema := sort_by_partial_cmp extrema in
    let! lo := idx extrema 0 in
    let! hi := idx extrema (length extrema - 1) in
    Ret (lo, hi).

  (** cubic_bezier.rs:366-409 *)
  Definition cubic_bounding_box2 (self : cubic P) : outcome (list (S * S)) :=
    for_in (range 0 p_dim) (repeat (m_from (n_lit 0), m_from (n_lit 0)) p_dim) (fun dim bounds =>
      let! b := cubic_bbox_axis2 self dim in
      set_idx bounds dim b).

  (** bezier_segment.rs:18-24 *)
  Definition segment_eval2 (self : segment P) (t : S) : P :=
    match self with
    | Linear s => line_eval s t
    | Quadratic s => quad_eval2 s t
    | CubicSeg s => cubic_eval2 s t
    end.

  (** bezier_segment.rs:44-53 *)
  Definition segment_is_linear2 (self : segment P) (tolerance : S) : outcome bool :=
    match self with
    | Linear _ => Ret true
    | Quadratic s => quad_is_linear2 s tolerance
    | CubicSeg s => cubic_is_linear2 s tolerance
    end.

  (** bezier_segment.rs:65-83 *)
  Definition segment_split2 (self : segment P) (t : S) : segment P * segment P :=
    match self with
    | Linear s => let '(a, b) := line_split s t in (Linear a, Linear b)
    | Quadratic s => let '(a, b) := quad_split s t in (Quadratic a, Quadratic b)
    | CubicSeg s => let '(a, b) := cubic_split2 s t in (CubicSeg a, CubicSeg b)
    end.

  (** bezier.rs:78-80 and 134-137 *)
  Definition casteljau_level2 (t : S) (i : nat) (p : list P) : outcome (list P) :=
    let! m := usub (length p) i in
    for_in (range 0 m) p (fun j p =>
      let! a := idx p j in
      let! b := idx p (j + 1) in
      set_idx p j (a *^ ((- t) +' n_lit 1) +^ b *^ t)).

  (** bezier.rs:72-83 *)
  Definition bezier_eval2 (self : bezier P) (t : S) : outcome P :=
    let p := bz_points self in
    let! p := for_in (range_incl 1 (length p)) p (fun i p => casteljau_level2 t i p) in
    idx p 0.

  (** bezier.rs:89-118 *)
  Definition bezier_distance_to_point2 (self : bezier P) (point : P) : outcome S :=
    let! first := idx (bz_points self) 0 in
    search_distance2 (bezier_eval2 self) first point.

  (** bezier.rs:128-138 *)
  Definition split_body2 (t : S) (i : nat) (st : list P * list P * list P)
    : outcome (list P * list P * list P) :=
    let '(lft, rgt, cp) := st in
    let! im1 := usub i 1 in
    let! c0 := idx cp 0 in
    let! lft := set_idx lft im1 c0 in
    let! r := usub (length rgt) i in
    let! cr := idx cp r in
    let! rgt := set_idx rgt r cr in
    let! cp := casteljau_level2 t i cp in
    Ret (lft, rgt, cp).

  (** bezier.rs:120-148 *)
  Definition bezier_split2 (self : bezier P) (t : S) : outcome (bezier P * bezier P) :=
    let ps := bz_points self in
    let! st := for_in (range_incl 1 (length ps)) (ps, ps, ps) (split_body2 t) in
    let '(lft, rgt, _) := st in
    Ret (Bezier lft, Bezier rgt).

  (** bezier.rs:156-166 *)
  Definition bezier_derivative2 (self : bezier P) : outcome (bezier P) :=
    let ps := bz_points self in
    let! nm1 := usub (length ps) 1 in
    let! new_points :=
      for_break (range 0 (length ps)) (repeat p_default nm1) (fun i new_points =>
        let! a := idx ps (i + 1) in
        let! b := idx ps i in
        let! new_points := set_idx new_points i ((a -^ b) *^' n_of nm1) in
        let! last := usub (length ps) 2 in
        Ret (new_points, (i =? last)%nat)) in
    Ret (Bezier new_points).

  (** bezier.rs:241-252 *)
  Definition bezier_arclen2 (self : bezier P) (nsteps : nat) : outcome S :=
    let stepsize := m_from (n_lit 1 / n_of nsteps) in
    for_in (range 1 nsteps) (m_from (n_lit 0)) (fun i arclen =>
      let t := m_from (n_of i * n_lit 1 / n_of nsteps) in
      let! p1 := bezier_eval2 self t in
      let! p2 := bezier_eval2 self (t + stepsize) in
      Ret (arclen + s_sqrt (p_sqlen (p1 -^ p2)))).

  (** bspline.rs:281-295 *)
  Definition alpha_of2 (knots : list S) (D : nat) (t : S) (k r j : nat) : outcome S :=
    let! a := usub (j + k) D in
    let! ka := idx knots a in
    let numerator := t - ka in
    let! b := usub (j + 1 + k) r in
    let! kb := idx knots b in
    let! ka' := idx knots a in
    let denominator := kb - ka' in
    Ret (if numerator <? s_eps then m_from (n_lit 0)
         else if s_abs denominator <? s_eps then m_from (n_lit 1)
         else numerator / denominator).

  (** bspline.rs:280-302: the left weight [1.0 - alpha.into()] is a [NativeFloat], the right
      weight is not *)
  Definition de_boor_body2 (knots : list S) (D : nat) (t : S) (k r j : nat) (d : list P)
    : outcome (result (list P) BSplineError) :=
    let! alpha := alpha_of2 knots D t k r j in
    if s_is_nan alpha then Ret (Err EvaluationAlphaIsNaN)
    else
      let! jm1 := usub j 1 in
      let! dl := idx d jm1 in
      let! dr := idx d j in
      let! d := set_idx d j (dl *^' (n_lit 1 - m_into alpha) +^ dr *^ alpha) in
      Ret (Ok d).

  (** bspline.rs:241-305 *)
  Definition de_boor_iterative2 (self : bspline S P) (t : S) : outcome (result P BSplineError) :=
    let D := bs_degree self in
    let! kc := idx (bs_knots self) (length (bs_points self)) in
    if t =? kc then
      let! last := usub (length (bs_points self)) 1 in
      let! c := idx (bs_points self) last in
      Ret (Ok c)
    else
      let! ko := knot_span_start_for_t self t in
      match ko with
      | None => Ret (Err KnotDomainViolation)
      | Some k =>
          let! d := de_boor_load self k in
          let! rd :=
            for_result (range_incl 1 D) d (fun r d =>
              for_result (rev (range_incl r D)) d (fun j d =>
                de_boor_body2 (bs_knots self) D t k r j d)) in
          match rd with
          | Err e => Ret (Err e)
          | Ok d => let! p := idx d D in Ret (Ok p)
          end
      end.

  (** bspline.rs:115-129 *)
  Definition bspline_eval2 (self : bspline S P) (t : S) : outcome (result P BSplineError) :=
    let! dom := knot_domain self in
    if (t <? fst dom) || (t >? snd dom) then Ret (Err KnotDomainViolation)
    else de_boor_iterative2 self t.

  (** bspline.rs:449-456 *)
  Definition eval_or_default2 (self : bspline S P) (t : S) : outcome P :=
    let! r := bspline_eval2 self t in
    match r with
    | Ok p => Ret p
    | Err _ => Ret p_default
    end.

  (** bspline.rs:436-460 *)
  Definition bspline_arclen2 (self : bspline S P) (nsteps : nat) : outcome S :=
    let stepsize := m_from (n_lit 1 / n_of nsteps) in
    let! dom := knot_domain self in
    let kmin := fst dom in
    let kmax := snd dom in
    for_in (range_incl 0 nsteps) (m_from (n_lit 0)) (fun i arclen =>
      let t := kmin + (m_from (n_of i) / m_from (n_of nsteps)) * (kmax - kmin) in
      let! p1 := eval_or_default2 self t in
      let! p2 := eval_or_default2 self (t + stepsize) in
      Ret (arclen + s_sqrt (p_sqlen (p1 -^ p2)))).

  (** bspline.rs:471-485: the factor is computed in [NativeFloat] *)
  Definition bspline_derivative2 (self : bspline S P) : outcome (bspline S P) :=
    let ps := bs_points self in
    let D := bs_degree self in
    let! cm1 := usub (length ps) 1 in
    let! dm1 := usub D 1 in
    let! new_points :=
      for_break (range 0 (length ps)) (repeat p_default cm1) (fun i new_points =>
        let! a := idx ps (i + 1) in
        let! b := idx ps i in
        let! ka := idx (bs_knots self) (i + D + 1) in
        let! kb := idx (bs_knots self) (i + 1) in
        let! new_points := set_idx new_points i ((a -^ b) *^' (n_of D / m_into (ka - kb))) in
        let! last := usub (length ps) 2 in
        Ret (new_points, (i =? last)%nat)) in
    Ret (BSpline dm1 (bs_knots self) (bs_kind self) new_points).

  (** cubic_bezier.rs:262-330 (private).  [pi] goes from [NativeFloat] to the scalar and back; a
      third is the one of [NativeFloat]. *)
  Context {TN : ScalarTrans T} {TS : ScalarTrans S}.
  Definition cubic_real_roots2 (a b c d : S) : outcome (list S) :=
    let pi : T := m_into (m_from (s_pi_f32 : T) : S) in
    if s_abs a <? s_eps then
      if s_abs b <? s_eps then
        if s_abs c <? s_eps then Ret []
        else av_push 3 [] ((- d) / c)
      else
        let delta := c * c - b * d *' n_lit 4 in
        if delta >? m_from (n_lit 0) then
          let sqrt_delta := s_sqrt delta in
          let! r := av_push 3 [] (((- c) - sqrt_delta) / (b *' n_lit 2)) in
          av_push 3 r (((- c) + sqrt_delta) / (b *' n_lit 2))
        else if s_abs delta <? s_eps then
          av_push 3 [] ((- c) / (b *' n_lit 2))
        else Ret []
    else
      let frac_1_3 := m_from (n_lit 1 / n_lit 3) in
      let bn := b / a in
      let cn := c / a in
      let dn := d / a in
      let delta0 := (cn *' n_lit 3 - bn * bn) /' n_lit 9 in
      let delta1 := (bn * cn *' n_lit 9 - dn *' n_lit 27 - bn * bn * bn *' n_lit 2) /' n_lit 54 in
      let delta_01 := delta0 * delta0 * delta0 + delta1 * delta1 in
      if delta_01 >=? m_from (n_lit 0) then
        let delta_p_sqrt := delta1 + s_sqrt delta_01 in
        let delta_m_sqrt := delta1 - s_sqrt delta_01 in
        let s := s_signum delta_p_sqrt * s_powf (s_abs delta_p_sqrt) frac_1_3 in
        let t := s_signum delta_m_sqrt * s_powf (s_abs delta_m_sqrt) frac_1_3 in
        let! r := av_push 3 [] ((- bn) * frac_1_3 + (s + t)) in
        if (s_abs (s - t) <? s_eps) && (s_abs (s + t) >=? s_eps) then
          av_push 3 r ((- bn) * frac_1_3 - (s + t) /' n_lit 2)
        else Ret r
      else
        let theta := s_acos (delta1 / s_sqrt ((- delta0) * delta0 * delta0)) in
        let two_sqrt_delta0 := s_sqrt (- delta0) *' n_lit 2 in
        let! r := av_push 3 [] (two_sqrt_delta0 * s_cos (theta * frac_1_3) - bn * frac_1_3) in
        let! r := av_push 3 r
          (two_sqrt_delta0 * s_cos ((theta +' n_lit 2 * pi) * frac_1_3) - bn * frac_1_3) in
        av_push 3 r
          (two_sqrt_delta0 * s_cos ((theta +' n_lit 4 * pi) * frac_1_3) - bn * frac_1_3).

  (** cubic_bezier.rs:339-363 (private) *)
  Definition cubic_solve_t_for_axis2 (self : cubic P) (value : S) (axis : nat) : outcome (list S) :=
    let! skip :=
      if cubic_is_a_point self s_eps then Ret true
      else
        let! col := cubic_are_points_colinear2 self s_eps in
        Ret (col && (p_sqlen (c_start self -^ c_end self) <? s_eps)) in
    if skip then Ret []
    else
      let! s := p_axis (c_start self) axis in
      let! k1 := p_axis (c_ctrl1 self) axis in
      let! k2 := p_axis (c_ctrl2 self) axis in
      let! e := p_axis (c_end self) axis in
      let a := (- s) + k1 *' n_lit 3 - k2 *' n_lit 3 + e in
      let b := s *' n_lit 3 - k1 *' n_lit 6 + k2 *' n_lit 3 in
      let c := (- s) *' n_lit 3 + k1 *' n_lit 3 in
      let d := s - value in
      let! roots := cubic_real_roots2 a b c d in
      av_extend 3 [] (filter in_unit2 roots).
End TwoScalars.
