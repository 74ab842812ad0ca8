(** NOT the code of /repo.  Each definition below is the model of one function with
    the line named in its comment changed, and nothing else.  They serve to check the
    diagnosis given for the properties that the code violates: the property holds once
    the named line is changed (Props/RepairProps.v), so the statement can be satisfied
    and the line is the whole cause. *)
From Coq Require Import ZArith List Arith Bool.
From Verif Require Import Base.Outcome Base.Scalar Model.Point Model.Line Model.Quadratic Model.Cubic
  Model.Bezier Model.BSpline Model.Segment.
Import ListNotations.
Local Open Scope scalar_scope.
Local Open Scope point_scope.

Section Curves.
  Context {T P : Type} {ST : Scalar T} {PT : Point T P}.

  (** line.rs:28: [end - start] instead of [start - end] (C04, C52) *)
  Definition fixed_line_split (self : line P) (t : T) : line P * line P :=
    let ctrl_ab := l_start self +^ (l_end self -^ l_start self) *^ t in
    (Line (l_start self) ctrl_ab, Line ctrl_ab (l_end self)).

  (** bezier_segment.rs:65-83 calling it *)
  Definition fixed_segment_split (self : segment P) (t : T) : segment P * segment P :=
    match self with
    | Linear s => let '(a, b) := fixed_line_split s t in (Linear a, Linear b)
    | Quadratic s => let '(a, b) := quad_split s t in (Quadratic a, Quadratic b)
    | CubicSeg s => let '(a, b) := cubic_split s t in (CubicSeg a, CubicSeg b)
    end.

  (** line.rs:54: [l2 == 0] instead of [l2 < EPSILON];
      line.rs:68: the initial value of [t] is 1 instead of 0 (C05) *)
  Definition fixed_line_distance (self : line P) (p : P) : outcome T :=
    let l2 := p_sqlen (l_end self -^ l_start self) in
    if l2 =? s_lit 0 then
      Ret (s_sqrt (p_sqlen (l_start self -^ p)))
    else
      let v1 := p -^ l_start self in
      let v2 := l_end self -^ l_start self in
      let! dot := dot_loop v1 v2 in
      let t := s_lit 1 in
      let t := if dot / l2 <? s_lit 1 then dot / l2 else t in
      let t := if t <? s_lit 0 then s_lit 0 else t in
      let projection := l_start self +^ (l_end self -^ l_start self) *^ t in
      Ret (s_sqrt (p_sqlen (p -^ projection))).

  (** quadratic_bezier.rs:238-253 and cubic_bezier.rs:231-244 calling it (C16) *)
  Definition fixed_quad_is_linear (self : quad P) (tolerance : T) : outcome bool :=
    if p_sqlen (q_start self -^ q_end self) <? s_eps then Ret false
    else
      let! d := fixed_line_distance (quad_baseline self) (q_ctrl self) in
      Ret (d <=? tolerance).
  Definition fixed_cubic_is_linear (self : cubic P) (tolerance : T) : outcome bool :=
    if p_sqlen (c_start self -^ c_end self) <? s_eps then Ret false
    else
      let! d1 := fixed_line_distance (cubic_baseline self) (c_ctrl1 self) in
      if d1 <=? tolerance then
        let! d2 := fixed_line_distance (cubic_baseline self) (c_ctrl2 self) in
        Ret (d2 <=? tolerance)
      else Ret false.

  (** cubic_bezier.rs:140: [t2 * -3] instead of [t * -3] (C21) *)
  Definition fixed_cubic_dd (self : cubic P) (t : T) (axis : nat) : outcome T :=
    let t2 := t * t in
    let c0 := t2 * s_lit (-3) + t * s_lit 6 - s_lit 3 in
    let c1 := t2 * s_lit 9 - t * s_lit 12 + s_lit 3 in
    let c2 := t2 * s_lit (-9) + t * s_lit 6 in
    let c3 := t2 * s_lit 3 in
    let! s := p_axis (c_start self) axis in
    let! k1 := p_axis (c_ctrl1 self) axis in
    let! k2 := p_axis (c_ctrl2 self) axis in
    let! e := p_axis (c_end self) axis in
    Ret (s * c0 + k1 * c1 + k2 * c2 + e * c3).

  (** quadratic_bezier.rs:151, cubic_bezier.rs:79, bezier.rs:244: [0..nsteps] instead of
      [1..nsteps] (C34) *)
  Definition fixed_quad_arclen (self : quad P) (nsteps : nat) : outcome T :=
    let stepsize := s_lit 1 / s_of_usize nsteps in
    for_in (range 0 nsteps) (s_lit 0) (fun i arclen =>
      let t := s_of_usize i * s_lit 1 / s_of_usize nsteps in
      let p1 := quad_eval_casteljau self t in
      let p2 := quad_eval_casteljau self (t + stepsize) in
      Ret (arclen + s_sqrt (p_sqlen (p1 -^ p2)))).
  Definition fixed_cubic_arclen (self : cubic P) (nsteps : nat) : outcome T :=
    let stepsize := s_lit 1 / s_of_usize nsteps in
    for_in (range 0 nsteps) (s_lit 0) (fun i arclen =>
      let t := s_of_usize i * s_lit 1 / s_of_usize nsteps in
      let p1 := cubic_eval_casteljau self t in
      let p2 := cubic_eval_casteljau self (t + stepsize) in
      Ret (arclen + s_sqrt (p_sqlen (p1 -^ p2)))).
  Definition fixed_bezier_arclen (self : bezier P) (nsteps : nat) : outcome T :=
    let stepsize := s_lit 1 / s_of_usize nsteps in
    for_in (range 0 nsteps) (s_lit 0) (fun i arclen =>
      let t := s_of_usize i * s_lit 1 / s_of_usize nsteps in
      let! p1 := bezier_eval self t in
      let! p2 := bezier_eval self (t + stepsize) in
      Ret (arclen + s_sqrt (p_sqlen (p1 -^ p2)))).

  (** quadratic_bezier.rs:219-221 and its two copies (C36): the offset is
      [stepsize * (nsteps / 2)] instead of [t * (nsteps / 2)], the parameter is kept in
      [0,1], and [tmin] keeps the value found by the first pass; line 201 (cubic_bezier.rs:195,
      bezier.rs:91) starts with the parameter of the point it starts with *)
  Definition fixed_fine_body (eval : T -> outcome P) (point : P) (i : nat) (st : T * T)
    : outcome (T * T) :=
    let stepsize := s_lit 1 / s_of_usize (nsteps * nsteps) in
    let t := s_of_usize i * s_lit 1 / s_of_usize (nsteps * nsteps) in
    let u := fst st + t - stepsize * (s_of_usize nsteps / s_lit 2) in
    let u := if u <? s_lit 0 then s_lit 0 else if s_lit 1 <? u then s_lit 1 else u in
    let! candidate := eval u in
    if p_sqlen (candidate -^ point) <? snd st
    then Ret (fst st, p_sqlen (candidate -^ point))
    else Ret st.
  Definition fixed_search (eval : T -> outcome P) (first : P) (point : P) : outcome T :=
    let tmin := s_lit 0 in
    let dmin := p_sqlen (point -^ first) in
    let! st := for_in (range 0 nsteps) (tmin, dmin) (coarse_body eval point) in
    let! st := for_in (range 0 nsteps) st (fixed_fine_body eval point) in
    Ret (s_sqrt (snd st)).
  Definition fixed_quad_distance (self : quad P) (point : P) : outcome T :=
    fixed_search (fun t => Ret (quad_eval self t)) (q_start self) point.
  Definition fixed_cubic_distance (self : cubic P) (point : P) : outcome T :=
    fixed_search (fun t => Ret (cubic_eval self t)) (c_start self) point.
  Definition fixed_bezier_distance (self : bezier P) (point : P) : outcome T :=
    let! first := idx (bz_points self) 0 in
    fixed_search (bezier_eval self) first point.
End Curves.

Section BSpline.
  Context {T P : Type} {ST : Scalar T} {PT : Point T P}.

  (** bspline.rs:146-153: [(knots[D], knots[C])] for every kind (C40) *)
  Definition fixed_knot_domain (self : bspline T P) : outcome (T * T) := knot_domain_unclamped self.

  (** bspline.rs:307-314: the search of clamped splines for every kind (C43, C49) *)
  Definition fixed_span (self : bspline T P) (t : T) : outcome (option nat) :=
    knot_span_start_for_t_clamped self t.

  (** bspline.rs:285-295: the quotient without the two tests against EPSILON (C44) *)
  Definition fixed_alpha (knots : list T) (D : nat) (t : T) (k r j : nat) : outcome T :=
    let! a := usub (j + k) D in
    let! ka := idx knots a in
    let numerator := t - ka in
    let! b := usub (j + 1 + k) r in
    let! kb := idx knots b in
    let! ka' := idx knots a in
    let denominator := kb - ka' in
    Ret (numerator / denominator).

  Definition fixed_body (knots : list T) (D : nat) (t : T) (k r j : nat) (d : list P)
    : outcome (result (list P) BSplineError) :=
    let! alpha := fixed_alpha knots D t k r j in
    if s_is_nan alpha then Ret (Err EvaluationAlphaIsNaN)
    else
      let! jm1 := usub j 1 in
      let! dl := idx d jm1 in
      let! dr := idx d j in
      let! d := set_idx d j (dl *^ (s_lit 1 - alpha) +^ dr *^ alpha) in
      Ret (Ok d).

  (** bspline.rs:262: [0..=D] instead of [0..D] (C44, C45, C79) *)
  Definition fixed_load (self : bspline T P) (k : nat) : outcome (list P) :=
    let D := bs_degree self in
    for_in (range_incl 0 D) (repeat p_default (D + 1)) (fun j d =>
      let! i := usub (j + k) D in
      let! c := idx (bs_points self) i in
      set_idx d j c).

  (** bspline.rs:246-248, the early return of the last control point, is removed *)
  Definition fixed_de_boor (self : bspline T P) (t : T) : outcome (result P BSplineError) :=
    let D := bs_degree self in
    let! ko := fixed_span self t in
    match ko with
    | None => Ret (Err KnotDomainViolation)
    | Some k =>
        let! d := fixed_load self k in
        let! rd :=
          for_result (range_incl 1 D) d (fun r d =>
            for_result (rev (range_incl r D)) d (fun j d =>
              fixed_body (bs_knots self) D t k r j d)) in
        match rd with
        | Err e => Ret (Err e)
        | Ok d => let! p := idx d D in Ret (Ok p)
        end
    end.

  Definition fixed_eval (self : bspline T P) (t : T) : outcome (result P BSplineError) :=
    let! dom := fixed_knot_domain self in
    if (t <? fst dom) || (t >? snd dom) then Ret (Err KnotDomainViolation)
    else fixed_de_boor self t.

  Definition fixed_eval_or_default (self : bspline T P) (t : T) : outcome P :=
    let! r := fixed_eval self t in
    match r with
    | Ok p => Ret p
    | Err _ => Ret p_default
    end.

  (** bspline.rs:440 and 445 (C48): [stepsize = (kmax - kmin) / nsteps] instead of
      [1 / nsteps], and [0..nsteps] instead of [0..=nsteps] *)
  Definition fixed_bspline_arclen (self : bspline T P) (nsteps : nat) : outcome T :=
    let! dom := fixed_knot_domain self in
    let kmin := fst dom in
    let kmax := snd dom in
    let stepsize := (kmax - kmin) / s_of_usize nsteps in
    for_in (range 0 nsteps) (s_lit 0) (fun i arclen =>
      let t := kmin + (s_of_usize i / s_of_usize nsteps) * (kmax - kmin) in
      let! p1 := fixed_eval_or_default self t in
      let! p2 := fixed_eval_or_default self (t + stepsize) in
      Ret (arclen + s_sqrt (p_sqlen (p1 -^ p2)))).

  (** bspline.rs:481 (C47): the first and the last knot are dropped *)
  Definition fixed_derivative (self : bspline T P) : outcome (bspline T P) :=
    let! s := bspline_derivative self in
    Ret (BSpline (bs_degree s) (removelast (tl (bs_knots s))) (bs_kind s) (bs_points s)).
End BSpline.
