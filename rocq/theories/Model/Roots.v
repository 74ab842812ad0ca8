(** Model of src/roots.rs and of the private cubic solver of
    src/cubic_bezier.rs:262-363 (none of it is called by the public API at this
    commit; [roots_square] duplicates [QuadraticBezier::real_roots]). *)
From Coq Require Import ZArith List Arith Bool.
From Verif Require Import Base.Outcome Base.Scalar Model.Point Model.Line Model.Quadratic Model.Cubic.
Import ListNotations.
Local Open Scope scalar_scope.
Local Open Scope point_scope.

(** The transcendental operations, needed by Cardano's algorithm only. *)
Class ScalarTrans (T : Type) := {
  s_powf : T -> T -> T;
  s_acos : T -> T;
  s_cos : T -> T;
  s_signum : T -> T;
  s_pi_f32 : T     (* [core::f32::consts::PI.into()] (roots.rs:64, cubic_bezier.rs:270) *)
}.

Section Roots.
  Context {T P : Type} {ST : Scalar T} {TT : ScalarTrans T} {PT : Point T P}.

  (** roots.rs:22-49 *)
  Definition roots_square (a b c : T) : outcome (list T) :=
    if s_abs a <? s_eps then
      if s_abs b <? s_eps then Ret []
      else av_push 2 [] ((- c) / b)
    else
      let delta := b * b - a * c * s_lit 4 in
      if delta >? s_lit 0 then
        let sqrt_delta := s_sqrt delta in
        let! r := av_push 2 [] (((- b) - sqrt_delta) / (a * s_lit 2)) in
        av_push 2 r (((- b) + sqrt_delta) / (a * s_lit 2))
      else if s_abs delta <? s_eps then
        av_push 2 [] ((- b) / (a * s_lit 2))
      else Ret [].

  (** roots.rs:57-122 and, with identical operations, cubic_bezier.rs:262-330 *)
  Definition roots_cubic (a b c d : T) : outcome (list T) :=
    if s_abs a <? s_eps then
      if s_abs b <? s_eps then
        if s_abs c <? s_eps then Ret []
        else av_push 3 [] ((- d) / c)
      else
        let delta := c * c - b * d * s_lit 4 in
        if delta >? s_lit 0 then
          let sqrt_delta := s_sqrt delta in
          let! r := av_push 3 [] (((- c) - sqrt_delta) / (b * s_lit 2)) in
          av_push 3 r (((- c) + sqrt_delta) / (b * s_lit 2))
        else if s_abs delta <? s_eps then
          av_push 3 [] ((- c) / (b * s_lit 2))
        else Ret []
    else
      let frac_1_3 := s_lit 1 / s_lit 3 in
      let bn := b / a in
      let cn := c / a in
      let dn := d / a in
      let delta0 := (cn * s_lit 3 - bn * bn) / s_lit 9 in
      let delta1 := (bn * cn * s_lit 9 - dn * s_lit 27 - bn * bn * bn * s_lit 2) / s_lit 54 in
      let delta_01 := delta0 * delta0 * delta0 + delta1 * delta1 in
      if delta_01 >=? s_lit 0 then
        let delta_p_sqrt := delta1 + s_sqrt delta_01 in
        let delta_m_sqrt := delta1 - s_sqrt delta_01 in
        let s := s_signum delta_p_sqrt * s_powf (s_abs delta_p_sqrt) frac_1_3 in
        let t := s_signum delta_m_sqrt * s_powf (s_abs delta_m_sqrt) frac_1_3 in
        let! r := av_push 3 [] ((- bn) * frac_1_3 + (s + t)) in
        if (s_abs (s - t) <? s_eps) && (s_abs (s + t) >=? s_eps) then
          av_push 3 r ((- bn) * frac_1_3 - (s + t) / s_lit 2)
        else Ret r
      else
        let theta := s_acos (delta1 / s_sqrt ((- delta0) * delta0 * delta0)) in
        let two_sqrt_delta0 := s_sqrt (- delta0) * s_lit 2 in
        let! r := av_push 3 [] (two_sqrt_delta0 * s_cos (theta * frac_1_3) - bn * frac_1_3) in
        let! r := av_push 3 r
          (two_sqrt_delta0 * s_cos ((theta + s_lit 2 * s_pi_f32) * frac_1_3) - bn * frac_1_3) in
        av_push 3 r
          (two_sqrt_delta0 * s_cos ((theta + s_lit 4 * s_pi_f32) * frac_1_3) - bn * frac_1_3).

  (** cubic_bezier.rs:339-363 (private, unused) *)
  Definition cubic_solve_t_for_axis (self : cubic P) (value : T) (axis : nat) : outcome (list T) :=
    let! skip :=
      if cubic_is_a_point self s_eps then Ret true
      else
        let! col := cubic_are_points_colinear self s_eps in
        Ret (col && (p_sqlen (c_start self -^ c_end self) <? s_eps)) in
    if skip then Ret []
    else
      let! s := p_axis (c_start self) axis in
      let! k1 := p_axis (c_ctrl1 self) axis in
      let! k2 := p_axis (c_ctrl2 self) axis in
      let! e := p_axis (c_end self) axis in
      let a := (- s) + k1 * s_lit 3 - k2 * s_lit 3 + e in
      let b := s * s_lit 3 - k1 * s_lit 6 + k2 * s_lit 3 in
      let c := (- s) * s_lit 3 + k1 * s_lit 3 in
      let d := s - value in
      let! roots := roots_cubic a b c d in
      av_extend 3 [] (filter in_unit roots).
End Roots.
