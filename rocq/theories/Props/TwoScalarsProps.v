(** C126: a point type whose [Scalar] wraps or widens [NativeFloat].
    C127: what is lost where the library passes through [NativeFloat]. *)
From Coq Require Import Reals ZArith List Arith Bool Lia Lra.
From Flocq Require Import Core.Core.
From Verif Require Import Base.Outcome Base.Scalar Model.Point Model.Line Model.Quadratic Model.Cubic Model.Bezier
  Model.BSpline Model.Segment Model.Roots Model.TwoScalars Inst.RealInst Inst.FloatInst Inst.ExactOver Spec.Lawful Spec.Points
  Spec.Rounding Spec.Widening Proofs.TwoScalars Proofs.Narrowing.
Import ListNotations.

(** ** A wrapper around [NativeFloat] changes nothing, for every arithmetic *)
Section Newtype.
  Context {T S P : Type} {NT : Scalar T} {SS : Scalar S} {MX : Mixed T S} {PT : Point S P} {PS : Scaled T P}.
  Hypothesis H : newtype T S P.

  Theorem C126_line (l : line P) p :
    line_distance_to_point2 (T := T) l p = line_distance_to_point l p /\
    line_bounding_box2 (T := T) l = line_bounding_box l.
  Proof. exact (nt_line H l p). Qed.
  Theorem C126_quad (c : quad P) p t i n tol :
    quad_eval2 (T := T) c t = quad_eval c t /\ quad_axis2 (T := T) c t i = quad_axis c t i /\
    quad_derivative2 (T := T) c = quad_derivative c /\ quad_dd2 (T := T) c t i = quad_dd c t i /\
    quad_arclen2 (T := T) c n = quad_arclen c n /\ quad_distance_to_point2 (T := T) c p = quad_distance_to_point c p /\
    quad_is_linear2 (T := T) c tol = quad_is_linear c tol /\
    quad_solve_t_for_axis2 (T := T) c t i = quad_solve_t_for_axis c t i /\
    quad_bounding_box2 (T := T) c = quad_bounding_box c.
  Proof. exact (nt_quad H c p t i n tol). Qed.
  Theorem C126_cubic (c : cubic P) p t i n tol :
    cubic_eval2 (T := T) c t = cubic_eval c t /\ cubic_axis2 (T := T) c t i = cubic_axis c t i /\
    cubic_split2 (T := T) c t = cubic_split c t /\
    cubic_derivative2 (T := T) c = cubic_derivative c /\ cubic_dd2 (T := T) c t i = cubic_dd c t i /\
    cubic_arclen2 (T := T) c n = cubic_arclen c n /\ cubic_distance_to_point2 (T := T) c p = cubic_distance_to_point c p /\
    cubic_is_linear2 (T := T) c tol = cubic_is_linear c tol /\
    cubic_bounding_box2 (T := T) c = cubic_bounding_box c.
  Proof. exact (nt_cubic H c p t i n tol). Qed.
  Theorem C126_segment (s : segment P) t tol :
    segment_eval2 (T := T) s t = segment_eval s t /\ segment_split2 (T := T) s t = segment_split s t /\
    segment_is_linear2 (T := T) s tol = segment_is_linear s tol.
  Proof. exact (nt_segment H s t tol). Qed.
  Theorem C126_bezier (b : bezier P) p t n :
    bezier_eval2 (T := T) b t = bezier_eval b t /\ bezier_split2 (T := T) b t = bezier_split b t /\
    bezier_derivative2 (T := T) b = bezier_derivative b /\
    bezier_arclen2 (T := T) b n = bezier_arclen b n /\ bezier_distance_to_point2 (T := T) b p = bezier_distance_to_point b p.
  Proof. exact (nt_bezier H b p t n). Qed.
  Theorem C126_bspline (s : bspline S P) t n :
    bspline_eval2 (T := T) s t = bspline_eval s t /\ bspline_arclen2 (T := T) s n = bspline_arclen s n /\
    bspline_derivative2 (T := T) s = bspline_derivative s.
  Proof. exact (nt_bspline H s t n). Qed.
  (** the private solver of cubics, given the same constant PI *)
  Theorem C126_cubic_roots {TN : ScalarTrans T} {TS : ScalarTrans S} a b c d : m_from (s_pi_f32 : T) = s_pi_f32 :> S ->
    cubic_real_roots2 (T := T) a b c d = roots_cubic a b c d :> outcome (list S).
  Proof. exact (nt_cubic_roots H a b c d). Qed.
  Theorem C126_cubic_solve {TN : ScalarTrans T} {TS : ScalarTrans S} (c : cubic P) v i :
    m_from (s_pi_f32 : T) = s_pi_f32 :> S ->
    cubic_solve_t_for_axis2 (T := T) c v i = cubic_solve_t_for_axis c v i.
  Proof. exact (nt_cubic_solve H c v i). Qed.
End Newtype.

(** ** A scalar wider than [NativeFloat]: these functions use its full precision.  The
    degenerate cases are decided by [NativeFloat]'s epsilon. *)
Section Wider.
  Context {T S P : Type} {NT : Scalar T} {SS : Scalar S} {MX : Mixed T S} {PT : Point S P} {PS : Scaled T P}.
  Hypothesis W : widening T S P.
  Local Notation SE := (with_eps SS (m_from (s_eps : T))).

  Theorem C126_wider_line (l : line P) p :
    line_distance_to_point2 (T := T) l p = line_distance_to_point (ST := SE) l p /\
    line_bounding_box2 (T := T) l = line_bounding_box l.
  Proof. exact (conj (w_line_distance W l p) (w_line_box W l)). Qed.
  Theorem C126_wider_quad (c : quad P) p t i tol :
    quad_eval2 (T := T) c t = quad_eval c t /\ quad_axis2 (T := T) c t i = quad_axis c t i /\
    quad_derivative2 (T := T) c = quad_derivative c /\
    quad_distance_to_point2 (T := T) c p = quad_distance_to_point c p /\
    quad_is_linear2 (T := T) c tol = quad_is_linear (ST := SE) c tol /\
    quad_bounding_box2 (T := T) c = quad_bounding_box (ST := SE) c.
  Proof.
    exact (conj (w_quad_eval W c t) (conj (w_quad_axis W c t i) (conj (w_quad_derivative W c)
      (conj (w_quad_distance W c p) (conj (w_quad_is_linear W c tol) (w_quad_box W c)))))).
  Qed.
  Theorem C126_wider_cubic (c : cubic P) p t i :
    cubic_eval2 (T := T) c t = cubic_eval c t /\ cubic_axis2 (T := T) c t i = cubic_axis c t i /\
    cubic_derivative2 (T := T) c = cubic_derivative c /\ cubic_dd2 (T := T) c t i = cubic_dd c t i /\
    cubic_distance_to_point2 (T := T) c p = cubic_distance_to_point c p /\
    cubic_bounding_box2 (T := T) c = cubic_bounding_box (ST := SE) c.
  Proof.
    exact (conj (w_cubic_eval W c t) (conj (w_cubic_axis W c t i) (conj (w_cubic_derivative W c)
      (conj (w_cubic_dd W c t i) (conj (w_cubic_distance W c p) (w_cubic_box W c)))))).
  Qed.
  (** cubic_bezier.rs:233 asks for the epsilon of the scalar itself, the distances below it for
      that of [NativeFloat] *)
  Theorem C126_wider_cubic_is_linear (c : cubic P) tol :
    cubic_is_linear2 (T := T) c tol =
    if s_ltb (p_sqlen (p_sub (c_start c) (c_end c))) s_eps then Ret false
    else cubic_are_points_colinear (ST := SE) c tol.
  Proof. exact (w_cubic_is_linear W c tol). Qed.
  Theorem C126_wider_bezier (b : bezier P) p t :
    bezier_eval2 (T := T) b t = bezier_eval b t /\ bezier_split2 (T := T) b t = bezier_split b t /\
    bezier_distance_to_point2 (T := T) b p = bezier_distance_to_point b p.
  Proof. exact (conj (w_bezier_eval W b t) (conj (w_bezier_split W b t) (w_bezier_distance W b p))). Qed.
End Wider.

(** exact coordinates over f32, f64 or any format with at least 13 bits of exponent range are
    wider than it *)
Theorem C126_exact {F : Format} {E : Eps} {P : Type} {PT : Point R P} : (13 <= femax)%Z -> widening float R P.
Proof. exact (fun H => exact_widening H). Qed.

(** ** C127: a scalar wider than [NativeFloat] keeps its precision everywhere.
    Full statement: [cubic_split2 c t = cubic_split c t], [quad_dd2 c t i = quad_dd c t i] and
    [bspline_eval2 s t = bspline_eval s t] under [widening].  All three fail, because the code
    takes [t.into()] first; what holds instead is a bound by the rounding of [NativeFloat]. *)
Section Lost.
  Context {F : Format} {E : Eps} {P : Type} {PT : Point R P} {LP : LawfulPoint P}.
  Local Open Scope R_scope.

  (** the split happens at the float nearest to [t] *)
  Theorem C127_split_partial (c : cubic P) t : 0 <= t <= 1 -> exists n : float,
    Rabs (val n - t) <= uro * t + eta /\ cubic_split2 (T := float) c t = cubic_split c (val n).
  Proof. exact (fun Ht => ex_intro _ (narrow t) (conj (narrow_close t Ht) (cubic_split_narrow c t))). Qed.
  Theorem C127_dd_partial (q : quad P) t i M : 0 <= t <= 1 -> (i < p_dim (P := P))%nat ->
    (forall p, In p (quad_control_points q) -> Rabs (coord p i) <= M) ->
    exists x, quad_dd2 (T := float) q t i = Ret x /\
      Rabs (x - (2 * (1 - t) * (coord (q_ctrl q) i - coord (q_start q) i) + 2 * t * (coord (q_end q) i - coord (q_ctrl q) i)))
      <= (12 * uro + 8 * eta) * M.
  Proof. exact (quad_dd_narrow q t i M). Qed.
  (** one rounded weight per level *)
  Theorem C127_bspline_partial D ks (ps : list P) s M t : bspline_new D ks ps = Ret (Ok s) -> bs_kind s <> Unclamped ->
    nth D ks 0 <= t <= nth (length ps) ks 0 ->
    (forall p i, In p ps -> (i < p_dim (P := P))%nat -> Rabs (coord p i) <= M) ->
    exists p p2, bspline_eval s t = Ret (Ok p) /\ bspline_eval2 (T := float) s t = Ret (Ok p2) /\
      forall i, (i < p_dim (P := P))%nat -> Rabs (coord p2 i - coord p i) <= ((1 + (2 * uro + eta)) ^ D - 1) * M.
  Proof. exact (spline_narrow D ks ps s M t). Qed.
End Lost.

(** at a third, in every format: the halves of a cubic do not meet on it ... *)
Theorem C127_split_refuted {F : Format} {E : Eps} : exists (c : cubic P1) t, (0 < t < 1)%R /\
  c_end (fst (cubic_split2 (T := float) c t)) <> cubic_eval2 (T := float) c t.
Proof. exact split_misses. Qed.
(** ... and a B-spline with both control points equal leaves that point *)
Theorem C127_bspline_refuted {F : Format} {E : Eps} : (eps < 1 / 3)%R -> exists s : bspline R P1, exists t p p2,
  bspline_new 1 [0; 0; 1; 1]%R [pt1 1; pt1 1] = Ret (Ok s) /\ (0 < t < 1)%R /\
  bspline_eval s t = Ret (Ok p) /\ bspline_eval2 (T := float) s t = Ret (Ok p2) /\ p <> p2.
Proof. exact spline_misses. Qed.

(** ** A unit of measure around a float of any format, and points made of it *)
Record metre (T : Type) := Metre { in_metre : T }.
Arguments Metre {T}. Arguments in_metre {T}.
Section Metre.
  Context {T : Type} {NT : Scalar T}.
  Local Open Scope scalar_scope.
  Definition op2 (f : T -> T -> T) (a b : metre T) : metre T := Metre (f (in_metre a) (in_metre b)).
  Definition rel2 (f : T -> T -> bool) (a b : metre T) : bool := f (in_metre a) (in_metre b).
  Local Instance metre_scalar : Scalar (metre T) := {|
    s_add := op2 s_add; s_sub := op2 s_sub; s_mul := op2 s_mul; s_div := op2 s_div;
    s_neg a := Metre (s_neg (in_metre a)); s_abs a := Metre (s_abs (in_metre a)); s_sqrt a := Metre (s_sqrt (in_metre a));
    s_ltb := rel2 s_ltb; s_leb := rel2 s_leb; s_eqb := rel2 s_eqb; s_is_nan a := s_is_nan (in_metre a);
    s_lit z := Metre (s_lit z); s_half := Metre s_half; s_of_usize n := Metre (s_of_usize n); s_eps := Metre s_eps |}.
  Local Instance metre_mixed : Mixed T (metre T) := {|
    m_from := Metre; m_into := in_metre;
    m_add a c := op2 s_add a (Metre c); m_sub a c := op2 s_sub a (Metre c);
    m_mul a c := op2 s_mul a (Metre c); m_div a c := op2 s_div a (Metre c); m_default := Metre (s_lit 0) |}.
  Local Instance metre_scaled : Scaled T (PointN (metre T) 2) := {| p_scale p c := p_mul p (Metre c) |}.
  Example C126_metre : newtype T (metre T) (PointN (metre T) 2).
  Proof.
    constructor; try reflexivity.
    - constructor; reflexivity.
    - intros []. reflexivity.
  Qed.
End Metre.
(** a cubic of exact coordinates over f64, cut at a third *)
Local Existing Instances Binary64 Eps64.
Example C127_third : exists n : float, (Rabs (val n - 1 / 3) <= uro * (1 / 3) + eta)%R /\
  cubic_split2 (T := float) (Cubic (pt1 0) (pt1 1) (pt1 2) (pt1 3)) (1 / 3)%R
  = cubic_split (Cubic (pt1 0) (pt1 1) (pt1 2) (pt1 3)) (val n).
Proof. apply C127_split_partial. lra. Qed.
Example C126_exact64 : widening float R P2.
Proof. apply C126_exact. cbn. lia. Qed.

Print Assumptions C126_line.
Print Assumptions C126_quad.
Print Assumptions C126_cubic.
Print Assumptions C126_segment.
Print Assumptions C126_bezier.
Print Assumptions C126_bspline.
Print Assumptions C126_cubic_roots.
Print Assumptions C126_cubic_solve.
Print Assumptions C126_wider_line.
Print Assumptions C126_wider_quad.
Print Assumptions C126_wider_cubic.
Print Assumptions C126_wider_cubic_is_linear.
Print Assumptions C126_wider_bezier.
Print Assumptions C126_exact.
Print Assumptions C127_split_partial.
Print Assumptions C127_dd_partial.
Print Assumptions C127_bspline_partial.
Print Assumptions C127_split_refuted.
Print Assumptions C127_bspline_refuted.
