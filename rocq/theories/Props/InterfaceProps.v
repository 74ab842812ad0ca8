(** C125: points and coordinates of the user's own. *)
From Coq Require Import Reals ZArith List Arith Bool Lia Lra.
From Verif Require Import Base.Outcome Base.Scalar Model.Point Model.Line Model.Quadratic Model.Cubic Model.Bezier
  Model.BSpline Model.Segment Model.Coordinates Inst.RealInst Spec.Points Spec.Related Spec.Equality Spec.Interface
  Proofs.Interface.
Import ListNotations.

(** "This type only interacts with the library through the point trait" (point_generic.rs:12-14):
    two point types that behave the same through the trait give the same results, for every
    arithmetic of the scalars, rounded or exact *)
Section Interchange.
  Context {T P Q : Type} {ST : Scalar T} {PT : Point T P} {QT : Point T Q} {R : P -> Q -> Prop}.
  Variable H : interchangeable R.

  Theorem C125_line (l : line P) (m : line Q) (p : P) (q : Q) t i : related_lines R l m -> R p q ->
    R (line_eval l t) (line_eval m t) /\
    related_pairs (related_lines R) (related_lines R) (line_split l t) (line_split m t) /\
    R (line_derivative l) (line_derivative m) /\
    line_axis l t i = line_axis m t i /\
    line_distance_to_point l p = line_distance_to_point m q /\
    line_bounding_box l = line_bounding_box m.
  Proof. exact (ic_line H l m p q t i). Qed.

  Theorem C125_quad (l : quad P) (m : quad Q) (p : P) (q : Q) t i n tol : related_quads R l m -> R p q ->
    R (quad_eval l t) (quad_eval m t) /\ R (quad_eval_casteljau l t) (quad_eval_casteljau m t) /\
    related_pairs (related_quads R) (related_quads R) (quad_split l t) (quad_split m t) /\
    related_lines R (quad_derivative l) (quad_derivative m) /\
    quad_axis l t i = quad_axis m t i /\ quad_dd l t i = quad_dd m t i /\
    quad_arclen l n = quad_arclen m n /\ quad_distance_to_point l p = quad_distance_to_point m q /\
    quad_is_linear l tol = quad_is_linear m tol /\ quad_is_a_point l tol = quad_is_a_point m tol /\
    quad_solve_t_for_axis l t i = quad_solve_t_for_axis m t i /\
    quad_bounding_box l = quad_bounding_box m.
  Proof. exact (ic_quad H l m p q t i n tol). Qed.

  Theorem C125_cubic (l : cubic P) (m : cubic Q) (p : P) (q : Q) t i n tol : related_cubics R l m -> R p q ->
    R (cubic_eval l t) (cubic_eval m t) /\ R (cubic_eval_casteljau l t) (cubic_eval_casteljau m t) /\
    related_pairs (related_cubics R) (related_cubics R) (cubic_split l t) (cubic_split m t) /\
    related_quads R (cubic_derivative l) (cubic_derivative m) /\
    cubic_axis l t i = cubic_axis m t i /\ cubic_dd l t i = cubic_dd m t i /\
    cubic_arclen l n = cubic_arclen m n /\ cubic_distance_to_point l p = cubic_distance_to_point m q /\
    cubic_is_linear l tol = cubic_is_linear m tol /\ cubic_is_a_point l tol = cubic_is_a_point m tol /\
    cubic_bounding_box l = cubic_bounding_box m.
  Proof. exact (ic_cubic H l m p q t i n tol). Qed.

  Theorem C125_bezier (l : bezier P) (m : bezier Q) (p : P) (q : Q) t n : related_beziers R l m -> R p q ->
    related R (bezier_eval l t) (bezier_eval m t) /\
    related (related_pairs (related_beziers R) (related_beziers R)) (bezier_split l t) (bezier_split m t) /\
    related (related_beziers R) (bezier_derivative l) (bezier_derivative m) /\
    bezier_arclen l n = bezier_arclen m n /\ bezier_distance_to_point l p = bezier_distance_to_point m q.
  Proof. exact (ic_bezier H l m p q t n). Qed.

  Theorem C125_segment (l : segment P) (m : segment Q) t tol : related_segments R l m ->
    R (segment_eval l t) (segment_eval m t) /\
    related_pairs (related_segments R) (related_segments R) (segment_split l t) (segment_split m t) /\
    segment_is_linear l tol = segment_is_linear m tol.
  Proof. exact (ic_segment H l m t tol). Qed.

  Theorem C125_new D ks (ps : list P) (qs : list Q) : Forall2 R ps qs ->
    related (related_results (related_splines R)) (bspline_new D ks ps) (bspline_new D ks qs).
  Proof. exact (ic_new D ks ps qs). Qed.
  Theorem C125_bspline (l : bspline T P) (m : bspline T Q) t n : related_splines R l m ->
    knot_domain l = knot_domain m /\
    related (related_results R) (bspline_eval l t) (bspline_eval m t) /\
    related (related_splines R) (bspline_derivative l) (bspline_derivative m) /\
    bspline_arclen l n = bspline_arclen m n.
  Proof. exact (ic_bspline H l m t n). Qed.
End Interchange.

(** [PointN] over coordinates whose conversion to [NativeFloat] respects + - * behaves like
    [PointN<NativeFloat, N>] on the converted coordinates *)
Theorem C125_converted {T U : Type} {ST : Scalar T} {CU : Coordinate T U} {N : nat} : faithful T U ->
  interchangeable (converted (T := T) (U := U) (N := N)).
Proof. exact converted_ic. Qed.

(** [==] of two points is [==] of all their coordinates, in order *)
Theorem C125_equality {T U : Type} {ST : Scalar T} {CU : Coordinate T U} {N : nat} (p q : PointN U N) :
  p_eqb p q = true <-> Forall2 (fun x y => u_eqb x y = true) (pn_arr p) (pn_arr q).
Proof. exact (pu_eqb_iff p q). Qed.

(** without that, not even [squared_length] and [axis] of a point have to fit together: integers
    that saturate at 100 *)
Definition sat (z : Z) : Z := Z.max (-100) (Z.min 100 z).
Definition Saturating {E : Eps} : Coordinate R Z := {|
  u_add x y := sat (x + y); u_sub x y := sat (x - y); u_mul x y := sat (x * y);
  u_scale x t := sat (up (IZR x * t) - 1); u_eqb := Z.eqb; u_default := 0%Z; u_into := IZR |}.
Theorem C125_unfaithful_refuted {E : Eps} : exists p : PointN Z 1,
  p_axis (Point := PointU_Point (CU := Saturating)) p 0 = Ret 20%R /\
  p_sqlen (Point := PointU_Point (CU := Saturating)) p = 100%R.
Proof.
  exists (@mkPointN Z 1 [20%Z] eq_refl). split; [reflexivity|]. cbn. lra.
Qed.

(** ** A vector type as found in graphics crates *)
Record vec2 (T : Type) := Vec2 { vx : T; vy : T }.
Arguments Vec2 {T}. Arguments vx {T}. Arguments vy {T}.
Section Vec2.
  Context {T : Type} {ST : Scalar T}.
  Local Open Scope scalar_scope.
  Definition vec2_point : Point T (vec2 T) := {|
    p_add a b := Vec2 (vx a + vx b) (vy a + vy b);
    p_sub a b := Vec2 (vx a - vx b) (vy a - vy b);
    p_mul a t := Vec2 (vx a * t) (vy a * t);
    p_eqb a b := (vx a =? vx b) && (vy a =? vy b);
    p_default := Vec2 (s_lit 0) (s_lit 0);
    p_dim := 2;
    p_axis a i := match i with O => Ret (vx a) | 1%nat => Ret (vy a) | _ => Panic end;
    p_sqlen a := s_lit 0 + vx a * vx a + vy a * vy a |}.
  Example C125_vec2 : interchangeable (PT := vec2_point) (fun (v : vec2 T) (p : PointN T 2) => pn_arr p = [vx v; vy v]).
  Proof.
    constructor; cbn.
    - reflexivity.
    - reflexivity.
    - intros p p' q q' Hp Hq. rewrite Hp, Hq. reflexivity.
    - intros p p' q q' Hp Hq. rewrite Hp, Hq. reflexivity.
    - intros p p' t Hp. rewrite Hp. reflexivity.
    - intros p p' i Hp. unfold pn_axis. rewrite Hp. destruct i as [|[|[|i]]]; reflexivity.
    - intros p p' Hp. unfold pn_sqlen. rewrite Hp. reflexivity.
  Qed.
  (** and a newtype around a float is a faithful coordinate *)
  Record metres := Metres { in_metres : T }.
  Definition metres_coord : Coordinate T metres := {|
    u_add a b := Metres (in_metres a + in_metres b); u_sub a b := Metres (in_metres a - in_metres b);
    u_mul a b := Metres (in_metres a * in_metres b); u_scale a t := Metres (in_metres a * t);
    u_eqb a b := in_metres a =? in_metres b; u_default := Metres (s_lit 0); u_into := in_metres |}.
  Example C125_metres : faithful T metres (CU := metres_coord).
  Proof. constructor; reflexivity. Qed.
End Vec2.

Print Assumptions C125_line.
Print Assumptions C125_quad.
Print Assumptions C125_cubic.
Print Assumptions C125_bezier.
Print Assumptions C125_segment.
Print Assumptions C125_new.
Print Assumptions C125_bspline.
Print Assumptions C125_converted.
Print Assumptions C125_equality.
Print Assumptions C125_unfaithful_refuted.
