(** C25-C33: generic Bezier curves with any number of control points. *)
From Coq Require Import Reals List Arith Lia Lra.
From Verif Require Import Base.Outcome Base.Scalar Model.Point Model.Line Model.Quadratic Model.Cubic
  Model.Bezier Model.Segment Inst.RealInst Spec.Sums Spec.Lawful Spec.Bernstein Spec.Metric Spec.Hull Spec.Points Spec.Segments
  Proofs.PointFacts Proofs.ExactEval Proofs.BezierGeneric Proofs.BezierReal Proofs.BoxSpec Proofs.CurveMisc.
Import ListNotations.
Local Open Scope R_scope.

(** ** Any scalar type: floats included *)
Section Generic.
  Context {T P : Type} {ST : Scalar T} {PT : Point T P}.

  (** C25 *)
  Theorem C25_quad_control_points (c : quad P) :
    exists a b d, quad_control_points c = [a; b; d] /\ c = Quad a b d.
  Proof. exact (quad_rebuild c). Qed.
  Theorem C25_cubic_control_points (c : cubic P) :
    exists a b d e, cubic_control_points c = [a; b; d; e] /\ c = Cubic a b d e.
  Proof. exact (cubic_rebuild c). Qed.
  Theorem C25_bezier_control_points (c : bezier P) : Bezier (bezier_control_points c) = c.
  Proof. exact (bezier_rebuild c). Qed.

  (** C30.  Full statement: for every list of control points [eval], [split] and
      [derivative] return.  True from two control points on; false below, see
      the two refutations. *)
  Theorem C30_no_panic_partial (ps : list P) t : (2 <= length ps)%nat ->
    (exists x, bezier_eval (Bezier ps) t = Ret x) /\
    (exists l r, bezier_split (Bezier ps) t = Ret (Bezier l, Bezier r)) /\
    (exists qs, bezier_derivative (Bezier ps) = Ret (Bezier qs)).
  Proof. exact (bezier_total ps t). Qed.
  Theorem C30_one_point_partial (p : P) t :
    bezier_eval (Bezier [p]) t = Ret p /\
    bezier_split (Bezier [p]) t = Ret (Bezier [p], Bezier [p]).
  Proof. exact (bezier_one p t). Qed.
  Theorem C30_derivative_refuted (p : P) : bezier_derivative (Bezier [p]) = Panic.
  Proof. exact (bezier_derivative_one p). Qed.
  Theorem C30_eval_refuted t : bezier_eval (Bezier (@nil P)) t = Panic.
  Proof. exact (bezier_eval_nil t). Qed.
End Generic.

(** ** Exact arithmetic *)
Section Exact.
  Context {E : Eps} {P : Type} {PT : Point R P} {LP : LawfulPoint P}.

  (** C25 *)
  Theorem C25_quad_baseline (c : quad P) : quad_baseline c = Line (quad_eval c 0) (quad_eval c 1).
  Proof. exact (quad_baseline_ends c). Qed.
  Theorem C25_cubic_baseline (c : cubic P) : cubic_baseline c = Line (cubic_eval c 0) (cubic_eval c 1).
  Proof. exact (cubic_baseline_ends c). Qed.

  (** C26 *)
  Theorem C26_eval (ps : list P) t : ps <> [] ->
    exists x, bezier_eval (Bezier ps) t = Ret x /\
      forall i, (i < p_dim (P := P))%nat -> coord x i = curve_coord ps t i.
  Proof. exact (bezier_eval_spec ps t). Qed.

  (** C27 *)
  Theorem C27_start (p : P) (ps : list P) : bezier_eval (Bezier (p :: ps)) 0 = Ret p.
  Proof. exact (bezier_eval_0 p ps). Qed.
  Theorem C27_end (ps : list P) (p : P) : bezier_eval (Bezier (ps ++ [p])) 1 = Ret p.
  Proof. exact (bezier_eval_1 ps p). Qed.

  (** C28 *)
  Theorem C28_split (ps : list P) t : ps <> [] ->
    exists l r, bezier_split (Bezier ps) t = Ret (Bezier l, Bezier r) /\
      length l = length ps /\ length r = length ps /\
      forall u, bezier_eval (Bezier l) u = bezier_eval (Bezier ps) (t * u) /\
                bezier_eval (Bezier r) u = bezier_eval (Bezier ps) (t + u * (1 - t)).
  Proof. exact (bezier_split_spec ps t). Qed.

  (** C29 *)
  Theorem C29_derivative (ps : list P) : (2 <= length ps)%nat ->
    exists qs, bezier_derivative (Bezier ps) = Ret (Bezier qs) /\
      length qs = (length ps - 1)%nat /\
      (forall t, exists x, bezier_eval (Bezier qs) t = Ret x /\
        forall i, (i < p_dim (P := P))%nat ->
          derivable_pt_lim (fun t => curve_coord ps t i) t (coord x i)).
  Proof. exact (bezier_derivative_spec ps). Qed.

  (** C31 *)
  Theorem C31_eval_line (a b : P) t : bezier_eval (Bezier [a; b]) t = Ret (line_eval (Line a b) t).
  Proof. exact (bezier_eval_line a b t). Qed.
  Theorem C31_eval_quad (a b c : P) t :
    bezier_eval (Bezier [a; b; c]) t = Ret (quad_eval (Quad a b c) t).
  Proof. exact (bezier_eval_quad a b c t). Qed.
  Theorem C31_eval_cubic (a b c d : P) t :
    bezier_eval (Bezier [a; b; c; d]) t = Ret (cubic_eval (Cubic a b c d) t).
  Proof. exact (bezier_eval_cubic a b c d t). Qed.
  Theorem C31_split_quad (a b c : P) t :
    let (l, r) := quad_split (Quad a b c) t in
    bezier_split (Bezier [a; b; c]) t
    = Ret (Bezier (quad_control_points l), Bezier (quad_control_points r)).
  Proof. exact (bezier_split_quad a b c t). Qed.
  Theorem C31_split_cubic (a b c d : P) t :
    let (l, r) := cubic_split (Cubic a b c d) t in
    bezier_split (Bezier [a; b; c; d]) t
    = Ret (Bezier (cubic_control_points l), Bezier (cubic_control_points r)).
  Proof. exact (bezier_split_cubic a b c d t). Qed.
  Theorem C31_derivative_line (a b : P) :
    bezier_derivative (Bezier [a; b]) = Ret (Bezier [line_derivative (Line a b)]).
  Proof. exact (bezier_derivative_line a b). Qed.
  Theorem C31_derivative_quad (a b c : P) :
    bezier_derivative (Bezier [a; b; c])
    = Ret (Bezier [l_start (quad_derivative (Quad a b c)); l_end (quad_derivative (Quad a b c))]).
  Proof. exact (bezier_derivative_quad a b c). Qed.
  Theorem C31_derivative_cubic (a b c d : P) :
    bezier_derivative (Bezier [a; b; c; d])
    = Ret (Bezier (quad_control_points (cubic_derivative (Cubic a b c d)))).
  Proof. exact (bezier_derivative_cubic a b c d). Qed.

  (** C32 *)
  Theorem C32_hull (ps : list P) t x : 0 <= t <= 1 ->
    bezier_eval (Bezier ps) t = Ret x -> in_hull ps x.
  Proof. exact (bezier_hull ps t x). Qed.
  Theorem C32_segment_hull (s : segment P) t : 0 <= t <= 1 ->
    in_hull (segment_points s) (segment_eval s t).
  Proof. exact (segment_hull s t). Qed.
  Theorem C32_box (ps : list P) x i lo hi : (i < p_dim (P := P))%nat -> in_hull ps x ->
    (forall p, In p ps -> lo <= coord p i <= hi) -> lo <= coord x i <= hi.
  Proof. exact (hull_box ps x i lo hi). Qed.

  (** C33 *)
  Theorem C33_affine A b (ps qs : list P) t x y :
    length ps = length qs ->
    (forall k, (k < length ps)%nat ->
       affine_image A b (nth k ps p_default) (nth k qs p_default)) ->
    bezier_eval (Bezier ps) t = Ret x -> bezier_eval (Bezier qs) t = Ret y ->
    affine_image A b x y.
  Proof. exact (bezier_affine A b ps qs t x y). Qed.
  Theorem C33_reverse (ps : list P) t :
    bezier_eval (Bezier (rev ps)) t = bezier_eval (Bezier ps) (1 - t).
  Proof. exact (bezier_reverse ps t). Qed.
End Exact.

(** a curve of degree 4 in the plane *)
Example C26_ex {E : Eps} :
  let ps := [pt2 0 0; pt2 1 4; pt2 2 0; pt2 3 4; pt2 4 0] in
  ps <> [] /\ (2 <= length ps)%nat /\ curve_coord ps (1/2) 1 = 2.
Proof.
  split; [discriminate|]. split; [simpl; lia|].
  unfold curve_coord, bezier_poly, bernstein.
  cbn [map length Nat.sub Rsum nth binom Nat.add coord PointN_lawful pn_arr pt2 pt]. simpl. field.
Qed.
(** two curves related by a shear and a translation *)
Example C33_ex {E : Eps} :
  let A := fun i j => if (i =? j)%nat then 1 else if (i =? 0)%nat then 2 else 0 in
  let b := fun i => if (i =? 0)%nat then 10 else 20 in
  forall k, (k < 2)%nat ->
    affine_image A b (nth k [pt2 0 0; pt2 1 3] p_default) (nth k [pt2 10 20; pt2 17 23] p_default).
Proof.
  intros A b k Hk j Hj. cbn in Hj.
  destruct k as [|[|k]]; [| |lia]; destruct j as [|[|j]]; try lia; cbn; lra.
Qed.

Print Assumptions C25_quad_control_points.
Print Assumptions C25_cubic_control_points.
Print Assumptions C25_bezier_control_points.
Print Assumptions C25_quad_baseline.
Print Assumptions C25_cubic_baseline.
Print Assumptions C26_eval.
Print Assumptions C27_start.
Print Assumptions C27_end.
Print Assumptions C28_split.
Print Assumptions C29_derivative.
Print Assumptions C30_no_panic_partial.
Print Assumptions C30_one_point_partial.
Print Assumptions C30_derivative_refuted.
Print Assumptions C30_eval_refuted.
Print Assumptions C31_eval_line.
Print Assumptions C31_eval_quad.
Print Assumptions C31_eval_cubic.
Print Assumptions C31_split_quad.
Print Assumptions C31_split_cubic.
Print Assumptions C31_derivative_line.
Print Assumptions C31_derivative_quad.
Print Assumptions C31_derivative_cubic.
Print Assumptions C32_hull.
Print Assumptions C32_segment_hull.
Print Assumptions C32_box.
Print Assumptions C33_affine.
Print Assumptions C33_reverse.
