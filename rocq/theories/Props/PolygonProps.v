(** C136: how far a curve can be from its control polygon, parameter by parameter: control point k at
    k/n, control point k of a B-spline at the mean of the D knots after knot k. *)
From Coq Require Import Reals List Arith Lia Lra.
From Verif Require Import Base.Outcome Base.Scalar Model.Point Model.Line Model.Quadratic Model.Cubic Model.Bezier
  Model.BSpline Model.Repairs Inst.RealInst
  Spec.Sums Spec.Lawful Spec.Bernstein Spec.Basis Spec.Blossom Spec.Subdivision Spec.SplinePoints Spec.Polygon Spec.Points
  Proofs.PointFacts Proofs.RealTac Proofs.Metric Proofs.CurveCalc Proofs.BoxSpec Proofs.BSplineEval Proofs.SplineOrder Proofs.SplineBend Proofs.Polygon.
Import ListNotations.
Local Open Scope R_scope.

Section Bezier.
  Context {E : Eps} {P : Type} {PT : Point R P} {LP : LawfulPoint P}.

  (** against the line through any two neighbouring control points *)
  Theorem C136_leg ps k p q t S : bend_bound ps S -> nth_error ps k = Some p -> nth_error ps (k + 1) = Some q -> 0 <= t <= 1 ->
    let n := INR (length ps - 1) in let u := n * t - INR k in
    exists x, bezier_eval (Bezier ps) t = Ret x /\ dist x (line_eval (Line p q) u) <= S * (n * (t * (1 - t)) - u * (1 - u)).
  Proof. exact (bezier_polygon_gap ps k p q t S). Qed.

  (** against the polygon *)
  Theorem C136_bezier ps t S : bend_bound ps S -> (2 <= length ps)%nat -> 0 <= t <= 1 -> let n := (length ps - 1)%nat in
    exists x k p q u, bezier_eval (Bezier ps) t = Ret x /\
      nth_error ps k = Some p /\ nth_error ps (k + 1) = Some q /\ 0 <= u <= 1 /\ INR n * t = INR k + u /\
      dist x (line_eval (Line p q) u) <= S * (INR (n / 2 * (n - n / 2)) / INR n).
  Proof.
    intros Hb H2 Ht n. destruct (halved_near ps 0 S Hb H2) as (l & El & _ & H). injection El as <-.
    destruct (H 0%nat _ t eq_refl Ht) as (x & k & p & q & u & A1 & A2). exists x, k, p, q, u.
    replace ((INR 0 + t) / 2 ^ 0) with t in A1 by (simpl; field). replace (S / 4 ^ 0) with S in A2 by (simpl; field). now split.
  Qed.
  Theorem C136_quad (c : quad P) t S : bend_bound (quad_control_points c) S -> 0 <= t <= 1 ->
    exists k p q u, nth_error (quad_control_points c) k = Some p /\ nth_error (quad_control_points c) (k + 1) = Some q /\
      0 <= u <= 1 /\ 2 * t = INR k + u /\ dist (quad_eval c t) (line_eval (Line p q) u) <= S / 2.
  Proof.
    intros Hb Ht. destruct (traced_near _ _ t S (traces_quad c) Hb ltac:(cbn; lia) Ht) as (k & p & q & u & A1 & A2 & A3 & A4 & A5).
    exists k, p, q, u. cbn in A4, A5. split; [exact A1|]. split; [exact A2|]. split; [exact A3|]. split; [lra|]. eapply Rle_trans; [exact A5|]. right. field.
  Qed.
  Theorem C136_cubic (c : cubic P) t S : bend_bound (cubic_control_points c) S -> 0 <= t <= 1 ->
    exists k p q u, nth_error (cubic_control_points c) k = Some p /\ nth_error (cubic_control_points c) (k + 1) = Some q /\
      0 <= u <= 1 /\ 3 * t = INR k + u /\ dist (cubic_eval c t) (line_eval (Line p q) u) <= 2 * S / 3.
  Proof.
    intros Hb Ht. destruct (traced_near _ _ t S (traces_cubic c) Hb ltac:(cbn; lia) Ht) as (k & p & q & u & A1 & A2 & A3 & A4 & A5).
    exists k, p, q, u. cbn in A4, A5. split; [exact A1|]. split; [exact A2|]. split; [exact A3|]. split; [lra|]. eapply Rle_trans; [exact A5|]. right. field.
  Qed.

  (** the polygons of the pieces after [r] rounds of [split(1/2)] close in on the curve *)
  Theorem C136_halved ps r S : bend_bound ps S -> (2 <= length ps)%nat -> let n := (length ps - 1)%nat in
    exists l, halved (fun c => bezier_split c (/ 2)) r (Bezier ps) = Ret l /\ length l = (2 ^ r)%nat /\
      forall i c v, nth_error l i = Some c -> 0 <= v <= 1 ->
        exists x k p q u, bezier_eval (Bezier ps) ((INR i + v) / 2 ^ r) = Ret x /\
          nth_error (bz_points c) k = Some p /\ nth_error (bz_points c) (k + 1) = Some q /\ 0 <= u <= 1 /\ INR n * v = INR k + u /\
          dist x (line_eval (Line p q) u) <= S / 4 ^ r * (INR (n / 2 * (n - n / 2)) / INR n).
  Proof. exact (halved_near ps r S). Qed.

  (** no smaller bound holds: the control values 0, 1, 4, ..., n^2 *)
  Theorem C136_attained n k t : (k < n)%nat -> let u := INR n * t - INR k in let ps := map (fun j => pt1 (INR j * INR j)) (seq 0 (n + 1)) in
    bend_bound ps 1 /\ exists x, bezier_eval (Bezier ps) t = Ret x /\
      coord x 0 - coord (line_eval (Line (pt1 (INR k * INR k)) (pt1 (INR (k + 1) * INR (k + 1)))) u) 0 = INR n * (t * (1 - t)) - u * (1 - u).
  Proof. intros Hk. split; [exact (squares_bend n)|exact (squares_gap n k t Hk)]. Qed.
End Bezier.

Section Spline.
  Context {E : Eps} {P : Type} {PT : Point R P} {LP : LawfulPoint P}.
  Variables (D : nat) (ks : list R) (ps : list P) (S : R).
  Local Notation C := (length ps).
  Local Notation U i := (nth i ks 0).
  Local Notation V := (fun m => nth m ks 0).
  Local Notation x := (greville V D).
  Hypothesis HD : (1 <= D)%nat.
  (** no D inner knots coincide; neighbouring legs differ in slope by at most S times ... *)
  Hypotheses (Hgap : forall j, (j + 1 < C)%nat -> U (j + 1) < U (j + D + 1)) (Hb : slope_bound x ps S).

  Theorem C136_spline_leg t p k a b : sorted ks -> length ks = (C + D + 1)%nat -> (D < C)%nat ->
    U D <= t < U C -> curve_point D ks ps t p -> nth_error ps k = Some a -> nth_error ps (k + 1) = Some b ->
    dist p (line_eval (Line a b) ((t - x k) / (x (k + 1)%nat - x k)))
      <= S * (Rsum (fun j => basis V D j t * ((x j - t) * (x j - t))) C + (t - x k) * (t - x (k + 1)%nat)).
  Proof. intros Hs HK HC. exact (spline_polygon D ks ps S Hs HK HC HD Hgap Hb t p k a b). Qed.
  Theorem C136_spline t p m : sorted ks -> length ks = (C + D + 1)%nat -> (D <= m < C)%nat ->
    U m <= t < U (m + 1) -> 0 <= S -> curve_point D ks ps t p ->
    exists k a b u, nth_error ps k = Some a /\ nth_error ps (k + 1) = Some b /\ 0 <= u <= 1 /\ t = (1 - u) * x k + u * x (k + 1)%nat /\
      dist p (line_eval (Line a b) u) <= S * ((U (m + D) - U (m + 1 - D)) * (U (m + D) - U (m + 1 - D))).
  Proof. intros Hs HK Hm. exact (spline_near D ks ps S Hs HK ltac:(lia) HD Hgap Hb t p m Hm). Qed.

  Variable s : bspline R P.
  Hypothesis Hnew : bspline_new D ks ps = Ret (Ok s).
  (** the code at the knots *)
  Theorem C136_at_knots p m : bs_kind s <> Unclamped ->
    (forall i j, (i < j < length ks)%nat -> U i < U j -> eps <= U j - U i) ->
    (D <= m < C)%nat -> U m < U (m + 1) -> 0 <= S -> bspline_eval s (U m) = Ret (Ok p) ->
    exists k a b u, nth_error ps k = Some a /\ nth_error ps (k + 1) = Some b /\ 0 <= u <= 1 /\ U m = (1 - u) * x k + u * x (k + 1)%nat /\
      dist p (line_eval (Line a b) u) <= S * ((U (m + D) - U (m + 1 - D)) * (U (m + D) - U (m + 1 - D))).
  Proof.
    intros Hk Hsep Hm Hlt HS Ep. destruct (sizes D ks ps s Hnew) as [HDC HK]. pose proof (ks_sorted D ks ps s Hnew) as Hs.
    apply C136_spline; auto; [lra|]. apply (knot_point D ks ps s Hnew HD Hk Hsep); auto. lia.
  Qed.
  Theorem C124_polygon t p m : (D <= m < C)%nat -> U m <= t < U (m + 1) -> 0 <= S -> fixed_eval s t = Ret (Ok p) ->
    exists k a b u, nth_error ps k = Some a /\ nth_error ps (k + 1) = Some b /\ 0 <= u <= 1 /\ t = (1 - u) * x k + u * x (k + 1)%nat /\
      dist p (line_eval (Line a b) u) <= S * ((U (m + D) - U (m + 1 - D)) * (U (m + D) - U (m + 1 - D))).
  Proof.
    intros Hm Ht HS Ep. destruct (sizes D ks ps s Hnew) as [HDC HK]. pose proof (ks_sorted D ks ps s Hnew) as Hs.
    assert (U D <= U m) by (apply Hs; lia). assert (U (m + 1) <= U C) by (apply Hs; lia).
    apply (C136_spline t p m); auto. apply (fixed_point D ks ps s Hnew); auto. lra.
  Qed.
End Spline.

(** ** Instances *)
(** a cubic's polygon with bends of 1, and its bound 2/3 at t = 1/3 attained *)
Example C136_ex {E : Eps} : bend_bound (cubic_control_points (Cubic (pt1 0) (pt1 1) (pt1 4) (pt1 9))) 1 /\
  coord (cubic_eval (Cubic (pt1 0) (pt1 1) (pt1 4) (pt1 9)) (1 / 3)) 0 - 1 = 2 * 1 / 3.
Proof.
  split; [|cbn; field]. pose proof (squares_bend 3) as H. unfold squares in H. cbn [seq map Nat.add] in H.
  replace (pt1 (INR 0 * INR 0)) with (pt1 0) in H by (f_equal; simpl; ring).
  replace (pt1 (INR 1 * INR 1)) with (pt1 1) in H by (f_equal; simpl; ring).
  replace (pt1 (INR 2 * INR 2)) with (pt1 4) in H by (f_equal; simpl; ring).
  replace (pt1 (INR 3 * INR 3)) with (pt1 9) in H by (f_equal; simpl; ring). exact H.
Qed.
(** the quadratic B-spline of C38_ex: abscissae 0, 1/2, 3/2, 2, slopes (2,4), (2,0), (2,-4) *)
Example C136_spline_ex {E : Eps} : slope_bound (greville (fun m => nth m [0;0;0;1;2;2;2] 0) 2) [pt2 0 0; pt2 1 2; pt2 3 2; pt2 4 0] (8 / 3) /\
  forall j, (j + 1 < 4)%nat -> nth (j + 1) [0;0;0;1;2;2;2] 0 < nth (j + 2 + 1) [0;0;0;1;2;2;2] 0.
Proof.
  assert (G : forall j, (j < 4)%nat -> greville (fun m => nth m [0;0;0;1;2;2;2] 0) 2 j = nth j [0; 1/2; 3/2; 2] 0).
  { intros j Hj. do 4 (destruct j as [|j]; [unfold greville, after, total; cbn; field|]). lia. }
  split.
  - intros j a b c Ha Hb Hc. assert (Hj : (j + 2 < 4)%nat) by (apply (proj1 (nth_error_Some [pt2 0 0; pt2 1 2; pt2 3 2; pt2 4 0] _)); rewrite Hc; discriminate).
    destruct j as [|[|j]]; [| |lia];
      injection Ha as <-; injection Hb as <-; injection Hc as <-; cbn [Nat.add]; rewrite !G by lia; cbn [nth];
      rewrite dist_nrm; unfold nrm, sq; change (p_dim (P := P2)) with 2%nat; cbn [Rsum];
      match goal with |- sqrt ?e <= _ => replace e with (4 * 4) by (cbn; field) end; rewrite sqrt_square; lra.
  - intros j Hj. do 3 (destruct j as [|j]; [cbn; lra|]). lia.
Qed.
Print Assumptions C136_leg.
Print Assumptions C136_bezier.
Print Assumptions C136_quad.
Print Assumptions C136_cubic.
Print Assumptions C136_halved.
Print Assumptions C136_attained.
Print Assumptions C136_spline_leg.
Print Assumptions C136_spline.
Print Assumptions C136_at_knots.
Print Assumptions C124_polygon.
