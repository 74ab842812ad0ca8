(** C107: scaling the control points by a power of two scales the result, exactly,
    in floating point. *)
From Coq Require Import Reals ZArith List Arith Bool Lia Lra.
From Flocq Require Import Core.Core IEEE754.BinarySingleNaN.
From Verif Require Import Base.Outcome Base.Scalar Model.Point Model.Line Model.Quadratic Model.Cubic Model.Bezier
  Model.BSpline Inst.FloatInst Spec.Componentwise Spec.Rounding Spec.Points Spec.FloatPoints Spec.FloatSplines Spec.Related
  Spec.Scaling Proofs.FloatPoint Proofs.FloatFacts Proofs.FloatScale Proofs.FloatSplineEval
  Props.FloatSplineProps.
Import ListNotations.
Local Open Scope R_scope.

Section C107.
  Context {F : Format} {P : Type} {PT : Point float P} {CP : CwPoint float P}.

  (** Control points are multiples of 2^g and [t] is one of 2^b.  The hypotheses about
      [least] exclude underflow in both runs; results that overflow are not compared. *)
  Section Curves.
  Variables (g b k : Z) (t : float).
  Hypotheses (Hg : (g <= 0)%Z) (Hb : (b <= 0)%Z) (Ht : on_grid b t).

  Theorem C107_line (c d : line P) : (least <= g + b)%Z -> (least <= g + b + k)%Z ->
    related_lines (scaled_point g k) c d -> scaled_point (g + b) k (line_eval c t) (line_eval d t).
  Proof. exact (line_scaled g b k t Hb (fun _ => Ht) c d). Qed.
  Theorem C107_line_split (c d : line P) : (least <= g + b)%Z -> (least <= g + b + k)%Z ->
    related_lines (scaled_point g k) c d ->
    related_pairs (related_lines (scaled_point (g + b) k)) (related_lines (scaled_point (g + b) k))
      (line_split c t) (line_split d t).
  Proof. exact (line_split_scaled g b k t Hb (fun _ => Ht) c d). Qed.
  Theorem C107_quad (c d : quad P) : (least <= g + 2 * b)%Z -> (least <= g + 2 * b + k)%Z ->
    related_quads (scaled_point g k) c d ->
    scaled_point (g + 2 * b) k (quad_eval c t) (quad_eval d t).
  Proof. exact (quad_scaled g b k t Hg Hb (fun _ => Ht) c d). Qed.
  Theorem C107_quad_casteljau (c d : quad P) : (least <= g + 2 * b)%Z -> (least <= g + 2 * b + k)%Z ->
    related_quads (scaled_point g k) c d ->
    scaled_point (g + 2 * b) k (quad_eval_casteljau c t) (quad_eval_casteljau d t).
  Proof. exact (quad_casteljau_scaled g b k t Hb (fun _ => Ht) c d). Qed.
  Theorem C107_quad_split (c d : quad P) : (least <= g + 2 * b)%Z -> (least <= g + 2 * b + k)%Z ->
    related_quads (scaled_point g k) c d ->
    related_pairs (related_quads (scaled_point (g + 2 * b) k)) (related_quads (scaled_point (g + 2 * b) k))
      (quad_split c t) (quad_split d t).
  Proof. exact (quad_split_scaled g b k t Hb (fun _ => Ht) c d). Qed.
  Theorem C107_cubic (c d : cubic P) : (least <= g + 3 * b)%Z -> (least <= g + 3 * b + k)%Z ->
    related_cubics (scaled_point g k) c d ->
    scaled_point (g + 3 * b) k (cubic_eval c t) (cubic_eval d t).
  Proof. exact (cubic_scaled g b k t Hg Hb (fun _ => Ht) c d). Qed.
  Theorem C107_cubic_casteljau (c d : cubic P) : (least <= g + 3 * b)%Z -> (least <= g + 3 * b + k)%Z ->
    related_cubics (scaled_point g k) c d ->
    scaled_point (g + 3 * b) k (cubic_eval_casteljau c t) (cubic_eval_casteljau d t).
  Proof. exact (cubic_casteljau_scaled g b k t Hb (fun _ => Ht) c d). Qed.
  Theorem C107_cubic_split (c d : cubic P) : (least <= g + 3 * b)%Z -> (least <= g + 3 * b + k)%Z ->
    related_cubics (scaled_point g k) c d ->
    related_pairs (related_cubics (scaled_point (g + 3 * b) k)) (related_cubics (scaled_point (g + 3 * b) k))
      (cubic_split c t) (cubic_split d t).
  Proof. exact (cubic_split_scaled g b k t Hb (fun _ => Ht) c d). Qed.
  Theorem C107_bezier (c d : bezier P) n : length (bz_points c) = S n ->
    (least <= g + Z.of_nat n * b)%Z -> (least <= g + Z.of_nat n * b + k)%Z ->
    related_beziers (scaled_point g k) c d ->
    related (scaled_point (g + Z.of_nat n * b) k) (bezier_eval c t) (bezier_eval d t).
  Proof. exact (bezier_scaled g b k t Hg Hb (fun _ => Ht) c d n). Qed.
  Theorem C107_bezier_split (c d : bezier P) n : length (bz_points c) = S n ->
    (least <= g + Z.of_nat n * b)%Z -> (least <= g + Z.of_nat n * b + k)%Z ->
    related_beziers (scaled_point g k) c d ->
    related (related_pairs (related_beziers (scaled_point (g + Z.of_nat n * b) k))
                           (related_beziers (scaled_point (g + Z.of_nat n * b) k)))
      (bezier_split c t) (bezier_split d t).
  Proof. exact (bezier_split_scaled g b k t Hg Hb (fun _ => Ht) c d n). Qed.

  Hypotheses (L : (least <= g)%Z) (L' : (least <= g + k)%Z).
  Theorem C107_line_derivative (c d : line P) : related_lines (scaled_point g k) c d ->
    scaled_point g k (line_derivative c) (line_derivative d).
  Proof. exact (line_derivative_scaled g k L L' c d). Qed.
  Theorem C107_quad_derivative (c d : quad P) : related_quads (scaled_point g k) c d ->
    related_lines (scaled_point g k) (quad_derivative c) (quad_derivative d).
  Proof. exact (quad_derivative_scaled g k L L' c d). Qed.
  Theorem C107_cubic_derivative (c d : cubic P) : related_cubics (scaled_point g k) c d ->
    related_quads (scaled_point g k) (cubic_derivative c) (cubic_derivative d).
  Proof. exact (cubic_derivative_scaled g k L L' c d). Qed.
  End Curves.

  (** B-splines with knots in [-2^m, 2^m], any parameter *)
  Theorem C107_bspline D ks (ps qs : list P) s s' t m g k :
    bspline_new D ks ps = Ret (Ok s) -> bspline_new D ks qs = Ret (Ok s') -> Forall2 (scaled_point g k) ps qs ->
    bs_kind s <> Unclamped -> fin t -> fknot ks D <= val t < fknot ks (length ps) ->
    (0 <= m < femax - 2)%Z -> (forall x, In x ks -> fin x /\ Rabs (val x) <= bpow radix2 m) -> (g <= 0)%Z ->
    let h := (g - Z.of_nat D * (2 * fprec + m))%Z in
    (least <= h)%Z -> (least <= h + k)%Z ->
    exists p q, bspline_eval s t = Ret (Ok p) /\ bspline_eval s' t = Ret (Ok q) /\ scaled_point h k p q.
  Proof.
    intros A B C D0 E G H I J. exact (spline_scaled D ks ps qs s s' t m g k A B C D0 E H I J G).
  Qed.
End C107.

Section Concrete.
  Local Existing Instance Binary64.

  (** underflow: from 0 to 2^-1074, or to 2^-1073, at t = 1/2 *)
  Theorem C107_underflow_refuted : ~ (forall (c d : line (PointN float 1)) t g b k,
    on_grid b t -> related_lines (scaled_point g k) c d -> scaled_point (g + b) k (line_eval c t) (line_eval d t)).
  Proof.
    intros H.
    assert (V1 : val (flt 1 (-1074)) = bpow radix2 (-1074)).
    { replace (val (flt 1 (-1074))) with (IZR 1 * bpow radix2 (-1074)); [ring|vm_compute; reflexivity]. }
    assert (V2 : val (flt 2 (-1074)) = 2 * bpow radix2 (-1074)).
    { replace (val (flt 2 (-1074))) with (IZR 2 * bpow radix2 (-1074)); [ring|vm_compute; reflexivity]. }
    specialize (H (Line (fpt1 (flt 0 0)) (fpt1 (flt 1 (-1074)))) (Line (fpt1 (flt 0 0)) (fpt1 (flt 2 (-1074))))
      (flt 1 (-1)) (-1074)%Z (-1)%Z 1%Z).
    specialize (H ltac:(exists 1%Z; replace (val (flt 1 (-1))) with (IZR 4503599627370496 * bpow radix2 (-53));
                        [cbn; lra|vm_compute; reflexivity])).
    assert (Z : val (flt 0 0) = 0) by reflexivity.
    assert (H' : scaled (-1075) 1 (flt 0 0) (flt 1 (-1074))).
    { refine (H _ 0%nat ltac:(cbn; lia)). split; intros [|i] Hi; try (cbn in Hi; lia); intros _ _.
      - change (on_grid (-1074) (flt 0 0) /\ val (flt 0 0) = bpow radix2 1 * val (flt 0 0)).
        unfold on_grid. rewrite Z. split; [exists 0%Z|]; ring.
      - change (on_grid (-1074) (flt 1 (-1074)) /\ val (flt 2 (-1074)) = bpow radix2 1 * val (flt 1 (-1074))).
        unfold on_grid. rewrite V1, V2. split; [exists 1%Z; ring|]. change (bpow radix2 1) with 2. ring. }
    destruct (H' ltac:(vm_compute; reflexivity) ltac:(vm_compute; reflexivity)) as [_ E].
    rewrite Z, V1, Rmult_0_r in E. pose proof (bpow_gt_0 radix2 (-1074)). lra.
  Qed.

  (** coordinates 1, 5, 2 and eight times these, t = 3/4 *)
  Example C107_case : scaled_point (-4) 3
    (quad_eval (Quad (fpt1 (s_lit 1)) (fpt1 (s_lit 5)) (fpt1 (s_lit 2))) (flt 3 (-2)))
    (quad_eval (Quad (fpt1 (s_lit 8)) (fpt1 (s_lit 40)) (fpt1 (s_lit 16))) (flt 3 (-2))).
  Proof.
    apply (C107_quad 0 (-2) 3); [lia|lia| |vm_compute; discriminate|vm_compute; discriminate|].
    - exists 3%Z. replace (val (flt 3 (-2))) with (IZR 6755399441055744 * bpow radix2 (-53)); [cbn; lra|].
      vm_compute. reflexivity.
    - assert (S : forall z y, (Z.abs z <= 100)%Z -> (y = 8 * z)%Z -> scaled_point 0 3 (fpt1 (s_lit z)) (fpt1 (s_lit y))).
      { intros z y Hz -> [|i] Hi; [|cbn in Hi; lia]. intros _ _.
        change (on_grid 0 (s_lit z) /\ val (s_lit (8 * z)) = bpow radix2 3 * val (s_lit z)).
        unfold on_grid. rewrite !(fun z H => proj2 (lit_small z H)) by lia. rewrite mult_IZR.
        split; [exists z; cbn; ring|]. change (bpow radix2 3) with 8. ring. }
      split; [|split]; apply S; lia.
  Qed.

  (** the quadratic spline of C66 and its double *)
  Definition cp2 : list (PointN float 1) := [fpt1 (flt 2 0); fpt1 (flt 0 0); fpt1 (flt 2 0); fpt1 (flt 2 0)].
  Example C107_bspline_case s s' : bspline_new 2 kn cp = Ret (Ok s) -> bspline_new 2 kn cp2 = Ret (Ok s') ->
    exists p q, bspline_eval s (flt 3 (-2)) = Ret (Ok p) /\ bspline_eval s' (flt 3 (-2)) = Ret (Ok q) /\
      scaled_point (-212) 1 p q.
  Proof.
    intros E E'. destruct kn_values as (V0 & V1 & V2 & _).
    assert (V : val (flt 2 0) = 2).
    { replace (val (flt 2 0)) with (IZR 4503599627370496 * bpow radix2 (-51)); [cbn; lra|]. vm_compute. reflexivity. }
    apply (C107_bspline 2 kn cp cp2 s s' (flt 3 (-2)) 0 0 1 E E').
    - assert (A : scaled_point 0 1 (fpt1 (flt 1 0)) (fpt1 (flt 2 0))).
      { intros [|i] Hi; [|cbn in Hi; lia]. intros _ _.
        change (on_grid 0 (flt 1 0) /\ val (flt 2 0) = 2 * val (flt 1 0)).
        unfold on_grid. rewrite V, V2. split; [exists 1%Z; cbn|]; ring. }
      assert (B : scaled_point 0 1 (fpt1 (flt 0 0)) (fpt1 (flt 0 0))).
      { intros [|i] Hi; [|cbn in Hi; lia]. intros _ _.
        change (on_grid 0 (flt 0 0) /\ val (flt 0 0) = 2 * val (flt 0 0)).
        unfold on_grid. rewrite V0. split; [exists 0%Z; cbn|]; ring. }
      exact (Forall2_cons _ _ A (Forall2_cons _ _ B (Forall2_cons _ _ A (Forall2_cons _ _ A (Forall2_nil _))))).

    - rewrite (kn_clamped s E). discriminate.
    - vm_compute. reflexivity.
    - exact kn_domain.
    - vm_compute. split; [discriminate|reflexivity].
    - intros x Hx. split; [apply (kn_moderate x Hx)|]. change (bpow radix2 0) with 1.
      destruct Hx as [<-|[<-|[<-|[<-|[<-|[<-|[<-|[]]]]]]]]; rewrite ?V0, ?V1, ?V2, Rabs_pos_eq; lra.
    - lia.
    - vm_compute. discriminate.
    - vm_compute. discriminate.
  Qed.
End Concrete.

Print Assumptions C107_line.
Print Assumptions C107_line_split.
Print Assumptions C107_quad.
Print Assumptions C107_quad_casteljau.
Print Assumptions C107_quad_split.
Print Assumptions C107_cubic.
Print Assumptions C107_cubic_casteljau.
Print Assumptions C107_cubic_split.
Print Assumptions C107_bezier.
Print Assumptions C107_bezier_split.
Print Assumptions C107_line_derivative.
Print Assumptions C107_quad_derivative.
Print Assumptions C107_cubic_derivative.
Print Assumptions C107_bspline.
Print Assumptions C107_underflow_refuted.
