(** Mirrored curves: the statements collected, and examples. *)
From Coq Require Import Reals ZArith List Arith Lia Lra.
From Flocq Require Import Core.Core IEEE754.BinarySingleNaN.
From Verif Require Import Base.Outcome Base.Scalar Model.Point Model.Line Model.Quadratic Model.Cubic
  Model.Bezier Model.BSpline Inst.FloatInst Spec.Rounding Spec.Componentwise Spec.FloatPoints Spec.Mirror Spec.Related
  Proofs.FloatPoint Proofs.FloatFacts Proofs.FloatNeg Proofs.Relational Proofs.Mirror.
Import ListNotations.

Section Mirror.
  Context {F : Format} {P : Type} {PT : Point float P} {CP : CwPoint float P}.
  Variable axes : nat -> bool.
  Notation mirror := (mirrored (P := P) axes).
  Notation coord i := (fun x y : float => feq y (flip (axes i) x)).
  Let S := mirror_sim (P := P) axes.
  Let L := mirror_lin (P := P) axes.

  Lemma line_mirror (l m : line P) (p q : P) (t : float) (i : nat) : related_lines mirror l m -> mirror p q ->
    mirror (line_eval l t) (line_eval m t) /\
    related_pairs (related_lines mirror) (related_lines mirror) (line_split l t) (line_split m t) /\
    mirror (line_derivative l) (line_derivative m) /\
    related (coord i) (line_axis l t i) (line_axis m t i) /\
    related feq (line_distance_to_point l p) (line_distance_to_point m q).
  Proof.
    intros H Hp. split; [apply (rel_line_eval L); auto using feq_refl|].
    split; [apply (rel_line_split L); auto using feq_refl|]. split; [now apply (rel_line_derivative L)|].
    split; [now apply line_axis_mirror|now apply (rel_line_distance S)].
  Qed.
  Lemma quad_points_mirror (l m : quad P) (t : float) (i : nat) : related_quads mirror l m ->
    mirror (quad_eval l t) (quad_eval m t) /\
    mirror (quad_eval_casteljau l t) (quad_eval_casteljau m t) /\
    related_pairs (related_quads mirror) (related_quads mirror) (quad_split l t) (quad_split m t) /\
    related_lines mirror (quad_derivative l) (quad_derivative m) /\
    related (coord i) (quad_axis l t i) (quad_axis m t i) /\
    related (coord i) (quad_dd l t i) (quad_dd m t i).
  Proof.
    intros H. split; [apply (rel_quad_eval L); auto using feq_refl|].
    split; [apply (rel_quad_casteljau L); auto using feq_refl|].
    split; [apply (rel_quad_split L); auto using feq_refl|]. split; [now apply (rel_quad_derivative L)|].
    split; [now apply quad_axis_mirror|now apply quad_dd_mirror].
  Qed.
  Lemma quad_lengths_mirror (l m : quad P) (p q : P) (n : nat) (tol : float) : related_quads mirror l m -> mirror p q ->
    related feq (quad_arclen l n) (quad_arclen m n) /\
    related feq (quad_distance_to_point l p) (quad_distance_to_point m q) /\
    quad_is_linear l tol = quad_is_linear m tol /\
    quad_is_a_point l tol = quad_is_a_point m tol.
  Proof.
    intros H Hp. split; [now apply (rel_quad_arclen S)|]. split; [now apply (rel_quad_distance S)|].
    split; [now apply (rel_quad_is_linear S)|now apply (rel_quad_is_a_point S)].
  Qed.
  Lemma cubic_points_mirror (l m : cubic P) (t : float) (i : nat) : related_cubics mirror l m ->
    mirror (cubic_eval l t) (cubic_eval m t) /\
    mirror (cubic_eval_casteljau l t) (cubic_eval_casteljau m t) /\
    related_pairs (related_cubics mirror) (related_cubics mirror) (cubic_split l t) (cubic_split m t) /\
    related_quads mirror (cubic_derivative l) (cubic_derivative m) /\
    related (coord i) (cubic_axis l t i) (cubic_axis m t i) /\
    related (coord i) (cubic_dd l t i) (cubic_dd m t i).
  Proof.
    intros H. split; [apply (rel_cubic_eval L); auto using feq_refl|].
    split; [apply (rel_cubic_casteljau L); auto using feq_refl|].
    split; [apply (rel_cubic_split L); auto using feq_refl|]. split; [now apply (rel_cubic_derivative L)|].
    split; [now apply cubic_axis_mirror|now apply cubic_dd_mirror].
  Qed.
  Lemma cubic_lengths_mirror (l m : cubic P) (p q : P) (n : nat) (tol : float) : related_cubics mirror l m -> mirror p q ->
    related feq (cubic_arclen l n) (cubic_arclen m n) /\
    related feq (cubic_distance_to_point l p) (cubic_distance_to_point m q) /\
    cubic_is_linear l tol = cubic_is_linear m tol /\
    cubic_is_a_point l tol = cubic_is_a_point m tol.
  Proof.
    intros H Hp. split; [now apply (rel_cubic_arclen S)|]. split; [now apply (rel_cubic_distance S)|].
    split; [now apply (rel_cubic_is_linear S)|now apply (rel_cubic_is_a_point S)].
  Qed.
  Lemma bezier_mirror (l m : bezier P) (p q : P) (t : float) (n : nat) : related_beziers mirror l m -> mirror p q ->
    related mirror (bezier_eval l t) (bezier_eval m t) /\
    related (related_pairs (related_beziers mirror) (related_beziers mirror)) (bezier_split l t) (bezier_split m t) /\
    related (related_beziers mirror) (bezier_derivative l) (bezier_derivative m) /\
    related feq (bezier_arclen l n) (bezier_arclen m n) /\
    related feq (bezier_distance_to_point l p) (bezier_distance_to_point m q).
  Proof.
    intros H Hp. split; [apply (rel_bezier_eval L); auto using feq_refl|].
    split; [apply (rel_bezier_split L); auto using feq_refl|]. split; [now apply (rel_bezier_derivative L)|].
    split; [now apply (rel_bezier_arclen S)|now apply (rel_bezier_distance S)].
  Qed.
  Lemma bspline_mirror (l m : bspline float P) (t : float) (n : nat) : related_splines mirror l m ->
    related (related_results mirror) (bspline_eval l t) (bspline_eval m t) /\
    related (related_splines mirror) (bspline_derivative l) (bspline_derivative m) /\
    related feq (bspline_arclen l n) (bspline_arclen m n).
  Proof.
    intros H. split; [now apply (rel_bspline_eval L)|]. split; [now apply (rel_bspline_derivative L)|now apply (rel_bspline_arclen S)].
  Qed.
End Mirror.

Lemma lit_neg {F : Format} z : (Z.abs z <= 2048)%Z -> feq (s_lit (- z)) (s_neg (s_lit (T := float) z)).
Proof.
  intros H. destruct (lit_small z H) as [A B]. destruct (lit_small (- z)) as [C D]; [now rewrite Z.abs_opp|].
  apply fin_feq; [exact C|now apply neg_fin|]. rewrite neg_val, B, D. apply opp_IZR.
Qed.

Lemma nan_box {F : Format} (x : float) :
  line_bounding_box (Line (fpt1 x) (fpt1 B754_nan)) = Ret [(B754_nan, x)].
Proof. destruct x; reflexivity. Qed.
Lemma line_box_nan {F : Format} : exists l m : line (PointN float 1),
  related_lines (mirrored (fun _ => true)) l m /\
  ~ related (box_mirrored (fun _ => true)) (line_bounding_box l) (line_bounding_box m).
Proof.
  exists (Line (fpt1 (s_lit 1)) (fpt1 B754_nan)), (Line (fpt1 (s_lit (-1))) (fpt1 B754_nan)).
  split.
  - split; intros i Hi; cbn in Hi; replace i with 0 by lia; cbn [l_start l_end].
    + apply (lit_neg 1). cbn; lia.
    + now left.
  - intros K.
    assert (K' : related (box_mirrored (F := F) (fun _ => true)) (Ret [(B754_nan, s_lit 1)]) (Ret [(B754_nan, s_lit (-1))])).
    { pose proof (nan_box (s_lit 1)) as E. pose proof (nan_box (s_lit (-1))) as E'. rewrite <- E, <- E'. exact K. }
    destruct K' as [_ H].
    specialize (H 0 _ _ eq_refl eq_refl). cbn [bounds_mirrored fst snd] in H. destruct H as [H _].
    destruct (lit_small 1) as [A _]; [cbn; lia|]. remember (s_lit (T := float) 1) as x eqn:Ex. clear Ex.
    destruct H as [H|(a & b & H & _)]; [|discriminate].
    destruct x; discriminate.
Qed.

Lemma mirror_case {F : Format} : related_quads (mirrored (fun i => Nat.eqb i 0))
  (Quad (fpt2 (s_lit 0) (s_lit 1)) (fpt2 (s_lit 3) (B754_infinity false)) (fpt2 B754_nan (s_lit (-2))))
  (Quad (fpt2 (s_lit 0) (s_lit 1)) (fpt2 (s_lit (-3)) (B754_infinity false)) (fpt2 B754_nan (s_lit (-2)))).
Proof.
  repeat split; intros i Hi; cbn in Hi; (destruct i as [|[|i]]; [| |lia]); try apply feq_refl.
  - apply (lit_neg 0). cbn; lia.
  - apply (lit_neg 3). cbn; lia.
Qed.
