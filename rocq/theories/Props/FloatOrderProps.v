(** C105: evaluation keeps the order of control points, in floating point. *)
From Coq Require Import Reals ZArith List Arith Bool Lia Lra.
From Flocq Require Import IEEE754.BinarySingleNaN.
From Verif Require Import Base.Outcome Base.Scalar Model.Point Model.Line Model.Quadratic Model.Cubic Model.Bezier
  Model.BSpline Inst.FloatInst Spec.Componentwise Spec.Rounding Spec.FloatPoints Spec.FloatSplines Spec.Related Spec.Order
  Proofs.FloatPoint Proofs.FloatFacts Proofs.FloatOrder.
Import ListNotations.

Section C105.
  Context {F : Format} {P : Type} {PT : Point float P} {CP : CwPoint float P}.

  (** without NaN [not_above] is the order of the code *)
  Theorem C105_order (x y : float) : s_is_nan x = false -> s_is_nan y = false -> (not_above x y <-> s_leb x y = true).
  Proof. intros Hx Hy. apply above_leb; unfold nan; cbn in Hx, Hy; congruence. Qed.

  (** a segment is traversed in order, every rounding included *)
  Theorem C105_line_up (l : line P) t t' i : i < p_dim (P := P) -> not_above t t' ->
    not_above (cw (l_start l) i) (cw (l_end l) i) -> not_above (cw (line_eval l t) i) (cw (line_eval l t') i).
  Proof. exact (line_monotone l t t' i). Qed.
  Theorem C105_line_down (l : line P) t t' i : i < p_dim (P := P) -> not_above t t' ->
    not_above (cw (l_end l) i) (cw (l_start l) i) -> not_above (cw (line_eval l t') i) (cw (line_eval l t) i).
  Proof. exact (line_antitone l t t' i). Qed.
  Theorem C105_line_end (a b b' : P) t : not_above (s_lit 0) t -> point_not_above b b' ->
    point_not_above (line_eval (Line a b) t) (line_eval (Line a b') t).
  Proof. exact (line_end_monotone a b b' t). Qed.

  (** raising control points raises the curve *)
  Theorem C105_quad t (c d : quad P) : not_above (s_lit 0) t -> not_above t (s_lit 1) ->
    related_quads point_not_above c d -> point_not_above (quad_eval c t) (quad_eval d t).
  Proof. intros H0 H1. exact (quad_monotone t H0 H1 c d). Qed.
  Theorem C105_cubic t (c d : cubic P) : not_above (s_lit 0) t -> not_above t (s_lit 1) ->
    related_cubics point_not_above c d -> point_not_above (cubic_eval c t) (cubic_eval d t).
  Proof. intros H0 H1. exact (cubic_monotone t H0 H1 c d). Qed.
  Theorem C105_bezier t (c d : bezier P) : not_above (s_lit 0) t -> not_above t (s_lit 1) ->
    related_beziers point_not_above c d -> related point_not_above (bezier_eval c t) (bezier_eval d t).
  Proof. intros H0 H1. exact (bezier_monotone t H0 H1 c d). Qed.
  Theorem C105_bezier_split t (c d : bezier P) : not_above (s_lit 0) t -> not_above t (s_lit 1) ->
    related_beziers point_not_above c d ->
    related (related_pairs (related_beziers point_not_above) (related_beziers point_not_above)) (bezier_split c t) (bezier_split d t).
  Proof. intros H0 H1. exact (bezier_split_monotone t H0 H1 c d). Qed.
  Theorem C105_bspline D ks (ps qs : list P) s s' t : bspline_new D ks ps = Ret (Ok s) -> bspline_new D ks qs = Ret (Ok s') ->
    Forall2 point_not_above ps qs -> bs_kind s <> Unclamped -> moderate ks -> fin t ->
    (fknot ks D <= val t < fknot ks (length ps))%R ->
    exists p q, bspline_eval s t = Ret (Ok p) /\ bspline_eval s' t = Ret (Ok q) /\ point_not_above p q.
  Proof. intros Hs Hs' Hpq Hu Hm Ht. exact (spline_monotone D ks ps qs s s' t Hs Hs' Hpq Hu Hm Ht). Qed.
End C105.

Section Refuted.
  Local Existing Instance Binary64.
  Ltac one := let i := fresh in let Hi := fresh in intros i Hi; cbn in Hi; destruct i; [vm_compute; reflexivity|lia].

  Local Definition drop (e e' : outcome (PointN float 1)) : bool :=
    match e, e' with Ret p, Ret q => s_ltb (cw q 0) (cw p 0) | _, _ => false end.
  Local Lemma drop_spec e e' : drop e e' = true -> ~ related point_not_above e e'.
  Proof.
    destruct e as [p| |], e' as [q| |]; try discriminate. intros X H. specialize (H 0 ltac:(cbn; lia)).
    unfold not_above in H. cbn [drop] in X. rewrite H in X. discriminate X.
  Qed.

  (** not so for the start of a segment: from -2^52 and from 2^52 + 3 to 2^52 + 3 *)
  Theorem C105_line_start_refuted : ~ (forall (a a' b : PointN float 1) t, not_above (s_lit 0) t -> not_above t (s_lit 1) ->
    point_not_above a a' -> point_not_above (line_eval (Line a b) t) (line_eval (Line a' b) t)).
  Proof.
    intros H. specialize (H (fpt1 (flt (-1) 52)) (fpt1 (flt (2 ^ 52 + 3) 0)) (fpt1 (flt (2 ^ 52 + 3) 0)) (s_lit 1)).
    specialize (H ltac:(vm_compute; reflexivity) ltac:(vm_compute; reflexivity) ltac:(one) 0 ltac:(cbn; lia)).
    vm_compute in H. discriminate H.
  Qed.
  (** nor for De Casteljau's scheme of the specialised curves *)
  Theorem C105_casteljau_refuted : ~ (forall (c d : quad (PointN float 1)) t, not_above (s_lit 0) t -> not_above t (s_lit 1) ->
    related_quads point_not_above c d -> point_not_above (quad_eval_casteljau c t) (quad_eval_casteljau d t)).
  Proof.
    intros H. set (b := fpt1 (flt (2 ^ 52 + 3) 0)).
    specialize (H (Quad (fpt1 (flt (-1) 52)) (fpt1 (flt (-1) 52)) b) (Quad b b b) (s_lit 1)).
    specialize (H ltac:(vm_compute; reflexivity) ltac:(vm_compute; reflexivity) ltac:(split; [|split]; one) 0 ltac:(cbn; lia)).
    vm_compute in H. discriminate H.
  Qed.
  (** and only segments are traversed in order: all control points 3, t = 0.2 and 0.3 *)
  Theorem C105_quad_parameter_refuted : ~ (forall (c : quad (PointN float 1)) t t',
    not_above (s_lit 0) t -> not_above t t' -> not_above t' (s_lit 1) ->
    point_not_above (q_start c) (q_ctrl c) -> point_not_above (q_ctrl c) (q_end c) ->
    point_not_above (quad_eval c t) (quad_eval c t')).
  Proof.
    intros H. set (b := fpt1 (s_lit 3)). specialize (H (Quad b b b) (s_div (s_lit 2) (s_lit 10)) (s_div (s_lit 3) (s_lit 10))).
    specialize (H ltac:(vm_compute; reflexivity) ltac:(vm_compute; reflexivity) ltac:(vm_compute; reflexivity)
      ltac:(one) ltac:(one) 0 ltac:(cbn; lia)).
    vm_compute in H. discriminate H.
  Qed.
  Theorem C105_bezier_parameter_refuted : ~ (forall (a b : PointN float 1) t t',
    not_above (s_lit 0) t -> not_above t t' -> not_above t' (s_lit 1) -> point_not_above a b ->
    related point_not_above (bezier_eval (Bezier [a; b]) t) (bezier_eval (Bezier [a; b]) t')).
  Proof.
    intros H. set (b := fpt1 (s_lit 3)). specialize (H b b (s_div (s_lit 2) (s_lit 10)) (s_div (s_lit 3) (s_lit 10))).
    specialize (H ltac:(vm_compute; reflexivity) ltac:(vm_compute; reflexivity) ltac:(vm_compute; reflexivity) ltac:(one)).
    refine (drop_spec _ _ _ H). vm_compute. reflexivity.
  Qed.
End Refuted.

(** hypotheses of the theorems: coordinates 0, 1, 2 against 0, 3, 2, at t = 1/2 *)
Example C105_case {F : Format} : related_quads point_not_above
    (Quad (fpt1 (s_lit 0)) (fpt1 (s_lit 1)) (fpt1 (s_lit 2))) (Quad (fpt1 (s_lit 0)) (fpt1 (s_lit 3)) (fpt1 (s_lit 2))) /\
  not_above (s_lit 0) (s_lit 1) /\ ~ not_above (s_lit 3) (s_lit 1).
Proof.
  assert (L : forall a b, (0 <= a <= 2048)%Z -> (0 <= b <= 2048)%Z -> not_above (s_lit a) (s_lit b) <-> (a <= b)%Z).
  { intros a b Ha Hb. destruct (lit_small a ltac:(lia)) as [A1 A2]. destruct (lit_small b ltac:(lia)) as [B1 B2].
    rewrite above_val, A2, B2 by assumption. split; [apply le_IZR|apply IZR_le]. }
  split; [|split; [apply L; lia|intros H; apply L in H; lia]].
  split; [|split]; intros i Hi; cbn in Hi; (destruct i; [|lia]); apply L; lia.
Qed.

Print Assumptions C105_order.
Print Assumptions C105_line_up.
Print Assumptions C105_line_down.
Print Assumptions C105_line_end.
Print Assumptions C105_quad.
Print Assumptions C105_cubic.
Print Assumptions C105_bezier.
Print Assumptions C105_bezier_split.
Print Assumptions C105_bspline.
Print Assumptions C105_line_start_refuted.
Print Assumptions C105_casteljau_refuted.
Print Assumptions C105_quad_parameter_refuted.
Print Assumptions C105_bezier_parameter_refuted.
