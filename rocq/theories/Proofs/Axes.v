(** Each coordinate of a result is computed from that coordinate of the control points alone. *)
From Coq Require Import ZArith List Arith Lia Bool.
From Verif Require Import Base.Outcome Base.Scalar Model.Point Model.Line Model.Quadratic Model.Cubic Model.Bezier
  Model.BSpline Spec.Componentwise Spec.Related Spec.Axes Proofs.OutcomeFacts Proofs.Relational Proofs.BoxGeneric.
Import ListNotations.

Section Fill.
  Context {B : Type}.
  Lemma fill_inv (f : nat -> outcome B) init n bs : n <= length init ->
    (forall i, i < n -> f i = Panic \/ exists b, f i = Ret b) -> fill f init n = Ret bs ->
    forall i, i < n -> exists b, f i = Ret b /\ nth_error bs i = Some b.
  Proof.
    intros Hn Hf E. assert (A : forall i, i < n -> exists b, f i = Ret b).
    { intros i Hi. destruct (Hf i Hi) as [K|K]; [|exact K]. rewrite (fill_panic f init n Hn Hf) in E; [discriminate|eauto]. }
    destruct (fill_ret f init n Hn A) as (bs' & E' & _ & H). rewrite E in E'. injection E' as <-. exact H.
  Qed.
End Fill.

Section Axes.
  Context {T P Q : Type} {ST : Scalar T} {PT : Point T P} {QT : Point T Q} {CP : CwPoint T P} {CQ : CwPoint T Q}.
  Variables (i j : nat) (Hi : i < p_dim (P := P)) (Hj : j < p_dim (P := Q)).
  Notation RP := (same_coord (P := P) (Q := Q) i j).

  Lemma axes_lin : lin eq RP.
  Proof.
    constructor; try congruence.
    - intros p p' q q' Hp Hq. unfold same_coord in *. rewrite !cw_add by assumption. congruence.
    - intros p p' q q' Hp Hq. unfold same_coord in *. rewrite !cw_sub by assumption. congruence.
    - intros p p' x x' Hp Hx. unfold same_coord in *. rewrite !cw_mul by assumption. congruence.
    - unfold same_coord. now rewrite !cw_default by assumption.
  Qed.
  Let L := axes_lin.

  Lemma line_axes (l : line P) (m : line Q) (t : T) : related_lines RP l m ->
    RP (line_eval l t) (line_eval m t) /\
    related_pairs (related_lines RP) (related_lines RP) (line_split l t) (line_split m t) /\
    RP (line_derivative l) (line_derivative m) /\
    line_axis l t i = line_axis m t j.
  Proof.
    intros H. split; [now apply (rel_line_eval L)|]. split; [now apply (rel_line_split L)|].
    split; [now apply (rel_line_derivative L)|]. destruct H as [A B]. unfold same_coord in A, B.
    unfold line_axis. rewrite !axis_in by assumption. cbn [bind]. congruence.
  Qed.
  Lemma quad_axes (l : quad P) (m : quad Q) (t : T) : related_quads RP l m ->
    RP (quad_eval l t) (quad_eval m t) /\ RP (quad_eval_casteljau l t) (quad_eval_casteljau m t) /\
    related_pairs (related_quads RP) (related_quads RP) (quad_split l t) (quad_split m t) /\
    related_lines RP (quad_derivative l) (quad_derivative m) /\
    quad_axis l t i = quad_axis m t j /\ quad_dd l t i = quad_dd m t j.
  Proof.
    intros H. split; [now apply (rel_quad_eval L)|]. split; [now apply (rel_quad_casteljau L)|].
    split; [now apply (rel_quad_split L)|]. split; [now apply (rel_quad_derivative L)|].
    destruct H as (A & B & C). unfold same_coord in A, B, C.
    unfold quad_axis, quad_dd. cbv zeta. rewrite !axis_in by assumption. cbn [bind]. split; congruence.
  Qed.
  Lemma cubic_axes (l : cubic P) (m : cubic Q) (t : T) : related_cubics RP l m ->
    RP (cubic_eval l t) (cubic_eval m t) /\ RP (cubic_eval_casteljau l t) (cubic_eval_casteljau m t) /\
    related_pairs (related_cubics RP) (related_cubics RP) (cubic_split l t) (cubic_split m t) /\
    related_quads RP (cubic_derivative l) (cubic_derivative m) /\
    cubic_axis l t i = cubic_axis m t j /\ cubic_dd l t i = cubic_dd m t j.
  Proof.
    intros H. split; [now apply (rel_cubic_eval L)|]. split; [now apply (rel_cubic_casteljau L)|].
    split; [now apply (rel_cubic_split L)|]. split; [now apply (rel_cubic_derivative L)|].
    destruct H as (A & B & C & D). unfold same_coord in A, B, C, D.
    unfold cubic_axis, cubic_dd. cbv zeta. rewrite !axis_in by assumption. cbn [bind]. split; congruence.
  Qed.
  Lemma bezier_axes (l : bezier P) (m : bezier Q) (t : T) : related_beziers RP l m ->
    related RP (bezier_eval l t) (bezier_eval m t) /\
    related (related_pairs (related_beziers RP) (related_beziers RP)) (bezier_split l t) (bezier_split m t) /\
    related (related_beziers RP) (bezier_derivative l) (bezier_derivative m).
  Proof.
    intros H. split; [now apply (rel_bezier_eval L)|]. split; [now apply (rel_bezier_split L)|now apply (rel_bezier_derivative L)].
  Qed.
  Lemma bspline_axes (l : bspline T P) (m : bspline T Q) (t : T) : related_splines RP l m ->
    related (related_results RP) (bspline_eval l t) (bspline_eval m t) /\
    related (related_splines RP) (bspline_derivative l) (bspline_derivative m).
  Proof. intros H. split; [now apply (rel_bspline_eval L)|now apply (rel_bspline_derivative L)]. Qed.

  Lemma quad_bbox_axes (l : quad P) (m : quad Q) : related_quads RP l m -> quad_bbox_axis l i = quad_bbox_axis m j.
  Proof.
    intros (A & B & C). unfold same_coord in A, B, C.
    destruct (quad_bbox_axis_roots l i Hi) as (r & E & ->). destruct (quad_bbox_axis_roots m j Hj) as (r' & E' & ->).
    rewrite A, B, C in E. rewrite E in E'. injection E' as <-. now rewrite A, B, C.
  Qed.
  Lemma cubic_bbox_axes (l : cubic P) (m : cubic Q) : related_cubics RP l m -> cubic_bbox_axis l i = cubic_bbox_axis m j.
  Proof.
    intros (A & B & C & D). unfold same_coord in A, B, C, D.
    destruct (cubic_bbox_axis_roots l i Hi) as (r & E & ->). destruct (cubic_bbox_axis_roots m j Hj) as (r' & E' & ->).
    rewrite A, B, C, D in E. rewrite E in E'. injection E' as <-. now rewrite A, B, C, D.
  Qed.

  Lemma quad_box_axes (l : quad P) (m : quad Q) bs bs' : related_quads RP l m ->
    quad_bounding_box l = Ret bs -> quad_bounding_box m = Ret bs' -> nth_error bs i = nth_error bs' j.
  Proof.
    intros H E E'. rewrite quad_box_fill in E. rewrite quad_box_fill in E'.
    destruct (fill_inv _ _ _ _ (Nat.eq_le_incl _ _ (eq_sym (repeat_length _ _))) (quad_axis_cases l) E i Hi) as (b & Eb & Nb).
    destruct (fill_inv _ _ _ _ (Nat.eq_le_incl _ _ (eq_sym (repeat_length _ _))) (quad_axis_cases m) E' j Hj) as (b' & Eb' & Nb').
    rewrite (quad_bbox_axes l m H), Eb' in Eb. congruence.
  Qed.
  Lemma cubic_box_axes (l : cubic P) (m : cubic Q) bs bs' : related_cubics RP l m ->
    cubic_bounding_box l = Ret bs -> cubic_bounding_box m = Ret bs' -> nth_error bs i = nth_error bs' j.
  Proof.
    intros H E E'. rewrite cubic_box_fill in E. rewrite cubic_box_fill in E'.
    destruct (fill_inv _ _ _ _ (Nat.eq_le_incl _ _ (eq_sym (repeat_length _ _))) (cubic_axis_cases l) E i Hi) as (b & Eb & Nb).
    destruct (fill_inv _ _ _ _ (Nat.eq_le_incl _ _ (eq_sym (repeat_length _ _))) (cubic_axis_cases m) E' j Hj) as (b' & Eb' & Nb').
    rewrite (cubic_bbox_axes l m H), Eb' in Eb. congruence.
  Qed.
End Axes.

Section LineBox.
  Context {T P : Type} {ST : Scalar T} {PT : Point T P} {CP : CwPoint T P}.
  Lemma line_box_nth (l : line P) bs k : k < p_dim (P := P) -> line_bounding_box l = Ret bs ->
    nth_error bs k = Some (if s_ltb (cw (l_start l) k) (cw (l_end l) k) then (cw (l_start l) k, cw (l_end l) k)
                           else (cw (l_end l) k, cw (l_start l) k)).
  Proof.
    intros Hk E.
    assert (E2 : line_bounding_box l = fill (fun k => Ret (if s_ltb (cw (l_start l) k) (cw (l_end l) k)
      then (cw (l_start l) k, cw (l_end l) k) else (cw (l_end l) k, cw (l_start l) k)))
      (repeat (s_lit 0, s_lit 0) (p_dim (P := P))) (p_dim (P := P))).
    { unfold line_bounding_box, fill. apply for_in_ext. intros x s Hx. apply in_seq in Hx.
      rewrite !axis_in by lia. cbn [bind]. destruct (s_ltb _ _); reflexivity. }
    rewrite E2 in E.
    edestruct (fill_inv _ _ _ _ (Nat.eq_le_incl _ _ (eq_sym (repeat_length _ _))) (fun k _ => or_intror (ex_intro _ _ eq_refl)) E k Hk)
      as (b & Eb & Nb).
    injection Eb as <-. exact Nb.
  Qed.
End LineBox.

Lemma line_box_axes {T P Q : Type} {ST : Scalar T} {PT : Point T P} {QT : Point T Q} {CP : CwPoint T P} {CQ : CwPoint T Q}
  i j (l : line P) (m : line Q) bs bs' : i < p_dim (P := P) -> j < p_dim (P := Q) ->
  related_lines (same_coord (P := P) (Q := Q) i j) l m ->
  line_bounding_box l = Ret bs -> line_bounding_box m = Ret bs' -> nth_error bs i = nth_error bs' j.
Proof.
  intros Hi Hj [A B] E E'. rewrite (line_box_nth l bs i Hi E), (line_box_nth m bs' j Hj E').
  unfold same_coord in A, B. now rewrite A, B.
Qed.
