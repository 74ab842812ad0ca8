(** Bounding boxes: end points, and axes on which the control points are monotone. *)
From Coq Require Import Reals List Arith Lia Lra Psatz Bool.
From Verif Require Import Base.Outcome Base.Scalar Model.Point Model.Line Model.Quadratic
  Model.Cubic Model.Bezier Inst.RealInst Spec.Sums Spec.Lawful Spec.Bernstein Spec.Crossings Spec.Box
  Proofs.OutcomeFacts Proofs.PointFacts Proofs.RealTac Proofs.ExactEval Proofs.BezierGeneric
  Proofs.BezierReal Proofs.BBoxFacts Proofs.BoxSpec Proofs.Crossings.
Import ListNotations.
Local Open Scope R_scope.

Section MonotoneBox.
  Context {E : Eps} {P : Type} {PT : Point R P} {LP : LawfulPoint P}.

  Lemma quad_bbox_ends (c : quad P) i : (i < p_dim (P := P))%nat ->
    exists lo hi, quad_bbox_axis c i = Ret (lo, hi) /\
      (exists t, 0 <= t <= 1 /\ lo = coord (quad_eval c t) i) /\
      (exists t, 0 <= t <= 1 /\ hi = coord (quad_eval c t) i) /\
      lo <= coord (q_start c) i <= hi /\ lo <= coord (q_end c) i <= hi.
  Proof.
    intros Hi. unfold quad_bbox_axis. cbv zeta. rewrite !axis_lt by assumption. cbn [bind].
    match goal with |- context [line_root ?A ?B] => rewrite (line_root_value A B); cbn [bind];
      set (roots := if Rlt_dec (Rabs A) eps then [] else [- B / A]);
      assert (Hlen : (length roots <= 1)%nat) by (unfold roots; destruct (Rlt_dec (Rabs A) eps); simpl; lia)
    end.
    rewrite av_extend_le by (simpl; lia). cbn [bind]. simpl app.
    rewrite quad_eval_roots_value by assumption. cbn [bind].
    set (f := fun t => coord (quad_eval c t) i).
    assert (E0 : coord (q_start c) i = f 0) by (unfold f; now rewrite quad_eval_0).
    assert (E1 : coord (q_end c) i = f 1) by (unfold f; now rewrite quad_eval_1).
    rewrite E0, E1.
    destruct (bbox_tail f roots 3) as (lo & hi & Heq & Hlo & Hhi & H0 & H1 & Hr); [lia|].
    exists lo, hi. split; [exact Heq|]. now repeat split.
  Qed.

  Lemma cubic_bbox_ends (c : cubic P) i : (i < p_dim (P := P))%nat ->
    exists lo hi, cubic_bbox_axis c i = Ret (lo, hi) /\
      (exists t, 0 <= t <= 1 /\ lo = coord (cubic_eval c t) i) /\
      (exists t, 0 <= t <= 1 /\ hi = coord (cubic_eval c t) i) /\
      lo <= coord (c_start c) i <= hi /\ lo <= coord (c_end c) i <= hi.
  Proof.
    intros Hi. unfold cubic_bbox_axis. cbv zeta. rewrite !axis_lt by assumption. cbn [bind].
    match goal with |- context [quad_real_roots ?A ?B ?C] =>
      destruct (quad_roots_ret A B C) as (roots & Hroots & Hlen); rewrite Hroots end. cbn [bind].
    rewrite av_extend_le by (simpl; lia). cbn [bind]. simpl app.
    rewrite cubic_eval_roots_value by assumption. cbn [bind].
    set (f := fun t => coord (cubic_eval c t) i).
    assert (E0 : coord (c_start c) i = f 0) by (unfold f; now rewrite cubic_eval_0).
    assert (E1 : coord (c_end c) i = f 1) by (unfold f; now rewrite cubic_eval_1).
    rewrite E0, E1.
    destruct (bbox_tail f roots 4) as (lo & hi & Heq & Hlo & Hhi & H0 & H1 & Hr); [lia|].
    exists lo, hi. split; [exact Heq|]. now repeat split.
  Qed.

  Definition rising (ps : list P) (i : nat) : Prop :=
    forall k, (S k < length ps)%nat -> coord (nth k ps p_default) i <= coord (nth (S k) ps p_default) i.

  Lemma rising_between (ps : list P) i t x y z : (i < p_dim (P := P))%nat -> rising ps i -> 0 <= t <= 1 ->
    bezier_eval (Bezier ps) 0 = Ret x -> bezier_eval (Bezier ps) t = Ret y -> bezier_eval (Bezier ps) 1 = Ret z ->
    coord x i <= coord y i <= coord z i.
  Proof.
    intros Hi Hr Ht Hx Hy Hz. set (w := fun k => if (k =? i)%nat then 1 else 0).
    assert (Hl : forall k, (S k < length ps)%nat -> level w (nth k ps p_default) <= level w (nth (S k) ps p_default)).
    { intros k Hk. unfold w. rewrite !(level_axis _ i Hi). now apply Hr. }
    rewrite <- !(level_axis _ i Hi). fold w. split.
    - apply (bezier_monotone ps w 0 t); auto; lra.
    - apply (bezier_monotone ps w t 1); auto; lra.
  Qed.

  (** falling: the same for the reversed sequence of points *)
  Lemma falling_between (ps : list P) i t x y z : (i < p_dim (P := P))%nat ->
    (forall k, (S k < length ps)%nat -> coord (nth (S k) ps p_default) i <= coord (nth k ps p_default) i) -> 0 <= t <= 1 ->
    bezier_eval (Bezier ps) 0 = Ret x -> bezier_eval (Bezier ps) t = Ret y -> bezier_eval (Bezier ps) 1 = Ret z ->
    coord z i <= coord y i <= coord x i.
  Proof.
    intros Hi Hr Ht Hx Hy Hz. set (w := fun k => - (if (k =? i)%nat then 1 else 0)).
    assert (HL : forall p : P, level w p = - coord p i).
    { intros p. rewrite <- (level_axis p i Hi). unfold level, w.
      rewrite (Rsum_ext _ (fun k => - (1) * ((if (k =? i)%nat then 1 else 0) * coord p k))) by (intros; ring).
      rewrite Rsum_scal. ring. }
    assert (Hl : forall k, (S k < length ps)%nat -> level w (nth k ps p_default) <= level w (nth (S k) ps p_default)).
    { intros k Hk. rewrite !HL. specialize (Hr k Hk). lra. }
    split.
    - enough (level w y <= level w z) by (rewrite !HL in *; lra). apply (bezier_monotone ps w t 1); auto; lra.
    - enough (level w x <= level w y) by (rewrite !HL in *; lra). apply (bezier_monotone ps w 0 t); auto; lra.
  Qed.

  Theorem quad_monotone_box (c : quad P) i : (i < p_dim (P := P))%nat ->
    mono3 (coord (q_start c) i) (coord (q_ctrl c) i) (coord (q_end c) i) ->
    exists bounds, quad_bounding_box c = Ret bounds /\
      nth_error bounds i = Some (Rmin (coord (q_start c) i) (coord (q_end c) i),
                                 Rmax (coord (q_start c) i) (coord (q_end c) i)).
  Proof.
    intros Hi Hm. rewrite quad_bbox_value. eexists. split; [reflexivity|].
    destruct (quad_bbox_ends c i Hi) as (lo & hi & Eb & (t & Ht & Elo) & (u & Hu & Ehi) & Hs & He).
    rewrite nth_error_map_seq by exact Hi. rewrite Eb. cbn [unret].
    assert (HB : forall t, 0 <= t <= 1 ->
      Rmin (coord (q_start c) i) (coord (q_end c) i) <= coord (quad_eval c t) i <= Rmax (coord (q_start c) i) (coord (q_end c) i)).
    { intros s Hs01. destruct c as [p0 p1 p2]. cbn [q_start q_ctrl q_end] in *.
      destruct Hm as [Hm|Hm].
      - rewrite Rmin_left, Rmax_right by lra.
        apply (rising_between [p0; p1; p2] i s); auto.
        + intros [|[|k]] Hk; simpl in *; [apply Hm|apply Hm|lia].
        + apply bezier_eval_0.
        + apply bezier_eval_quad.
        + exact (bezier_eval_1 [p0; p1] p2).
      - rewrite Rmin_right, Rmax_left by lra.
        apply (falling_between [p0; p1; p2] i s); auto.
        + intros [|[|k]] Hk; simpl in *; [apply Hm|apply Hm|lia].
        + apply bezier_eval_0.
        + apply bezier_eval_quad.
        + exact (bezier_eval_1 [p0; p1] p2). }
    do 2 f_equal.
    - specialize (HB t Ht). rewrite <- Elo in HB.
      unfold Rmin in *. destruct (Rle_dec _ _); lra.
    - specialize (HB u Hu). rewrite <- Ehi in HB. unfold Rmax in *. destruct (Rle_dec _ _); lra.
  Qed.

  Theorem cubic_monotone_box (c : cubic P) i : (i < p_dim (P := P))%nat ->
    mono4 (coord (c_start c) i) (coord (c_ctrl1 c) i) (coord (c_ctrl2 c) i) (coord (c_end c) i) ->
    exists bounds, cubic_bounding_box c = Ret bounds /\
      nth_error bounds i = Some (Rmin (coord (c_start c) i) (coord (c_end c) i),
                                 Rmax (coord (c_start c) i) (coord (c_end c) i)).
  Proof.
    intros Hi Hm. rewrite cubic_bbox_value. eexists. split; [reflexivity|].
    destruct (cubic_bbox_ends c i Hi) as (lo & hi & Eb & (t & Ht & Elo) & (u & Hu & Ehi) & Hs & He).
    rewrite nth_error_map_seq by exact Hi. rewrite Eb. cbn [unret].
    assert (HB : forall t, 0 <= t <= 1 ->
      Rmin (coord (c_start c) i) (coord (c_end c) i) <= coord (cubic_eval c t) i <= Rmax (coord (c_start c) i) (coord (c_end c) i)).
    { intros s Hs01. destruct c as [p0 p1 p2 p3]. cbn [c_start c_ctrl1 c_ctrl2 c_end] in *.
      destruct Hm as [Hm|Hm].
      - rewrite Rmin_left, Rmax_right by lra.
        apply (rising_between [p0; p1; p2; p3] i s); auto.
        + intros [|[|[|k]]] Hk; simpl in *; [apply Hm|apply Hm|apply Hm|lia].
        + apply bezier_eval_0.
        + apply bezier_eval_cubic.
        + exact (bezier_eval_1 [p0; p1; p2] p3).
      - rewrite Rmin_right, Rmax_left by lra.
        apply (falling_between [p0; p1; p2; p3] i s); auto.
        + intros [|[|[|k]]] Hk; simpl in *; [apply Hm|apply Hm|apply Hm|lia].
        + apply bezier_eval_0.
        + apply bezier_eval_cubic.
        + exact (bezier_eval_1 [p0; p1; p2] p3). }
    do 2 f_equal.
    - specialize (HB t Ht). rewrite <- Elo in HB.
      unfold Rmin in *. destruct (Rle_dec _ _); lra.
    - specialize (HB u Hu). rewrite <- Ehi in HB. unfold Rmax in *. destruct (Rle_dec _ _); lra.
  Qed.

  (** both end points are always inside, exactly *)
  Theorem quad_box_has_ends (c : quad P) : exists bounds, quad_bounding_box c = Ret bounds /\
    forall i, (i < p_dim (P := P))%nat -> exists lo hi, nth_error bounds i = Some (lo, hi) /\
      lo <= coord (q_start c) i <= hi /\ lo <= coord (q_end c) i <= hi.
  Proof.
    rewrite quad_bbox_value. eexists. split; [reflexivity|]. intros i Hi.
    destruct (quad_bbox_ends c i Hi) as (lo & hi & Eb & _ & _ & Hs & He).
    exists lo, hi. rewrite nth_error_map_seq by exact Hi. rewrite Eb. now repeat split.
  Qed.
  Theorem cubic_box_has_ends (c : cubic P) : exists bounds, cubic_bounding_box c = Ret bounds /\
    forall i, (i < p_dim (P := P))%nat -> exists lo hi, nth_error bounds i = Some (lo, hi) /\
      lo <= coord (c_start c) i <= hi /\ lo <= coord (c_end c) i <= hi.
  Proof.
    rewrite cubic_bbox_value. eexists. split; [reflexivity|]. intros i Hi.
    destruct (cubic_bbox_ends c i Hi) as (lo & hi & Eb & _ & _ & Hs & He).
    exists lo, hi. rewrite nth_error_map_seq by exact Hi. rewrite Eb. now repeat split.
  Qed.
End MonotoneBox.

Section TypedCrossings.
  Context {E : Eps} {P : Type} {PT : Point R P} {LP : LawfulPoint P}.

  Lemma quad_is_bezier (c : quad P) t : bezier_eval (Bezier (quad_control_points c)) t = Ret (quad_eval c t).
  Proof. destruct c as [a b d]. exact (bezier_eval_quad a b d t). Qed.
  Lemma cubic_is_bezier (c : cubic P) t : bezier_eval (Bezier (cubic_control_points c)) t = Ret (cubic_eval c t).
  Proof. destruct c as [a b d e]. exact (bezier_eval_cubic a b d e t). Qed.

  Theorem quad_crossings (c : quad P) w v ts : NoDup ts ->
    (forall t, In t ts -> 0 < t < 1 /\ level w (quad_eval c t) = v) ->
    (exists p, In p (quad_control_points c) /\ level w p <> v) ->
    polygon_crosses w v (quad_control_points c) (length ts).
  Proof.
    intros Hd H Hp. apply bezier_crossings; [exact Hd| |exact Hp]. intros t Ht. destruct (H t Ht) as [A B].
    split; [exact A|]. exists (quad_eval c t). split; [apply quad_is_bezier|exact B].
  Qed.
  Theorem cubic_crossings (c : cubic P) w v ts : NoDup ts ->
    (forall t, In t ts -> 0 < t < 1 /\ level w (cubic_eval c t) = v) ->
    (exists p, In p (cubic_control_points c) /\ level w p <> v) ->
    polygon_crosses w v (cubic_control_points c) (length ts).
  Proof.
    intros Hd H Hp. apply bezier_crossings; [exact Hd| |exact Hp]. intros t Ht. destruct (H t Ht) as [A B].
    split; [exact A|]. exists (cubic_eval c t). split; [apply cubic_is_bezier|exact B].
  Qed.
  Theorem quad_meets (c : quad P) w v ts : NoDup ts -> (3 <= length ts)%nat ->
    (forall t, In t ts -> level w (quad_eval c t) = v) ->
    level w (q_start c) = v /\ level w (q_ctrl c) = v /\ level w (q_end c) = v.
  Proof.
    intros Hd Hl H. assert (HA : forall p, In p (quad_control_points c) -> level w p = v).
    { apply (bezier_meets (quad_control_points c) w v ts Hd Hl). intros t Ht. exists (quad_eval c t).
      split; [apply quad_is_bezier|now apply H]. }
    repeat split; apply HA; simpl; tauto.
  Qed.
  Theorem cubic_meets (c : cubic P) w v ts : NoDup ts -> (4 <= length ts)%nat ->
    (forall t, In t ts -> level w (cubic_eval c t) = v) ->
    level w (c_start c) = v /\ level w (c_ctrl1 c) = v /\ level w (c_ctrl2 c) = v /\ level w (c_end c) = v.
  Proof.
    intros Hd Hl H. assert (HA : forall p, In p (cubic_control_points c) -> level w p = v).
    { apply (bezier_meets (cubic_control_points c) w v ts Hd Hl). intros t Ht. exists (cubic_eval c t).
      split; [apply cubic_is_bezier|now apply H]. }
    repeat split; apply HA; simpl; tauto.
  Qed.
  Theorem quad_monotone (c : quad P) w s t : level w (q_start c) <= level w (q_ctrl c) <= level w (q_end c) ->
    0 <= s <= t -> t <= 1 -> level w (quad_eval c s) <= level w (quad_eval c t).
  Proof.
    intros H Hs Ht. apply (bezier_monotone (quad_control_points c) w s t); auto using quad_is_bezier.
    intros [|[|k]] Hk; simpl in *; [apply H|apply H|lia].
  Qed.
  Theorem cubic_monotone (c : cubic P) w s t :
    level w (c_start c) <= level w (c_ctrl1 c) <= level w (c_ctrl2 c) -> level w (c_ctrl2 c) <= level w (c_end c) ->
    0 <= s <= t -> t <= 1 -> level w (cubic_eval c s) <= level w (cubic_eval c t).
  Proof.
    intros H H' Hs Ht. apply (bezier_monotone (cubic_control_points c) w s t); auto using cubic_is_bezier.
    intros [|[|[|k]]] Hk; simpl in *; [apply H|apply H|apply H'|lia].
  Qed.
End TypedCrossings.
