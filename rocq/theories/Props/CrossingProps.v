(** C85-C86: curves and hyperplanes. *)
From Coq Require Import Reals List ZArith Arith Lia Lra.
From Verif Require Import Base.Outcome Base.Scalar Model.Point Model.Line Model.Quadratic Model.Cubic
  Model.Bezier Inst.RealInst Spec.Sums Spec.Lawful Spec.Points Spec.Crossings Proofs.PointFacts Proofs.RealTac
  Proofs.BoxSpec Proofs.Crossings Proofs.MonotoneBox.
Import ListNotations.
Local Open Scope R_scope.

Section Crossing.
  Context {E : Eps} {P : Type} {PT : Point R P} {LP : LawfulPoint P}.

  (** C85: a hyperplane crosses the curve no more often than the control polygon *)
  Theorem C85_bezier (ps : list P) w c (ts : list R) : NoDup ts ->
    (forall t, In t ts -> 0 < t < 1 /\ exists x, bezier_eval (Bezier ps) t = Ret x /\ level w x = c) ->
    (exists p, In p ps /\ level w p <> c) -> polygon_crosses w c ps (length ts).
  Proof. exact (bezier_crossings ps w c ts). Qed.
  Theorem C85_quad (c : quad P) w v ts : NoDup ts ->
    (forall t, In t ts -> 0 < t < 1 /\ level w (quad_eval c t) = v) ->
    (exists p, In p (quad_control_points c) /\ level w p <> v) ->
    polygon_crosses w v (quad_control_points c) (length ts).
  Proof. exact (quad_crossings c w v ts). Qed.
  Theorem C85_cubic (c : cubic P) w v ts : NoDup ts ->
    (forall t, In t ts -> 0 < t < 1 /\ level w (cubic_eval c t) = v) ->
    (exists p, In p (cubic_control_points c) /\ level w p <> v) ->
    polygon_crosses w v (cubic_control_points c) (length ts).
  Proof. exact (cubic_crossings c w v ts). Qed.
  (** at any parameters: no more often than the degree, unless the curve lies in it *)
  Theorem C85_bezier_degree (ps : list P) w c (ts : list R) : NoDup ts -> (length ps <= length ts)%nat ->
    (forall t, In t ts -> exists x, bezier_eval (Bezier ps) t = Ret x /\ level w x = c) ->
    forall p, In p ps -> level w p = c.
  Proof. exact (bezier_meets ps w c ts). Qed.
  Theorem C85_quad_degree (c : quad P) w v ts : NoDup ts -> (3 <= length ts)%nat ->
    (forall t, In t ts -> level w (quad_eval c t) = v) ->
    level w (q_start c) = v /\ level w (q_ctrl c) = v /\ level w (q_end c) = v.
  Proof. exact (quad_meets c w v ts). Qed.
  Theorem C85_cubic_degree (c : cubic P) w v ts : NoDup ts -> (4 <= length ts)%nat ->
    (forall t, In t ts -> level w (cubic_eval c t) = v) ->
    level w (c_start c) = v /\ level w (c_ctrl1 c) = v /\ level w (c_ctrl2 c) = v /\ level w (c_end c) = v.
  Proof. exact (cubic_meets c w v ts). Qed.

  (** C86: control points in order give a curve in order *)
  Theorem C86_bezier (ps : list P) w s t x y :
    (forall k, (S k < length ps)%nat -> level w (nth k ps p_default) <= level w (nth (S k) ps p_default)) ->
    0 <= s <= t -> t <= 1 -> bezier_eval (Bezier ps) s = Ret x -> bezier_eval (Bezier ps) t = Ret y ->
    level w x <= level w y.
  Proof. exact (bezier_monotone ps w s t x y). Qed.
  Theorem C86_quad (c : quad P) w s t : level w (q_start c) <= level w (q_ctrl c) <= level w (q_end c) ->
    0 <= s <= t -> t <= 1 -> level w (quad_eval c s) <= level w (quad_eval c t).
  Proof. exact (quad_monotone c w s t). Qed.
  Theorem C86_cubic (c : cubic P) w s t :
    level w (c_start c) <= level w (c_ctrl1 c) <= level w (c_ctrl2 c) -> level w (c_ctrl2 c) <= level w (c_end c) ->
    0 <= s <= t -> t <= 1 -> level w (cubic_eval c s) <= level w (cubic_eval c t).
  Proof. exact (cubic_monotone c w s t). Qed.
  (** and then the box is that of the end points, with no slack *)
  Theorem C86_quad_box (c : quad P) i : (i < p_dim (P := P))%nat ->
    mono3 (coord (q_start c) i) (coord (q_ctrl c) i) (coord (q_end c) i) ->
    exists bounds, quad_bounding_box c = Ret bounds /\
      nth_error bounds i = Some (Rmin (coord (q_start c) i) (coord (q_end c) i),
                                 Rmax (coord (q_start c) i) (coord (q_end c) i)).
  Proof. exact (quad_monotone_box c i). Qed.
  Theorem C86_cubic_box (c : cubic P) i : (i < p_dim (P := P))%nat ->
    mono4 (coord (c_start c) i) (coord (c_ctrl1 c) i) (coord (c_ctrl2 c) i) (coord (c_end c) i) ->
    exists bounds, cubic_bounding_box c = Ret bounds /\
      nth_error bounds i = Some (Rmin (coord (c_start c) i) (coord (c_end c) i),
                                 Rmax (coord (c_start c) i) (coord (c_end c) i)).
  Proof. exact (cubic_monotone_box c i). Qed.
  (** the end points are always in the box, with no slack *)
  Theorem C86_quad_ends (c : quad P) : exists bounds, quad_bounding_box c = Ret bounds /\
    forall i, (i < p_dim (P := P))%nat -> exists lo hi, nth_error bounds i = Some (lo, hi) /\
      lo <= coord (q_start c) i <= hi /\ lo <= coord (q_end c) i <= hi.
  Proof. exact (quad_box_has_ends c). Qed.
  Theorem C86_cubic_ends (c : cubic P) : exists bounds, cubic_bounding_box c = Ret bounds /\
    forall i, (i < p_dim (P := P))%nat -> exists lo hi, nth_error bounds i = Some (lo, hi) /\
      lo <= coord (c_start c) i <= hi /\ lo <= coord (c_end c) i <= hi.
  Proof. exact (cubic_box_has_ends c). Qed.

  (** the level with weight 1 on one axis is a coordinate *)
  Theorem C85_axis (p : P) i : (i < p_dim (P := P))%nat ->
    level (fun k => if (k =? i)%nat then 1 else 0) p = coord p i.
  Proof. exact (level_axis p i). Qed.
End Crossing.

(** ** Concrete cases *)
(** the cubic 1, -4, 4, -1 has value 0 at the parameters (10 - 2 sqrt 15)/20, 1/2 and (10 + 2 sqrt 15)/20;
    here the one at 1/2, and the zigzag of its polygon *)
Example C85_ex {E : Eps} :
  (forall t, In t [1 / 2] -> 0 < t < 1 /\
     level (fun _ => 1) (cubic_eval (Cubic (pt1 1) (pt1 (-4)) (pt1 4) (pt1 (-1))) t) = 0) /\
  polygon_crosses (fun _ => 1) 0 [pt1 1; pt1 (-4); pt1 4; pt1 (-1)] 3 /\
  ~ polygon_crosses (fun _ => 1) 0 [pt1 1; pt1 2; pt1 4; pt1 (-1)] 2.
Proof.
  assert (HL : forall p : P1, level (fun _ => 1) p = coord p 0).
  { intros p. unfold level. change (p_dim (P := P1)) with 1%nat. cbn [Rsum]. ring. }
  split; [|split].
  - intros t [<-|[]]. split; [lra|]. rewrite HL. unfold cubic_eval. cbn [c_start c_ctrl1 c_ctrl2 c_end].
    assert (Hi : (0 < p_dim (P := P1))%nat) by (change (p_dim (P := P1)) with 1%nat; lia).
    coords. rs. rewrite !coord_pt1. lra.
  - exists (fun j => j). split; [lia|]. split; [simpl; lia|].
    intros [|[|[|j]]] Hj; [| | |lia]; cbn [nth]; rewrite !HL, !coord_pt1; lra.
  - intros (idx & I1 & I2 & I3). pose proof (I1 0%nat ltac:(lia)). pose proof (I1 1%nat ltac:(lia)).
    pose proof (I2 2%nat ltac:(lia)) as Hb. cbn [length] in Hb. pose proof (I3 0%nat ltac:(lia)) as S0.
    destruct (idx 0%nat) as [|[|a]]; destruct (idx 1%nat) as [|[|[|b]]]; try lia; cbn [nth] in S0;
      rewrite !HL, !coord_pt1 in S0; lra.
Qed.
Example C86_ex {E : Eps} : mono3 0 3 4 /\
  exists bounds, quad_bounding_box (Quad (pt1 0) (pt1 3) (pt1 4)) = Ret bounds /\ nth_error bounds 0 = Some (0, 4).
Proof.
  split; [left; lra|].
  destruct (quad_monotone_box (Quad (pt1 0) (pt1 3) (pt1 4)) 0) as (bs & H1 & H2).
  - change (p_dim (P := P1)) with 1%nat. lia.
  - left. cbn [q_start q_ctrl q_end]. rewrite !coord_pt1. lra.
  - exists bs. split; [exact H1|]. rewrite H2. cbn [q_start q_end]. rewrite !coord_pt1.
    now rewrite Rmin_left, Rmax_right by lra.
Qed.

Print Assumptions C85_bezier.
Print Assumptions C85_quad.
Print Assumptions C85_cubic.
Print Assumptions C85_bezier_degree.
Print Assumptions C85_quad_degree.
Print Assumptions C85_cubic_degree.
Print Assumptions C85_axis.
Print Assumptions C86_bezier.
Print Assumptions C86_quad.
Print Assumptions C86_cubic.
Print Assumptions C86_quad_box.
Print Assumptions C86_cubic_box.
Print Assumptions C86_quad_ends.
Print Assumptions C86_cubic_ends.
