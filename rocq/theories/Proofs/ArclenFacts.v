(** Arc length and distance search: final forms for the property files. *)
From Coq Require Import Reals List Arith Lia Lra Psatz.
From Coquelicot Require Import Coquelicot.
From Verif Require Import Base.Outcome Base.Scalar Model.Point Model.Line Model.Quadratic Model.Cubic
  Model.Bezier Inst.RealInst
  Spec.Sums Spec.Lawful Spec.Bernstein Spec.Metric Spec.Length Spec.Points
  Proofs.OutcomeFacts Proofs.PointFacts Proofs.RealTac Proofs.Metric Proofs.ExactEval
  Proofs.BezierGeneric Proofs.BezierReal Proofs.BoxSpec Proofs.CurveCalc Proofs.Search.
Import ListNotations.
Local Open Scope R_scope.

Section Arclen.
  Context {E : Eps} {P : Type} {PT : Point R P} {LP : LawfulPoint P}.

  Lemma bezier_function (ps : list P) : ps <> [] ->
    exists f, forall t, bezier_eval (Bezier ps) t = Ret (f t).
  Proof.
    intros Hne. exists (fun t => match bezier_eval (Bezier ps) t with Ret p => p | _ => p_default end).
    intros t. destruct (bezier_eval_spec ps t Hne) as (x & Hx & _). rewrite Hx. reflexivity.
  Qed.

  Lemma leg_bound_ex (ps : list P) : exists L, leg_bound ps L.
  Proof.
    induction ps as [|p [|q ps] (L & HL & H)].
    - exists 0. split; [lra|]. intros [|k]; discriminate.
    - exists 0. split; [lra|]. intros [|[|k]]; discriminate.
    - exists (Rmax L (dist p q)). split; [eapply Rle_trans; [exact HL|apply Rmax_l]|].
      intros [|k] a b Ha Hb.
      + injection Ha as <-. injection Hb as <-. apply Rmax_r.
      + eapply Rle_trans; [apply (H k a b Ha Hb)|apply Rmax_l].
  Qed.


  Lemma rate_lim (a : nat -> R) l K : (forall m, (0 < m)%nat -> a m <= l /\ l - a m <= K / INR m) ->
    is_lim_seq a l.
  Proof.
    intros H. apply is_lim_seq_spec. intros [d Hd]. simpl.
    assert (HK : 0 <= K).
    { destruct (H 1%nat) as [H1 H2]; [lia|]. simpl in H2. lra. }
    destruct (archimed_cor1 (d / (K + 1))) as (N & HN & HN0).
    { apply Rdiv_lt_0_compat; lra. }
    exists N. intros n Hn. destruct (H n) as [H1 H2]; [lia|].
    rewrite Rabs_left1 by lra. apply Rle_lt_trans with (K / INR n); [lra|].
    assert (Hi : / INR n <= / INR N).
    { apply Rinv_le_contravar; [apply lt_0_INR; lia|]. now apply le_INR. }
    apply Rle_lt_trans with ((K + 1) * / INR N).
    - unfold Rdiv. apply Rmult_le_compat; try lra. apply Rlt_le, Rinv_0_lt_compat, lt_0_INR. lia.
    - apply Rmult_lt_compat_l with (r := K + 1) in HN; [|lra].
      replace ((K + 1) * (d / (K + 1))) with d in HN by (field; lra). exact HN.
  Qed.

  Lemma quad_arclen_bounds (c : quad P) m L : (0 < m)%nat -> leg_bound (quad_control_points c) L ->
    exists a, quad_arclen c m = Ret a /\ a <= arc_length (quad_control_points c) /\
      arc_length (quad_control_points c) - a <= 4 * L / INR m.
  Proof.
    intros Hm HL. destruct (quad_arclen_value c m Hm) as (a & Ea & Ha). exists a. split; [exact Ea|].
    destruct (arclen_bounds _ _ m a L (traces_quad c) ltac:(discriminate) Hm HL Ha) as [H1 H2].
    split; [exact H1|]. cbn [length quad_control_points Nat.sub] in H2.
    rewrite (INR_IZR_INZ 2) in H2. simpl IZR in H2.
    replace (4 * L / INR m) with (2 ^ 2 * L / INR m) by (unfold Rdiv; ring). exact H2.
  Qed.
  Lemma cubic_arclen_bounds (c : cubic P) m L : (0 < m)%nat -> leg_bound (cubic_control_points c) L ->
    exists a, cubic_arclen c m = Ret a /\ a <= arc_length (cubic_control_points c) /\
      arc_length (cubic_control_points c) - a <= 9 * L / INR m.
  Proof.
    intros Hm HL. destruct (cubic_arclen_value c m Hm) as (a & Ea & Ha). exists a. split; [exact Ea|].
    destruct (arclen_bounds _ _ m a L (traces_cubic c) ltac:(discriminate) Hm HL Ha) as [H1 H2].
    split; [exact H1|]. cbn [length cubic_control_points Nat.sub] in H2.
    rewrite (INR_IZR_INZ 3) in H2. simpl IZR in H2.
    replace (9 * L / INR m) with (3 ^ 2 * L / INR m) by (unfold Rdiv; ring). exact H2.
  Qed.
  Lemma bezier_arclen_bounds (ps : list P) m L : (0 < m)%nat -> ps <> [] -> leg_bound ps L ->
    exists a, bezier_arclen (Bezier ps) m = Ret a /\ a <= arc_length ps /\
      arc_length ps - a <= INR (length ps - 1) ^ 2 * L / INR m.
  Proof.
    intros Hm Hne HL. destruct (bezier_function ps Hne) as (f & Hf).
    destruct (bezier_arclen_value ps f m Hm Hf) as (a & Ea & Ha). exists a. split; [exact Ea|].
    exact (arclen_bounds f ps m a L (traces_bezier ps f Hf) Hne Hm HL Ha).
  Qed.

  (** where the curve never stops, only the missing first chord is of order 1/m *)
  Lemma quad_arclen_regular (c : quad P) m L v : (0 < m)%nat -> leg_bound (quad_control_points c) L ->
    0 < v -> (forall t, 0 <= t <= 1 -> v <= speed (quad_control_points c) t) ->
    exists a, quad_arclen c m = Ret a /\
      Rabs (arc_length (quad_control_points c) - (a + dist (quad_eval c 0) (quad_eval c (/ INR m))))
      <= 2 * L ^ 2 / (3 * v * INR m ^ 2).
  Proof.
    intros Hm HL Hv Hr. destruct (quad_arclen_value c m Hm) as (a & Ea & Ha). exists a. split; [exact Ea|].
    pose proof (arclen_bounds_regular _ _ m a L v (traces_quad c) ltac:(discriminate) Hm HL Hv Hr Ha) as H.
    cbn [length quad_control_points Nat.sub] in H.
    rewrite (INR_IZR_INZ 2), (INR_IZR_INZ 1) in H. simpl IZR in H.
    replace (2 * L ^ 2 / (3 * v * INR m ^ 2)) with ((2 * 1 * L) ^ 2 / (6 * v * INR m ^ 2))
      by (field; repeat split; try lra; apply Rgt_not_eq, lt_0_INR, Hm). exact H.
  Qed.
  Lemma cubic_arclen_regular (c : cubic P) m L v : (0 < m)%nat -> leg_bound (cubic_control_points c) L ->
    0 < v -> (forall t, 0 <= t <= 1 -> v <= speed (cubic_control_points c) t) ->
    exists a, cubic_arclen c m = Ret a /\
      Rabs (arc_length (cubic_control_points c) - (a + dist (cubic_eval c 0) (cubic_eval c (/ INR m))))
      <= 6 * L ^ 2 / (v * INR m ^ 2).
  Proof.
    intros Hm HL Hv Hr. destruct (cubic_arclen_value c m Hm) as (a & Ea & Ha). exists a. split; [exact Ea|].
    pose proof (arclen_bounds_regular _ _ m a L v (traces_cubic c) ltac:(discriminate) Hm HL Hv Hr Ha) as H.
    cbn [length cubic_control_points Nat.sub] in H.
    rewrite (INR_IZR_INZ 3), (INR_IZR_INZ 2) in H. simpl IZR in H.
    replace (6 * L ^ 2 / (v * INR m ^ 2)) with ((3 * 2 * L) ^ 2 / (6 * v * INR m ^ 2))
      by (field; repeat split; try lra; apply Rgt_not_eq, lt_0_INR, Hm). exact H.
  Qed.
  Lemma bezier_arclen_regular (ps : list P) m L v : (0 < m)%nat -> ps <> [] -> leg_bound ps L ->
    0 < v -> (forall t, 0 <= t <= 1 -> v <= speed ps t) ->
    exists f a, (forall t, bezier_eval (Bezier ps) t = Ret (f t)) /\ bezier_arclen (Bezier ps) m = Ret a /\
      Rabs (arc_length ps - (a + dist (f 0) (f (/ INR m))))
      <= (INR (length ps - 1) * INR (length ps - 2) * L) ^ 2 / (6 * v * INR m ^ 2).
  Proof.
    intros Hm Hne HL Hv Hr. destruct (bezier_function ps Hne) as (f & Hf).
    destruct (bezier_arclen_value ps f m Hm Hf) as (a & Ea & Ha). exists f, a. split; [exact Hf|]. split; [exact Ea|].
    exact (arclen_bounds_regular f ps m a L v (traces_bezier ps f Hf) Hne Hm HL Hv Hr Ha).
  Qed.

  Lemma quad_arclen_lim (c : quad P) (a : nat -> R) : (forall m, quad_arclen c m = Ret (a m)) ->
    is_lim_seq a (arc_length (quad_control_points c)).
  Proof.
    intros H. destruct (leg_bound_ex (quad_control_points c)) as (L & HL).
    apply (rate_lim _ _ (4 * L)). intros m Hm.
    destruct (quad_arclen_bounds c m L Hm HL) as (x & Ex & Hx). rewrite H in Ex. injection Ex as ->. exact Hx.
  Qed.
  Lemma cubic_arclen_lim (c : cubic P) (a : nat -> R) : (forall m, cubic_arclen c m = Ret (a m)) ->
    is_lim_seq a (arc_length (cubic_control_points c)).
  Proof.
    intros H. destruct (leg_bound_ex (cubic_control_points c)) as (L & HL).
    apply (rate_lim _ _ (9 * L)). intros m Hm.
    destruct (cubic_arclen_bounds c m L Hm HL) as (x & Ex & Hx). rewrite H in Ex. injection Ex as ->. exact Hx.
  Qed.
  Lemma bezier_arclen_lim (ps : list P) (a : nat -> R) : ps <> [] ->
    (forall m, bezier_arclen (Bezier ps) m = Ret (a m)) -> is_lim_seq a (arc_length ps).
  Proof.
    intros Hne H. destruct (leg_bound_ex ps) as (L & HL).
    apply (rate_lim _ _ (INR (length ps - 1) ^ 2 * L)). intros m Hm.
    destruct (bezier_arclen_bounds ps m L Hm Hne HL) as (x & Ex & Hx). rewrite H in Ex. injection Ex as ->. exact Hx.
  Qed.

  Lemma bezier_arclen_value' (ps : list P) m : (0 < m)%nat -> ps <> [] ->
    exists f a, (forall t, bezier_eval (Bezier ps) t = Ret (f t)) /\
      bezier_arclen (Bezier ps) m = Ret a /\ a + dist (f 0) (f (/ INR m)) = polyline f m.
  Proof.
    intros Hm Hne. destruct (bezier_function ps Hne) as (f & Hf).
    destruct (bezier_arclen_value ps f m Hm Hf) as (a & Ha). exists f, a. split; [exact Hf|exact Ha].
  Qed.

  Lemma quad_arclen_zero (c : quad P) : quad_arclen c 0 = Ret 0. Proof. reflexivity. Qed.
  Lemma cubic_arclen_zero (c : cubic P) : cubic_arclen c 0 = Ret 0. Proof. reflexivity. Qed.
  Lemma bezier_arclen_zero (c : bezier P) : bezier_arclen c 0 = Ret 0. Proof. reflexivity. Qed.

  (** with one step nothing is summed *)
  Lemma quad_arclen_one (c : quad P) : quad_arclen c 1 = Ret 0. Proof. reflexivity. Qed.
  Lemma cubic_arclen_one (c : cubic P) : cubic_arclen c 1 = Ret 0. Proof. reflexivity. Qed.
  Lemma bezier_arclen_one (c : bezier P) : bezier_arclen c 1 = Ret 0. Proof. reflexivity. Qed.

  Lemma polyline_1 (f : R -> P) : polyline f 1 = dist (f 0) (f 1).
  Proof.
    unfold polyline. cbn [Rsum]. rewrite Rplus_0_l. f_equal; f_equal; simpl; field.
  Qed.

  Lemma bezier_distance_value' (ps : list P) p : ps <> [] ->
    exists f d, (forall t, bezier_eval (Bezier ps) t = Ret (f t)) /\
    bezier_distance_to_point (Bezier ps) p = Ret d /\
    (exists u, - (31 * 63 / 4096) <= u <= 1 /\ d = dist p (f u)) /\
    d <= dist p (f 0) /\
    forall i, (i < 64)%nat -> d <= dist p (f (INR i / 64)).
  Proof.
    intros Hne. destruct (bezier_function ps Hne) as (f & Hf).
    destruct (bezier_distance_value ps f p Hf) as (d & H). exists f, d. split; [exact Hf|exact H].
  Qed.
  Lemma bezier_distance_over' (ps : list P) p L : ps <> [] -> leg_bound ps L ->
    exists f d, (forall t, bezier_eval (Bezier ps) t = Ret (f t)) /\
      bezier_distance_to_point (Bezier ps) p = Ret d /\
      forall t, 0 <= t <= 1 -> d <= dist p (f t) + INR (length ps - 1) * L / 64.
  Proof.
    intros Hne HL. destruct (bezier_function ps Hne) as (f & Hf).
    destruct (bezier_distance_over ps f p L Hf HL) as (d & H). exists f, d. split; [exact Hf|exact H].
  Qed.

  (** the two halves of [*_distance_value] *)
  Lemma quad_distance_extended (c : quad P) p : exists d, quad_distance_to_point c p = Ret d /\
    exists u, - (31 * 63 / 4096) <= u <= 1 /\ d = dist p (quad_eval c u).
  Proof. destruct (quad_distance_value c p) as (d & H1 & H2 & _). exists d. exact (conj H1 H2). Qed.
  Lemma cubic_distance_extended (c : cubic P) p : exists d, cubic_distance_to_point c p = Ret d /\
    exists u, - (31 * 63 / 4096) <= u <= 1 /\ d = dist p (cubic_eval c u).
  Proof. destruct (cubic_distance_value c p) as (d & H1 & H2 & _). exists d. exact (conj H1 H2). Qed.
  Lemma bezier_distance_extended (ps : list P) p : ps <> [] ->
    exists f d, (forall t, bezier_eval (Bezier ps) t = Ret (f t)) /\
    bezier_distance_to_point (Bezier ps) p = Ret d /\
    exists u, - (31 * 63 / 4096) <= u <= 1 /\ d = dist p (f u).
  Proof.
    intros H. destruct (bezier_distance_value' ps p H) as (f & d & H0 & H1 & H2 & _).
    exists f, d. exact (conj H0 (conj H1 H2)).
  Qed.
  Lemma quad_distance_samples (c : quad P) p : exists d, quad_distance_to_point c p = Ret d /\
    d <= dist p (q_start c) /\ forall i, (i < 64)%nat -> d <= dist p (quad_eval c (INR i / 64)).
  Proof. destruct (quad_distance_value c p) as (d & H1 & _ & H2). exists d. exact (conj H1 H2). Qed.
  Lemma cubic_distance_samples (c : cubic P) p : exists d, cubic_distance_to_point c p = Ret d /\
    d <= dist p (c_start c) /\ forall i, (i < 64)%nat -> d <= dist p (cubic_eval c (INR i / 64)).
  Proof. destruct (cubic_distance_value c p) as (d & H1 & _ & H2). exists d. exact (conj H1 H2). Qed.
  Lemma bezier_distance_samples (ps : list P) p : ps <> [] ->
    exists f d, (forall t, bezier_eval (Bezier ps) t = Ret (f t)) /\
    bezier_distance_to_point (Bezier ps) p = Ret d /\
    d <= dist p (f 0) /\ forall i, (i < 64)%nat -> d <= dist p (f (INR i / 64)).
  Proof.
    intros H. destruct (bezier_distance_value' ps p H) as (f & d & H0 & H1 & _ & H2).
    exists f, d. exact (conj H0 (conj H1 H2)).
  Qed.
End Arclen.

Section CE.
  Context {E : Eps}.
  Lemma arclen_ce : exists (c : quad P1) (k : cubic P1) (ps : list P1) f,
    quad_arclen c 1 = Ret 0 /\ polyline (quad_eval c) 1 = 1 /\
    cubic_arclen k 1 = Ret 0 /\ polyline (cubic_eval k) 1 = 1 /\
    bezier_arclen (Bezier ps) 1 = Ret 0 /\ (forall t, bezier_eval (Bezier ps) t = Ret (f t)) /\ polyline f 1 = 1.
  Proof.
    assert (H1 : dist (pt1 0) (pt1 1) = 1). { rewrite dist_pt1, Rabs_left; lra. }
    exists (Quad (pt1 0) (pt1 0) (pt1 1)), (Cubic (pt1 0) (pt1 0) (pt1 0) (pt1 1)), [pt1 0; pt1 0; pt1 0; pt1 0; pt1 1].
    destruct (bezier_function [pt1 0; pt1 0; pt1 0; pt1 0; pt1 1]) as (f & Hf); [discriminate|].
    exists f. repeat split; auto.
    - rewrite polyline_1, quad_eval_0, quad_eval_1. exact H1.
    - rewrite polyline_1, cubic_eval_0, cubic_eval_1. exact H1.
    - rewrite polyline_1. pose proof (Hf 0) as E0. pose proof (Hf 1) as E1.
      rewrite bezier_eval_0 in E0.
      pose proof (bezier_eval_1 [pt1 0; pt1 0; pt1 0; pt1 0] (pt1 1)) as E2. cbn [app] in E2.
      rewrite E2 in E1. assert (F0 : f 0 = pt1 0) by congruence. assert (F1 : f 1 = pt1 1) by congruence.
      rewrite F0, F1. exact H1.
  Qed.
End CE.
