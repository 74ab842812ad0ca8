(** Lipschitz bounds and arc length of Bezier curves. *)
From Coq Require Import Reals List Arith Lia Lra Psatz.
From Coquelicot Require Import Coquelicot.
From Verif Require Import Base.Outcome Base.Scalar Model.Point Model.Line Model.Quadratic Model.Cubic
  Model.Bezier Inst.RealInst
  Spec.Sums Spec.Lawful Spec.Bernstein Spec.Metric Spec.Length
  Proofs.OutcomeFacts Proofs.PointFacts Proofs.RealTac Proofs.Metric Proofs.ExactEval
  Proofs.BezierGeneric Proofs.BezierReal Proofs.Calculus.
Import ListNotations.
Local Open Scope R_scope.

Section CurveCalc.
  Context {E : Eps} {P : Type} {PT : Point R P} {LP : LawfulPoint P}.
  Implicit Types ps : list P.
  Local Notation dflt := (p_default (P := P)).

  Definition traces (f : R -> P) ps : Prop :=
    forall t i, (i < p_dim (P := P))%nat -> coord (f t) i = curve_coord ps t i.

  (** derivative of coordinate [i] *)
  Definition dcoord ps (i : nat) (t : R) : R :=
    INR (length ps - 1) * dc t (length ps - 1 - 1) (fun k => cs ps i (k + 1) - cs ps i k) 0.

  Lemma dcoord_lim ps i t : ps <> [] ->
    derivable_pt_lim (fun t => curve_coord ps t i) t (dcoord ps i t).
  Proof.
    intros H. pose proof (dc_derivative (length ps - 1) (cs ps i) 0 t) as Hd.
    eapply derivable_pt_lim_ext; [|exact Hd]. intros; symmetry. now apply curve_coord_dc.
  Qed.

  Definition ddcoord ps (i : nat) (t : R) : R :=
    INR (length ps - 1) * (INR (length ps - 1 - 1) * dc t (length ps - 1 - 1 - 1)
      (fun k => (cs ps i (k + 1 + 1) - cs ps i (k + 1)) - (cs ps i (k + 1) - cs ps i k)) 0).

  Lemma ddcoord_lim ps i t : derivable_pt_lim (dcoord ps i) t (ddcoord ps i t).
  Proof.
    apply (derivable_pt_lim_scal (fun t => dc t (length ps - 1 - 1) _ 0)).
    apply dc_derivative.
  Qed.

  Lemma dcoord_continuous ps i t : continuous (dcoord ps i) t.
  Proof.
    apply continuity_pt_filterlim, derivable_continuous_pt. eexists. apply ddcoord_lim.
  Qed.

  Lemma leg_nth ps L k : leg_bound ps L -> (S k < length ps)%nat ->
    nrm (fun i => cs ps i (k + 1) - cs ps i k) (p_dim (P := P)) <= L.
  Proof.
    intros [_ H] Hk. specialize (H k (nth k ps dflt) (nth (S k) ps dflt)).
    rewrite dist_sym, dist_nrm in H. rewrite Nat.add_1_r. apply H; apply nth_error_nth'; lia.
  Qed.

  Lemma dcoord_bound ps L t : leg_bound ps L -> ps <> [] -> 0 <= t <= 1 ->
    nrm (fun i => dcoord ps i t) (p_dim (P := P)) <= INR (length ps - 1) * L.
  Proof.
    intros HL Hne Ht. unfold dcoord. rewrite nrm_scal.
    rewrite Rabs_pos_eq by apply pos_INR.
    destruct (length ps - 1)%nat as [|n] eqn:En.
    { simpl INR. rewrite !Rmult_0_l. lra. }
    apply Rmult_le_compat_l; [apply pos_INR|].
    rewrite (nrm_ext _ (fun i => Rsum (fun k => bernstein n k t * (cs ps i (k + 1) - cs ps i k)) (S n))).
    2:{ intros i Hi. replace (S n - 1)%nat with n by lia. rewrite dc_bernstein. reflexivity. }
    eapply Rle_trans; [apply nrm_combination|].
    replace L with (Rsum (fun k => L * bernstein n k t) (S n)) by (rewrite Rsum_scal, bernstein_sum; ring).
    apply Rsum_le. intros k Hk. rewrite Rabs_pos_eq by now apply bernstein_nonneg.
    rewrite Rmult_comm. apply Rmult_le_compat_r; [now apply bernstein_nonneg|].
    apply leg_nth; auto. lia.
  Qed.

  Lemma ddcoord_bound ps L t : leg_bound ps L -> 0 <= t <= 1 ->
    nrm (fun i => ddcoord ps i t) (p_dim (P := P))
    <= INR (length ps - 1) * (INR (length ps - 1 - 1) * (2 * L)).
  Proof.
    intros HL Ht. unfold ddcoord. rewrite !nrm_scal.
    rewrite !Rabs_pos_eq by apply pos_INR.
    apply Rmult_le_compat_l; [apply pos_INR|].
    destruct (length ps - 1 - 1)%nat as [|n] eqn:En.
    { simpl INR. rewrite !Rmult_0_l. lra. }
    apply Rmult_le_compat_l; [apply pos_INR|].
    replace (S n - 1)%nat with n by lia.
    set (d2 := fun k i => (cs ps i (k + 1 + 1) - cs ps i (k + 1)) - (cs ps i (k + 1) - cs ps i k)).
    rewrite (nrm_ext _ (fun i => Rsum (fun k => bernstein n k t * d2 k i) (S n))).
    2:{ intros i Hi. rewrite dc_bernstein. reflexivity. }
    eapply Rle_trans; [apply nrm_combination|].
    replace (2 * L) with (Rsum (fun k => (2 * L) * bernstein n k t) (S n))
      by (rewrite Rsum_scal, bernstein_sum; ring).
    apply Rsum_le. intros k Hk. rewrite Rabs_pos_eq by now apply bernstein_nonneg.
    rewrite Rmult_comm. apply Rmult_le_compat_r; [now apply bernstein_nonneg|].
    unfold d2.
    rewrite (nrm_ext _ (fun i => (cs ps i (k + 1 + 1) - cs ps i (k + 1))
                                 + (-1) * (cs ps i (k + 1) - cs ps i k))) by (intros; ring).
    eapply Rle_trans; [apply minkowski|].
    rewrite (nrm_scal (-1) (fun i => cs ps i (k + 1) - cs ps i k)), Rabs_left by lra.
    pose proof (leg_nth ps L (k + 1) HL). pose proof (leg_nth ps L k HL).
    assert (S (k + 1) < length ps)%nat by lia. assert (S k < length ps)%nat by lia. 
    specialize (H H1). specialize (H0 H2). lra.
  Qed.

  Lemma dist_chord f ps a b : traces f ps ->
    dist (f a) (f b) = chord (p_dim (P := P)) (fun i t => curve_coord ps t i) a b.
  Proof.
    intros Hf. rewrite dist_sym, dist_nrm. apply nrm_ext. intros i Hi. now rewrite !Hf.
  Qed.

  (** Lipschitz on [0,1] *)
  Lemma curve_lipschitz f ps L a b : traces f ps -> ps <> [] -> leg_bound ps L ->
    0 <= a <= 1 -> 0 <= b <= 1 ->
    dist (f a) (f b) <= INR (length ps - 1) * L * Rabs (b - a).
  Proof.
    intros Hf Hne HL.
    assert (G : forall a b, 0 <= a <= b -> b <= 1 -> dist (f a) (f b) <= INR (length ps - 1) * L * (b - a)).
    { clear a b. intros a b Ha Hb. rewrite (dist_chord f ps) by assumption.
      apply (chord_bound _ _ (dcoord ps)); [|lra|].
      - intros; now apply dcoord_lim.
      - intros t Ht. apply dcoord_bound; auto. lra. }
    intros Ha Hb. destruct (Rle_dec a b).
    - rewrite Rabs_pos_eq by lra. apply G; lra.
    - rewrite dist_sym, Rabs_left by lra. replace (- (b - a)) with (a - b) by ring. apply G; lra.
  Qed.

  Lemma speed_vel ps t : ps <> [] -> speed ps t = vel (p_dim (P := P)) (dcoord ps) t.
  Proof.
    intros Hne. unfold speed, vel, nrm, sq. f_equal. apply Rsum_ext. intros i Hi.
    rewrite (is_derive_unique (fun t => curve_coord ps t i) t (dcoord ps i t)); auto.
    apply is_derive_Reals. now apply dcoord_lim.
  Qed.

  Lemma arc_length_vel ps : ps <> [] -> arc_length ps = RInt (vel (p_dim (P := P)) (dcoord ps)) 0 1.
  Proof. intros. apply RInt_ext. intros. now apply speed_vel. Qed.

  Lemma polyline_chord f ps m : traces f ps ->
    polyline f m = Rsum (fun i => chord (p_dim (P := P)) (fun i t => curve_coord ps t i)
                                   (knot m i) (knot m (i + 1))) m.
  Proof. intros Hf. apply Rsum_ext. intros i Hi. now apply (dist_chord f ps). Qed.

  Lemma polyline_upper f ps m : traces f ps -> ps <> [] -> (0 < m)%nat ->
    polyline f m <= arc_length ps.
  Proof.
    intros Hf Hne Hm. rewrite (polyline_chord f ps), arc_length_vel by assumption.
    apply polyline_le_length; auto.
    - intros; now apply dcoord_lim.
    - intros; apply dcoord_continuous.
  Qed.

  Lemma dcoord_steady ps L s t : leg_bound ps L -> 0 <= s <= 1 -> 0 <= t <= 1 ->
    nrm (fun i => dcoord ps i t - dcoord ps i s) (p_dim (P := P))
    <= 2 * INR (length ps - 1) * INR (length ps - 2) * L * Rabs (t - s).
  Proof.
    intros HL.
    assert (K : forall s t, 0 <= s <= 1 -> 0 <= t <= 1 -> s <= t ->
      nrm (fun i => dcoord ps i t - dcoord ps i s) (p_dim (P := P))
      <= 2 * INR (length ps - 1) * INR (length ps - 2) * L * (t - s)).
    { clear s t. intros s t Hs Ht Hst.
      apply (chord_bound (p_dim (P := P)) (dcoord ps) (ddcoord ps)); [|exact Hst|].
      - intros; apply ddcoord_lim.
      - intros x Hx. pose proof (ddcoord_bound ps L x HL ltac:(lra)) as B.
        replace (length ps - 1 - 1)%nat with (length ps - 2)%nat in B by lia. unfold vel. lra. }
    intros Hs Ht. destruct (Rle_or_lt s t) as [H|H].
    - rewrite Rabs_pos_eq by lra. now apply K.
    - rewrite Rabs_left by lra. replace (- (t - s)) with (s - t) by ring.
      rewrite (nrm_ext _ (fun i => -1 * (dcoord ps i s - dcoord ps i t))) by (intros; ring).
      rewrite nrm_scal, Rabs_left by lra. pose proof (K t s Ht Hs ltac:(lra)). lra.
  Qed.

  Lemma polyline_lower f ps m L : traces f ps -> ps <> [] -> (0 < m)%nat -> leg_bound ps L ->
    arc_length ps - INR (length ps - 1) * INR (length ps - 2) * L / INR m <= polyline f m.
  Proof.
    intros Hf Hne Hm HL. rewrite (polyline_chord f ps), arc_length_vel by assumption.
    replace (INR (length ps - 1) * INR (length ps - 2) * L / INR m)
      with (2 * INR (length ps - 1) * INR (length ps - 2) * L / (2 * INR m))
      by (field; apply Rgt_not_eq, lt_0_INR, Hm).
    apply polyline_ge_length; auto.
    - intros; now apply dcoord_lim.
    - intros; apply dcoord_continuous.
    - intros s t. apply (dcoord_steady ps L s t HL).
  Qed.

  Lemma polyline_lower_regular f ps m L v : traces f ps -> ps <> [] -> (0 < m)%nat -> leg_bound ps L ->
    0 < v -> (forall t, 0 <= t <= 1 -> v <= speed ps t) ->
    arc_length ps - (INR (length ps - 1) * INR (length ps - 2) * L) ^ 2 / (6 * v * INR m ^ 2) <= polyline f m.
  Proof.
    intros Hf Hne Hm HL Hv Hr. rewrite (polyline_chord f ps), arc_length_vel by assumption.
    replace ((INR (length ps - 1) * INR (length ps - 2) * L) ^ 2 / (6 * v * INR m ^ 2))
      with ((2 * INR (length ps - 1) * INR (length ps - 2) * L) * (2 * INR (length ps - 1) * INR (length ps - 2) * L)
              / (24 * v * (INR m * INR m)))
      by (field; repeat split; try lra; apply Rgt_not_eq, lt_0_INR, Hm).
    apply polyline_ge_length_regular; auto.
    - intros; now apply dcoord_lim.
    - intros; apply dcoord_continuous.
    - intros s t. apply (dcoord_steady ps L s t HL).
    - intros t Ht. rewrite <- speed_vel by exact Hne. now apply Hr.
  Qed.

  (** ** The loop of [arclen] *)
  Lemma arclen_loop (f : R -> P) m :
    for_in (range 1 m) (s_lit 0) (fun i arclen =>
      Ret (s_add arclen (s_sqrt (p_sqlen (p_sub
         (f (s_div (s_mul (s_of_usize i) (s_lit 1)) (s_of_usize m)))
         (f (s_add (s_div (s_mul (s_of_usize i) (s_lit 1)) (s_of_usize m))
                   (s_div (s_lit 1) (s_of_usize m)))))))))
    = Ret (Rsum (fun i => dist (f (INR (i + 1) / INR m)) (f (INR (i + 2) / INR m))) (m - 1)).
  Proof.
    rs. set (body := fun i a => _).
    destruct (le_lt_dec m 1) as [Hm|Hm].
    { rewrite range_nil by assumption. replace (m - 1)%nat with 0%nat by lia. reflexivity. }
    destruct (for_in_range_inv (fun k a => a = Rsum (fun i => dist (f (INR (i + 1) / INR m))
                (f (INR (i + 2) / INR m))) (k - 1)) 1 m 0 body) as (a & Ea & Ia); try lia.
    - reflexivity.
    - intros i a Hi ->. eexists. split; [reflexivity|].
      replace (i + 1 - 1)%nat with (S (i - 1)) by lia. cbn [Rsum]. f_equal.
      rewrite sqrt_sqlen_sub. replace (i - 1 + 1)%nat with i by lia.
      replace (i - 1 + 2)%nat with (i + 1)%nat by lia. f_equal.
      + f_equal. rewrite Rmult_1_r. reflexivity.
      + f_equal. rewrite plus_INR. simpl (INR 1). unfold Rdiv. ring.
    - rewrite Ea, Ia. reflexivity.
  Qed.

  Lemma polyline_first (f : R -> P) m : (0 < m)%nat ->
    polyline f m = dist (f 0) (f (/ INR m))
      + Rsum (fun i => dist (f (INR (i + 1) / INR m)) (f (INR (i + 2) / INR m))) (m - 1).
  Proof.
    intros Hm. unfold polyline. destruct m as [|m]; [lia|]. rewrite Rsum_shift.
    replace (S m - 1)%nat with m by lia. f_equal.
    - f_equal.
      + f_equal. simpl (INR 0). unfold Rdiv. ring.
      + f_equal. simpl (INR (0 + 1)). unfold Rdiv. ring.
    - apply Rsum_ext. intros i Hi. do 2 f_equal.
      + do 2 f_equal. lia.
      + do 2 f_equal. lia.
  Qed.

  Lemma traces_quad (c : quad P) : traces (quad_eval c) (quad_control_points c).
  Proof. intros t i Hi. now apply quad_eval_spec. Qed.
  Lemma traces_cubic (c : cubic P) : traces (cubic_eval c) (cubic_control_points c).
  Proof. intros t i Hi. now apply cubic_eval_spec. Qed.
  Lemma traces_bezier ps f : (forall t, bezier_eval (Bezier ps) t = Ret (f t)) -> traces f ps.
  Proof.
    intros Hf t i Hi. destruct ps as [|p ps]; [specialize (Hf 0); rewrite bezier_eval_nil in Hf; discriminate|].
    destruct (bezier_eval_spec (p :: ps) t) as (x & Hx & Hc); [discriminate|].
    rewrite Hf in Hx. injection Hx as <-. auto.
  Qed.


  Lemma quad_arclen_value (c : quad P) m : (0 < m)%nat ->
    exists a, quad_arclen c m = Ret a /\ a + dist (quad_eval c 0) (quad_eval c (/ INR m)) = polyline (quad_eval c) m.
  Proof.
    intros Hm. eexists. split.
    - unfold quad_arclen. rewrite <- (arclen_loop (quad_eval c) m).
      apply for_in_ext. intros i a _. now rewrite !quad_casteljau_eval.
    - rewrite polyline_first by assumption. ring.
  Qed.
  Lemma cubic_arclen_value (c : cubic P) m : (0 < m)%nat ->
    exists a, cubic_arclen c m = Ret a /\ a + dist (cubic_eval c 0) (cubic_eval c (/ INR m)) = polyline (cubic_eval c) m.
  Proof.
    intros Hm. eexists. split.
    - unfold cubic_arclen. rewrite <- (arclen_loop (cubic_eval c) m).
      apply for_in_ext. intros i a _. now rewrite !cubic_casteljau_eval.
    - rewrite polyline_first by assumption. ring.
  Qed.
  Lemma bezier_arclen_value ps f m : (0 < m)%nat -> (forall t, bezier_eval (Bezier ps) t = Ret (f t)) ->
    exists a, bezier_arclen (Bezier ps) m = Ret a /\ a + dist (f 0) (f (/ INR m)) = polyline f m.
  Proof.
    intros Hm Hf. eexists. split.
    - unfold bezier_arclen. rewrite <- (arclen_loop f m).
      apply for_in_ext. intros i a _. now rewrite !Hf.
    - rewrite polyline_first by assumption. ring.
  Qed.

  (** arclen against the true length *)
  Lemma arclen_bounds f ps m a L : traces f ps -> ps <> [] -> (0 < m)%nat -> leg_bound ps L ->
    a + dist (f 0) (f (/ INR m)) = polyline f m ->
    a <= arc_length ps /\ arc_length ps - a <= INR (length ps - 1) ^ 2 * L / INR m.
  Proof.
    intros Hf Hne Hm HL Ha. pose proof (polyline_upper f ps m Hf Hne Hm) as Hu.
    pose proof (polyline_lower f ps m L Hf Hne Hm HL) as Hl.
    pose proof (dist_nonneg (f 0) (f (/ INR m))).
    assert (Hpos : 0 < INR m) by now apply lt_0_INR.
    assert (1 <= INR m) by (apply (le_INR 1); lia).
    assert (Hi : 0 <= / INR m <= 1).
    { split; [apply Rlt_le, Rinv_0_lt_compat; auto|]. rewrite <- Rinv_1. apply Rinv_le_contravar; lra. }
    pose proof (curve_lipschitz f ps L 0 (/ INR m) Hf Hne HL) as Hd.
    rewrite Rminus_0_r, Rabs_pos_eq in Hd by lra.
    assert (Hd' : dist (f 0) (f (/ INR m)) <= INR (length ps - 1) * L * / INR m) by (apply Hd; lra).
    split; [lra|].
    destruct ps as [|p [|q ps]]; [easy| |]; cbn [length Nat.sub] in *.
    - simpl INR in *. lra.
    - rewrite Nat.sub_0_r in *.
      replace (INR (S (length ps)) ^ 2 * L / INR m)
        with (INR (S (length ps)) * INR (length ps) * L / INR m + INR (S (length ps)) * L * / INR m)
        by (rewrite S_INR; unfold Rdiv; ring).
      lra.
  Qed.
  Lemma arclen_bounds_regular f ps m a L v : traces f ps -> ps <> [] -> (0 < m)%nat -> leg_bound ps L ->
    0 < v -> (forall t, 0 <= t <= 1 -> v <= speed ps t) ->
    a + dist (f 0) (f (/ INR m)) = polyline f m ->
    Rabs (arc_length ps - (a + dist (f 0) (f (/ INR m))))
      <= (INR (length ps - 1) * INR (length ps - 2) * L) ^ 2 / (6 * v * INR m ^ 2).
  Proof.
    intros Hf Hne Hm HL Hv Hr Ha. rewrite Ha.
    pose proof (polyline_upper f ps m Hf Hne Hm) as Hu.
    pose proof (polyline_lower_regular f ps m L v Hf Hne Hm HL Hv Hr) as Hl.
    rewrite Rabs_pos_eq; lra.
  Qed.
End CurveCalc.
