(** Moving the control points by [d] at most: the curve moves by [d] at most, its
    length by 2 n d at most, its box by [d] at most (up to the slack of the box). *)
From Coq Require Import Reals List Arith Lia Lra Psatz.
From Coquelicot Require Import Coquelicot.
From Verif Require Import Base.Outcome Base.Scalar Model.Point Model.Line Model.Quadratic Model.Cubic
  Model.Bezier Inst.RealInst
  Spec.Sums Spec.Lawful Spec.Bernstein Spec.Box Spec.BoxOps Spec.Metric Spec.Length Spec.Stability
  Proofs.OutcomeFacts Proofs.PointFacts Proofs.RealTac Proofs.Metric Proofs.ExactEval
  Proofs.BezierGeneric Proofs.BezierReal Proofs.BoxSpec Proofs.CurveCalc Proofs.ArclenFacts.
Import ListNotations.
Local Open Scope R_scope.

Lemma Rsum_Rabs v n : Rabs (Rsum v n) <= Rsum (fun i => Rabs (v i)) n.
Proof.
  induction n as [|n IH]; cbn [Rsum]; [rewrite Rabs_R0; lra|].
  eapply Rle_trans; [apply Rabs_triang|]. lra.
Qed.

Section Stability.
  Context {E : Eps} {P : Type} {PT : Point R P} {LP : LawfulPoint P}.
  Implicit Types (ps qs : list P) (f g : R -> P).
  Local Notation dflt := (p_default (P := P)).

  Lemma near_nth ps qs d k : near_points ps qs d -> (k < length ps)%nat -> dist (nth k ps dflt) (nth k qs dflt) <= d.
  Proof.
    intros [HL H] Hk. apply (H k); apply nth_error_nth'; [exact Hk|]. now rewrite <- HL.
  Qed.
  Lemma near_ne ps qs d : near_points ps qs d -> ps <> [] -> qs <> [].
  Proof. intros [H _] Hne ->. destruct ps; [contradiction|discriminate]. Qed.

  Lemma trace_sum f ps t i : traces f ps -> ps <> [] -> (i < p_dim (P := P))%nat ->
    coord (f t) i = Rsum (fun k => bernstein (length ps - 1) k t * coord (nth k ps dflt) i) (S (length ps - 1)).
  Proof. intros Hf Hne Hi. rewrite Hf, curve_coord_dc, dc_bernstein by assumption. reflexivity. Qed.

  Lemma near_curve f g ps qs d t : traces f ps -> traces g qs -> ps <> [] -> near_points ps qs d -> 0 <= t <= 1 ->
    dist (f t) (g t) <= d.
  Proof.
    intros Hf Hg Hne H Ht. pose proof (near_ne ps qs d H Hne) as Hne'.
    assert (Hlen : (0 < length ps)%nat) by (destruct ps; [contradiction|simpl; lia]).
    eapply Rle_trans.
    - apply (dist_combination (fun k => bernstein (length ps - 1) k t) (fun k => nth k ps dflt) (fun k => nth k qs dflt)
               (S (length ps - 1))); intros i Hi.
      + now apply trace_sum.
      + rewrite (proj1 H). now apply trace_sum.
    - replace d with (Rsum (fun k => d * bernstein (length ps - 1) k t) (S (length ps - 1)))
        by (rewrite Rsum_scal, bernstein_sum; ring).
      apply Rsum_le. intros k Hk. pose proof (bernstein_nonneg (length ps - 1) k t Ht).
      rewrite Rabs_pos_eq by assumption. rewrite Rmult_comm. apply Rmult_le_compat_r; [assumption|].
      apply near_nth; [exact H|lia].
  Qed.

  (** the differences as a curve of their own *)
  Definition diffs ps qs : list P := map (fun k => p_sub (nth k ps dflt) (nth k qs dflt)) (seq 0 (length ps)).

  Lemma diffs_length ps qs : length (diffs ps qs) = length ps.
  Proof. unfold diffs. now rewrite map_length, seq_length. Qed.
  Lemma diffs_nth ps qs k : (k < length ps)%nat -> nth k (diffs ps qs) dflt = p_sub (nth k ps dflt) (nth k qs dflt).
  Proof.
    intros Hk. unfold diffs. rewrite (nth_indep _ dflt (p_sub (nth 0 ps dflt) (nth 0 qs dflt))) by (rewrite map_length, seq_length; lia).
    rewrite (map_nth (fun k => p_sub (nth k ps dflt) (nth k qs dflt))), seq_nth by lia. reflexivity.
  Qed.
  Lemma diffs_trace f g ps qs : traces f ps -> traces g qs -> ps <> [] -> length ps = length qs ->
    traces (fun t => p_sub (f t) (g t)) (diffs ps qs).
  Proof.
    intros Hf Hg Hne HL t i Hi. assert (Hne' : qs <> []) by (intros ->; destruct ps; [contradiction|discriminate]).
    assert (Hlen : (0 < length ps)%nat) by (destruct ps; [contradiction|simpl; lia]).
    assert (Hd : diffs ps qs <> []) by (intros H; apply (f_equal (@length P)) in H; rewrite diffs_length in H; simpl in H; lia).
    rewrite curve_coord_dc, dc_bernstein, diffs_length, lp_sub by assumption.
    rewrite (trace_sum f ps), (trace_sum g qs) by assumption. rewrite <- HL, <- Rsum_minus.
    apply Rsum_ext. intros k Hk. unfold cs. rewrite Nat.add_0_l, diffs_nth, lp_sub by (assumption || lia). ring.
  Qed.
  Lemma diffs_legs ps qs d : 0 <= d -> near_points ps qs d -> leg_bound (diffs ps qs) (2 * d).
  Proof.
    intros Hd H. split; [lra|]. intros k p q Hp Hq.
    assert (HSk : (S k < length ps)%nat) by (rewrite <- (diffs_length ps qs); apply nth_error_Some; congruence).
    apply (nth_error_nth _ _ dflt) in Hp, Hq. rewrite diffs_nth in Hp, Hq by lia. subst p q.
    pose proof (near_nth ps qs d k H ltac:(lia)) as H1. pose proof (near_nth ps qs d (S k) H HSk) as H2.
    rewrite dist_nrm in H1, H2 |- *.
    rewrite (nrm_ext _ (fun i => (coord (nth k ps dflt) i - coord (nth k qs dflt) i)
              + (-1) * (coord (nth (S k) ps dflt) i - coord (nth (S k) qs dflt) i)))
      by (intros i Hi; rewrite !lp_sub by exact Hi; ring).
    eapply Rle_trans; [apply minkowski|].
    rewrite (nrm_scal (-1) (fun i => coord (nth (S k) ps dflt) i - coord (nth (S k) qs dflt) i)), Rabs_left by lra. lra.
  Qed.

  Lemma chord_diff f g a b : Rabs (dist (f a) (f b) - dist (g a) (g b)) <= dist (p_sub (f a) (g a)) (p_sub (f b) (g b)).
  Proof.
    rewrite !dist_nrm. set (n := p_dim (P := P)).
    set (u := fun i => coord (f a) i - coord (f b) i). set (v := fun i => coord (g a) i - coord (g b) i).
    rewrite (nrm_ext (fun i => coord (p_sub (f a) (g a)) i - coord (p_sub (f b) (g b)) i) (fun i => u i + (-1) * v i))
      by (intros i Hi; rewrite !lp_sub by exact Hi; unfold u, v; ring).
    assert (H1 : nrm u n <= nrm v n + nrm (fun i => u i + (-1) * v i) n).
    { rewrite (nrm_ext u (fun i => v i + (u i + (-1) * v i))) by (intros; ring). apply minkowski. }
    assert (H2 : nrm v n <= nrm u n + nrm (fun i => u i + (-1) * v i) n).
    { rewrite (nrm_ext v (fun i => u i + (-1) * (u i + (-1) * v i))) at 1 by (intros; ring).
      eapply Rle_trans; [apply minkowski|]. rewrite (nrm_scal (-1) (fun i => u i + (-1) * v i)), Rabs_left by lra. lra. }
    apply Rabs_le. lra.
  Qed.

  (** the polyline without its first chord *)
  Lemma arclen_diff f g ps qs d m a b : traces f ps -> traces g qs -> ps <> [] -> 0 <= d -> near_points ps qs d -> (0 < m)%nat ->
    a + dist (f 0) (f (/ INR m)) = polyline f m -> b + dist (g 0) (g (/ INR m)) = polyline g m ->
    Rabs (a - b) <= 2 * INR (length ps - 1) * d.
  Proof.
    intros Hf Hg Hne Hd H Hm Ha Hb.
    rewrite polyline_first in Ha, Hb by exact Hm.
    set (F := fun i => dist (f (INR (i + 1) / INR m)) (f (INR (i + 2) / INR m))) in *.
    set (G := fun i => dist (g (INR (i + 1) / INR m)) (g (INR (i + 2) / INR m))) in *.
    replace (a - b) with (Rsum (fun i => F i - G i) (m - 1)) by (rewrite Rsum_minus; lra).
    assert (HM : 0 < INR m) by (apply lt_0_INR; lia).
    eapply Rle_trans; [apply Rsum_Rabs|].
    set (K := 2 * INR (length ps - 1) * d).
    assert (HK : 0 <= K) by (unfold K; pose proof (pos_INR (length ps - 1)); nra).
    apply Rle_trans with (Rsum (fun _ => K / INR m) (m - 1)).
    - apply Rsum_le. intros i Hi. unfold F, G. eapply Rle_trans; [apply chord_diff|].
      assert (Hd' : diffs ps qs <> []).
      { intros X. apply (f_equal (@length P)) in X. rewrite diffs_length in X. destruct ps; [contradiction|discriminate]. }
      pose proof (curve_lipschitz (fun t => p_sub (f t) (g t)) (diffs ps qs) (2 * d) (INR (i + 1) / INR m) (INR (i + 2) / INR m)
        (diffs_trace f g ps qs Hf Hg Hne (proj1 H)) Hd' (diffs_legs ps qs d Hd H)) as HL.
      rewrite diffs_length in HL.
      assert (HU : forall j, (j <= m)%nat -> 0 <= INR j / INR m <= 1).
      { intros j Hj. pose proof (pos_INR j). apply le_INR in Hj. split.
        - apply Rmult_le_pos; [assumption|]. now apply Rlt_le, Rinv_0_lt_compat.
        - apply (Rmult_le_reg_r (INR m)); [exact HM|]. unfold Rdiv. rewrite Rmult_assoc, Rinv_l by lra. lra. }
      specialize (HL (HU (i + 1)%nat ltac:(lia)) (HU (i + 2)%nat ltac:(lia))).
      replace (INR (i + 2) / INR m - INR (i + 1) / INR m) with (/ INR m) in HL
        by (rewrite !plus_INR; simpl (INR 1); simpl (INR 2); field; lra).
      rewrite Rabs_pos_eq in HL by (now apply Rlt_le, Rinv_0_lt_compat).
      eapply Rle_trans; [exact HL|]. right. unfold K. field. lra.
    - rewrite (Rsum_ext _ (fun i => (K / INR m) * 1)) by (intros; ring). rewrite Rsum_scal.
      assert (HS : Rsum (fun _ => 1) (m - 1) = INR (m - 1)).
      { clear. induction (m - 1)%nat as [|k IH]; [reflexivity|]. rewrite S_INR. cbn [Rsum]. now rewrite IH. }
      rewrite HS. rewrite minus_INR by lia. simpl (INR 1).
      apply (Rmult_le_reg_r (INR m)); [exact HM|].
      replace (K / INR m * (INR m - 1) * INR m) with (K * (INR m - 1)) by (field; lra). nra.
  Qed.

  (** ** Curves *)
  Theorem bezier_near ps qs d t : ps <> [] -> near_points ps qs d -> 0 <= t <= 1 ->
    exists x y, bezier_eval (Bezier ps) t = Ret x /\ bezier_eval (Bezier qs) t = Ret y /\ dist x y <= d.
  Proof.
    intros Hne H Ht. destruct (bezier_function ps Hne) as (f & Hf).
    destruct (bezier_function qs (near_ne ps qs d H Hne)) as (g & Hg).
    exists (f t), (g t). split; [apply Hf|]. split; [apply Hg|].
    apply (near_curve f g ps qs); auto using traces_bezier.
  Qed.
  Theorem quad_near (c k : quad P) d t : near_points (quad_control_points c) (quad_control_points k) d -> 0 <= t <= 1 ->
    dist (quad_eval c t) (quad_eval k t) <= d.
  Proof.
    intros H Ht. apply (near_curve (quad_eval c) (quad_eval k) (quad_control_points c) (quad_control_points k));
      auto using traces_quad. discriminate.
  Qed.
  Theorem cubic_near (c k : cubic P) d t : near_points (cubic_control_points c) (cubic_control_points k) d -> 0 <= t <= 1 ->
    dist (cubic_eval c t) (cubic_eval k t) <= d.
  Proof.
    intros H Ht. apply (near_curve (cubic_eval c) (cubic_eval k) (cubic_control_points c) (cubic_control_points k));
      auto using traces_cubic. discriminate.
  Qed.

  (** ** Lengths *)
  Theorem bezier_arclen_near ps qs d m : ps <> [] -> 0 <= d -> near_points ps qs d -> (0 < m)%nat ->
    exists a b, bezier_arclen (Bezier ps) m = Ret a /\ bezier_arclen (Bezier qs) m = Ret b /\
      Rabs (a - b) <= 2 * INR (length ps - 1) * d.
  Proof.
    intros Hne Hd H Hm. destruct (bezier_arclen_value' ps m Hm Hne) as (f & a & Hf & Ha & Pa).
    destruct (bezier_arclen_value' qs m Hm (near_ne ps qs d H Hne)) as (g & b & Hg & Hb & Pb).
    exists a, b. split; [exact Ha|]. split; [exact Hb|].
    apply (arclen_diff f g ps qs d m); auto using traces_bezier.
  Qed.
  Theorem quad_arclen_near (c k : quad P) d m : 0 <= d -> near_points (quad_control_points c) (quad_control_points k) d ->
    (0 < m)%nat -> exists a b, quad_arclen c m = Ret a /\ quad_arclen k m = Ret b /\ Rabs (a - b) <= 4 * d.
  Proof.
    intros Hd H Hm. destruct (quad_arclen_value c m Hm) as (a & Ha & Pa). destruct (quad_arclen_value k m Hm) as (b & Hb & Pb).
    exists a, b. split; [exact Ha|]. split; [exact Hb|].
    replace (4 * d) with (2 * INR (length (quad_control_points c) - 1) * d) by (simpl; ring).
    apply (arclen_diff (quad_eval c) (quad_eval k) _ (quad_control_points k) d m); auto using traces_quad. discriminate.
  Qed.
  Theorem cubic_arclen_near (c k : cubic P) d m : 0 <= d -> near_points (cubic_control_points c) (cubic_control_points k) d ->
    (0 < m)%nat -> exists a b, cubic_arclen c m = Ret a /\ cubic_arclen k m = Ret b /\ Rabs (a - b) <= 6 * d.
  Proof.
    intros Hd H Hm. destruct (cubic_arclen_value c m Hm) as (a & Ha & Pa). destruct (cubic_arclen_value k m Hm) as (b & Hb & Pb).
    exists a, b. split; [exact Ha|]. split; [exact Hb|].
    replace (6 * d) with (2 * INR (length (cubic_control_points c) - 1) * d) by (simpl; ring).
    apply (arclen_diff (cubic_eval c) (cubic_eval k) _ (cubic_control_points k) d m); auto using traces_cubic. discriminate.
  Qed.
  Theorem arc_length_near ps qs d : ps <> [] -> 0 <= d -> near_points ps qs d ->
    Rabs (arc_length ps - arc_length qs) <= 2 * INR (length ps - 1) * d.
  Proof.
    intros Hne Hd H. pose proof (near_ne ps qs d H Hne) as Hne'.
    set (A := fun rs m => match bezier_arclen (Bezier rs) m with Ret a => a | _ => 0 end).
    assert (HA : forall rs, rs <> [] -> forall m, bezier_arclen (Bezier rs) m = Ret (A rs m)).
    { intros rs Hrs [|m]; [reflexivity|]. unfold A.
      destruct (bezier_arclen_value' rs (S m) ltac:(lia) Hrs) as (f & a & _ & -> & _). reflexivity. }
    pose proof (bezier_arclen_lim ps (A ps) Hne (HA ps Hne)) as L1.
    pose proof (bezier_arclen_lim qs (A qs) Hne' (HA qs Hne')) as L2.
    pose proof (is_lim_seq_minus' _ _ _ _ L1 L2) as L3. apply (is_lim_seq_abs _ (Finite _)) in L3.
    refine (is_lim_seq_le_loc _ (fun _ => 2 * INR (length ps - 1) * d) _ (Finite _) _ L3 (is_lim_seq_const _)).
    exists 1%nat. intros m Hm.
    destruct (bezier_arclen_near ps qs d m Hne Hd H ltac:(lia)) as (a & b & Ha & Hb & Hab).
    unfold A. now rewrite Ha, Hb.
  Qed.

  (** ** Lipschitz in the parameter *)
  Theorem bezier_lip ps L s t : ps <> [] -> leg_bound ps L -> 0 <= s <= 1 -> 0 <= t <= 1 ->
    exists x y, bezier_eval (Bezier ps) s = Ret x /\ bezier_eval (Bezier ps) t = Ret y /\
      dist x y <= INR (length ps - 1) * L * Rabs (t - s).
  Proof.
    intros Hne HL Hs Ht. destruct (bezier_function ps Hne) as (f & Hf). exists (f s), (f t).
    split; [apply Hf|]. split; [apply Hf|]. apply curve_lipschitz; auto using traces_bezier.
  Qed.
  Theorem quad_lip (c : quad P) L s t : leg_bound (quad_control_points c) L -> 0 <= s <= 1 -> 0 <= t <= 1 ->
    dist (quad_eval c s) (quad_eval c t) <= 2 * L * Rabs (t - s).
  Proof.
    intros HL Hs Ht. replace 2 with (INR (length (quad_control_points c) - 1)) by (simpl; ring).
    apply curve_lipschitz; auto using traces_quad. discriminate.
  Qed.
  Theorem cubic_lip (c : cubic P) L s t : leg_bound (cubic_control_points c) L -> 0 <= s <= 1 -> 0 <= t <= 1 ->
    dist (cubic_eval c s) (cubic_eval c t) <= 3 * L * Rabs (t - s).
  Proof.
    intros HL Hs Ht. replace 3 with (INR (length (cubic_control_points c) - 1)) by (simpl; ring).
    apply curve_lipschitz; auto using traces_cubic. discriminate.
  Qed.

  (** ** Boxes *)
  Lemma coord_dist (p q : P) i : (i < p_dim (P := P))%nat -> Rabs (coord p i - coord q i) <= dist p q.
  Proof.
    intros Hi. unfold dist. rewrite <- sqrt_Rsqr_abs. apply sqrt_le_1_alt. unfold Rsqr.
    set (v := fun i => (coord p i - coord q i) * (coord p i - coord q i)).
    change (v i <= Rsum v (p_dim (P := P))). assert (Hv : forall j, 0 <= v j) by (intros; apply Rle_0_sqr).
    clearbody v. revert Hi. induction (p_dim (P := P)) as [|n IH]; intros Hi; [lia|]. cbn [Rsum].
    destruct (Nat.eq_dec i n) as [->|Hn].
    - enough (0 <= Rsum v n) by lra. clear - Hv. induction n; cbn [Rsum]; [lra|]. specialize (Hv n). lra.
    - specialize (IH ltac:(lia)). specialize (Hv n). lra.
  Qed.
  Lemma near_boxes f g b b' i s d : (i < p_dim (P := P))%nat -> box_attained f b i -> box_contains g b' i s ->
    (forall t, 0 <= t <= 1 -> dist (f t) (g t) <= d) -> box_inside b b' i (d + s).
  Proof.
    intros Hi (lo & hi & Hb & (t & Ht & Elo) & (u & Hu & Ehi)) (lo' & hi' & Hb' & Hc) Hfg.
    exists lo, hi, lo', hi'. split; [exact Hb|]. split; [exact Hb'|]. split.
    - pose proof (Hfg t Ht). pose proof (coord_dist (f t) (g t) i Hi) as Hx. specialize (Hc t Ht).
      apply Rabs_le_between in Hx. lra.
    - pose proof (Hfg u Hu). pose proof (coord_dist (f u) (g u) i Hi) as Hx. specialize (Hc u Hu).
      apply Rabs_le_between in Hx. lra.
  Qed.
  Theorem quad_box_near (c k : quad P) d : near_points (quad_control_points c) (quad_control_points k) d ->
    exists b b', quad_bounding_box c = Ret b /\ quad_bounding_box k = Ret b' /\
      forall i, (i < p_dim (P := P))%nat -> box_inside b b' i (d + eps / 8) /\ box_inside b' b i (d + eps / 8).
  Proof.
    intros H. destruct (quad_box c) as (b & Hb & _ & HB). destruct (quad_box k) as (b' & Hb' & _ & HB').
    exists b, b'. split; [exact Hb|]. split; [exact Hb'|]. intros i Hi.
    destruct (HB i Hi) as (A & C & _). destruct (HB' i Hi) as (A' & C' & _). split.
    - apply (near_boxes (quad_eval c) (quad_eval k)); auto. intros t Ht. now apply quad_near.
    - apply (near_boxes (quad_eval k) (quad_eval c)); auto. intros t Ht. rewrite dist_sym. now apply quad_near.
  Qed.
  Theorem cubic_box_near (c k : cubic P) d : near_points (cubic_control_points c) (cubic_control_points k) d ->
    exists b b', cubic_bounding_box c = Ret b /\ cubic_bounding_box k = Ret b' /\
      forall i, (i < p_dim (P := P))%nat -> box_inside b b' i (d + 3 * eps / 8) /\ box_inside b' b i (d + 3 * eps / 8).
  Proof.
    intros H. destruct (cubic_box c) as (b & Hb & _ & HB). destruct (cubic_box k) as (b' & Hb' & _ & HB').
    exists b, b'. split; [exact Hb|]. split; [exact Hb'|]. intros i Hi.
    destruct (HB i Hi) as (A & C & _). destruct (HB' i Hi) as (A' & C' & _). split.
    - apply (near_boxes (cubic_eval c) (cubic_eval k)); auto. intros t Ht. now apply cubic_near.
    - apply (near_boxes (cubic_eval k) (cubic_eval c)); auto. intros t Ht. rewrite dist_sym. now apply cubic_near.
  Qed.
End Stability.
