(** The repaired functions of Model/Repairs.v: curves. *)
From Coq Require Import Reals List Arith Bool Lia Lra Psatz.
From Verif Require Import Base.Outcome Base.Scalar Model.Point Model.Line Model.Quadratic Model.Cubic
  Model.Bezier Model.BSpline Model.Segment Model.Repairs Inst.RealInst
  Spec.Sums Spec.Lawful Spec.Bernstein Spec.Metric Spec.Length Spec.Search
  Proofs.OutcomeFacts Proofs.PointFacts Proofs.RealTac Proofs.Metric Proofs.LineFacts Proofs.ExactEval
  Proofs.BezierGeneric Proofs.BezierReal Proofs.CurveCalc Proofs.ArclenFacts Proofs.Search Proofs.CurveMisc.
Import ListNotations.
Local Open Scope R_scope.

Section Curves.
  Context {E : Eps} {P : Type} {PT : Point R P} {LP : LawfulPoint P}.

  Lemma fixed_split_value (s : line P) t u :
    line_eval (fst (fixed_line_split s t)) u = line_eval s (t * u) /\
    line_eval (snd (fixed_line_split s t)) u = line_eval s (t + u * (1 - t)).
  Proof.
    split; apply lp_ext; intros i Hi; unfold fixed_line_split; cbn [fst snd];
      rewrite !line_eval_coord by assumption; cbn [l_start l_end]; coords; rs; ring.
  Qed.

  Lemma fixed_segment_value (s : segment P) t u :
    segment_eval (fst (fixed_segment_split s t)) u = segment_eval s (t * u) /\
    segment_eval (snd (fixed_segment_split s t)) u = segment_eval s (t + u * (1 - t)).
  Proof.
    destruct s as [l|q|c]; unfold fixed_segment_split.
    - destruct (fixed_line_split l t) as [a b] eqn:Es. cbn [fst snd segment_eval].
      pose proof (fixed_split_value l t u) as H. rewrite Es in H. exact H.
    - pose proof (segment_split_curved (Quadratic q) t u) as H. apply H. discriminate.
    - pose proof (segment_split_curved (CubicSeg c) t u) as H. apply H. discriminate.
  Qed.

  Lemma fixed_distance_value (s : line P) (p : P) :
    fixed_line_distance s p
    = Ret (if Req_EM_T (sqd s) 0 then dist p (l_start s)
           else dist p (line_eval s (if Rlt_dec (proj s p) 1 then Rmax 0 (proj s p) else 1))).
  Proof.
    unfold fixed_line_distance. rs. rewrite sqlen_sub. fold (sqd s).
    unfold Reqb at 1. destruct (Req_EM_T (sqd s) 0) as [Hl|Hl].
    - rewrite sqrt_sqlen_sub, dist_sym. reflexivity.
    - rewrite dot_loop_eq. cbn [bind].
      assert (Ei : Rsum (fun i => coord (p_sub p (l_start s)) i
                                  * coord (p_sub (l_end s) (l_start s)) i) (p_dim (P := P))
                   = inner (l_start s) p (l_end s)).
      { unfold inner. apply Rsum_ext. intros i Hi. now coords. }
      rewrite Ei. rs. fold (proj s p). rewrite sqrt_sqlen_sub.
      f_equal. f_equal. unfold line_eval. f_equal. f_equal.
      unfold Rltb, Rmax. destruct (Rlt_dec (proj s p) 1) as [H1|H1].
      + destruct (Rlt_dec (proj s p) 0), (Rle_dec 0 (proj s p)); lra.
      + destruct (Rlt_dec 1 0); lra.
  Qed.

  Lemma fixed_distance_min (s : line P) p :
    exists d, fixed_line_distance s p = Ret d /\ is_min_dist (line_eval s) p d.
  Proof.
    rewrite fixed_distance_value. pose proof (sqd_nonneg s) as H0.
    destruct (Req_EM_T (sqd s) 0) as [Hz|Hz].
    - eexists. split; [reflexivity|]. split; [exists 0; split; [lra|now rewrite line_eval_0]|].
      intros u Hu. rewrite <- (line_eval_0 s). apply dist_le_sq. rewrite !dist_line_sq, Hz.
      assert (Ei : inner (l_start s) p (l_end s) = 0).
      { pose proof (cauchy_schwarz (fun i => coord p i - coord (l_start s) i)
          (fun i => coord (l_end s) i - coord (l_start s) i) (p_dim (P := P))) as CS.
        rewrite <- (dist_nrm (l_end s) (l_start s)) in CS.
        assert (D0 : dist (l_end s) (l_start s) = 0) by (unfold sqd in Hz; nra).
        rewrite D0, Rmult_0_r in CS. unfold inner.
        assert (A := Rabs_pos (Rsum (fun i => (coord p i - coord (l_start s) i) * (coord (l_end s) i - coord (l_start s) i)) (p_dim (P := P)))).
        destruct (Rabs_def2 _ 1 (Rle_lt_trans _ _ _ CS Rlt_0_1)); destruct (Rle_dec 0 (Rsum (fun i => (coord p i - coord (l_start s) i) * (coord (l_end s) i - coord (l_start s) i)) (p_dim (P := P)))); [rewrite Rabs_pos_eq in CS by assumption|rewrite Rabs_left in CS by lra]; lra. }
      rewrite Ei. lra.
    - assert (Hpos : 0 < sqd s) by lra.
      assert (Ep : proj s p * sqd s = inner (l_start s) p (l_end s)) by (unfold proj; field; lra).
      eexists. split; [reflexivity|]. split.
      + eexists. split; [|reflexivity]. unfold Rmax. destruct (Rlt_dec (proj s p) 1); [|lra].
        destruct (Rle_dec 0 (proj s p)); lra.
      + intros u Hu. apply dist_le_sq. rewrite !dist_line_sq, <- Ep.
        set (q := proj s p) in *. set (l := sqd s) in *. unfold Rmax.
        destruct (Rlt_dec q 1); [destruct (Rle_dec 0 q)|].
        * assert (0 <= l * ((u - q) * (u - q))). { apply Rmult_le_pos; [lra|apply Rle_0_sqr]. } lra.
        * assert (0 <= l * (u * (u - 2 * q))). { apply Rmult_le_pos; [lra|]. apply Rmult_le_pos; lra. } lra.
        * assert (0 <= l * ((1 - u) * (2 * q - 1 - u))).
          { apply Rmult_le_pos; [lra|]. apply Rmult_le_pos; lra. } lra.
  Qed.

  (** where the code and the repair agree *)
  Lemma fixed_distance_agrees (s : line P) p : eps <= sqd s -> proj s p < 1 ->
    fixed_line_distance s p = line_distance_to_point s p.
  Proof.
    intros Hl Hp. pose proof eps_pos. rewrite fixed_distance_value, line_distance_value.
    destruct (Req_EM_T (sqd s) 0); [lra|]. destruct (Rlt_dec (sqd s) eps); [lra|].
    destruct (Rlt_dec (proj s p) 1); [reflexivity|lra].
  Qed.

  Lemma fixed_within (s : line P) p tol : (exists u, 0 <= u <= 1 /\ dist p (line_eval s u) <= tol) ->
    exists d, fixed_line_distance s p = Ret d /\ d <= tol.
  Proof.
    intros (u & Hu & Hd). destruct (fixed_distance_min s p) as (d & Ed & _ & Hm). exists d. split; [exact Ed|].
    eapply Rle_trans; [apply (Hm u Hu)|exact Hd].
  Qed.

  Lemma fixed_quad_linear (c : quad P) tol : eps <= dist (q_start c) (q_end c) * dist (q_start c) (q_end c) ->
    (fixed_quad_is_linear c tol = Ret true <->
     exists u, 0 <= u <= 1 /\ dist (q_ctrl c) (line_eval (Line (q_start c) (q_end c)) u) <= tol).
  Proof.
    intros He. unfold fixed_quad_is_linear. rs. rewrite sqlen_sub, Rltb_false by lra.
    destruct (fixed_distance_min (quad_baseline c) (q_ctrl c)) as (d & Ed & (u & Hu & Eu) & Hm).
    rewrite Ed. cbn [bind]. unfold quad_baseline in *. split.
    - intros H. injection H as H. destruct (Rleb_spec d tol); [|discriminate].
      exists u. split; [exact Hu|]. lra.
    - intros (v & Hv & Hd). specialize (Hm v Hv). rewrite Rleb_true by lra. reflexivity.
  Qed.

  Lemma fixed_cubic_linear (c : cubic P) tol : eps <= dist (c_start c) (c_end c) * dist (c_start c) (c_end c) ->
    (fixed_cubic_is_linear c tol = Ret true <->
     (exists u, 0 <= u <= 1 /\ dist (c_ctrl1 c) (line_eval (Line (c_start c) (c_end c)) u) <= tol) /\
     exists u, 0 <= u <= 1 /\ dist (c_ctrl2 c) (line_eval (Line (c_start c) (c_end c)) u) <= tol).
  Proof.
    intros He. unfold fixed_cubic_is_linear. rs. rewrite sqlen_sub, Rltb_false by lra.
    destruct (fixed_distance_min (cubic_baseline c) (c_ctrl1 c)) as (d & Ed & (u & Hu & Eu) & Hm).
    destruct (fixed_distance_min (cubic_baseline c) (c_ctrl2 c)) as (d' & Ed' & (u' & Hu' & Eu') & Hm').
    rewrite Ed, Ed'. cbn [bind]. unfold cubic_baseline in *. split.
    - intros H. destruct (Rleb_spec d tol); [|discriminate]. injection H as H.
      destruct (Rleb_spec d' tol); [|discriminate]. split; [exists u|exists u']; split; auto; lra.
    - intros ((v & Hv & Hd) & (v' & Hv' & Hd')). specialize (Hm v Hv). specialize (Hm' v' Hv').
      rewrite !Rleb_true by lra. reflexivity.
  Qed.

  Lemma fixed_quad_linear_iff (c : quad P) tol : fixed_quad_is_linear c tol = Ret true <->
    eps <= dist (q_start c) (q_end c) * dist (q_start c) (q_end c) /\
    exists u, 0 <= u <= 1 /\ dist (q_ctrl c) (line_eval (Line (q_start c) (q_end c)) u) <= tol.
  Proof.
    destruct (Rlt_le_dec (dist (q_start c) (q_end c) * dist (q_start c) (q_end c)) eps) as [Hs|Hs].
    - unfold fixed_quad_is_linear. rs. rewrite sqlen_sub, Rltb_true by exact Hs. split; [discriminate|]. intros [H _]. lra.
    - rewrite (fixed_quad_linear c tol Hs). tauto.
  Qed.
  Lemma fixed_cubic_linear_iff (c : cubic P) tol : fixed_cubic_is_linear c tol = Ret true <->
    eps <= dist (c_start c) (c_end c) * dist (c_start c) (c_end c) /\
    (exists u, 0 <= u <= 1 /\ dist (c_ctrl1 c) (line_eval (Line (c_start c) (c_end c)) u) <= tol) /\
    exists u, 0 <= u <= 1 /\ dist (c_ctrl2 c) (line_eval (Line (c_start c) (c_end c)) u) <= tol.
  Proof.
    destruct (Rlt_le_dec (dist (c_start c) (c_end c) * dist (c_start c) (c_end c)) eps) as [Hs|Hs].
    - unfold fixed_cubic_is_linear. rs. rewrite sqlen_sub, Rltb_true by exact Hs. split; [discriminate|]. intros [H _]. lra.
    - rewrite (fixed_cubic_linear c tol Hs). tauto.
  Qed.

  Lemma fixed_dd_value (c : cubic P) t i :
    fixed_cubic_dd c t i = p_axis (quad_eval (cubic_derivative c) t) i.
  Proof.
    destruct (le_lt_dec (p_dim (P := P)) i) as [Hi|Hi].
    - unfold fixed_cubic_dd. now rewrite !axis_ge.
    - unfold fixed_cubic_dd. rewrite !axis_lt by assumption. cbn [bind]. f_equal.
      unfold quad_eval, cubic_derivative. cbn [q_start q_ctrl q_end]. coords. rs. ring.
  Qed.

  (** the loop from 0 *)
  Lemma fixed_loop (f : R -> P) m : (0 < m)%nat ->
    for_in (Outcome.range 0 m) (s_lit 0) (fun i arclen =>
      Ret (s_add arclen (s_sqrt (p_sqlen (p_sub
         (f (s_div (s_mul (s_of_usize i) (s_lit 1)) (s_of_usize m)))
         (f (s_add (s_div (s_mul (s_of_usize i) (s_lit 1)) (s_of_usize m))
                   (s_div (s_lit 1) (s_of_usize m)))))))))
    = Ret (polyline f m).
  Proof.
    intros Hm. rs. set (body := fun i a => _).
    destruct (for_in_range_inv (fun k a => a = Rsum (fun i => dist (f (INR i / INR m)) (f (INR (i + 1) / INR m))) k)
      0 m 0 body) as (a & Ea & Ia); try lia.
    - reflexivity.
    - intros i a Hi ->. eexists. split; [reflexivity|]. replace (i + 1)%nat with (S i) by lia. cbn [Rsum]. f_equal.
      rewrite sqrt_sqlen_sub. assert (INR m <> 0) by (apply not_0_INR; lia).
      replace (S i) with (i + 1)%nat by lia. rewrite plus_INR. simpl (INR 1). f_equal; f_equal; field; assumption.
    - rewrite Ea, Ia. reflexivity.
  Qed.

  Lemma fixed_quad_arclen_value (c : quad P) m : (0 < m)%nat -> fixed_quad_arclen c m = Ret (polyline (quad_eval c) m).
  Proof.
    intros Hm. rewrite <- (fixed_loop (quad_eval c) m Hm). unfold fixed_quad_arclen.
    apply for_in_ext. intros i a _. now rewrite !quad_casteljau_eval.
  Qed.
  Lemma fixed_cubic_arclen_value (c : cubic P) m : (0 < m)%nat -> fixed_cubic_arclen c m = Ret (polyline (cubic_eval c) m).
  Proof.
    intros Hm. rewrite <- (fixed_loop (cubic_eval c) m Hm). unfold fixed_cubic_arclen.
    apply for_in_ext. intros i a _. now rewrite !cubic_casteljau_eval.
  Qed.
  Lemma fixed_bezier_arclen_value (ps : list P) m : (0 < m)%nat -> ps <> [] ->
    exists f, (forall t, bezier_eval (Bezier ps) t = Ret (f t)) /\
      fixed_bezier_arclen (Bezier ps) m = Ret (polyline f m).
  Proof.
    intros Hm Hne. destruct (bezier_function ps Hne) as (f & Hf). exists f. split; [exact Hf|].
    rewrite <- (fixed_loop f m Hm). unfold fixed_bezier_arclen.
    apply for_in_ext. intros i a _. now rewrite !Hf.
  Qed.

  Section Search.
    Variables (eval : R -> outcome P) (f : R -> P) (first p : P).
    Hypothesis Hf : forall t, eval t = Ret (f t).
    Hypothesis H0 : f 0 = first.
    Local Notation g u := (dist p (f u) * dist p (f u)).

    Lemma fixed_coarse_ok : exists j, (j < 64)%nat /\
      for_in (Outcome.range 0 nsteps) (s_lit 0, p_sqlen (p_sub p first)) (coarse_body eval p)
        = Ret (INR j / 64, g (INR j / 64)) /\
      forall i, (i < 64)%nat -> g (INR j / 64) <= g (INR i / 64).
    Proof.
      rs.
      destruct (for_in_range_inv (fun k st => exists j, (j < 64)%nat /\ st = (INR j / 64, g (INR j / 64)) /\
          forall i, (i < k)%nat -> g (INR j / 64) <= g (INR i / 64))
        0 nsteps (0, p_sqlen (p_sub p first)) (coarse_body eval p)) as (st & Es & (j & Hj & -> & Is)).
      - lia.
      - exists 0%nat. split; [lia|]. split; [|intros; lia]. rewrite sqlen_sub, <- H0. simpl (INR 0).
        replace (0 / 64) with 0 by field. reflexivity.
      - intros i st Hi (j & Hj & -> & Hd). unfold coarse_body. rs. change nsteps with 64%nat in *.
        replace (INR i * 1 / INR 64) with (INR i / 64) by (rewrite (INR_nat 64); simpl; field).
        rewrite Hf. cbn [bind]. rewrite sqlen_dist. cbn [snd fst].
        destruct (Rltb_spec (g (INR i / 64)) (g (INR j / 64))) as [Hlt|Hlt].
        + eexists. split; [reflexivity|]. exists i. split; [lia|]. split; [reflexivity|].
          intros k Hk. destruct (Nat.eq_dec k i) as [->|]; [lra|].
          apply Rle_trans with (g (INR j / 64)); [lra|]. apply Hd. lia.
        + eexists. split; [reflexivity|]. exists j. split; [lia|]. split; [reflexivity|].
          intros k Hk. destruct (Nat.eq_dec k i) as [->|]; [lra|]. apply Hd. lia.
      - exists j. auto.
    Qed.

    Lemma fixed_fine_ok a : exists m,
      for_in (Outcome.range 0 nsteps) (a, g a) (fixed_fine_body eval p) = Ret (a, m) /\ m <= g a /\
      (forall i, (i < 64)%nat -> m <= g (clip (a + (INR i - 32) / 4096))) /\
      (m = g a \/ exists i, (i < 64)%nat /\ m = g (clip (a + (INR i - 32) / 4096))).
    Proof.
      destruct (for_in_range_inv (fun k st => fst st = a /\ snd st <= g a /\
          (forall i, (i < k)%nat -> snd st <= g (clip (a + (INR i - 32) / 4096))) /\
          (snd st = g a \/ exists i, (i < k)%nat /\ snd st = g (clip (a + (INR i - 32) / 4096))))
        0 nsteps (a, g a) (fixed_fine_body eval p)) as (st' & Es & (Ea & I1 & I2 & I3)).
      - lia.
      - cbn [fst snd]. split; auto. split; [lra|]. split; [intros; lia|auto].
      - intros i [tm dm] Hi (Ea & I1 & I2 & I3). cbn [fst snd] in *. subst tm. unfold fixed_fine_body.
        assert (HN : INR nsteps = 64) by (unfold nsteps; rewrite INR_nat; reflexivity).
        rs. cbn [fst snd].
        assert (Hc : (let u := a + INR i * 1 / INR (nsteps * nsteps) - 1 / INR (nsteps * nsteps) * (INR nsteps / 2) in
                      if Rltb u 0 then 0 else if Rltb 1 u then 1 else u) = clip (a + (INR i - 32) / 4096)).
        { rewrite mult_INR, HN. cbv zeta. replace (64 * 64) with 4096 by ring.
          replace (a + INR i * 1 / 4096 - 1 / 4096 * (64 / 2)) with (a + (INR i - 32) / 4096) by field.
          unfold clip, Rmax, Rmin. set (u := a + _).
          destruct (Rltb_spec u 0); [|destruct (Rltb_spec 1 u)]; repeat destruct (Rle_dec _ _); try lra. }
        cbv zeta in Hc. rewrite Hc, Hf. cbn [bind]. rewrite sqlen_dist.
        set (w := clip _) in *.
        destruct (Rltb_spec (g w) dm) as [Hlt|Hlt]; (eexists; split; [reflexivity|]); cbn [fst snd].
        + split; auto. split; [lra|]. split; [|right; exists i; split; [lia|reflexivity]].
          intros k Hk. destruct (Nat.eq_dec k i) as [->|]; [fold w; lra|].
          apply Rle_trans with dm; [lra|]. apply I2. lia.
        + split; auto. split; [lra|]. split.
          * intros k Hk. destruct (Nat.eq_dec k i) as [->|]; [fold w; lra|]. apply I2. lia.
          * destruct I3 as [E1|(k & Hk & Ek)]; [auto|]. right. exists k. split; [lia|exact Ek].
      - destruct st' as [x m]. cbn [fst snd] in *. subst x. exists m. auto.
    Qed.

    Lemma fixed_search_value : exists d, fixed_search eval first p = Ret d /\ refined_minimum (fun u => dist p (f u)) d.
    Proof.
      destruct fixed_coarse_ok as (j & Hj & E1 & Hd).
      destruct (fixed_fine_ok (INR j / 64)) as (m & E2 & Hm & Hi & Hv).
      exists (sqrt m). split; [unfold fixed_search; rewrite E1; cbn [bind]; rewrite E2; reflexivity|].
      assert (Hs : forall u, sqrt (g u) = dist p (f u)) by (intros u; apply sqrt_square, dist_nonneg).
      assert (Hle : forall u, m <= g u -> sqrt m <= dist p (f u)).
      { intros u Hu. apply Rle_trans with (sqrt (g u)); [now apply sqrt_le_1_alt|]. rewrite Hs. apply Rle_refl. }
      exists j. split; [exact Hj|]. split; [|split; [|split]].
      - intros i Hi'. apply dist_le_sq. now apply Hd.
      - apply Hle, Hm.
      - intros i Hi'. apply Hle. now apply Hi.
      - destruct Hv as [->|(i & Hi' & ->)]; [left; apply Hs|]. right. exists i. split; [exact Hi'|apply Hs].
    Qed.
  End Search.

  Lemma fixed_quad_distance_on (c : quad P) p : exists d, fixed_quad_distance c p = Ret d /\
    refined_minimum (fun u => dist p (quad_eval c u)) d.
  Proof. apply (fixed_search_value (fun t => Ret (quad_eval c t))); [reflexivity|apply quad_eval_0]. Qed.
  Lemma fixed_cubic_distance_on (c : cubic P) p : exists d, fixed_cubic_distance c p = Ret d /\
    refined_minimum (fun u => dist p (cubic_eval c u)) d.
  Proof. apply (fixed_search_value (fun t => Ret (cubic_eval c t))); [reflexivity|apply cubic_eval_0]. Qed.
  Lemma fixed_bezier_distance_on (ps : list P) p : ps <> [] ->
    exists f d, (forall t, bezier_eval (Bezier ps) t = Ret (f t)) /\ fixed_bezier_distance (Bezier ps) p = Ret d /\
    refined_minimum (fun u => dist p (f u)) d.
  Proof.
    intros Hne. destruct (bezier_function ps Hne) as (f & Hf). exists f.
    destruct ps as [|q ps]; [easy|].
    assert (E0 : f 0 = q). { pose proof (Hf 0) as H0. rewrite bezier_eval_0 in H0. congruence. }
    destruct (fixed_search_value (bezier_eval (Bezier (q :: ps))) f q p Hf E0) as (d & E1 & H).
    exists d. auto.
  Qed.

  (** such a minimum is the distance to a point of the curve, at most that to any sample *)
  Lemma refined_on (h : R -> R) d : refined_minimum h d ->
    (exists u, 0 <= u <= 1 /\ d = h u) /\ forall i, (i < 64)%nat -> d <= h (INR i / 64).
  Proof.
    intros (j & Hj & Hb & Hd & _ & Hv).
    assert (Hu : 0 <= INR j / 64 <= 1).
    { pose proof (pos_INR j). assert (H1 : INR j <= INR 64) by (apply le_INR; lia).
      rewrite (INR_nat 64) in H1. simpl in H1. lra. }
    split.
    - destruct Hv as [->|(i & Hi & ->)]; eexists; (split; [|reflexivity]); [exact Hu|].
      unfold clip, Rmax, Rmin. repeat destruct (Rle_dec _ _); lra.
    - intros i Hi. apply Rle_trans with (h (INR j / 64)); auto.
  Qed.
End Curves.
