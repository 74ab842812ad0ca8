(** Where the results of [BSpline::eval] lie, for every kind of knot vector. *)
From Coq Require Import Reals List Arith Lia Lra Psatz Classical.
From Verif Require Import Base.Outcome Base.Scalar Model.Point Model.BSpline Inst.RealInst
  Spec.Sums Spec.Lawful Spec.Hull Spec.Basis Spec.Stability
  Proofs.OutcomeFacts Proofs.PointFacts Proofs.RealTac Proofs.Metric Proofs.Stability
  Proofs.BSplineGeneric Proofs.BSplineReal Proofs.BSplineEval Proofs.BSplinePanic.
Import ListNotations.
Local Open Scope R_scope.

Section Range.
  Context {E : Eps} {P : Type} {PT : Point R P} {LP : LawfulPoint P}.

  Section New.
    Variables (D : nat) (ks : list R) (ps : list P) (s : bspline R P).
    Hypothesis Hnew : bspline_new D ks ps = Ret (Ok s).
    Local Notation C := (length ps).
    Local Notation U i := (nth i ks 0).

    (** the last knot of a spline clamped at its start only *)
    Definition overshoot t : Prop := bs_kind s = ClampedStart /\ t = U (C + D) /\ U C < t.

    Lemma eval_shape t lo hi : knot_domain s = Ret (lo, hi) -> lo <= t <= hi -> t <> U C ->
      exists k, knot_span_start_for_t s t = Ret (Some k) /\
        (((k < D \/ C < k)%nat /\ bspline_eval s t = Panic) \/
         ((D <= k <= C)%nat /\ (t < U (k + 1) \/ overshoot t) /\ bspline_eval s t = Ret (Ok (entry s t k D D)))).
    Proof.
      intros Hd Ht Hne. destruct (sizes D ks ps s Hnew) as [HD HK]. pose proof (fields D ks ps s Hnew) as (F1 & F2 & F3).
      destruct (span_some D ks ps s Hnew t lo hi Hd Ht Hne) as (k & Es). exists k. split; [exact Es|].
      rewrite (eval_de_boor s t lo hi Hd Ht).
      destruct (de_boor_span D ks ps s Hnew t k Hne Es) as [Hp Hok].
      assert (Hb : t < U (k + 1) \/ overshoot t).
      { rewrite (domain_U D ks ps s Hnew) in Hd.
        pose proof (U_le D ks ps s Hnew 0 D ltac:(lia)). pose proof (U_le D ks ps s Hnew D C ltac:(lia)).
        pose proof (U_le D ks ps s Hnew C (C + D) ltac:(lia)).
        destruct (bs_kind s) eqn:Ek; injection Hd as <- <-.
        - destruct (span_unclamped D ks ps s Hnew t Ek ltac:(lra)) as (k' & Es' & _ & _ & Hb & _). 
          rewrite Es in Es'. injection Es' as <-. auto.
        - destruct (span_clamped_start_spec D ks ps s Hnew t Ek) as (_ & H2 & _).
          destruct (Req_dec t (U (C + D))) as [He|He].
          + right. split; [exact Ek|]. split; [exact He|]. lra.
          + destruct (H2 ltac:(lra)) as (k' & Es' & _ & Hb). rewrite Es in Es'. injection Es' as <-. left; lra.
        - destruct (span_clamped_end_spec D ks ps s Hnew t Ek) as (_ & H2 & _).
          destruct (H2 ltac:(lra)) as (k' & Es' & _ & Hb). rewrite Es in Es'. injection Es' as <-. left; lra.
        - destruct (span_found s t (wf D ks ps s Hnew) (ssrt D ks ps s Hnew)) as (k' & Es' & _ & Hb); [congruence| |].
          + rewrite !(knot_U D ks ps s Hnew), F1, F3. lra.
          + rewrite Es in Es'. injection Es' as <-. left. destruct Hb as [_ Hb]. rewrite F2 in Hb. lra. }
      destruct (le_lt_dec D k) as [L1|L1]; [destruct (le_lt_dec k C) as [L2|L2]|].
      - right. split; [lia|]. split; [exact Hb|].
        destruct (de_boor_cases s t (Some k) (wf_roomy s (wf D ks ps s Hnew)) Es) as [(Ee & _)|(_ & [Eo|(_ & _ & r & j & _ & _ & Hn)])].
        + intros k' [= <-]. rewrite F1, F3. lia.
        + rs_in Ee. rewrite (knot_U D ks ps s Hnew), F3, Reqb_false in Ee by lra. discriminate.
        + rewrite F1 in Eo. exact Eo.
        + discriminate.
      - left. split; [lia|]. apply Hp; [|lia].
        destruct (Nat.eq_dec D 0) as [H0|]; [|lia]. exfalso.
        destruct (bs_kind s) eqn:Ek; try (pose proof (degree_pos D ks ps s Hnew ltac:(congruence)); lia).
        destruct (span_found s t (wf D ks ps s Hnew) (ssrt D ks ps s Hnew)) as (k' & Es' & Hk' & _); [congruence| |].
        + rewrite !(knot_U D ks ps s Hnew), F1, F3. rewrite (domain_U D ks ps s Hnew), Ek in Hd. injection Hd as <- <-. lra.
        + rewrite Es in Es'. injection Es' as <-. rewrite F3 in Hk'. lia.
      - left. split; [lia|]. apply Hp; lia.
    Qed.

    (** weights need only the right end of the span *)
    Lemma weight_unit' t k r j : (D <= k <= C)%nat -> t < U (k + 1) -> (1 <= r <= j)%nat -> (j <= D)%nat ->
      0 <= weight s t k r j <= 1.
    Proof.
      intros Hk Ht Hr Hj. destruct (sizes D ks ps s Hnew) as [HD HK]. pose proof (fields D ks ps s Hnew) as (F1 & F2 & F3).
      unfold weight. rewrite !(knot_U D ks ps s Hnew), F1. rs.
      pose proof (U_le D ks ps s Hnew (k + 1) (j + 1 + k - r) ltac:(lia)). pose proof eps_pos.
      set (x := U (j + k - D)) in *. set (y := U (j + 1 + k - r)) in *.
      destruct (Rltb_spec (t - x) eps) as [H1|H1]; [lra|].
      destruct (Rltb_spec (Rabs (y - x)) eps) as [H2|H2]; [lra|].
      assert (Hd : 0 < y - x) by lra. split.
      - apply Rmult_le_pos; [lra|]. left. apply Rinv_0_lt_compat. exact Hd.
      - apply Rmult_le_reg_r with (y - x); [exact Hd|]. unfold Rdiv. rewrite Rmult_assoc, Rinv_l by lra. lra.
    Qed.

    Lemma outside_or t : bspline_eval s t = Ret (Err KnotDomainViolation) \/
      exists lo hi, knot_domain s = Ret (lo, hi) /\ lo <= t <= hi.
    Proof.
      assert (X : exists lo hi, knot_domain s = Ret (lo, hi)) by (rewrite (domain_U D ks ps s Hnew); destruct (bs_kind s); eauto).
      destruct X as (lo & hi & Hd).
      destruct (Rlt_le_dec t lo) as [H1|H1]; [left|destruct (Rlt_le_dec hi t) as [H2|H2]; [left|right; exists lo, hi; split; [exact Hd|lra]]].
      - apply (eval_domain_iff D ks ps s Hnew t lo hi Hd). lra.
      - apply (eval_domain_iff D ks ps s Hnew t lo hi Hd). lra.
    Qed.

    (** the control points loaded for span [k], and the origin *)
    Lemma entry_in (Q : P -> Prop) t k : (D <= k <= C)%nat -> t < U (k + 1) ->
      (forall m, (k - D <= m < k)%nat -> Q (nth m ps p_default)) -> Q p_default ->
      (forall a x y z, 0 <= a <= 1 -> Q x -> Q y -> (forall i, (i < p_dim (P := P))%nat -> coord z i = coord x i * (1 - a) + coord y i * a) -> Q z) ->
      forall r, (r <= D)%nat -> forall j, (r <= j <= D)%nat -> Q (entry s t k r j).
    Proof.
      intros Hk Ht Hp H0 Hmix. pose proof (fields D ks ps s Hnew) as (F1 & F2 & F3).
      induction r as [|r IH]; intros Hr j Hj.
      - cbn [entry]. rewrite F1. destruct (Nat.ltb_spec j D); [|exact H0]. unfold cpoint. rewrite F3. apply Hp. lia.
      - apply (Hmix (weight s t k (S r) j) (entry s t k r (j - 1)) (entry s t k r j)).
        + apply weight_unit'; auto; lia.
        + apply IH; lia.
        + apply IH; lia.
        + intros i Hi. rewrite (entry_coord s t k (S r) j i) by (auto; lia). replace (S r - 1)%nat with r by lia. reflexivity.
    Qed.

    Lemma eval_in (Q : P -> Prop) t p : (forall m, (m < C)%nat -> Q (nth m ps p_default)) -> Q p_default ->
      (forall a x y z, 0 <= a <= 1 -> Q x -> Q y -> (forall i, (i < p_dim (P := P))%nat -> coord z i = coord x i * (1 - a) + coord y i * a) -> Q z) ->
      bspline_eval s t = Ret (Ok p) -> ~ overshoot t -> Q p.
    Proof.
      intros Hp H0 Hmix He Ho. destruct (sizes D ks ps s Hnew) as [HD HK].
      destruct (Req_dec t (U C)) as [->|Hne].
      { rewrite (eval_last D ks ps s Hnew) in He. injection He as <-. apply Hp. lia. }
      destruct (outside_or t) as [Hout|(lo & hi & Hd & Ht)]; [congruence|].
      destruct (eval_shape t lo hi Hd Ht Hne) as (k & _ & [[_ Hq]|(Hk & [Hb|Hb] & Hq)]); [congruence| |contradiction].
      rewrite Hq in He. injection He as <-. apply (entry_in Q t k Hk Hb); auto. intros m Hm. apply Hp. lia.
    Qed.
  End New.

  Lemma hull_member (l : list P) k : (k < length l)%nat -> forall d, in_hull l (nth k l d).
  Proof.
    intros Hk d. exists (fun m => if (m =? k)%nat then 1 else 0). split; [|split].
    - intros m _. destruct (m =? k)%nat; lra.
    - rewrite (Rsum_single _ _ k) by (try lia; intros m Hm Hn; apply Nat.eqb_neq in Hn; now rewrite Hn).
      now rewrite Nat.eqb_refl.
    - intros i Hi. rewrite (Rsum_single _ _ k); [rewrite Nat.eqb_refl|lia|].
      + rewrite (nth_indep l (nth k l d) d) by lia. ring.
      + intros m Hm Hn. apply Nat.eqb_neq in Hn. rewrite Hn. ring.
  Qed.
  Lemma hull_mix (l : list P) a x y z : 0 <= a <= 1 -> in_hull l x -> in_hull l y ->
    (forall i, (i < p_dim (P := P))%nat -> coord z i = coord x i * (1 - a) + coord y i * a) -> in_hull l z.
  Proof.
    intros Ha (w & Pw & Sw & Cw) (v & Pv & Sv & Cv) Hz. exists (fun m => w m * (1 - a) + v m * a). split; [|split].
    - intros m Hm. specialize (Pw m Hm). specialize (Pv m Hm). nra.
    - rewrite Rsum_plus. rewrite (Rsum_ext (fun m => w m * (1 - a)) (fun m => (1 - a) * w m)) by (intros; ring).
      rewrite (Rsum_ext (fun m => v m * a) (fun m => a * v m)) by (intros; ring). rewrite !Rsum_scal, Sw, Sv. ring.
    - intros i Hi. rewrite (Hz i Hi), (Cw i Hi), (Cv i Hi).
      rewrite (Rmult_comm _ (1 - a)), (Rmult_comm _ a), <- !Rsum_scal, <- Rsum_plus. apply Rsum_ext.
      intros m Hm. rewrite (nth_indep l x z), (nth_indep l y z) by lia. ring.
  Qed.
  Lemma mix_dist a (x y z x' y' z' : P) d : 0 <= a <= 1 -> dist x x' <= d -> dist y y' <= d ->
    (forall i, (i < p_dim (P := P))%nat -> coord z i = coord x i * (1 - a) + coord y i * a) ->
    (forall i, (i < p_dim (P := P))%nat -> coord z' i = coord x' i * (1 - a) + coord y' i * a) ->
    dist z z' <= (1 - a) * dist x x' + a * dist y y'.
  Proof.
    intros Ha Hx Hy Hz Hz'.
    pose proof (dist_combination (fun m => if (m =? 0)%nat then 1 - a else a) (fun m => if (m =? 0)%nat then x else y)
                 (fun m => if (m =? 0)%nat then x' else y') 2 z z') as H.
    cbn [Rsum Nat.eqb] in H. rewrite !Rabs_pos_eq in H by lra. rewrite !Rplus_0_l in H. apply H.
    - intros i Hi. rewrite (Hz i Hi). ring.
    - intros i Hi. rewrite (Hz' i Hi). ring.
  Qed.

  Section Bounds.
    Variables (D : nat) (ks : list R) (ps : list P) (s : bspline R P).
    Hypothesis Hnew : bspline_new D ks ps = Ret (Ok s).
    Local Notation C := (length ps).
    Local Notation U i := (nth i ks 0).

    Theorem eval_in_hull t p : bspline_eval s t = Ret (Ok p) -> ~ overshoot D ks ps s t -> in_hull (ps ++ [p_default]) p.
    Proof.
      intros He Ho. assert (Hl : length (ps ++ [p_default]) = (C + 1)%nat) by (rewrite app_length; reflexivity).
      apply (eval_in D ks ps s Hnew (in_hull (ps ++ [p_default])) t p); auto.
      - intros m Hm. rewrite <- (app_nth1 ps [p_default] p_default Hm). apply hull_member. lia.
      - replace p_default with (nth C (ps ++ [p_default]) p_default) at 2.
        + apply hull_member. lia.
        + rewrite app_nth2, Nat.sub_diag by lia. reflexivity.
      - intros a x y z. apply hull_mix.
    Qed.

    Theorem eval_norm t p M : 0 <= M -> (forall q, In q ps -> dist q p_default <= M) ->
      bspline_eval s t = Ret (Ok p) -> ~ overshoot D ks ps s t -> dist p p_default <= M.
    Proof.
      intros HM Hq He Ho. apply (eval_in D ks ps s Hnew (fun q => dist q p_default <= M) t p); auto.
      - intros m Hm. apply Hq, nth_In, Hm.
      - rewrite dist_refl. exact HM.
      - intros a x y z Ha Hx Hy Hz.
        pose proof (mix_dist a x y z p_default p_default p_default M Ha Hx Hy Hz) as H.
        eapply Rle_trans; [apply H|].
        + intros i Hi. rewrite lp_default by exact Hi. ring.
        + nra.
    Qed.

    (** ** control points moved *)
    Section Two.
      Variables (qs : list P) (s' : bspline R P) (d : R).
      Hypothesis Hnew' : bspline_new D ks qs = Ret (Ok s').
      Hypothesis Hd : 0 <= d.
      Hypothesis Hnear : near_points ps qs d.

      Lemma same_C : length qs = C. Proof. symmetry. apply Hnear. Qed.
      Lemma same_span t : knot_span_start_for_t s' t = knot_span_start_for_t s t.
      Proof.
        pose proof (fields D ks ps s Hnew) as (F1 & F2 & F3). pose proof (fields D ks qs s' Hnew') as (G1 & G2 & G3).
        pose proof (new_kind_same D ks ps qs s s' Hnew Hnew') as Ek.
        unfold knot_span_start_for_t, knot_span_start_for_t_unclamped, knot_span_start_for_t_clamped,
          knot_span_start_for_t_clamped_start, knot_span_start_for_t_clamped_end.
        rewrite <- Ek, F1, F2, F3, G1, G2, G3, same_C. reflexivity.
      Qed.
      Lemma same_domain : knot_domain s' = knot_domain s.
      Proof.
        rewrite (domain_U D ks ps s Hnew), (domain_U D ks qs s' Hnew').
        now rewrite <- (new_kind_same D ks ps qs s s' Hnew Hnew'), same_C.
      Qed.
      Lemma same_weight t k r j : weight s' t k r j = weight s t k r j.
      Proof.
        pose proof (fields D ks ps s Hnew) as (F1 & F2 & F3). pose proof (fields D ks qs s' Hnew') as (G1 & G2 & G3).
        unfold weight, knot. now rewrite F1, F2, G1, G2.
      Qed.
      Lemma near_default k : (k < C)%nat -> dist (nth k ps p_default) (nth k qs p_default) <= d.
      Proof. intros Hk. apply (proj2 Hnear k); apply nth_error_nth'; [exact Hk|]. now rewrite same_C. Qed.
      Lemma entries_near t k : (D <= k <= C)%nat -> t < U (k + 1) ->
        forall r, (r <= D)%nat -> forall j, (r <= j <= D)%nat -> dist (entry s t k r j) (entry s' t k r j) <= d.
      Proof.
        intros Hk Ht. pose proof (fields D ks ps s Hnew) as (F1 & F2 & F3). pose proof (fields D ks qs s' Hnew') as (G1 & G2 & G3).
        induction r as [|r IH]; intros Hr j Hj.
        - cbn [entry]. rewrite F1, G1. destruct (Nat.ltb_spec j D); [|rewrite dist_refl; exact Hd].
          unfold cpoint. rewrite F3, G3. apply near_default. lia.
        - pose proof (IH ltac:(lia) j ltac:(lia)) as H1. pose proof (IH ltac:(lia) (j - 1)%nat ltac:(lia)) as H2.
          pose proof (weight_unit' D ks ps s Hnew t k (S r) j Hk Ht ltac:(lia) ltac:(lia)) as Hw.
          eapply Rle_trans; [apply (mix_dist (weight s t k (S r) j) _ _ _ _ _ _ d Hw H2 H1)|].
          + intros i Hi. rewrite (entry_coord s t k (S r) j i) by (auto; lia). replace (S r - 1)%nat with r by lia. reflexivity.
          + intros i Hi. rewrite (entry_coord s' t k (S r) j i) by (auto; lia). replace (S r - 1)%nat with r by lia.
            now rewrite same_weight.
          + nra.
      Qed.

      Theorem eval_near t :
        (bspline_eval s t = Panic -> bspline_eval s' t = Panic) /\
        (forall e, bspline_eval s t = Ret (Err e) -> bspline_eval s' t = Ret (Err e)) /\
        (forall p, bspline_eval s t = Ret (Ok p) -> exists q, bspline_eval s' t = Ret (Ok q) /\
           (~ overshoot D ks ps s t -> dist p q <= d)).
      Proof.
        destruct (sizes D ks ps s Hnew) as [HD HK].
        destruct (Req_dec t (U C)) as [->|Hne].
        { rewrite (eval_last D ks ps s Hnew).
          pose proof (eval_last D ks qs s' Hnew') as H'. rewrite same_C in H'.
          repeat split; try discriminate. intros p [= <-]. exists (nth (C - 1) qs p_default). split; [exact H'|].
          intros _. apply near_default. lia. }
        destruct (outside_or D ks ps s Hnew t) as [Hout|(lo & hi & Hdom & Ht)].
        { rewrite Hout. repeat split; try discriminate. intros e [= <-].
          destruct (outside_or D ks qs s' Hnew' t) as [H|(lo & hi & Hdom & Ht)]; [exact H|].
          exfalso. rewrite same_domain in Hdom. apply (eval_domain_iff D ks ps s Hnew t lo hi Hdom); auto. }
        destruct (eval_shape D ks ps s Hnew t lo hi Hdom Ht Hne) as (k & Es & Hk).
        destruct (eval_shape D ks qs s' Hnew' t lo hi) as (k' & Es' & Hk').
        { now rewrite same_domain. } { exact Ht. } { now rewrite same_C. }
        rewrite same_span, Es in Es'. injection Es' as <-. rewrite same_C in Hk'.
        destruct Hk as [[Hk He]|(Hk & Hb & He)]; destruct Hk' as [[Hk' He']|(Hk' & Hb' & He')]; try lia; rewrite He.
        - repeat split; try discriminate. intros _. exact He'.
        - repeat split; try discriminate. intros p [= <-]. eexists. split; [exact He'|]. intros Ho.
          apply entries_near; auto; try lia. destruct Hb; [assumption|contradiction].
      Qed.
    End Two.

    (** ** the right end of a span whose knots right of it coincide *)
    Lemma last_entry_decay t k M : 0 <= M -> (forall q, In q ps -> dist q p_default <= M) ->
      (D <= k < C)%nat -> U k <= t < U (k + 1) -> eps <= t - U k -> U (k + D) = U (k + 1) ->
      forall r, (r <= D)%nat ->
      dist (entry s t k r D) p_default <= INR r * (M * ((U (k + 1) - t) / (U (k + 1) - U k))).
    Proof.
      intros HM Hq Hk Ht He Hm. destruct (sizes D ks ps s Hnew) as [HD HK]. pose proof (fields D ks ps s Hnew) as (F1 & F2 & F3).
      set (v := (U (k + 1) - t) / (U (k + 1) - U k)).
      assert (Hv : 0 <= v <= 1).
      { unfold v. split.
        - apply Rmult_le_pos; [lra|]. left. apply Rinv_0_lt_compat. lra.
        - apply Rmult_le_reg_r with (U (k + 1) - U k); [lra|]. unfold Rdiv. rewrite Rmult_assoc, Rinv_l by lra. lra. }
      induction r as [|r IH]; intros Hr.
      - cbn [entry INR]. rewrite F1, Nat.ltb_irrefl, dist_refl. lra.
      - specialize (IH ltac:(lia)). rewrite S_INR.
        assert (Hw : weight s t k (S r) D = 1 - v).
        { unfold weight. rewrite !(knot_U D ks ps s Hnew), F1. rs. pose proof eps_pos.
          replace (D + k - D)%nat with k by lia.
          assert (Hu : U (D + 1 + k - S r) = U (k + 1)).
          { pose proof (U_le D ks ps s Hnew (k + 1) (D + 1 + k - S r) ltac:(lia)).
            pose proof (U_le D ks ps s Hnew (D + 1 + k - S r) (k + D) ltac:(lia)). lra. }
          rewrite Hu. rewrite Rltb_false by lra. rewrite Rltb_false by (rewrite Rabs_pos_eq; lra).
          unfold v. field. lra. }
        assert (H1 : dist (entry s t k r (D - 1)) p_default <= M).
        { apply (entry_in D ks ps s Hnew (fun q => dist q p_default <= M) t k); try lia; try lra.
          - intros m Hm'. apply Hq, nth_In. lia.
          - rewrite dist_refl. exact HM.
          - intros a x y z Ha Hx Hy Hz. eapply Rle_trans; [apply (mix_dist a x y z p_default p_default p_default M Ha Hx Hy Hz)|nra].
            intros i Hi. rewrite lp_default by exact Hi. ring. }
        pose proof (dist_nonneg (entry s t k r D) p_default) as Hn.
        pose proof (mix_dist (1 - v) (entry s t k r (D - 1)) (entry s t k r D) (entry s t k (S r) D) p_default p_default p_default
          (Rmax M (dist (entry s t k r D) p_default)) ltac:(lra) (Rle_trans _ _ _ H1 (Rmax_l _ _)) (Rmax_r _ _)) as H2.
        eapply Rle_trans; [apply H2|].
        + intros i Hi. rewrite (entry_coord s t k (S r) D i) by (auto; lia). replace (S r - 1)%nat with r by lia. now rewrite Hw.
        + intros i Hi. rewrite lp_default by exact Hi. ring.
        + replace (1 - (1 - v)) with v by ring. nra.
    Qed.

    Theorem eval_decay t k M : 0 <= M -> (forall q, In q ps -> dist q p_default <= M) ->
      (D <= k < C)%nat -> good_parameter D ks ps s t -> U k <= t < U (k + 1) -> eps <= t - U k -> U (k + D) = U (k + 1) ->
      exists p, bspline_eval s t = Ret (Ok p) /\
        dist p p_default <= INR D * M * ((U (k + 1) - t) / (U (k + 1) - U k)).
    Proof.
      intros HM Hq Hk Hg Ht He Hm. destruct (sizes D ks ps s Hnew) as [HD HK].
      destruct (eval_good D ks ps s Hnew t Hg) as (k' & Hk' & Hb & Ee).
      assert (k' = k) by (apply (span_unique ks k' k t (ks_sorted D ks ps s Hnew)); split; auto; lia). subst k'.
      exists (entry s t k D D). split; [exact Ee|]. rewrite Rmult_assoc.
      apply last_entry_decay; auto; lra.
    Qed.

    (** ** the limit at the right end *)
    Lemma points_bound : exists M, 0 <= M /\ forall q, In q ps -> dist q p_default <= M.
    Proof.
      clear Hnew. induction ps as [|x l (M & HM & H)]; [exists 0; split; [lra|intros q []]|].
      exists (Rmax M (dist x p_default)). split; [eapply Rle_trans; [exact HM|apply Rmax_l]|].
      intros q [<-|Hq]; [apply Rmax_r|]. eapply Rle_trans; [apply H, Hq|apply Rmax_l].
    Qed.

    Theorem eval_limit_end k : (D <= k < C)%nat -> bs_kind s <> Unclamped -> eps < U (k + 1) - U k -> U (k + D) = U (k + 1) ->
      forall e, 0 < e -> exists h, 0 < h /\ forall t, U (k + 1) - h < t < U (k + 1) ->
        exists p, bspline_eval s t = Ret (Ok p) /\ dist p p_default < e.
    Proof.
      intros Hk Hkind Heps Hm e He. destruct (sizes D ks ps s Hnew) as [HD HK].
      destruct points_bound as (M & HM & HQ). pose proof eps_pos.
      set (L := U (k + 1) - U k) in *. set (B := INR D * M).
      assert (HB : 0 <= B) by (apply Rmult_le_pos; [apply pos_INR|exact HM]).
      assert (Hr : 0 < e * L / (B + 1)).
      { apply Rmult_lt_0_compat; [apply Rmult_lt_0_compat; lra|apply Rinv_0_lt_compat; lra]. }
      exists (Rmin (L - eps) (e * L / (B + 1))). split; [apply Rmin_glb_lt; lra|].
      intros t Ht. pose proof (Rmin_l (L - eps) (e * L / (B + 1))). pose proof (Rmin_r (L - eps) (e * L / (B + 1))).
      assert (Hu : U k <= t) by (unfold L in *; lra).
      pose proof (U_le D ks ps s Hnew D k ltac:(lia)). pose proof (U_le D ks ps s Hnew (k + 1) C ltac:(lia)).
      destruct (eval_decay t k M HM HQ Hk) as (p & Ep & Hp); auto; try lra.
      { apply good_clamped; [exact Hkind|]. lra. }
      { unfold L in *; lra. }
      exists p. split; [exact Ep|]. eapply Rle_lt_trans; [exact Hp|]. fold B L.
      set (x := U (k + 1) - t) in *. assert (Hx : 0 < x < e * L / (B + 1)) by (unfold x; lra).
      assert (Hx' : x * (B + 1) < e * L).
      { replace (e * L) with (e * L / (B + 1) * (B + 1)) by (field; lra). apply Rmult_lt_compat_r; lra. }
      apply Rmult_lt_reg_r with L; [lra|].
      replace (B * (x / L) * L) with (B * x) by (field; lra). nra.
    Qed.

    Lemma dist_pos (x y : P) : x <> y -> 0 < dist x y.
    Proof.
      intros Hne. destruct (Req_dec (dist x y) 0) as [H0|H0]; [|pose proof (dist_nonneg x y); lra].
      exfalso. apply Hne. apply lp_ext. intros i Hi.
      pose proof (coord_dist x y i Hi) as Hc. rewrite H0 in Hc. pose proof (Rabs_pos (coord x i - coord y i)).
      destruct (Req_dec (coord x i - coord y i) 0) as [|Hn]; [lra|]. pose proof (Rabs_pos_lt _ Hn). lra.
    Qed.

    Theorem eval_end_continuous_iff : bs_kind s <> Unclamped -> (1 <= D)%nat -> eps < U C - U (C - 1) -> U (C + D - 1) = U C ->
      (forall e, 0 < e -> exists h, 0 < h /\ forall t, U C - h < t < U C ->
         exists p x, bspline_eval s t = Ret (Ok p) /\ bspline_eval s (U C) = Ret (Ok x) /\ dist p x < e) <->
      nth (C - 1) ps p_default = p_default.
    Proof.
      intros Hkind HD1 Heps Hm. destruct (sizes D ks ps s Hnew) as [HD HK].
      assert (HC : (C - 1 + 1 = C)%nat) by lia.
      assert (Hlim := eval_limit_end (C - 1) ltac:(lia) Hkind). rewrite HC in Hlim.
      replace (C - 1 + D)%nat with (C + D - 1)%nat in Hlim by lia. specialize (Hlim Heps Hm).
      pose proof (eval_last D ks ps s Hnew) as Hl. set (x := nth (C - 1) ps p_default) in *. split.
      - intros Hc. apply NNPP. intros Hx.
        pose proof (dist_pos _ _ Hx) as Hpos.
        assert (Hhalf : 0 < dist x p_default / 2) by lra.
        destruct (Hc (dist x p_default / 2) Hhalf) as (h & Hh & H1).
        destruct (Hlim (dist x p_default / 2) Hhalf) as (h' & Hh' & H2).
        set (t := U C - Rmin h h' / 2). assert (Hmn : 0 < Rmin h h') by (apply Rmin_glb_lt; assumption).
        pose proof (Rmin_l h h'). pose proof (Rmin_r h h').
        destruct (H1 t ltac:(unfold t; lra)) as (p & y & Ep & Ey & Hpy).
        destruct (H2 t ltac:(unfold t; lra)) as (q & Eq & Hq).
        rewrite Ep in Eq. injection Eq as <-. rewrite Hl in Ey. injection Ey as <-.
        pose proof (dist_triangle x p p_default). rewrite (dist_sym x p) in *. lra.
      - intros Hx e He. destruct (Hlim e He) as (h & Hh & H). exists h. split; [exact Hh|].
        intros t Ht. destruct (H t Ht) as (p & Ep & Hp). exists p, x. split; [exact Ep|]. split; [exact Hl|].
        rewrite Hx. exact Hp.
    Qed.
  End Bounds.
End Range.
