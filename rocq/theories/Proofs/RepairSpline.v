(** The repaired functions of Model/Repairs.v: B-splines. *)
From Coq Require Import Reals List Arith Bool Lia Lra Psatz.
From Coquelicot Require Import Coquelicot.
From Verif Require Import Base.Outcome Base.Scalar Model.Point Model.BSpline Model.Repairs Inst.RealInst
  Spec.Sums Spec.Lawful Spec.Metric Spec.Maps Spec.Basis Spec.Length Spec.Limits
  Proofs.OutcomeFacts Proofs.PointFacts Proofs.RealTac Proofs.Metric Proofs.BSplineGeneric Proofs.BSplineReal
  Proofs.BSplineEval Proofs.BasisCalc.
Import ListNotations.
Local Open Scope R_scope.

Section Scheme.
  Context {E : Eps} {P : Type} {PT : Point R P} {LP : LawfulPoint P}.
  Variables (s : bspline R P) (t : R) (k : nat).
  Hypothesis Hwf : well_formed s.
  Hypothesis Hk : (bs_degree s <= k < length (bs_points s))%nat.
  Local Notation D := (bs_degree s).

  Definition ratio (r j : nat) : R :=
    (t - knot s (j + k - D)) / (knot s (j + 1 + k - r) - knot s (j + k - D)).
  Fixpoint tri (r j : nat) : P :=
    match r with
    | O => cpoint s (j + k - D)
    | S r' => p_add (p_mul (tri r' (j - 1)) (1 - ratio r j)) (p_mul (tri r' j) (ratio r j))
    end.

  Lemma fixed_load_ok : exists d, fixed_load s k = Ret d /\ length d = (D + 1)%nat /\
    forall j, (j <= D)%nat -> nth j d p_default = tri 0 j.
  Proof.
    destruct Hwf as [H1 H2]. unfold fixed_load.
    destruct (for_in_range_inv (fun m d => length d = (D + 1)%nat /\
        forall j, (j < m)%nat -> nth j d p_default = tri 0 j)
      0 (D + 1) (repeat p_default (D + 1)) (fun j d =>
        let! i := usub (j + k) D in let! c := idx (bs_points s) i in set_idx d j c)) as (d & Ed & Hl & Hd).
    - lia.
    - split; [apply repeat_length|]. intros; lia.
    - intros i d Hi (Hl & Hd). rewrite usub_le by lia. cbn [bind].
      rewrite (idx_lt _ _ p_default) by lia. cbn [bind]. rewrite set_idx_lt by lia.
      eexists. split; [reflexivity|]. split; [now rewrite length_replace_nth|].
      intros j Hj. rewrite nth_replace_nth by lia. destruct (Nat.eqb_spec j i) as [->|Hne]; [reflexivity|].
      apply Hd. lia.
    - exists d. split; [|split; [exact Hl|intros j Hj; apply Hd; lia]].
      rewrite <- Ed. f_equal. unfold range_incl, Outcome.range. f_equal. lia.
  Qed.

  Lemma fixed_alpha_ok r j : (1 <= r <= j)%nat -> (j <= D)%nat ->
    fixed_alpha (bs_knots s) D t k r j = Ret (ratio r j).
  Proof.
    destruct Hwf as [H1 H2]. intros Hr Hj. unfold fixed_alpha.
    rewrite usub_le by lia. cbn [bind]. rewrite knot_idx by lia. cbn [bind].
    rewrite usub_le by lia. cbn [bind]. rewrite knot_idx by lia. cbn [bind]. reflexivity.
  Qed.

  Lemma fixed_inner_ok r d : (1 <= r <= D)%nat -> length d = (D + 1)%nat ->
    (forall j, (r - 1 <= j <= D)%nat -> nth j d p_default = tri (r - 1) j) ->
    exists res, for_result (rev (range_incl r D)) d (fun j d => fixed_body (bs_knots s) D t k r j d) = Ret res /\
      match res with
      | Ok d' => length d' = (D + 1)%nat /\ forall j, (r <= j <= D)%nat -> nth j d' p_default = tri r j
      | Err e => False
      end.
  Proof.
    intros Hr Hl Hd.
    destruct (for_result_rule (fun l d => exists n, l = rev (seq r n) /\ (r + n <= D + 1)%nat /\ length d = (D + 1)%nat /\
        (forall j, (r - 1 <= j < r + n)%nat -> nth j d p_default = tri (r - 1) j) /\
        (forall j, (r + n <= j <= D)%nat -> nth j d p_default = tri r j))
      (fun _ => False) (fun j d => fixed_body (bs_knots s) D t k r j d) (rev (range_incl r D)) d) as (res & Er & Hres).
    - exists (S D - r)%nat. unfold range_incl. split; [reflexivity|]. split; [lia|]. split; [exact Hl|]. split.
      + intros j Hj. apply Hd. lia.
      + intros j Hj. lia.
    - clear d Hl Hd. intros i l d (n & En & Hn & Hl & Hd1 & Hd2).
      destruct n as [|n]; [discriminate|]. rewrite seq_S, rev_unit in En. injection En as -> ->.
      unfold fixed_body. rewrite fixed_alpha_ok by lia. cbn [bind]. cbn [s_is_nan RScalar].
      rewrite usub_le by lia. cbn [bind]. rewrite !(idx_lt d _ p_default) by lia. cbn [bind].
      rewrite set_idx_lt by lia. cbn [bind]. eexists. split; [reflexivity|].
      exists n. repeat split; try lia.
      + now rewrite length_replace_nth.
      + intros j Hj. rewrite nth_replace_nth by lia. destruct (Nat.eqb_spec j (r + n)); [lia|]. apply Hd1. lia.
      + intros j Hj. rewrite nth_replace_nth by lia. destruct (Nat.eqb_spec j (r + n)) as [->|Hne].
        * rewrite !Hd1 by lia. destruct r as [|r']; [lia|]. replace (S r' - 1)%nat with r' by lia. reflexivity.
        * apply Hd2. lia.
    - exists res. split; [exact Er|]. destruct res as [d'|e]; [|exact Hres].
      destruct Hres as (n & En & Hn & Hl' & Hd1 & Hd2). destruct n as [|n].
      2:{ rewrite seq_S, rev_unit in En. discriminate. }
      split; auto. intros j Hj. apply Hd2. lia.
  Qed.

  Lemma fixed_scheme_ok d : length d = (D + 1)%nat -> (forall j, (j <= D)%nat -> nth j d p_default = tri 0 j) ->
    exists d', for_result (range_incl 1 D) d (fun r d =>
        for_result (rev (range_incl r D)) d (fun j d => fixed_body (bs_knots s) D t k r j d)) = Ret (Ok d') /\
      length d' = (D + 1)%nat /\ nth D d' p_default = tri D D.
  Proof.
    intros Hl Hd.
    destruct (for_result_rule (fun l d => exists m, l = seq (m + 1) (D - m) /\ (m <= D)%nat /\ length d = (D + 1)%nat /\
        (forall j, (m <= j <= D)%nat -> nth j d p_default = tri m j))
      (fun _ => False) (fun r d => for_result (rev (range_incl r D)) d (fun j d => fixed_body (bs_knots s) D t k r j d))
      (range_incl 1 D) d) as (res & Er & Hres).
    - exists 0%nat. unfold range_incl. repeat split; auto; try lia. intros j Hj. apply Hd. lia.
    - clear d Hl Hd. intros i l d (m & Em & Hm & Hl & Hd).
      destruct (D - m)%nat as [|n] eqn:En; [discriminate|]. simpl in Em. injection Em as -> ->.
      destruct (fixed_inner_ok (m + 1) d) as (res & Er & Hr); [lia|exact Hl| |].
      + intros j Hj. replace (m + 1 - 1)%nat with m in * by lia. apply Hd. lia.
      + exists res. split; [exact Er|]. destruct res as [d'|e]; [|exact Hr].
        destruct Hr as [Hl' Hd']. exists (m + 1)%nat. repeat split; auto; try lia.
        replace (D - (m + 1))%nat with n by lia. f_equal. lia.
    - destruct res as [d'|e]; [|contradiction]. exists d'. split; [exact Er|].
      destruct Hres as (m & Em & Hm & Hl' & Hd').
      destruct (D - m)%nat as [|n] eqn:En; [|discriminate]. replace m with D in * by lia.
      split; [exact Hl'|]. apply Hd'. lia.
  Qed.

  Lemma fixed_de_boor_value : fixed_span s t = Ret (Some k) -> fixed_de_boor s t = Ret (Ok (tri D D)).
  Proof.
    intros Hs. unfold fixed_de_boor. rewrite Hs. cbn [bind].
    destruct fixed_load_ok as (d & Ed & Hl & Hd). rewrite Ed. cbn [bind].
    destruct (fixed_scheme_ok d Hl Hd) as (d' & Er & Hl' & Hd'). rewrite Er. cbn [bind].
    rewrite (idx_lt _ _ p_default) by lia. cbn [bind]. now rewrite Hd'.
  Qed.

  Lemma tri_coord r j i : (i < p_dim (P := P))%nat ->
    coord (tri (S r) j) i = coord (tri r (j - 1)) i * (1 - ratio (S r) j) + coord (tri r j) i * ratio (S r) j.
  Proof. intros Hi. cbn [tri]. now coords. Qed.

  Lemma tri_value : srt s -> in_span (bs_knots s) k t -> forall i, (i < p_dim (P := P))%nat ->
    coord (tri D D) i = spline_coord D (bs_knots s) (bs_points s) t i.
  Proof.
    intros Hs Hb i Hi. destruct Hwf as [H1 H2]. pose proof Hb as [Hb1 Hb2].
    rewrite (de_boor_sum (knot s) D k t (fun r j => coord (tri r j) i)).
    - unfold spline_coord. set (C := length (bs_points s)) in *.
      change (fun m => nth m (bs_knots s) 0) with (knot s).
      set (g := fun j => basis (knot s) D j t * coord (nth j (bs_points s) p_default) i).
      replace C with ((k - D) + (S D + (C - k - 1)))%nat at 1 by lia. replace (D + 1)%nat with (S D) by lia.
      rewrite !Rsum_split.
      rewrite (Rsum_ext g (fun _ => 0)), Rsum_0.
      2:{ intros j Hj. unfold g. rewrite (basis_above (knot s) D j k t); [ring| |apply Hb2|lia].
          intros a b Hab. apply knot_le; auto; lia. }
      rewrite (Rsum_ext (fun i0 => g (k - D + (S D + i0))%nat) (fun _ => 0)), Rsum_0.
      2:{ intros j Hj. unfold g.
          assert (Hz : forall p a, (k + 1 <= a)%nat -> (a + p <= C + D)%nat -> basis (knot s) p a t = 0).
          { induction p as [|p IH]; intros a Ha Hap; cbn [basis].
            - destruct (Rle_dec (knot s a) t) as [Hle|]; [|reflexivity].
              assert (knot s (k + 1) <= knot s a) by (apply knot_le; auto; lia).
              assert (t < knot s (k + 1)) by apply Hb2. lra.
            - rewrite !IH by lia. ring. }
          rewrite Hz by lia. ring. }
      rewrite Rplus_0_l, Rplus_0_r. apply Rsum_ext. intros j Hj. unfold g. cbn [tri]. unfold cpoint.
      replace (j + k - D)%nat with (k - D + j)%nat by lia. ring.
    - lia.
    - intros a b Hab Hbk. apply knot_le; auto. lia.
    - exact Hb2.
    - intros r j Hr Hj. cbn zeta. destruct r as [|r]; [lia|]. rewrite tri_coord by assumption.
      replace (S r - 1)%nat with r by lia. reflexivity.
  Qed.
End Scheme.

Section Continuity.
  Context {E : Eps} {P : Type} {PT : Point R P} {LP : LawfulPoint P}.
  Variables (s : bspline R P) (k : nat).

  Lemma tri_continuous i x : (i < p_dim (P := P))%nat ->
    forall r j, continuous (fun t => coord (tri s t k r j) i) x.
  Proof.
    intros Hi. induction r as [|r IH]; intros j.
    - cbn [tri]. apply continuous_const.
    - apply continuous_ext with (fun t => coord (tri s t k r (j - 1)) i * (1 - ratio s t k (S r) j)
        + coord (tri s t k r j) i * ratio s t k (S r) j).
      { intros t. symmetry. now apply tri_coord. }
      assert (Hr : continuous (fun t => ratio s t k (S r) j) x).
      { unfold ratio, Rdiv. apply (continuous_mult (K := R_AbsRing) (fun t => t - knot s (j + k - bs_degree s)) (fun _ => / _));
          [|apply continuous_const].
        apply (continuous_minus (V := R_NormedModule) (fun t => t) (fun _ => _)); [apply continuous_id|apply continuous_const]. }
      apply (continuous_plus (V := R_NormedModule)).
      + apply (continuous_mult (K := R_AbsRing)); [apply IH|].
        apply (continuous_minus (V := R_NormedModule) (fun _ => 1)); [apply continuous_const|exact Hr].
      + apply (continuous_mult (K := R_AbsRing)); [apply IH|exact Hr].
  Qed.
End Continuity.

(** ** Splines returned by [new] *)
Section New.
  Context {E : Eps} {P : Type} {PT : Point R P} {LP : LawfulPoint P}.
  Variable s : bspline R P.
  Hypothesis Hwf : well_formed s.
  Hypothesis Hs : srt s.
  Local Notation D := (bs_degree s).
  Local Notation C := (length (bs_points s)).
  Local Notation U := (knot s).

  Lemma fixed_domain : fixed_knot_domain s = Ret (U D, U C).
  Proof.
    destruct Hwf as [H1 H2]. unfold fixed_knot_domain, knot_domain_unclamped. now rewrite !knot_idx by lia.
  Qed.

  Lemma fixed_span_found t : U D <= t < U C ->
    exists k, fixed_span s t = Ret (Some k) /\ (D <= k < C)%nat /\ in_span (bs_knots s) k t.
  Proof.
    intros Ht. destruct (span_found (BSpline D (bs_knots s) Clamped (bs_points s)) t) as (k & Ek & Hk & Hb);
      [exact Hwf|exact Hs|discriminate|exact Ht|].
    exists k. split; [exact Ek|]. split; [exact Hk|exact Hb].
  Qed.
  Lemma fixed_span_last : fixed_span s (U C) = Ret (Some (C - 1)%nat).
  Proof.
    destruct Hwf as [H1 H2]. unfold fixed_span, knot_span_start_for_t_clamped. rewrite usub_le by lia. cbn [bind].
    replace (C - 1 + 1)%nat with C by lia. rewrite knot_idx by lia. cbn [bind]. rs. now rewrite Reqb_true.
  Qed.
  Lemma fixed_eval_inside t : U D <= t <= U C -> fixed_eval s t = fixed_de_boor s t.
  Proof.
    intros Ht. unfold fixed_eval. rewrite fixed_domain. cbn [bind fst snd]. rs. now rewrite !Rltb_false by lra.
  Qed.
  Lemma fixed_eval_outside t : ~ (U D <= t <= U C) -> fixed_eval s t = Ret (Err KnotDomainViolation).
  Proof.
    intros Ht. unfold fixed_eval. rewrite fixed_domain. cbn [bind fst snd]. rs.
    destruct (Rltb_spec t (U D)); [reflexivity|]. destruct (Rltb_spec (U C) t); [reflexivity|]. lra.
  Qed.

  Lemma fixed_eval_span t k : (D <= k < C)%nat -> U k <= t < U (k + 1) -> fixed_eval s t = Ret (Ok (tri s t k D D)).
  Proof.
    intros Hk Hb. pose proof Hwf as [H1 H2].
    assert (A : U D <= U k) by (apply knot_le; auto; lia). assert (B : U (k + 1) <= U C) by (apply knot_le; auto; lia).
    rewrite fixed_eval_inside by lra. destruct (fixed_span_found t ltac:(lra)) as (k' & Ek & Hk' & Hb').
    assert (k' = k).
    { apply (span_unique (bs_knots s) k' k t Hs Hb'). split; [lia|exact Hb]. }
    subst k'. now apply fixed_de_boor_value.
  Qed.
  Lemma fixed_eval_last : fixed_eval s (U C) = Ret (Ok (tri s (U C) (C - 1) D D)).
  Proof.
    pose proof Hwf as [H1 H2]. assert (A : U D <= U C) by (apply knot_le; auto; lia).
    rewrite fixed_eval_inside by lra. apply fixed_de_boor_value; [exact Hwf|lia|apply fixed_span_last].
  Qed.

  Lemma fixed_eval_value t : U D <= t < U C -> exists p, fixed_eval s t = Ret (Ok p) /\
    forall i, (i < p_dim (P := P))%nat -> coord p i = spline_coord D (bs_knots s) (bs_points s) t i.
  Proof.
    intros Ht. destruct (fixed_span_found t Ht) as (k & Ek & Hk & Hb). exists (tri s t k D D). split.
    - apply fixed_eval_span; [exact Hk|apply Hb].
    - now apply tri_value.
  Qed.
  Lemma fixed_eval_total t : U D <= t <= U C -> exists p, fixed_eval s t = Ret (Ok p).
  Proof.
    intros Ht. destruct (Req_dec t (U C)) as [->|Hne]; [rewrite fixed_eval_last; eauto|].
    destruct (fixed_eval_value t ltac:(lra)) as (p & Ep & _). eauto.
  Qed.
  Lemma fixed_eval_domain t : fixed_eval s t = Ret (Err KnotDomainViolation) <-> ~ (U D <= t <= U C).
  Proof.
    split; [|apply fixed_eval_outside]. intros H Ht. destruct (fixed_eval_total t Ht) as (p & Ep). congruence.
  Qed.

  (** the last span nonempty: the value at its right end is the limit of the values before it *)
  Lemma fixed_eval_limit i (f : R -> R) : (i < p_dim (P := P))%nat -> U (C - 1) < U C ->
    (forall t p, U D <= t < U C -> fixed_eval s t = Ret (Ok p) -> f t = coord p i) ->
    exists p, fixed_eval s (U C) = Ret (Ok p) /\ left_limit f (U C) (coord p i).
  Proof.
    intros Hi Hlt Hf. pose proof Hwf as [H1 H2]. eexists. split; [apply fixed_eval_last|]. intros e He.
    pose proof (tri_continuous s (C - 1) i (U C) Hi D D) as Hc.
    apply continuity_pt_filterlim in Hc. destruct (Hc e He) as (a & Ha & H).
    exists (Rmin a (U C - U (C - 1))). split; [apply Rmin_pos; lra|].
    intros t Ht. pose proof (Rmin_l a (U C - U (C - 1))). pose proof (Rmin_r a (U C - U (C - 1))).
    assert (A : U D <= U (C - 1)) by (apply knot_le; auto; lia).
    rewrite (Hf t (tri s t (C - 1) D D)); [| lra |apply fixed_eval_span; [lia|]].
    - apply (H t). split; [split; [exact I|lra]|]. simpl. unfold R_dist. rewrite Rabs_left; lra.
    - replace (C - 1 + 1)%nat with C by lia. lra.
  Qed.

  Lemma fixed_eval_first : U 0 = U D -> U D < U (D + 1) -> fixed_eval s (U D) = Ret (Ok (cpoint s 0)).
  Proof.
    intros H0 Hlt. pose proof Hwf as [H1 H2]. rewrite (fixed_eval_span (U D) D) by (try lia; lra).
    do 2 f_equal.
    assert (Hr : forall r j, (1 <= r <= j)%nat -> (j <= D)%nat -> ratio s (U D) D r j = 0).
    { intros r j Hr Hj. unfold ratio. replace (j + D - D)%nat with j by lia.
      assert (U 0 <= U j) by (apply knot_le; auto; lia). assert (U j <= U D) by (apply knot_le; auto; lia).
      replace (U D - U j) with 0 by lra. unfold Rdiv. ring. }
    assert (G : forall r j, (r <= j <= D)%nat -> tri s (U D) D r j = tri s (U D) D 0 (j - r)).
    { induction r as [|r IH]; intros j Hj; [now rewrite Nat.sub_0_r|]. apply lp_ext. intros i Hi.
      rewrite tri_coord, Hr by (try assumption; lia). rewrite IH by lia.
      replace (j - 1 - r)%nat with (j - S r)%nat by lia. ring. }
    rewrite G by lia. cbn [tri]. f_equal. lia.
  Qed.

  Lemma fixed_eval_end : U C = U (C + D) -> U (C - 1) < U C ->
    fixed_eval s (U C) = Ret (Ok (cpoint s (C - 1))).
  Proof.
    intros H0 Hlt. pose proof Hwf as [H1 H2]. rewrite fixed_eval_last. do 2 f_equal.
    assert (Hr : forall r j, (1 <= r <= j)%nat -> (j <= D)%nat -> ratio s (U C) (C - 1) r j = 1).
    { intros r j Hr Hj. unfold ratio. 
      assert (A : U C <= U (j + 1 + (C - 1) - r)) by (apply knot_le; auto; lia).
      assert (B : U (j + 1 + (C - 1) - r) <= U (C + D)) by (apply knot_le; auto; lia).
      assert (G : U (j + (C - 1) - D) <= U (C - 1)) by (apply knot_le; auto; lia).
      replace (U (j + 1 + (C - 1) - r)) with (U C) by lra. field. lra. }
    assert (G : forall r j, (r <= j <= D)%nat -> tri s (U C) (C - 1) r j = tri s (U C) (C - 1) 0 j).
    { induction r as [|r IH]; intros j Hj; [reflexivity|]. apply lp_ext. intros i Hi.
      rewrite tri_coord, Hr by (try assumption; lia). rewrite (IH j) by lia. ring. }
    rewrite G by lia. cbn [tri]. f_equal. lia.
  Qed.

  (** the function evaluated on the closed domain *)
  Lemma fixed_function : exists e, (forall t, U D <= t <= U C -> fixed_eval s t = Ret (Ok (e t))).
  Proof.
    exists (fun t => match fixed_eval s t with Ret (Ok p) => p | _ => p_default end).
    intros t Ht. destruct (fixed_eval_total t Ht) as (p & Ep). now rewrite Ep.
  Qed.

  Lemma fixed_arclen_value n e : (0 < n)%nat -> (forall t, U D <= t <= U C -> fixed_eval s t = Ret (Ok (e t))) ->
    fixed_bspline_arclen s n = Ret (polyline (fun u => e (U D + u * (U C - U D))) n).
  Proof.
    intros Hn He. pose proof Hwf as [H1 H2]. assert (A : U D <= U C) by (apply knot_le; auto; lia).
    unfold fixed_bspline_arclen. rewrite fixed_domain. cbn [bind fst snd]. rs. set (body := fun i a => _).
    assert (Hnz : 0 < INR n) by now apply lt_0_INR.
    destruct (for_in_range_inv (fun m a => a = Rsum (fun i =>
        dist (e (U D + INR i / INR n * (U C - U D))) (e (U D + INR (i + 1) / INR n * (U C - U D)))) m)
      0 n 0 body) as (a & Ea & Ia); try lia.
    - reflexivity.
    - intros i a Hi ->.
      assert (Q : forall j, (j <= n)%nat -> U D <= U D + INR j / INR n * (U C - U D) <= U C).
      { intros j Hj. assert (0 <= INR j / INR n <= 1).
        { split; [apply Rmult_le_pos; [apply pos_INR|now apply Rlt_le, Rinv_0_lt_compat]|].
          apply Rmult_le_reg_r with (INR n); [lra|]. unfold Rdiv. rewrite Rmult_assoc, Rinv_l by lra.
          rewrite Rmult_1_r, Rmult_1_l. apply le_INR. lia. }
        nra. }
      eexists. split.
      + unfold body, fixed_eval_or_default. rewrite (He _ (Q i ltac:(lia))). cbn [bind].
        replace (U D + INR i / INR n * (U C - U D) + (U C - U D) / INR n)
          with (U D + INR (i + 1) / INR n * (U C - U D)) by (rewrite plus_INR; simpl (INR 1); field; lra).
        rewrite (He _ (Q (i + 1)%nat ltac:(lia))). cbn [bind]. reflexivity.
      + replace (i + 1)%nat with (S i) by lia. cbn [Rsum]. f_equal. rewrite sqrt_sqlen_sub.
        now replace (S i) with (i + 1)%nat by lia.
    - rewrite Ea, Ia. reflexivity.
  Qed.
End New.

Section Maps.
  Context {E : Eps} {P Q : Type} {PT : Point R P} {QT : Point R Q} {LP : LawfulPoint P} {LQ : LawfulPoint Q}.
  Variable F : P -> Q.
  Hypothesis HF : affine_map F.

  Lemma aff_mix w a b : F (p_add (p_mul a (1 - w)) (p_mul b w)) = p_add (p_mul (F a) (1 - w)) (p_mul (F b) w).
  Proof.
    destruct HF as (A & o & H). apply lp_ext. intros j Hj. coords. rewrite !H by exact Hj.
    rewrite (Rsum_ext _ (fun k => (1 - w) * (A j k * coord a k) + w * (A j k * coord b k))).
    - rewrite Rsum_plus, !Rsum_scal. ring.
    - intros k Hk. coords. ring.
  Qed.

  Lemma tri_aff s t k r j : well_formed s -> (bs_degree s <= k < length (bs_points s))%nat -> (r <= j <= bs_degree s)%nat ->
    tri (BSpline (bs_degree s) (bs_knots s) (bs_kind s) (map F (bs_points s))) t k r j = F (tri s t k r j).
  Proof.
    intros [H1 H2] Hk. revert j. induction r as [|r IH]; intros j Hj.
    - cbn [tri]. unfold cpoint. cbn [bs_points bs_degree].
      rewrite (nth_indep _ p_default (F p_default)) by (rewrite map_length; lia). now rewrite map_nth.
    - cbn [tri]. rewrite !IH by lia. rewrite <- aff_mix. reflexivity.
  Qed.

  Lemma fixed_eval_aff s t : well_formed s -> srt s ->
    fixed_eval (BSpline (bs_degree s) (bs_knots s) (bs_kind s) (map F (bs_points s))) t
    = omap (rmap F) (fixed_eval s t).
  Proof.
    intros Hwf Hs. pose proof Hwf as [H1 H2].
    set (s' := BSpline (bs_degree s) (bs_knots s) (bs_kind s) (map F (bs_points s))).
    assert (Hl : length (bs_points s') = length (bs_points s)) by apply map_length.
    assert (Hwf' : well_formed s') by (split; rewrite Hl; assumption).
    assert (Hs' : srt s') by exact Hs.
    assert (EC : knot s' (length (bs_points s')) = knot s (length (bs_points s))) by (rewrite Hl; reflexivity).
    destruct (Rle_dec (knot s (bs_degree s)) t) as [Ha|Ha].
    2:{ rewrite !fixed_eval_outside; auto; try lra. change (knot s' (bs_degree s')) with (knot s (bs_degree s)). lra. }
    destruct (Rle_dec t (knot s (length (bs_points s)))) as [Hb|Hb].
    2:{ rewrite !fixed_eval_outside; auto; lra. }
    destruct (Req_dec t (knot s (length (bs_points s)))) as [->|Hne].
    - rewrite fixed_eval_last by assumption. rewrite <- EC at 1. rewrite fixed_eval_last by assumption.
      rewrite EC, Hl. cbn [omap rmap]. do 2 f_equal. apply tri_aff; auto; lia.
    - assert (Ht : knot s (bs_degree s) <= t < knot s (length (bs_points s))).
      { split; [exact Ha|]. destruct Hb as [Hb|Hb]; [exact Hb|contradiction]. }
      destruct (fixed_span_found s Hwf Hs t Ht) as (k & _ & Hk & Hin).
      rewrite (fixed_eval_span s Hwf Hs t k Hk (proj2 Hin)).
      rewrite (fixed_eval_span s' Hwf' Hs' t k); [|rewrite Hl; exact Hk|exact (proj2 Hin)].
      cbn [omap rmap]. do 2 f_equal. apply tri_aff; auto; lia.
  Qed.
End Maps.

Section Derivative.
  Context {E : Eps} {P : Type} {PT : Point R P} {LP : LawfulPoint P}.

  Lemma fixed_derivative_value D ks (ps : list P) s t e : bspline_new D ks ps = Ret (Ok s) -> (1 <= D)%nat ->
    nth D ks 0 < t < nth (length ps) ks 0 -> (forall i, (i < length ks)%nat -> nth i ks 0 <> t) ->
    (forall y, nth D ks 0 <= y <= nth (length ps) ks 0 -> fixed_eval s y = Ret (Ok (e y))) ->
    exists s' p, fixed_derivative s = Ret s' /\ fixed_eval s' t = Ret (Ok p) /\
      fixed_knot_domain s' = Ret (nth D ks 0, nth (length ps) ks 0) /\
      forall i, (i < p_dim (P := P))%nat -> derivable_pt_lim (fun y => coord (e y) i) t (coord p i).
  Proof.
    intros Hnew HD Ht Hne He. destruct (sizes D ks ps s Hnew) as [HC HK].
    destruct (fields D ks ps s Hnew) as (F1 & F2 & F3).
    destruct (spline_derivative D ks ps s t Hnew HD Ht Hne) as (q & Eq & Dq & Lq & Hq).
    destruct (derivative_ok s (wf D ks ps s Hnew)) as (qs & Eqs & _); [lia|].
    assert (Kq : bs_knots q = ks) by (rewrite Eq in Eqs; injection Eqs as ->; exact F2). clear qs Eqs.
    set (s' := BSpline (bs_degree q) (inner_knots (bs_knots q)) (bs_kind q) (bs_points q)).
    assert (Li : length (inner_knots ks) = (length ks - 2)%nat).
    { unfold inner_knots. rewrite removelast_firstn_len, firstn_length. destruct ks; simpl in *; lia. }
    assert (Hwf' : well_formed s').
    { unfold s'. split; cbn [bs_degree bs_points bs_knots]; rewrite ?Kq, Dq, Lq; lia. }
    assert (Hs' : srt s').
    { unfold srt, s'. cbn [bs_knots]. rewrite Kq. intros i j Hij. rewrite Li in Hij. rewrite !nth_inner by lia.
      apply (ks_sorted D ks ps s Hnew). lia. }
    assert (KD : knot s' (bs_degree s') = nth D ks 0).
    { unfold knot, s'. cbn [bs_knots bs_degree]. rewrite Kq, Dq. rs. rewrite nth_inner by lia. f_equal. lia. }
    assert (KC : knot s' (length (bs_points s')) = nth (length ps) ks 0).
    { unfold knot, s'. cbn [bs_knots bs_points]. rewrite Kq, Lq. rs. rewrite nth_inner by lia. f_equal. lia. }
    destruct (fixed_eval_value s' Hwf' Hs' t) as (p & Ep & Hp); [rewrite KD, KC; lra|].
    exists s', p. split; [unfold fixed_derivative; rewrite Eq; reflexivity|]. split; [exact Ep|].
    split; [rewrite fixed_domain by exact Hwf'; now rewrite KD, KC|].
    intros i Hi. rewrite (Hp i Hi). unfold s' at 1 2 3. cbn [bs_knots bs_degree bs_points]. rewrite Kq, Dq.
    apply is_derive_Reals. apply (is_derive_ext_loc (fun y => spline_coord D ks ps y i)).
    - assert (Hpos : 0 < Rmin (t - nth D ks 0) (nth (length ps) ks 0 - t)) by (apply Rmin_pos; lra).
      exists (mkposreal _ Hpos). intros y Hy. unfold ball in Hy. simpl in Hy. unfold AbsRing_ball in Hy.
      apply Rabs_def2 in Hy. change (abs (minus y t)) with (Rabs (y - t)) in Hy || idtac.
      unfold minus, plus, opp in Hy. simpl in Hy.
      pose proof (Rmin_l (t - nth D ks 0) (nth (length ps) ks 0 - t)).
      pose proof (Rmin_r (t - nth D ks 0) (nth (length ps) ks 0 - t)).
      assert (Hy' : nth D ks 0 <= y < nth (length ps) ks 0) by lra.
      destruct (fixed_eval_value s (wf D ks ps s Hnew) (ssrt D ks ps s Hnew) y) as (x & Ex & Hx).
      { unfold knot. rewrite F1, F2, F3. exact Hy'. }
      rewrite He in Ex by lra. injection Ex as <-. rewrite (Hx i Hi), F1, F2, F3. reflexivity.
    - apply is_derive_Reals. now apply Hq.
  Qed.
End Derivative.

(** the same for the result of [new] *)
Section Returned.
  Context {E : Eps} {P Q : Type} {PT : Point R P} {QT : Point R Q} {LP : LawfulPoint P} {LQ : LawfulPoint Q}.
  Variables (D : nat) (ks : list R) (ps : list P) (s : bspline R P).
  Hypothesis Hnew : bspline_new D ks ps = Ret (Ok s).
  Local Notation C := (length ps).
  Local Notation U i := (nth i ks 0).

  Lemma new_record : s = BSpline D ks (bs_kind s) ps.
  Proof. destruct (fields D ks ps s Hnew) as (<- & <- & <-). now destruct s. Qed.
  Lemma wf' : well_formed (BSpline D ks (bs_kind s) ps).
  Proof. rewrite <- new_record. exact (wf D ks ps s Hnew). Qed.
  Lemma srt' : srt (BSpline D ks (bs_kind s) ps).
  Proof. rewrite <- new_record. exact (ssrt D ks ps s Hnew). Qed.

  Lemma new_fixed_domain : fixed_knot_domain s = Ret (U D, U C).
  Proof. rewrite new_record. exact (fixed_domain _ wf'). Qed.
  Lemma new_fixed_span t : U D <= t < U C ->
    exists k, fixed_span s t = Ret (Some k) /\ (D <= k < C)%nat /\ U k <= t < U (k + 1).
  Proof.
    intros Ht. destruct (fixed_span_found _ wf' srt' t Ht) as (k & Ek & Hk & Hb). exists k.
    rewrite new_record. split; [exact Ek|]. split; [exact Hk|apply Hb].
  Qed.
  Lemma new_fixed_error t : fixed_eval s t = Ret (Err KnotDomainViolation) <-> ~ (U D <= t <= U C).
  Proof. rewrite new_record. exact (fixed_eval_domain _ wf' srt' t). Qed.
  Lemma new_fixed_total t : U D <= t <= U C -> exists p, fixed_eval s t = Ret (Ok p).
  Proof. rewrite new_record. exact (fixed_eval_total _ wf' srt' t). Qed.
  Lemma new_fixed_value t : U D <= t < U C -> exists p, fixed_eval s t = Ret (Ok p) /\
    forall i, (i < p_dim (P := P))%nat -> coord p i = spline_coord D ks ps t i.
  Proof. rewrite new_record. exact (fixed_eval_value _ wf' srt' t). Qed.
  Lemma new_fixed_limit i (f : R -> R) : (i < p_dim (P := P))%nat -> U (C - 1) < U C ->
    (forall t, U D <= t < U C -> f t = spline_coord D ks ps t i) ->
    exists p, fixed_eval s (U C) = Ret (Ok p) /\ left_limit f (U C) (coord p i).
  Proof.
    intros Hi Hlt Hf. rewrite new_record. apply (fixed_eval_limit _ wf' srt' i f Hi Hlt).
    intros t p Ht Ep. destruct (fixed_eval_value _ wf' srt' t Ht) as (q & Eq & Hq). rewrite Eq in Ep. injection Ep as <-.
    rewrite (Hf t Ht). symmetry. apply (Hq i Hi).
  Qed.
  Lemma new_fixed_first : U 0 = U D -> U D < U (D + 1) -> fixed_eval s (U D) = Ret (Ok (nth 0 ps p_default)).
  Proof. rewrite new_record. exact (fixed_eval_first _ wf' srt'). Qed.
  Lemma new_fixed_last : U C = U (C + D) -> U (C - 1) < U C ->
    fixed_eval s (U C) = Ret (Ok (nth (C - 1) ps p_default)).
  Proof. rewrite new_record. exact (fixed_eval_end _ wf' srt'). Qed.
  Lemma new_fixed_arclen n : (0 < n)%nat -> exists e,
    (forall t, U D <= t <= U C -> fixed_eval s t = Ret (Ok (e t))) /\
    fixed_bspline_arclen s n = Ret (polyline (fun u => e (U D + u * (U C - U D))) n).
  Proof.
    intros Hn. rewrite new_record. destruct (fixed_function _ wf' srt') as (e & He). exists e. split; [exact He|].
    exact (fixed_arclen_value _ wf' srt' n e Hn He).
  Qed.
  Lemma new_fixed_aff (F : P -> Q) s' t : affine_map F -> bspline_new D ks (map F ps) = Ret (Ok s') ->
    fixed_eval s' t = omap (rmap F) (fixed_eval s t).
  Proof.
    intros HF Hnew'. rewrite new_record.
    rewrite <- (fixed_eval_aff F HF _ t wf' srt'). cbn [bs_degree bs_knots bs_kind bs_points].
    destruct (fields D ks (map F ps) s' Hnew') as (F1 & F2 & F3). destruct s' as [D' ks' k' ps']. cbn in F1, F2, F3.
    subst. reflexivity.
  Qed.
End Returned.
