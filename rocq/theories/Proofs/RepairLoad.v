(** The B-spline evaluation with the one line of Model/RepairsLoad.v changed. *)
From Coq Require Import Reals List Arith Bool Lia Lra Psatz.
From Verif Require Import Base.Outcome Base.Scalar Model.Point Model.BSpline Model.Repairs Model.RepairsLoad Inst.RealInst
  Spec.Sums Spec.Lawful Spec.Metric Spec.Hull Spec.Maps Spec.Basis
  Proofs.OutcomeFacts Proofs.PointFacts Proofs.RealTac Proofs.Metric Proofs.BSplineGeneric Proofs.BSplineReal
  Proofs.BSplineEval Proofs.BSplineRange Proofs.RepairSpline Proofs.BSplineCE Proofs.BoxSpec Spec.Points.
Import ListNotations.
Local Open Scope R_scope.

Section Scheme.
  Context {E : Eps} {P : Type} {PT : Point R P} {LP : LawfulPoint P}.
  Variables (s : bspline R P) (t : R) (k : nat).
  Hypothesis Hwf : well_formed s.
  Hypothesis Hk : (bs_degree s <= k < length (bs_points s))%nat.
  Local Notation D := (bs_degree s).

  (** entry [j] after pass [r], with the weights of the code *)
  Fixpoint row (r j : nat) : P :=
    match r with
    | O => cpoint s (j + k - D)
    | S r' => p_add (p_mul (row r' (j - 1)) (1 - weight s t k r j)) (p_mul (row r' j) (weight s t k r j))
    end.

  Lemma row_inner r d : (1 <= r <= D)%nat -> length d = (D + 1)%nat ->
    (forall j, (r - 1 <= j <= D)%nat -> nth j d p_default = row (r - 1) j) ->
    exists res, for_result (rev (range_incl r D)) d (fun j d => de_boor_body (bs_knots s) D t k r j d) = Ret res /\
      match res with
      | Ok d' => length d' = (D + 1)%nat /\ forall j, (r <= j <= D)%nat -> nth j d' p_default = row r j
      | Err e => False
      end.
  Proof.
    intros Hr Hl Hd.
    destruct (for_result_rule (fun l d => exists n, l = rev (seq r n) /\ (r + n <= D + 1)%nat /\ length d = (D + 1)%nat /\
        (forall j, (r - 1 <= j < r + n)%nat -> nth j d p_default = row (r - 1) j) /\
        (forall j, (r + n <= j <= D)%nat -> nth j d p_default = row r j))
      (fun _ => False) (fun j d => de_boor_body (bs_knots s) D t k r j d) (rev (range_incl r D)) d) as (res & Er & Hres).
    - exists (S D - r)%nat. unfold range_incl. split; [reflexivity|]. split; [lia|]. split; [exact Hl|]. split.
      + intros j Hj. apply Hd. lia.
      + intros j Hj. lia.
    - clear d Hl Hd. intros i l d (n & En & Hn & Hl & Hd1 & Hd2).
      destruct n as [|n]; [discriminate|]. rewrite seq_S, rev_unit in En. injection En as -> ->.
      unfold de_boor_body. rewrite (alpha_ok s t k (wf_roomy s Hwf)) by lia. cbn [bind]. cbn [s_is_nan RScalar].
      rewrite usub_le by lia. cbn [bind]. rewrite !(idx_lt d _ p_default) by lia. cbn [bind].
      rewrite set_idx_lt by lia. cbn [bind]. eexists. split; [reflexivity|].
      exists n. repeat split; try lia.
      + now rewrite length_replace_nth.
      + intros j Hj. rewrite nth_replace_nth by lia. destruct (Nat.eqb_spec j (r + n)); [lia|]. apply Hd1. lia.
      + intros j Hj. rewrite nth_replace_nth by lia. destruct (Nat.eqb_spec j (r + n)) as [->|Hne].
        * rewrite !Hd1 by lia. destruct r as [|r']; [lia|]. replace (S r' - 1)%nat with r' by lia. reflexivity.
        * apply Hd2. lia.
    - exists res. split; [exact Er|]. destruct res as [d'|e]; [|exact Hres].
      destruct Hres as (n & En & Hn & Hl' & Hd1 & Hd2). destruct n as [|n].
      2:{ rewrite seq_S, rev_unit in En. discriminate. }
      split; auto. intros j Hj. apply Hd2. lia.
  Qed.

  Lemma row_scheme d : length d = (D + 1)%nat -> (forall j, (j <= D)%nat -> nth j d p_default = row 0 j) ->
    exists d', for_result (range_incl 1 D) d (fun r d =>
        for_result (rev (range_incl r D)) d (fun j d => de_boor_body (bs_knots s) D t k r j d)) = Ret (Ok d') /\
      length d' = (D + 1)%nat /\ nth D d' p_default = row D D.
  Proof.
    intros Hl Hd.
    destruct (for_result_rule (fun l d => exists m, l = seq (m + 1) (D - m) /\ (m <= D)%nat /\ length d = (D + 1)%nat /\
        (forall j, (m <= j <= D)%nat -> nth j d p_default = row m j))
      (fun _ => False) (fun r d => for_result (rev (range_incl r D)) d (fun j d => de_boor_body (bs_knots s) D t k r j d))
      (range_incl 1 D) d) as (res & Er & Hres).
    - exists 0%nat. unfold range_incl. repeat split; auto; try lia. intros j Hj. apply Hd. lia.
    - clear d Hl Hd. intros i l d (m & Em & Hm & Hl & Hd).
      destruct (D - m)%nat as [|n] eqn:En; [discriminate|]. simpl in Em. injection Em as -> ->.
      destruct (row_inner (m + 1) d) as (res & Er & Hr); [lia|exact Hl| |].
      + intros j Hj. replace (m + 1 - 1)%nat with m in * by lia. apply Hd. lia.
      + exists res. split; [exact Er|]. destruct res as [d'|e]; [|exact Hr].
        destruct Hr as [Hl' Hd']. exists (m + 1)%nat. repeat split; auto; try lia.
        replace (D - (m + 1))%nat with n by lia. f_equal. lia.
    - destruct res as [d'|e]; [|contradiction]. exists d'. split; [exact Er|].
      destruct Hres as (m & Em & Hm & Hl' & Hd').
      destruct (D - m)%nat as [|n] eqn:En; [|discriminate]. replace m with D in * by lia.
      split; [exact Hl'|]. apply Hd'. lia.
  Qed.

  Lemma loaded_de_boor_value : t <> knot s (length (bs_points s)) -> knot_span_start_for_t s t = Ret (Some k) ->
    loaded_de_boor s t = Ret (Ok (row D D)).
  Proof.
    intros Hne Hs. pose proof Hwf as [H1 H2]. unfold loaded_de_boor. rewrite knot_idx by lia. cbn [bind].
    rs. rewrite Reqb_false by exact Hne. rewrite Hs. cbn [bind].
    destruct (fixed_load_ok s t k Hwf Hk) as (d & Ed & Hl & Hd). rewrite Ed. cbn [bind].
    destruct (row_scheme d Hl Hd) as (d' & Er & Hl' & Hd'). rewrite Er. cbn [bind].
    rewrite (idx_lt _ _ p_default) by lia. cbn [bind]. now rewrite Hd'.
  Qed.

  (** exact weights: the triangle of [tri] *)
  Lemma row_tri : srt s -> in_span (bs_knots s) k t ->
    (forall i, (k - D < i <= k)%nat -> t = knot s i \/ eps <= t - knot s i) ->
    forall r j, (r <= j <= D)%nat -> row r j = tri s t k r j.
  Proof.
    intros Hs Hb Hc. induction r as [|r IH]; intros j Hj; [reflexivity|]. cbn [row tri].
    rewrite !IH by lia. unfold ratio.
    rewrite (weight_exact s t k (wf_roomy s Hwf) Hs ltac:(lia) Hb) by (try lia; apply Hc; lia). reflexivity.
  Qed.

  (** every parameter: weights in [0,1], so the hull of the D+1 control points *)
  Lemma row_hull : srt s -> in_span (bs_knots s) k t ->
    forall r j, (r <= j <= D)%nat -> in_hull (firstn (D + 1) (skipn (k - D) (bs_points s))) (row r j).
  Proof.
    intros Hs Hb. pose proof Hwf as [H1 H2].
    assert (Hl : length (firstn (D + 1) (skipn (k - D) (bs_points s))) = (D + 1)%nat).
    { rewrite firstn_length, skipn_length. lia. }
    induction r as [|r IH]; intros j Hj.
    - cbn [row]. unfold cpoint. replace (j + k - D)%nat with (k - D + j)%nat by lia.
      rewrite <- (nth_window (bs_points s) (k - D) (D + 1) j p_default) by lia. apply hull_member. lia.
    - apply (hull_mix _ (weight s t k (S r) j) (row r (j - 1)) (row r j)); try (apply IH; lia).
      + apply (weight_unit s t k (wf_roomy s Hwf) Hs ltac:(lia) Hb); lia.
      + intros i Hi. cbn [row]. now coords.
  Qed.

  (** weights all zero: the first of them *)
  Lemma row_zero : (forall r j, (1 <= r <= j)%nat -> (j <= D)%nat -> weight s t k r j = 0) ->
    forall r j, (r <= j <= D)%nat -> row r j = cpoint s (j - r + k - D).
  Proof.
    intros H0. induction r as [|r IH]; intros j Hj; [cbn [row]; f_equal; lia|]. apply lp_ext. intros i Hi.
    cbn [row]. rewrite H0 by lia. coords. rewrite IH by lia. replace (j - 1 - r)%nat with (j - S r)%nat by lia. ring.
  Qed.
End Scheme.

Section Maps.
  Context {E : Eps} {P Q : Type} {PT : Point R P} {QT : Point R Q} {LP : LawfulPoint P} {LQ : LawfulPoint Q}.
  Variable F : P -> Q.
  Hypothesis HF : affine_map F.

  Lemma row_aff s s' t k r j : bs_degree s' = bs_degree s -> bs_knots s' = bs_knots s ->
    bs_points s' = map F (bs_points s) ->
    (bs_degree s <= k < length (bs_points s))%nat -> (r <= j <= bs_degree s)%nat ->
    row s' t k r j = F (row s t k r j).
  Proof.
    intros E1 E2 E3 Hk. revert j. induction r as [|r IH]; intros j Hj.
    - cbn [row]. unfold cpoint. rewrite E1, E3.
      rewrite (nth_indep _ p_default (F p_default)) by (rewrite map_length; lia). now rewrite map_nth.
    - cbn [row]. rewrite !IH by lia. rewrite (aff_mix F HF).
      assert (W : weight s' t k (S r) j = weight s t k (S r) j).
      { unfold weight, knot. now rewrite E1, E2. }
      now rewrite W.
  Qed.
End Maps.

Section New.
  Context {E : Eps} {P Q : Type} {PT : Point R P} {QT : Point R Q} {LP : LawfulPoint P} {LQ : LawfulPoint Q}.
  Variables (D : nat) (ks : list R) (ps : list P) (s : bspline R P).
  Hypothesis Hnew : bspline_new D ks ps = Ret (Ok s).
  Hypothesis Hkind : bs_kind s <> Unclamped.
  Local Notation C := (length ps).
  Local Notation U i := (nth i ks 0).

  Lemma loaded_inside {P' : Type} {PT' : Point R P'} (s' : bspline R P') t :
    well_formed s' -> bs_degree s' = D -> bs_knots s' = ks -> length (bs_points s') = C ->
    U D <= t <= U C -> loaded_eval s' t = loaded_de_boor s' t.
  Proof.
    intros Hw F1 F2 F3 Ht. destruct (sizes D ks ps s Hnew) as [HD HK].
    pose proof (U_le D ks ps s Hnew 0 D ltac:(lia)). pose proof (U_le D ks ps s Hnew C (C + D) ltac:(lia)).
    unfold loaded_eval. rewrite (domain_value s' Hw). cbn [bind].
    assert (K : forall i, knot s' i = U i) by (intros i; unfold knot; now rewrite F2).
    rs. destruct (bs_kind s'); cbn [fst snd]; rewrite !K, ?F1, ?F2, ?F3;
      try replace (length ks - 1)%nat with (C + D)%nat by lia; rewrite !Rltb_false by lra; reflexivity.
  Qed.

  Lemma loaded_last : loaded_eval s (U C) = Ret (Ok (nth (C - 1) ps p_default)).
  Proof.
    destruct (fields D ks ps s Hnew) as (F1 & F2 & F3). destruct (sizes D ks ps s Hnew) as [HD HK].
    pose proof (U_le D ks ps s Hnew D C ltac:(lia)).
    rewrite loaded_inside by (try (apply (wf D ks ps s Hnew)); auto; try lra; now rewrite F3).
    unfold loaded_de_boor. rewrite F2, F3. rewrite (idx_lt ks _ 0) by lia. cbn [bind]. rs.
    rewrite Reqb_true by reflexivity. rewrite usub_le by lia. cbn [bind].
    rewrite (idx_lt _ _ p_default) by lia. reflexivity.
  Qed.

  Lemma loaded_row t : U D <= t < U C -> exists k, (D <= k < C)%nat /\ U k <= t < U (k + 1) /\
    knot_span_start_for_t s t = Ret (Some k) /\ loaded_eval s t = Ret (Ok (row s t k D D)).
  Proof.
    intros Ht. destruct (span_good D ks ps s Hnew t (good_clamped D ks ps s t Hkind Ht)) as (k & Es & Hk & Hb).
    exists k. split; [exact Hk|]. split; [exact Hb|]. split; [exact Es|].
    destruct (fields D ks ps s Hnew) as (F1 & F2 & F3).
    rewrite loaded_inside by (try (apply (wf D ks ps s Hnew)); auto; try lra; now rewrite F3).
    rewrite (loaded_de_boor_value s t k (wf D ks ps s Hnew)).
    - now rewrite F1.
    - rewrite F1, F3. exact Hk.
    - rewrite (knot_U D ks ps s Hnew), F3. lra.
    - exact Es.
  Qed.

  Lemma loaded_total t : U D <= t <= U C -> exists p, loaded_eval s t = Ret (Ok p).
  Proof.
    intros Ht. destruct (Req_dec t (U C)) as [->|Hne]; [rewrite loaded_last; eauto|].
    destruct (loaded_row t ltac:(lra)) as (k & _ & _ & _ & Ee). eauto.
  Qed.

  (** C44 *)
  Lemma loaded_value t : U D <= t < U C -> (forall i, (i < C + D)%nat -> U i < t -> eps <= t - U i) ->
    exists p, loaded_eval s t = Ret (Ok p) /\
      forall i, (i < p_dim (P := P))%nat -> coord p i = spline_coord D ks ps t i.
  Proof.
    intros Ht Hsep. destruct (loaded_row t Ht) as (k & Hk & Hb & _ & Ee). eexists. split; [exact Ee|].
    destruct (fields D ks ps s Hnew) as (F1 & F2 & F3). destruct (sizes D ks ps s Hnew) as [HD HK].
    assert (Hk' : (bs_degree s <= k < length (bs_points s))%nat) by (rewrite F1, F3; exact Hk).
    assert (Hin : in_span (bs_knots s) k t) by (rewrite F2; split; [lia|exact Hb]).
    rewrite <- F1. rewrite (row_tri s t k (wf D ks ps s Hnew) Hk' (ssrt D ks ps s Hnew) Hin).
    - intros i Hi. rewrite (tri_value s t k (wf D ks ps s Hnew) Hk' (ssrt D ks ps s Hnew) Hin i Hi). now rewrite F2, F3.
    - intros i Hi. rewrite !(knot_U D ks ps s Hnew). pose proof (U_le D ks ps s Hnew i k ltac:(lia)).
      destruct (Req_dec t (U i)) as [He|He]; [left; exact He|right]. apply Hsep; [lia|lra].
    - lia.
  Qed.

  (** within EPSILON of the first knot: the first control point *)
  Lemma loaded_window t : U D <= t < U (D + 1) -> t - U 0 < eps -> loaded_eval s t = Ret (Ok (nth 0 ps p_default)).
  Proof.
    intros Ht Hw. destruct (fields D ks ps s Hnew) as (F1 & F2 & F3). destruct (sizes D ks ps s Hnew) as [HD HK].
    pose proof (U_le D ks ps s Hnew (D + 1) C ltac:(lia)).
    destruct (loaded_row t ltac:(lra)) as (k & Hk & Hb & _ & Ee).
    assert (k = D).
    { destruct (Nat.eq_dec k D) as [|Hne]; [assumption|]. pose proof (U_le D ks ps s Hnew (D + 1) k ltac:(lia)). lra. }
    subst k. rewrite Ee. do 2 f_equal.
    assert (Hz : forall r j, (1 <= r <= j)%nat -> (j <= bs_degree s)%nat -> weight s t D r j = 0).
    { intros r j Hr Hj. rewrite F1 in Hj. unfold weight. rs. rewrite F1, !(knot_U D ks ps s Hnew).
      replace (j + D - D)%nat with j by lia. rewrite Rltb_true; [reflexivity|].
      pose proof (U_le D ks ps s Hnew 0 j ltac:(lia)). lra. }
    pose proof (row_zero s t D ltac:(rewrite F1, F3; lia) Hz (bs_degree s) (bs_degree s) ltac:(lia)) as G.
    rewrite F1 in G. rewrite G. unfold cpoint. rewrite F3. f_equal. lia.
  Qed.

  (** C45 *)
  Lemma loaded_first : bs_kind s = Clamped \/ bs_kind s = ClampedStart -> U D < U (D + 1) ->
    loaded_eval s (U D) = Ret (Ok (nth 0 ps p_default)).
  Proof.
    intros Hc Hlt. pose proof (proj1 (proj1 (kind_spec D ks ps s Hnew)) Hc). apply loaded_window; lra.
  Qed.

  (** in the hull of the control points for every parameter, also next to a knot *)
  Lemma loaded_hull t : U D <= t < U C -> exists k p, (D <= k < C)%nat /\ U k <= t < U (k + 1) /\
    loaded_eval s t = Ret (Ok p) /\ in_hull (firstn (D + 1) (skipn (k - D) ps)) p.
  Proof.
    intros Ht. destruct (loaded_row t Ht) as (k & Hk & Hb & _ & Ee). exists k. eexists.
    split; [exact Hk|]. split; [exact Hb|]. split; [exact Ee|].
    destruct (fields D ks ps s Hnew) as (F1 & F2 & F3). destruct (sizes D ks ps s Hnew) as [HD HK].
    assert (Hk' : (bs_degree s <= k < length (bs_points s))%nat) by (rewrite F1, F3; exact Hk).
    assert (Hin : in_span (bs_knots s) k t) by (rewrite F2; split; [lia|exact Hb]).
    pose proof (row_hull s t k (wf D ks ps s Hnew) Hk' (ssrt D ks ps s Hnew) Hin (bs_degree s) (bs_degree s) ltac:(lia)) as G.
    rewrite F1, F3 in G. exact G.
  Qed.

  (** C79 *)
  Lemma loaded_aff (F : P -> Q) s' t : affine_map F -> bspline_new D ks (map F ps) = Ret (Ok s') ->
    U D <= t <= U C -> loaded_eval s' t = omap (rmap F) (loaded_eval s t).
  Proof.
    intros HF Hnew' Ht. destruct (fields D ks ps s Hnew) as (F1 & F2 & F3).
    destruct (fields D ks (map F ps) s' Hnew') as (F1' & F2' & F3'). destruct (sizes D ks ps s Hnew) as [HD HK].
    assert (Hl : length (bs_points s') = C) by (rewrite F3'; apply map_length).
    destruct (Req_dec t (U C)) as [->|Hne].
    - rewrite loaded_last. cbn [omap rmap].
      rewrite (loaded_inside s') by (try (apply (wf D ks (map F ps) s' Hnew')); auto).
      unfold loaded_de_boor. rewrite F2', F3', map_length. rewrite (idx_lt ks _ 0) by lia. cbn [bind]. rs.
      rewrite Reqb_true by reflexivity. rewrite usub_le by lia. cbn [bind].
      rewrite (idx_lt _ _ (F p_default)) by (rewrite map_length; lia). now rewrite map_nth.
    - destruct (loaded_row t ltac:(lra)) as (k & Hk & Hb & Es & Ee). rewrite Ee. cbn [omap rmap].
      rewrite (loaded_inside s') by (try (apply (wf D ks (map F ps) s' Hnew')); auto).
      assert (Es' : knot_span_start_for_t s' t = Ret (Some k)).
      { assert (K : bs_kind s' = bs_kind s).
        { destruct (kind_spec D ks ps s Hnew) as [A B]. destruct (kind_spec D ks (map F ps) s' Hnew') as [A' B'].
          rewrite map_length in B'.
          destruct (bs_kind s), (bs_kind s'); auto; exfalso; intuition discriminate. }
        rewrite <- Es. unfold knot_span_start_for_t. rewrite K.
        unfold knot_span_start_for_t_clamped, knot_span_start_for_t_clamped_start,
          knot_span_start_for_t_clamped_end, knot_span_start_for_t_unclamped.
        now rewrite F1, F1', F2, F2', Hl, F3. }
      rewrite (loaded_de_boor_value s' t k (wf D ks (map F ps) s' Hnew')).
      + rewrite F1'. do 2 f_equal. apply row_aff; auto; try congruence; rewrite F1, ?F3; lia.
      + rewrite F1', Hl. exact Hk.
      + rewrite Hl. unfold knot. rewrite F2'. exact Hne.
      + exact Es'.
  Qed.
End New.

(** ** Errors: those of the code *)
Section Errors.
  Context {E : Eps} {P : Type} {PT : Point R P}.

  Lemma for_result_ok {S : Type} (is : list nat) (body : nat -> S -> outcome (result S BSplineError)) :
    (forall i d e, body i d <> Ret (Err e)) -> forall d e, for_result is d body <> Ret (Err e).
  Proof.
    intros H. induction is as [|i is IH]; intros d e; cbn [for_result]; [discriminate|].
    pose proof (H i d). destruct (body i d) as [[d'|e']| |]; cbn [bind]; [apply IH|congruence|discriminate|discriminate].
  Qed.
  Lemma body_ok knots D (t : R) k r j (d : list P) e : de_boor_body knots D t k r j d <> Ret (Err e).
  Proof.
    unfold de_boor_body. destruct (alpha_of knots D t k r j) as [a| |]; cbn [bind]; [|discriminate|discriminate].
    change (s_is_nan a) with false. cbv iota.
    destruct (usub j 1); cbn [bind]; [|discriminate|discriminate]. destruct (idx d _); cbn [bind]; [|discriminate|discriminate].
    destruct (idx d j); cbn [bind]; [|discriminate|discriminate]. destruct (set_idx d j _); cbn [bind]; discriminate.
  Qed.
  Lemma loaded_errors (s : bspline R P) t e : loaded_eval s t = Ret (Err e) <-> bspline_eval s t = Ret (Err e).
  Proof.
    unfold loaded_eval, bspline_eval. destruct (knot_domain s) as [dom| |]; cbn [bind]; [|tauto|tauto].
    destruct (_ || _); [tauto|]. unfold loaded_de_boor, de_boor_iterative.
    destruct (idx (bs_knots s) (length (bs_points s))) as [kc| |]; cbn [bind]; [|tauto|tauto].
    destruct (s_eqb t kc); [tauto|]. destruct (knot_span_start_for_t s t) as [[k|]| |]; cbn [bind]; [|tauto|tauto|tauto].
    assert (N : forall d0 : outcome (list P),
      (let! d := d0 in
       let! rd := for_result (range_incl 1 (bs_degree s)) d (fun r d =>
         for_result (rev (range_incl r (bs_degree s))) d (fun j d => de_boor_body (bs_knots s) (bs_degree s) t k r j d)) in
       match rd with Err e => Ret (Err e) | Ok d => let! p := idx d (bs_degree s) in Ret (Ok p) end) <> Ret (Err e)).
    { intros [d0| |]; cbn [bind]; [|discriminate|discriminate].
      match goal with |- bind ?o _ <> _ => assert (X : forall e, o <> Ret (Err e)) by
        (intros; apply for_result_ok; intros; apply for_result_ok; intros; apply body_ok); destruct o as [[d|e']| |] end; cbn [bind].
      - destruct (idx d _); cbn [bind]; discriminate.
      - now destruct (X e').
      - discriminate.
      - discriminate. }
    split; intros H; exfalso; exact (N _ H).
  Qed.
  Lemma loaded_outside (s : bspline R P) t lo hi : knot_domain s = Ret (lo, hi) -> t < lo \/ hi < t ->
    loaded_eval s t = Ret (Err KnotDomainViolation).
  Proof.
    intros Hd Ht. unfold loaded_eval. rewrite Hd. cbn [bind fst snd]. rs.
    destruct (Rltb_spec t lo); [reflexivity|]. destruct (Rltb_spec hi t); [reflexivity|]. lra.
  Qed.
End Errors.

(** the tests against EPSILON remain: next to a knot the line from 0 to 1 is 0 *)
Section Near.
  Local Existing Instance Eps64.
  Lemma unit_curve t : 0 <= t < 1 -> spline_coord 1 [0;0;1;1] [pt1 0; pt1 1] t 0 = t.
  Proof.
    intros Ht. unfold spline_coord. cbn [length Rsum basis nth Nat.add].
    repeat match goal with |- context [Rle_dec ?a ?b] => destruct (Rle_dec a b); try lra end;
    repeat match goal with |- context [Rlt_dec ?a ?b] => destruct (Rlt_dec a b); try lra end;
    rewrite ?coord_pt1; unfold quot;
    repeat match goal with |- context [Req_EM_T ?a ?b] => destruct (Req_EM_T a b); try lra end;
    field_simplify; lra.
  Qed.

  Lemma loaded_near : exists s : bspline R P1,
    bspline_new 1 [0;0;1;1] [pt1 0; pt1 1] = Ret (Ok s) /\ bs_kind s = Clamped /\
    spline_coord 1 [0;0;1;1] [pt1 0; pt1 1] (eps / 2) 0 = eps / 2 /\
    loaded_eval s (eps / 2) = Ret (Ok (pt1 0)).
  Proof.
    destruct derivative_ce as (s & _ & Hnew & _). exists s. split; [exact Hnew|].
    assert (He : 0 < eps < 1).
    { split; [apply eps_pos|]. change eps with (/ 2 ^ 52). rewrite <- Rinv_1. apply Rinv_lt_contravar; [|].
      - rewrite Rmult_1_l. apply pow_lt. lra.
      - apply Rlt_pow_R1; [lra|lia]. }
    assert (K : bs_kind s = Clamped).
    { destruct (kind_spec _ _ _ _ Hnew) as [[_ A] [_ B]]. cbn [nth length Nat.add] in A, B.
      specialize (A ltac:(lra)). specialize (B ltac:(lra)).
      destruct A as [A|A]; [exact A|]. destruct B as [B|B]; [exact B|congruence]. }
    split; [exact K|]. split; [apply unit_curve; lra|].
    apply (loaded_window _ _ _ _ Hnew); [congruence| |]; cbn [nth Nat.add]; lra.
  Qed.
End Near.
