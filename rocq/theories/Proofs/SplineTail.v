(** Proofs for C44: the value of a spline clamped at the start only, past the end of
    its true domain. *)
From Coq Require Import Reals List Arith Lia Lra.
From Verif Require Import Base.Outcome Base.Scalar Model.Point Model.BSpline Inst.RealInst
  Spec.Sums Spec.Lawful Spec.Basis Spec.Probes
  Proofs.OutcomeFacts Proofs.PointFacts Proofs.RealTac Proofs.BSplineGeneric Proofs.BSplineReal Proofs.BSplineEval
  Proofs.BSplinePanic.
Import ListNotations.
Local Open Scope R_scope.

Lemma basis_knots_ext (U V : nat -> R) p i t : (forall m, (m <= i + p + 1)%nat -> U m = V m) ->
  basis U p i t = basis V p i t.
Proof.
  revert i. induction p as [|p IH]; intros i H; cbn [basis].
  - rewrite !H by lia. reflexivity.
  - rewrite !H by lia. rewrite (IH i), (IH (i + 1)%nat) by (intros m Hm; apply H; lia). reflexivity.
Qed.

Section Tail.
  Context {E : Eps} {P : Type} {PT : Point R P} {LP : LawfulPoint P}.
  Variables (D : nat) (ks : list R) (ps : list P) (s : bspline R P).
  Hypothesis Hnew : bspline_new D ks ps = Ret (Ok s).
  Local Notation C := (length ps).
  Local Notation U i := (nth i ks 0).

  Lemma tail_value t : bs_kind s = ClampedStart -> U C < t < U (C + 1) ->
    (forall i, (i <= C)%nat -> U i < t -> eps <= t - U i) ->
    exists p, bspline_eval s t = Ret (Ok p) /\
      forall i, (i < p_dim (P := P))%nat -> coord p i = spline_coord D ks ps t i.
  Proof.
    intros Ek Ht Hsep. pose proof (degree_pos D ks ps s Hnew ltac:(congruence)) as HD1.
    destruct (sizes D ks ps s Hnew) as [HD HK]. pose proof (fields D ks ps s Hnew) as (F1 & F2 & F3).
    pose proof (wf D ks ps s Hnew) as W. pose proof (U_le D ks ps s Hnew) as Ule.
    pose proof (knot_U D ks ps s Hnew) as KU.
    destruct (span_clamped_start_spec D ks ps s Hnew t Ek) as (_ & S2 & _).
    pose proof (Ule D C ltac:(lia)). pose proof (Ule (C + 1)%nat (C + D)%nat ltac:(lia)).
    destruct (S2 ltac:(lra)) as (k & Es & Hk & Hb).
    assert (k = C).
    { apply (span_unique ks k C t (ks_sorted D ks ps s Hnew)); split; try lia; lra. }
    subst k. exists (entry s t C D D). split.
    { rewrite (eval_scheme s t W (ssrt D ks ps s Hnew)).
      - destruct (de_boor_cases s t (Some C) (wf_roomy s W) Es) as [(Ee & _)|(_ & [Eo|(_ & _ & r & j & _ & _ & Hn)])].
        + intros k' [= <-]. rewrite F1, F3. lia.
        + rs_in Ee. rewrite KU, F3, Reqb_false in Ee by lra. discriminate.
        + rewrite F1 in Eo. exact Eo.
        + discriminate.
      - rewrite Ek, !KU, F1, F2. replace (length ks - 1)%nat with (C + D)%nat by lia. lra. }
    intros i Hi.
    (* one more knot *)
    set (ks' := ks ++ [U (C + D)]). set (s' := BSpline D ks' ClampedStart ps).
    assert (L' : length ks' = (C + D + 2)%nat) by (unfold ks'; rewrite app_length; cbn [length]; lia).
    assert (U' : forall m, (m <= C + D)%nat -> nth m ks' 0 = U m) by (intros m Hm; unfold ks'; apply app_nth1; lia).
    assert (U2 : nth (C + D + 1) ks' 0 = U (C + D)).
    { unfold ks'. rewrite app_nth2 by lia. replace (C + D + 1 - length ks)%nat with 0%nat by lia. reflexivity. }
    assert (Srt : srt s').
    { intros a b Hab. cbn [s' bs_knots] in *. rewrite L' in Hab. destruct (Nat.eq_dec b (C + D + 1)) as [->|Hb'].
      - rewrite U2. destruct (Nat.eq_dec a (C + D + 1)) as [->|Ha]; [rewrite U2; lra|]. rewrite U' by lia. apply Ule. lia.
      - rewrite !U' by lia. apply Ule. lia. }
    assert (Ent : forall r j, (r <= D)%nat -> (r <= j <= D)%nat -> entry s t C r j = entry s' t C r j).
    { induction r as [|r IH]; intros j Hr Hj; cbn [entry].
      - rewrite F1. cbn [s' bs_degree]. unfold cpoint. rewrite F3. reflexivity.
      - rewrite (IH (j - 1)%nat), (IH j) by lia.
        assert (Wt : weight s t C (S r) j = weight s' t C (S r) j).
        { unfold weight. rewrite F1. cbn [s' bs_degree]. rewrite !KU. unfold knot. cbn [s' bs_knots].
          change (s_lit 0 : R) with 0. rewrite !U' by lia. reflexivity. }
        now rewrite Wt. }
    rewrite Ent by lia.
    pose proof (entry_value s' t C) as V. cbn [s' bs_degree bs_knots bs_points] in V. rewrite V; auto; try lia.
    - unfold cpoint. cbn [bs_points s']. rewrite nth_overflow by lia. rewrite lp_default by assumption.
      rewrite Rmult_0_r, Rminus_0_r. unfold spline_coord. apply Rsum_ext. intros j Hj. f_equal.
      apply basis_knots_ext. intros m Hm. apply U'. lia.
    - split; cbn [s' bs_degree bs_points bs_knots]; lia.
    - split; [lia|]. rewrite !U' by lia. lra.
    - intros j Hj. unfold knot. cbn [s' bs_knots]. change (s_lit 0 : R) with 0. rewrite U' by lia.
      pose proof (Ule j C ltac:(lia)). right. apply Hsep; [lia|lra].
  Qed.

  (** wherever the search returns the span of [t] *)
  Lemma span_value t k : knot_span_start_for_t s t = Ret (Some k) -> (D <= k < C)%nat -> U k <= t < U (k + 1) ->
    (forall i, (i < C + D)%nat -> U i < t -> eps <= t - U i) ->
    exists p, bspline_eval s t = Ret (Ok p) /\ forall i, (i < p_dim (P := P))%nat ->
      coord p i = spline_coord D ks ps t i - basis (fun m => U m) D k t * coord (nth k ps p_default) i.
  Proof.
    intros Es Hk Hb Hsep. destruct (sizes D ks ps s Hnew) as [HD HK]. pose proof (fields D ks ps s Hnew) as (F1 & F2 & F3).
    pose proof (wf D ks ps s Hnew) as W. pose proof (U_le D ks ps s Hnew) as Ule.
    pose proof (knot_U D ks ps s Hnew) as KU.
    pose proof (Ule D k ltac:(lia)). pose proof (Ule (k + 1)%nat C ltac:(lia)).
    pose proof (Ule 0%nat D ltac:(lia)). pose proof (Ule C (C + D)%nat ltac:(lia)).
    exists (entry s t k D D). split.
    { rewrite (eval_scheme s t W (ssrt D ks ps s Hnew)).
      - destruct (de_boor_cases s t (Some k) (wf_roomy s W) Es) as [(Ee & _)|(_ & [Eo|(_ & _ & r & j & _ & _ & Hn)])].
        + intros k' [= <-]. rewrite F1, F3. lia.
        + rs_in Ee. rewrite KU, F3, Reqb_false in Ee by lra. discriminate.
        + rewrite F1 in Eo. exact Eo.
        + discriminate.
      - rewrite !KU, F1, F2, F3. replace (length ks - 1)%nat with (C + D)%nat by lia. destruct (bs_kind s); lra. }
    intros i Hi. pose proof (entry_value s t k (wf_roomy s W) (ssrt D ks ps s Hnew)) as V.
    rewrite F1, F2, F3 in V. unfold cpoint in V. rewrite F3 in V. apply V; auto; try lia.
    - split; [lia|exact Hb].
    - intros j Hj. rewrite !KU. pose proof (Ule j k ltac:(lia)).
      destruct (Req_EM_T t (U j)) as [He|He]; [left; exact He|right]. apply Hsep; [lia|lra].
  Qed.

  Lemma probe_span t i (k := probe (C + D + 1) i) : bs_kind s = Unclamped -> (k < C)%nat -> U k <= t < U (k + 1) ->
    (D <= k)%nat /\ knot_span_start_for_t s t = Ret (Some k).
  Proof.
    intros Ek Hk Hb. destruct (sizes D ks ps s Hnew) as [HD HK]. pose proof (U_le D ks ps s Hnew) as Ule.
    split; [exact (probe_ge D ks ps s Hnew i)|].
    pose proof (Ule (k + 1)%nat C ltac:(lia)).
    destruct (span_unclamped_spec D ks ps s Hnew t Ek ltac:(lra)) as (i' & Es & Hi & Hb' & Hj).
    rewrite Es. do 2 f_equal.
    destruct (Nat.lt_trichotomy i i') as [L|[->|L]]; [|reflexivity|]; exfalso.
    - specialize (Hj i L). fold k in Hj. lra.
    - assert (M : (probe (C + D + 1) i' + 1 <= k)%nat).
      { pose proof (probe_mono D ks ps s Hnew (S i') i ltac:(lia)) as M. cbn [probe] in M. fold k in M. lia. }
      assert (Q : (probe (C + D + 1) i' + 1 <= k < C + D + 1)%nat) by lia. apply Ule in Q. lra.
  Qed.

  Lemma probe_value t i (k := probe (C + D + 1) i) : bs_kind s = Unclamped -> (k < C)%nat -> U k <= t < U (k + 1) ->
    (forall i, (i < C + D)%nat -> U i < t -> eps <= t - U i) ->
    exists p, bspline_eval s t = Ret (Ok p) /\ forall i, (i < p_dim (P := P))%nat ->
      coord p i = spline_coord D ks ps t i - basis (fun m => U m) D k t * coord (nth k ps p_default) i.
  Proof.
    intros Ek Hk Hb Hsep. destruct (probe_span t i Ek Hk Hb) as [HD Es]. now apply span_value.
  Qed.
End Tail.
