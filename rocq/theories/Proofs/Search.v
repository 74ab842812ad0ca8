(** The two-pass [distance_to_point] search of the curves. *)
From Coq Require Import Reals List Arith Lia Lra Psatz.
From Verif Require Import Base.Outcome Base.Scalar Model.Point Model.Line Model.Quadratic Model.Cubic
  Model.Bezier Inst.RealInst
  Spec.Sums Spec.Lawful Spec.Bernstein Spec.Metric Spec.Length
  Proofs.OutcomeFacts Proofs.PointFacts Proofs.RealTac Proofs.Metric Proofs.ExactEval
  Proofs.BezierGeneric Proofs.BezierReal Proofs.CurveCalc.
Import ListNotations.
Local Open Scope R_scope.

Lemma floor_sample t : 0 <= t <= 1 -> exists i, (i < 64)%nat /\ 0 <= t - INR i / 64 <= / 64.
Proof.
  intros Ht. 
  assert (G : forall n, (n < 64)%nat -> t <= INR (S n) / 64 -> exists i, (i <= n)%nat /\ 0 <= t - INR i / 64 <= / 64).
  { induction n as [|n IH]; intros Hn H.
    - exists 0%nat. split; [lia|]. simpl in *. lra.
    - destruct (Rle_dec (INR (S n) / 64) t) as [Hl|Hl].
      + exists (S n). split; [lia|]. rewrite (S_INR (S n)) in H. lra.
      + destruct IH as (i & Hi & H'); [lia|lra|]. exists i. split; [lia|auto]. }
  destruct (G 63%nat) as (i & Hi & H); [lia| |exists i; split; [lia|auto]].
  rewrite INR_IZR_INZ. simpl IZR. lra.
Qed.

Section Search.
  Context {E : Eps} {P : Type} {PT : Point R P} {LP : LawfulPoint P}.
  Variables (eval : R -> outcome P) (f : R -> P) (first p : P).
  Hypothesis Hf : forall t, eval t = Ret (f t).

  Definition lo : R := - (31 * 63 / 4096).

  (** [dmin] is the squared distance to the start or to a point of the curve
      extended to the parameters [lo, 1]; [tmin] stays in [0,1]. *)
  Definition reached (st : R * R) : Prop :=
    0 <= fst st <= 1 /\
    (snd st = dist p first * dist p first \/
     exists u, lo <= u <= 1 /\ snd st = dist p (f u) * dist p (f u)).

  Lemma sqlen_dist (q : P) : p_sqlen (p_sub q p) = dist p q * dist p q.
  Proof. rewrite sqlen_sub, dist_sym. reflexivity. Qed.

  Lemma INR_nat n : INR n = IZR (Z.of_nat n). Proof. apply INR_IZR_INZ. Qed.

  Lemma coarse_ok : exists st,
    for_in (range 0 nsteps) (s_half, p_sqlen (p_sub p first)) (coarse_body eval p) = Ret st /\
    reached st /\ snd st <= dist p first * dist p first /\
    forall i, (i < 64)%nat -> snd st <= dist p (f (INR i / 64)) * dist p (f (INR i / 64)).
  Proof.
    rs.
    destruct (for_in_range_inv (fun k st => reached st /\ snd st <= dist p first * dist p first /\
        forall i, (i < k)%nat -> snd st <= dist p (f (INR i / 64)) * dist p (f (INR i / 64)))
      0 nsteps (1 / 2, p_sqlen (p_sub p first)) (coarse_body eval p)) as (st & Es & Is).
    - lia.
    - rewrite sqlen_sub. split; [|split].
      + split; simpl; [lra|]. auto.
      + simpl. lra.
      + intros; lia.
    - intros i [tm dm] Hi (Hr & Hs & Hd). unfold coarse_body. rs.
      change nsteps with 64%nat in *.
      replace (INR i * 1 / INR 64) with (INR i / 64) by (rewrite (INR_nat 64); simpl; field).
      rewrite Hf. cbn [bind]. rewrite sqlen_dist. cbn [snd fst] in *.
      assert (Hu : 0 <= INR i / 64 <= 1).
      { pose proof (pos_INR i). assert (H1 : INR i <= INR 64) by (apply le_INR; lia).
        rewrite (INR_nat 64) in H1. simpl in H1. lra. }
      destruct (Rltb_spec (dist p (f (INR i / 64)) * dist p (f (INR i / 64))) dm) as [Hlt|Hlt].
      + eexists. split; [reflexivity|]. cbn [fst snd]. split; [|split].
        * split; cbn [fst snd]; [lra|]. right. exists (INR i / 64). split; [unfold lo; lra|auto].
        * lra.
        * intros j Hj. destruct (Nat.eq_dec j i) as [->|]; [lra|].
          apply Rle_trans with dm; [lra|]. apply Hd. lia.
      + eexists. split; [reflexivity|]. cbn [fst snd]. split; [auto|]. split; [auto|].
        intros j Hj. destruct (Nat.eq_dec j i) as [->|]; [lra|]. apply Hd. lia.
    - exists st. auto.
  Qed.

  Lemma fine_ok st : reached st -> exists st',
    for_in (range 0 nsteps) st (fine_body eval p) = Ret st' /\ reached st' /\ snd st' <= snd st.
  Proof.
    intros Hr.
    destruct (for_in_range_inv (fun k st' => reached st' /\ snd st' <= snd st) 0 nsteps st (fine_body eval p))
      as (st' & Es & Is).
    - lia.
    - split; auto. lra.
    - intros i [tm dm] Hi (Hr' & Hs). unfold fine_body. rs. change nsteps with 64%nat in *.
      cbn [fst snd] in *. rewrite Hf. cbn [bind]. rewrite sqlen_dist.
      set (u := tm + INR i * 1 / INR (64 * 64) - INR i * 1 / INR (64 * 64) * (INR 64 / 2)).
      assert (Hx : 0 <= INR i <= 63).
      { split; [apply pos_INR|]. replace 63 with (INR 63) by (rewrite INR_nat; reflexivity).
        apply le_INR. lia. }
      assert (E2 : INR (64 * 64) = 4096) by (rewrite mult_INR, (INR_nat 64); simpl; ring).
      assert (E1 : INR 64 = 64) by (rewrite (INR_nat 64); reflexivity).
      assert (Hu : lo <= u <= 1).
      { destruct Hr' as [Ht _]. cbn [fst] in Ht. unfold u, lo. rewrite E2, E1. lra. }
      destruct (Rltb_spec (dist p (f u) * dist p (f u)) dm) as [Hlt|Hlt].
      + eexists. split; [reflexivity|]. cbn [fst snd]. split; [|lra].
        split; cbn [fst snd].
        * rewrite E2. lra.
        * right. exists u. auto.
      + eexists. split; [reflexivity|]. auto.
    - exists st'. auto.
  Qed.

  Theorem search_value : exists d, search_distance eval first p = Ret d /\
    (d = dist p first \/ exists u, lo <= u <= 1 /\ d = dist p (f u)) /\
    d <= dist p first /\
    forall i, (i < 64)%nat -> d <= dist p (f (INR i / 64)).
  Proof.
    destruct coarse_ok as (st & E1 & Hr & Hs & Hd).
    destruct (fine_ok st Hr) as (st' & E2 & Hr' & Hs').
    exists (sqrt (snd st')). split; [|split; [|split]].
    - unfold search_distance. rewrite E1. cbn [bind]. rewrite E2. reflexivity.
    - destruct Hr' as [_ [Hv|(u & Hu & Hv)]]; rewrite Hv.
      + left. apply sqrt_square, dist_nonneg.
      + right. exists u. split; auto. apply sqrt_square, dist_nonneg.
    - rewrite <- (sqrt_square (dist p first)) by apply dist_nonneg. apply sqrt_le_1_alt. lra.
    - intros i Hi. rewrite <- (sqrt_square (dist p _)) by apply dist_nonneg. apply sqrt_le_1_alt.
      eapply Rle_trans; [exact Hs'|]. now apply Hd.
  Qed.

  Theorem search_over ps L : traces f ps -> ps <> [] -> leg_bound ps L ->
    exists d, search_distance eval first p = Ret d /\
      forall t, 0 <= t <= 1 -> d <= dist p (f t) + INR (length ps - 1) * L / 64.
  Proof.
    intros Htr Hne HL. destruct search_value as (d & E1 & _ & _ & Hd).
    exists d. split; auto. intros t Ht. destruct (floor_sample t Ht) as (i & Hi & Hti).
    eapply Rle_trans; [apply (Hd i Hi)|].
    eapply Rle_trans; [apply (dist_triangle _ (f t))|]. apply Rplus_le_compat_l.
    assert (H0 : 0 <= INR i / 64) by (pose proof (pos_INR i); lra).
    eapply Rle_trans; [apply (curve_lipschitz f ps L t (INR i / 64)); auto; lra|].
    unfold Rdiv at 2. apply Rmult_le_compat_l.
    - destruct HL. apply Rmult_le_pos; auto. apply pos_INR.
    - rewrite Rabs_left1; lra.
  Qed.
End Search.

Section Curves.
  Context {E : Eps} {P : Type} {PT : Point R P} {LP : LawfulPoint P}.


  Lemma quad_distance_value (c : quad P) p : exists d, quad_distance_to_point c p = Ret d /\
    (exists u, - (31 * 63 / 4096) <= u <= 1 /\ d = dist p (quad_eval c u)) /\
    d <= dist p (q_start c) /\
    forall i, (i < 64)%nat -> d <= dist p (quad_eval c (INR i / 64)).
  Proof.
    destruct (search_value (fun t => Ret (quad_eval c t)) (quad_eval c) (q_start c) p) as
      (d & E1 & Hu & H); [reflexivity|].
    exists d. split; auto. split; auto. destruct Hu as [->|Hu]; auto.
    exists 0. rewrite quad_eval_0. split; auto. lra.
  Qed.
  Lemma quad_distance_over (c : quad P) p L : leg_bound (quad_control_points c) L ->
    exists d, quad_distance_to_point c p = Ret d /\
      forall t, 0 <= t <= 1 -> d <= dist p (quad_eval c t) + 2 * L / 64.
  Proof.
    intros HL.
    destruct (search_over (fun t => Ret (quad_eval c t)) (quad_eval c) (q_start c) p) with
      (ps := quad_control_points c) (L := L) as (d & E1 & H);
      [reflexivity|apply traces_quad|discriminate|exact HL|].
    exists d. split; [exact E1|]. intros t Ht. specialize (H t Ht). cbn [length quad_control_points Nat.sub] in H.
    rewrite (INR_IZR_INZ 2) in H. exact H.
  Qed.
  Lemma cubic_distance_value (c : cubic P) p : exists d, cubic_distance_to_point c p = Ret d /\
    (exists u, - (31 * 63 / 4096) <= u <= 1 /\ d = dist p (cubic_eval c u)) /\
    d <= dist p (c_start c) /\
    forall i, (i < 64)%nat -> d <= dist p (cubic_eval c (INR i / 64)).
  Proof.
    destruct (search_value (fun t => Ret (cubic_eval c t)) (cubic_eval c) (c_start c) p) as
      (d & E1 & Hu & H); [reflexivity|].
    exists d. split; auto. split; auto. destruct Hu as [->|Hu]; auto.
    exists 0. rewrite cubic_eval_0. split; auto. lra.
  Qed.
  Lemma cubic_distance_over (c : cubic P) p L : leg_bound (cubic_control_points c) L ->
    exists d, cubic_distance_to_point c p = Ret d /\
      forall t, 0 <= t <= 1 -> d <= dist p (cubic_eval c t) + 3 * L / 64.
  Proof.
    intros HL.
    destruct (search_over (fun t => Ret (cubic_eval c t)) (cubic_eval c) (c_start c) p) with
      (ps := cubic_control_points c) (L := L) as (d & E1 & H);
      [reflexivity|apply traces_cubic|discriminate|exact HL|].
    exists d. split; [exact E1|]. intros t Ht. specialize (H t Ht). cbn [length cubic_control_points Nat.sub] in H.
    rewrite (INR_IZR_INZ 3) in H. exact H.
  Qed.
  Lemma bezier_distance_value (ps : list P) f p : (forall t, bezier_eval (Bezier ps) t = Ret (f t)) ->
    exists d, bezier_distance_to_point (Bezier ps) p = Ret d /\
    (exists u, - (31 * 63 / 4096) <= u <= 1 /\ d = dist p (f u)) /\
    d <= dist p (f 0) /\
    forall i, (i < 64)%nat -> d <= dist p (f (INR i / 64)).
  Proof.
    intros Hf. destruct ps as [|q ps].
    { specialize (Hf 0). rewrite bezier_eval_nil in Hf. discriminate. }
    assert (E0 : f 0 = q). { specialize (Hf 0). rewrite bezier_eval_0 in Hf. congruence. }
    destruct (search_value (bezier_eval (Bezier (q :: ps))) f q p Hf) as (d & E1 & Hu & H).
    exists d. rewrite E0. split; auto. split; auto. destruct Hu as [->|Hu]; auto.
    exists 0. rewrite E0. split; auto. lra.
  Qed.
  Lemma bezier_distance_over (ps : list P) f p L : (forall t, bezier_eval (Bezier ps) t = Ret (f t)) ->
    leg_bound ps L ->
    exists d, bezier_distance_to_point (Bezier ps) p = Ret d /\
      forall t, 0 <= t <= 1 -> d <= dist p (f t) + INR (length ps - 1) * L / 64.
  Proof.
    intros Hf HL. destruct ps as [|q ps].
    { specialize (Hf 0). rewrite bezier_eval_nil in Hf. discriminate. }
    exact (search_over (bezier_eval (Bezier (q :: ps))) f q p Hf (q :: ps) L
      (traces_bezier _ _ Hf) ltac:(discriminate) HL).
  Qed.
End Curves.
