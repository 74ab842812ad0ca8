(** Vector-valued calculus on coordinates: mean value bounds, arc length. *)
From Coq Require Import Reals List Arith Lia Lra Psatz.
From Coquelicot Require Import Coquelicot.
From Verif Require Import Spec.Sums Proofs.PointFacts Proofs.Metric.
Local Open Scope R_scope.

Lemma derivable_pt_lim_Rsum (f f' : nat -> R -> R) n t :
  (forall i, (i < n)%nat -> derivable_pt_lim (f i) t (f' i t)) ->
  derivable_pt_lim (fun t => Rsum (fun i => f i t) n) t (Rsum (fun i => f' i t) n).
Proof.
  induction n as [|n IH]; intros H; cbn [Rsum].
  - apply derivable_pt_lim_const.
  - apply (derivable_pt_lim_plus (fun t => Rsum (fun i => f i t) n) (f n)).
    + apply IH. intros; apply H; lia.
    + apply H; lia.
Qed.

Lemma continuous_Rsum (f : nat -> R -> R) n t :
  (forall i, (i < n)%nat -> continuous (f i) t) ->
  continuous (fun t => Rsum (fun i => f i t) n) t.
Proof.
  induction n as [|n IH]; intros H; cbn [Rsum].
  - apply continuous_const.
  - apply (continuous_plus (fun t => Rsum (fun i => f i t) n) (f n)).
    + apply IH. intros; apply H; lia.
    + apply H; lia.
Qed.

Section Vector.
  Variable n : nat.                       (* dimension *)
  Variables c g : nat -> R -> R.          (* coordinates and their derivatives *)
  Hypothesis Hg : forall i t, (i < n)%nat -> derivable_pt_lim (c i) t (g i t).

  Definition vel (t : R) : R := nrm (fun i => g i t) n.
  Definition chord (a b : R) : R := nrm (fun i => c i b - c i a) n.

  Lemma dir_derivative (w : nat -> R) t :
    derivable_pt_lim (fun t => Rsum (fun i => w i * c i t) n) t (Rsum (fun i => w i * g i t) n).
  Proof.
    apply (derivable_pt_lim_Rsum (fun i t => w i * c i t) (fun i t => w i * g i t)).
    intros i Hi. apply (derivable_pt_lim_scal (c i)). now apply Hg.
  Qed.

  Lemma dir_mvt (w : nat -> R) a b : a < b -> exists x, a < x < b /\
    Rsum (fun i => w i * (c i b - c i a)) n = Rsum (fun i => w i * g i x) n * (b - a).
  Proof.
    intros Hab.
    destruct (MVT_cor2 (fun t => Rsum (fun i => w i * c i t) n)
                       (fun t => Rsum (fun i => w i * g i t) n) a b Hab) as (x & Hx & Hin).
    { intros; apply dir_derivative. }
    exists x. split; auto. rewrite <- Hx, <- Rsum_minus. apply Rsum_ext. intros; ring.
  Qed.

  Lemma chord_bound a b M : a <= b -> (forall t, a <= t <= b -> vel t <= M) ->
    chord a b <= M * (b - a).
  Proof.
    intros [Hab| ->] HM.
    2:{ unfold chord. rewrite (nrm_ext _ (fun _ => 0)) by (intros; ring). rewrite nrm_0. lra. }
    set (w := fun i => c i b - c i a).
    destruct (dir_mvt w a b Hab) as (x & Hx & E).
    assert (H1 : chord a b * chord a b = Rsum (fun i => w i * g i x) n * (b - a)).
    { rewrite <- E. unfold chord. rewrite nrm_sq. reflexivity. }
    assert (H2 : Rsum (fun i => w i * g i x) n <= chord a b * M).
    { eapply Rle_trans; [apply Rle_abs|]. eapply Rle_trans; [apply cauchy_schwarz|].
      apply Rmult_le_compat_l; [apply nrm_nonneg|]. apply HM. lra. }
    pose proof (nrm_nonneg (fun i => c i b - c i a) n) as H3. fold (chord a b) in H3.
    destruct (Rle_lt_or_eq_dec _ _ H3) as [H4|H4].
    - apply (Rmult_le_reg_l (chord a b)); auto. rewrite H1.
      rewrite <- Rmult_assoc. apply Rmult_le_compat_r; lra.
    - rewrite <- H4. apply Rmult_le_pos; [|lra].
      eapply Rle_trans; [apply nrm_nonneg|]. apply (HM a). lra.
  Qed.

  Hypothesis Hcont : forall i t, (i < n)%nat -> continuous (g i) t.

  Lemma vel_continuous t : continuous vel t.
  Proof.
    unfold vel, nrm.
    apply (continuous_comp (fun t => sq (fun i => g i t) n) sqrt).
    - unfold sq. apply (continuous_Rsum (fun i t => g i t * g i t)). intros i Hi.
      apply (continuous_mult (g i) (g i)); now apply Hcont.
    - apply continuity_pt_filterlim, continuity_pt_sqrt, sq_nonneg.
  Qed.

  Lemma ex_vel a b : ex_RInt vel a b.
  Proof. apply (ex_RInt_continuous (V := R_CompleteNormedModule) vel). intros; apply vel_continuous. Qed.

  (** a chord is no longer than the curve *)
  Lemma chord_le_length a b : a <= b -> chord a b <= RInt vel a b.
  Proof.
    intros Hab. set (w := fun i => c i b - c i a).
    assert (Hcw : forall t, continuous (fun t => Rsum (fun i => w i * g i t) n) t).
    { intros t. apply (continuous_Rsum (fun i t => w i * g i t)). intros i Hi.
      apply (continuous_mult (fun _ => w i) (g i)); [apply continuous_const|now apply Hcont]. }
    assert (E : is_RInt (fun t => Rsum (fun i => w i * g i t) n) a b
                  (Rsum (fun i => w i * c i b) n - Rsum (fun i => w i * c i a) n)).
    { apply (is_RInt_derive (fun t => Rsum (fun i => w i * c i t) n)).
      - intros t _. apply is_derive_Reals, dir_derivative.
      - intros t _. apply Hcw. }
    assert (E2 : RInt (fun t => Rsum (fun i => w i * g i t) n) a b = chord a b * chord a b).
    { rewrite (is_RInt_unique _ _ _ _ E), <- Rsum_minus. unfold chord. rewrite nrm_sq.
      apply Rsum_ext. intros; unfold w; ring. }
    assert (E3 : RInt (fun t => scal (chord a b) (vel t)) a b = chord a b * RInt vel a b).
    { exact (RInt_scal (V := R_CompleteNormedModule) vel a b (chord a b) (ex_vel a b)). }
    assert (H : chord a b * chord a b <= chord a b * RInt vel a b).
    { rewrite <- E2, <- E3. apply RInt_le; auto.
      - eexists; exact E.
      - apply (ex_RInt_scal vel), ex_vel.
      - intros t _. eapply Rle_trans; [apply Rle_abs|]. apply cauchy_schwarz. }
    assert (Hc0 : 0 <= chord a b) by apply nrm_nonneg.
    destruct (Rle_lt_or_eq_dec _ _ Hc0) as [Hc1|Hc1].
    - now apply (Rmult_le_reg_l (chord a b)).
    - rewrite <- Hc1. apply RInt_ge_0; auto; [apply ex_vel|]. intros; apply nrm_nonneg.
  Qed.

  (** the length against the progress along a direction u *)
  Lemma length_along (u : nat -> R) (q Q : R -> R) a b : a <= b ->
    (forall t, derivable_pt_lim Q t (q t)) -> (forall t, continuous q t) ->
    (forall t, a <= t <= b -> vel t <= Rsum (fun i => u i * g i t) n + q t) ->
    RInt vel a b <= Rsum (fun i => u i * (c i b - c i a)) n + (Q b - Q a).
  Proof.
    intros Hab HQ Hq H.
    assert (E : is_RInt (fun t => Rsum (fun i => u i * g i t) n + q t) a b
                  ((Rsum (fun i => u i * c i b) n + Q b) - (Rsum (fun i => u i * c i a) n + Q a))).
    { apply (is_RInt_derive (fun t => Rsum (fun i => u i * c i t) n + Q t)).
      - intros t _. apply is_derive_Reals. apply (derivable_pt_lim_plus (fun t => Rsum (fun i => u i * c i t) n) Q); auto.
        apply dir_derivative.
      - intros t _. apply (continuous_plus (fun t => Rsum (fun i => u i * g i t) n) q); auto.
        apply (continuous_Rsum (fun i t => u i * g i t)). intros i Hi.
        apply (continuous_mult (fun _ => u i) (g i)); [apply continuous_const|now apply Hcont]. }
    replace (Rsum (fun i => u i * (c i b - c i a)) n + (Q b - Q a))
      with ((Rsum (fun i => u i * c i b) n + Q b) - (Rsum (fun i => u i * c i a) n + Q a)).
    - rewrite <- (is_RInt_unique _ _ _ _ E). apply RInt_le; auto; [apply ex_vel|eexists; exact E|].
      intros t Ht. apply H. lra.
    - rewrite (Rsum_ext (fun i => u i * (c i b - c i a)) (fun i => u i * c i b - u i * c i a)) by (intros; ring).
      rewrite Rsum_minus. ring.
  Qed.

  Lemma derivable_affine k e t : derivable_pt_lim (fun t => k * ((t - e) * (t - e)) / 2) t (k * (t - e)).
  Proof.
    apply is_derive_Reals. auto_derive; auto. field.
  Qed.
  Lemma derivable_square k e t : derivable_pt_lim (fun t => k * ((t - e) * (t - e) * (t - e)) / 3) t (k * ((t - e) * (t - e))).
  Proof.
    apply is_derive_Reals. auto_derive; auto. field.
  Qed.

  (** a unit vector along w *)
  Lemma direction (w : nat -> R) : exists u, nrm u n <= 1 /\ Rsum (fun i => u i * w i) n = nrm w n /\
    (0 < nrm w n -> forall i, u i = w i / nrm w n).
  Proof.
    pose proof (nrm_nonneg w n) as [W|W].
    - exists (fun i => w i / nrm w n). split; [|split; auto].
      + rewrite (nrm_ext _ (fun i => / nrm w n * w i)) by (intros; unfold Rdiv; ring).
        rewrite nrm_scal, Rabs_pos_eq by (apply Rlt_le, Rinv_0_lt_compat, W). right. field. lra.
      + rewrite (Rsum_ext _ (fun i => / nrm w n * (w i * w i))) by (intros; unfold Rdiv; ring).
        rewrite Rsum_scal. change (Rsum (fun i => w i * w i) n) with (sq w n). rewrite <- nrm_sq. field. lra.
    - exists (fun _ => 0). rewrite nrm_0. split; [lra|]. split; [|lra].
      rewrite (Rsum_ext _ (fun _ => 0)) by (intros; ring). now rewrite Rsum_0.
  Qed.

  Lemma chord_along u a b : nrm u n <= 1 -> Rsum (fun i => u i * (c i b - c i a)) n <= chord a b.
  Proof.
    intros Hu. eapply Rle_trans; [apply Rle_abs|]. eapply Rle_trans; [apply cauchy_schwarz|].
    fold (chord a b). pose proof (nrm_nonneg (fun i => c i b - c i a) n) as N. fold (chord a b) in N.
    rewrite <- (Rmult_1_l (chord a b)) at 2. now apply Rmult_le_compat_r.
  Qed.

  (** the velocity stays within M |t - e| of that at e *)
  Definition steady (a b e M : R) : Prop :=
    forall t, a <= t <= b -> nrm (fun i => g i t - g i e) n <= M * Rabs (t - e).

  Lemma length_chord a e b M : a <= e <= b -> steady a b e M ->
    RInt vel a b <= chord a b + M * ((e - a) * (e - a) + (b - e) * (b - e)).
  Proof.
    intros He HM. destruct (direction (fun i => g i e)) as (u & U1 & U2 & _).
    assert (K : forall t, a <= t <= b -> vel t <= Rsum (fun i => u i * g i t) n + 2 * M * Rabs (t - e)).
    { intros t Ht. specialize (HM t Ht).
      assert (V : vel t <= nrm (fun i => g i e) n + M * Rabs (t - e)).
      { unfold vel. rewrite (nrm_ext (fun i => g i t) (fun i => g i e + (g i t - g i e))) by (intros; ring).
        eapply Rle_trans; [apply minkowski|]. lra. }
      assert (W : nrm (fun i => g i e) n - M * Rabs (t - e) <= Rsum (fun i => u i * g i t) n).
      { rewrite <- U2.
        replace (Rsum (fun i => u i * g i t) n)
          with (Rsum (fun i => u i * g i e) n + Rsum (fun i => u i * (g i t - g i e)) n)
          by (rewrite <- Rsum_plus; apply Rsum_ext; intros; ring).
        pose proof (cauchy_schwarz u (fun i => g i t - g i e) n) as C.
        pose proof (nrm_nonneg (fun i => g i t - g i e) n) as N.
        assert (C' : Rabs (Rsum (fun i => u i * (g i t - g i e)) n) <= M * Rabs (t - e)).
        { eapply Rle_trans; [exact C|]. eapply Rle_trans; [|exact HM].
          rewrite <- (Rmult_1_l (nrm (fun i => g i t - g i e) n)) at 2. now apply Rmult_le_compat_r. }
        apply Rabs_le_between in C'. lra. }
      lra. }
    assert (L1 : RInt vel a e <= Rsum (fun i => u i * (c i e - c i a)) n
       + ((-2 * M) * ((e - e) * (e - e)) / 2 - (-2 * M) * ((a - e) * (a - e)) / 2)).
    { apply (length_along u (fun t => (-2 * M) * (t - e)) (fun t => (-2 * M) * ((t - e) * (t - e)) / 2)); [lra| | |].
      - intros t. apply (derivable_affine (-2 * M) e t).
      - intros t. apply (continuous_mult (fun _ => -2 * M) (fun t => t - e)); [apply continuous_const|].
        apply (continuous_minus (fun t => t) (fun _ => e)); [apply continuous_id|apply continuous_const].
      - intros t Ht. eapply Rle_trans; [apply K; lra|]. rewrite Rabs_left1 by lra. lra. }
    assert (L2 : RInt vel e b <= Rsum (fun i => u i * (c i b - c i e)) n
       + ((2 * M) * ((b - e) * (b - e)) / 2 - (2 * M) * ((e - e) * (e - e)) / 2)).
    { apply (length_along u (fun t => (2 * M) * (t - e)) (fun t => (2 * M) * ((t - e) * (t - e)) / 2)); [lra| | |].
      - intros t. apply (derivable_affine (2 * M) e t).
      - intros t. apply (continuous_mult (fun _ => 2 * M) (fun t => t - e)); [apply continuous_const|].
        apply (continuous_minus (fun t => t) (fun _ => e)); [apply continuous_id|apply continuous_const].
      - intros t Ht. eapply Rle_trans; [apply K; lra|]. rewrite Rabs_pos_eq by lra. lra. }
    assert (CH : RInt vel a b = RInt vel a e + RInt vel e b).
    { symmetry. apply (RInt_Chasles vel a e b); apply ex_vel. }
    pose proof (chord_along u a b U1) as CA.
    assert (SP : Rsum (fun i => u i * (c i b - c i a)) n
      = Rsum (fun i => u i * (c i e - c i a)) n + Rsum (fun i => u i * (c i b - c i e)) n).
    { rewrite <- Rsum_plus. apply Rsum_ext. intros; ring. }
    rewrite CH. lra.
  Qed.

  (** where the speed does not vanish the chord is closer by one order *)
  Lemma length_chord_regular a e b M v : a <= e <= b -> 0 < v <= vel e -> steady a b e M ->
    RInt vel a b <= chord a b + M * M / (6 * v) * ((b - e) * (b - e) * (b - e) + (e - a) * (e - a) * (e - a)).
  Proof.
    intros He Hv HM. destruct (direction (fun i => g i e)) as (u & U1 & U2 & U3).
    change (nrm (fun i => g i e) n) with (vel e) in U2, U3. specialize (U3 ltac:(lra)).
    assert (M2 : forall t, a <= t <= b -> nrm (fun i => g i t - g i e) n * nrm (fun i => g i t - g i e) n
                                         <= M * M * ((t - e) * (t - e))).
    { intros t Ht. specialize (HM t Ht). pose proof (nrm_nonneg (fun i => g i t - g i e) n).
      replace (M * M * ((t - e) * (t - e))) with ((M * Rabs (t - e)) * (M * Rabs (t - e))).
      - apply Rmult_le_compat; assumption.
      - replace ((t - e) * (t - e)) with (Rabs (t - e) * Rabs (t - e)); [ring|].
        rewrite <- Rabs_mult. apply Rabs_pos_eq. apply Rle_0_sqr. }
    assert (K : forall t, a <= t <= b -> vel t <= Rsum (fun i => u i * g i t) n + M * M / (2 * v) * ((t - e) * (t - e))).
    { intros t Ht. specialize (M2 t Ht). set (d := fun i => g i t - g i e) in *.
      set (p := Rsum (fun i => u i * d i) n). set (D := nrm d n) in *.
      assert (G : Rsum (fun i => u i * g i t) n = vel e + p).
      { rewrite <- U2. unfold p. rewrite <- Rsum_plus. apply Rsum_ext. intros; unfold d; ring. }
      assert (SQ : vel t * vel t = vel e * vel e + 2 * vel e * p + D * D).
      { unfold vel, D. rewrite !nrm_sq. change (nrm (fun i => g i e) n) with (vel e).
        assert (PE : vel e * p = Rsum (fun i => g i e * d i) n).
        { unfold p. rewrite <- Rsum_scal. apply Rsum_ext. intros i _. rewrite U3. field. lra. }
        replace (2 * vel e * p) with (2 * (vel e * p)) by ring. rewrite PE, <- Rsum_scal. unfold sq.
        rewrite <- !Rsum_plus. apply Rsum_ext. intros i _. unfold d. ring. }
      rewrite G.
      assert (B : M * M / (2 * v) * ((t - e) * (t - e)) >= D * D / (2 * vel e)).
      { apply Rle_ge. assert (I : / (2 * vel e) <= / (2 * v)) by (apply Rinv_le_contravar; lra).
        pose proof (Rinv_0_lt_compat (2 * vel e) ltac:(lra)).
        assert (0 <= D * D) by apply Rle_0_sqr.
        apply Rle_trans with (D * D * / (2 * v)).
        - unfold Rdiv. apply Rmult_le_compat_l; assumption.
        - unfold Rdiv. replace (M * M * / (2 * v) * ((t - e) * (t - e))) with (M * M * ((t - e) * (t - e)) * / (2 * v)) by ring.
          apply Rmult_le_compat_r; [lra|assumption]. }
      set (X := D * D / (2 * vel e)) in *.
      assert (HX : D * D = 2 * vel e * X) by (unfold X; field; lra).
      assert (X0 : 0 <= X). { unfold X, Rdiv. apply Rmult_le_pos; [apply Rle_0_sqr|]. apply Rlt_le, Rinv_0_lt_compat. lra. }
      assert (CS : Rabs p <= D).
      { eapply Rle_trans; [apply cauchy_schwarz|]. pose proof (nrm_nonneg d n). fold D. fold D in H.
        rewrite <- (Rmult_1_l D) at 2. now apply Rmult_le_compat_r. }
      apply Rle_trans with (vel e + p + X); [|lra].
      assert (V0 : 0 <= vel t) by apply nrm_nonneg.
      assert (P0 : 0 <= vel e + p + X).
      { destruct (Rle_or_lt 0 (vel e + p)); [lra|]. apply Rabs_le_between in CS.
        assert (vel e <= D) by lra.
        assert (vel e * vel e <= D * D) by (apply Rmult_le_compat; lra).
        assert (- p <= vel e + X); [|lra].
        assert (S1 : D <= vel e + X); [|lra].
        assert (0 <= (D - vel e) * (D - vel e)) by apply Rle_0_sqr.
        assert (2 * vel e * D <= 2 * vel e * (vel e + X)); [|apply (Rmult_le_reg_l (2 * vel e)); lra].
        nra. }
      apply Rsqr_incr_0_var; [|exact P0]. unfold Rsqr. rewrite SQ, HX.
      assert (0 <= (p + X) * (p + X)) by apply Rle_0_sqr. nra. }
    assert (L1 : RInt vel a b <= Rsum (fun i => u i * (c i b - c i a)) n
       + (M * M / (2 * v) * ((b - e) * (b - e) * (b - e)) / 3 - M * M / (2 * v) * ((a - e) * (a - e) * (a - e)) / 3)).
    { apply (length_along u (fun t => M * M / (2 * v) * ((t - e) * (t - e)))
               (fun t => M * M / (2 * v) * ((t - e) * (t - e) * (t - e)) / 3)); [lra| | |exact K].
      - intros t. apply (derivable_square (M * M / (2 * v)) e t).
      - intros t. apply (continuous_mult (fun _ => M * M / (2 * v)) (fun t => (t - e) * (t - e))); [apply continuous_const|].
        apply (continuous_mult (fun t => t - e) (fun t => t - e));
        apply (continuous_minus (fun t => t) (fun _ => e)); (apply continuous_id || apply continuous_const). }
    pose proof (chord_along u a b U1) as CA.
    replace (M * M / (6 * v) * ((b - e) * (b - e) * (b - e) + (e - a) * (e - a) * (e - a)))
      with (M * M / (2 * v) * ((b - e) * (b - e) * (b - e)) / 3 - M * M / (2 * v) * ((a - e) * (a - e) * (a - e)) / 3)
      by (field; lra).
    lra.
  Qed.

  (** sums over the grid i/m *)
  Variable m : nat.
  Hypothesis Hm : (0 < m)%nat.
  Definition knot (i : nat) : R := INR i / INR m.

  Lemma INR_m : 0 < INR m. Proof. now apply lt_0_INR. Qed.
  Lemma knot_step i : knot (i + 1) = knot i + / INR m.
  Proof. unfold knot. rewrite plus_INR. simpl. pose proof INR_m. field. lra. Qed.
  Lemma knot_range i : (i <= m)%nat -> 0 <= knot i <= 1.
  Proof.
    intros Hi. pose proof INR_m. apply le_INR in Hi. unfold knot. pose proof (pos_INR i).
    split.
    - apply Rmult_le_pos; auto. apply Rlt_le, Rinv_0_lt_compat; auto.
    - apply (Rmult_le_reg_r (INR m)); auto. field_simplify; lra.
  Qed.
  Lemma knot_m : knot m = 1. Proof. unfold knot. pose proof INR_m. field. lra. Qed.
  Lemma knot_0 : knot 0 = 0. Proof. unfold knot. simpl. field. pose proof INR_m. lra. Qed.
  Lemma knot_le i : knot i <= knot (i + 1).
  Proof. rewrite knot_step. pose proof (Rinv_0_lt_compat _ INR_m). lra. Qed.

  Lemma grid_length k : Rsum (fun i => RInt vel (knot i) (knot (i + 1))) k = RInt vel 0 (knot k).
  Proof.
    induction k as [|k IH]; cbn [Rsum].
    - rewrite knot_0, RInt_point. reflexivity.
    - rewrite IH. replace (S k) with (k + 1)%nat by lia.
      apply (RInt_Chasles vel 0 (knot k) (knot (k + 1))); apply ex_vel.
  Qed.

  Lemma polyline_le_length : Rsum (fun i => chord (knot i) (knot (i + 1))) m <= RInt vel 0 1.
  Proof.
    rewrite <- knot_m, <- grid_length. apply Rsum_le. intros i Hi.
    apply chord_le_length, knot_le.
  Qed.

  Definition middle (i : nat) : R := (knot i + knot (i + 1)) / 2.
  Lemma middle_ok i : (i < m)%nat -> knot i <= middle i <= knot (i + 1) /\ 0 <= middle i <= 1 /\
    middle i - knot i = / INR m / 2 /\ knot (i + 1) - middle i = / INR m / 2.
  Proof.
    intros Hi. pose proof (knot_le i). pose proof (knot_range i ltac:(lia)). pose proof (knot_range (i + 1) ltac:(lia)).
    pose proof (knot_step i). unfold middle. lra.
  Qed.

  Section Steady.
    Variable M : R.
    Hypothesis HM : forall s t, 0 <= s <= 1 -> 0 <= t <= 1 -> nrm (fun i => g i t - g i s) n <= M * Rabs (t - s).

    Lemma polyline_ge_length :
      RInt vel 0 1 - M / (2 * INR m) <= Rsum (fun i => chord (knot i) (knot (i + 1))) m.
    Proof.
      pose proof INR_m as Hpos. rewrite <- knot_m at 1. rewrite <- grid_length.
      replace (M / (2 * INR m)) with (Rsum (fun _ => M * (/ INR m * / INR m) / 2) m).
      2:{ rewrite Rsum_const. field. lra. }
      rewrite <- Rsum_minus. apply Rsum_le. intros i Hi.
      destruct (middle_ok i Hi) as (A & B & C & D).
      pose proof (knot_range i ltac:(lia)). pose proof (knot_range (i + 1) ltac:(lia)).
      pose proof (length_chord (knot i) (middle i) (knot (i + 1)) M A
        ltac:(intros t Ht; apply HM; lra)) as L.
      rewrite C, D in L. lra.
    Qed.

    Lemma polyline_ge_length_regular v : 0 < v -> (forall t, 0 <= t <= 1 -> v <= vel t) ->
      RInt vel 0 1 - M * M / (24 * v * (INR m * INR m)) <= Rsum (fun i => chord (knot i) (knot (i + 1))) m.
    Proof.
      intros Hv Hr. pose proof INR_m as Hpos. rewrite <- knot_m at 1. rewrite <- grid_length.
      replace (M * M / (24 * v * (INR m * INR m)))
        with (Rsum (fun _ => M * M / (24 * v) * (/ INR m * / INR m * / INR m)) m).
      2:{ rewrite Rsum_const. field. lra. }
      rewrite <- Rsum_minus. apply Rsum_le. intros i Hi.
      destruct (middle_ok i Hi) as (A & B & C & D).
      pose proof (knot_range i ltac:(lia)). pose proof (knot_range (i + 1) ltac:(lia)).
      pose proof (length_chord_regular (knot i) (middle i) (knot (i + 1)) M v A
        (conj Hv (Hr _ B)) ltac:(intros t Ht; apply HM; lra)) as L.
      rewrite C, D in L.
      replace (M * M / (24 * v) * (/ INR m * / INR m * / INR m))
        with (M * M / (6 * v) * (/ INR m / 2 * (/ INR m / 2) * (/ INR m / 2) + / INR m / 2 * (/ INR m / 2) * (/ INR m / 2)))
        by (field; lra).
      lra.
    Qed.
  End Steady.
End Vector.
