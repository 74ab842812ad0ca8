(** Square roots, squared lengths and lengths of vectors in IEEE arithmetic. *)
From Coq Require Import Reals ZArith List Arith Lia Lra Bool.
From Flocq Require Import Core.Core IEEE754.BinarySingleNaN Relative Plus_error.
From Verif Require Import Base.Outcome Base.Scalar Model.Point Inst.FloatInst Spec.Sums
  Spec.Rounding Spec.Componentwise Spec.FloatPoints
  Proofs.PointFacts Proofs.Metric Proofs.FloatFacts Proofs.FloatEval Proofs.FloatBound.
Import ListNotations.
Local Open Scope R_scope.

Section Sqrt.
  Context {F : Format}.
  Implicit Types x y : float.

  Lemma sqrt_ok x : fin x -> 0 <= val x -> fin (s_sqrt x) /\ val (s_sqrt x) = rnd (sqrt (val x)).
  Proof.
    intros Hx Hv. destruct (Bsqrt_correct fprec femax _ _ mode_NE x) as (A & B & _).
    split; [|exact A]. unfold fin. cbn [s_sqrt FScalar]. rewrite B.
    destruct x as [s|s| |s m e Hb]; try discriminate; auto.
    destruct s; auto. exfalso. unfold val in Hv. cbn [B2R] in Hv.
    assert (F2R (Float radix2 (cond_Zopp true (Z.pos m)) e) < 0) by (apply F2R_lt_0; reflexivity). lra.
  Qed.

  Lemma rnd_nonneg (r : R) : 0 <= r -> 0 <= rnd r.
  Proof. intros H. apply rnd_ge_float; [apply float_0|exact H]. Qed.

  Lemma sqrt_err (s S k m : R) : 0 <= S -> 0 <= s -> 0 <= k <= 1 -> 0 <= m ->
    Rabs (s - S) <= k * S + m -> Rabs (sqrt s - sqrt S) <= k * sqrt S + sqrt m.
  Proof.
    intros HS Hs Hk Hm H. apply Rabs_le_inv in H.
    assert (P : forall a b, 0 <= a -> 0 <= b -> sqrt (a + b) <= sqrt a + sqrt b).
    { intros a b Ha Hb. pose proof (sqrt_pos a). pose proof (sqrt_pos b).
      rewrite <- (sqrt_square (sqrt a + sqrt b)) by lra. apply sqrt_le_1_alt.
      pose proof (sqrt_sqrt a Ha). pose proof (sqrt_sqrt b Hb). nra. }
    pose proof (sqrt_pos S). pose proof (sqrt_pos s). pose proof (sqrt_pos m).
    apply Rabs_le. split.
    - assert (A : sqrt ((1 - k) * S) <= sqrt s + sqrt m).
      { eapply Rle_trans; [|apply P; lra]. apply sqrt_le_1_alt. lra. }
      rewrite sqrt_mult in A by lra.
      assert (1 - k <= sqrt (1 - k)).
      { rewrite <- (sqrt_square (1 - k)) at 1 by lra. apply sqrt_le_1_alt. nra. }
      assert ((1 - k) * sqrt S <= sqrt (1 - k) * sqrt S) by (apply Rmult_le_compat_r; lra). lra.
    - assert (A : sqrt s <= sqrt ((1 + k) * S) + sqrt m).
      { eapply Rle_trans; [|apply P; [|lra]].
        - apply sqrt_le_1_alt. lra.
        - apply Rmult_le_pos; lra. }
      rewrite sqrt_mult in A by lra.
      assert (sqrt (1 + k) <= 1 + k).
      { rewrite <- (sqrt_square (1 + k)) at 2 by lra. apply sqrt_le_1_alt. nra. }
      assert (sqrt (1 + k) * sqrt S <= (1 + k) * sqrt S) by (apply Rmult_le_compat_r; lra). lra.
  Qed.
End Sqrt.

Lemma nrm_const_bound (v : nat -> R) n d : 0 <= d -> (forall i, (i < n)%nat -> Rabs (v i) <= d) ->
  nrm v n <= sqrt (INR n) * d.
Proof.
  intros Hd H. rewrite <- (sqrt_square d) at 1 by exact Hd.
  rewrite <- sqrt_mult by (auto using pos_INR; nra). apply sqrt_le_1_alt. unfold sq.
  induction n as [|n IH]; [simpl; lra|]. cbn [Rsum]. rewrite S_INR.
  assert (I : Rsum (fun i => v i * v i) n <= INR n * (d * d)) by (apply IH; intros; apply H; lia).
  assert (v n * v n <= d * d).
  { specialize (H n ltac:(lia)). apply Rabs_le_inv in H. nra. }
  lra.
Qed.

Lemma nrm_diff v w n : Rabs (nrm v n - nrm w n) <= nrm (fun i => v i - w i) n.
Proof.
  pose proof (minkowski (fun i => v i - w i) w n) as A.
  pose proof (minkowski (fun i => w i - v i) v n) as B.
  rewrite (nrm_ext (fun i => v i - w i + w i) v) in A by (intros; ring).
  rewrite (nrm_ext (fun i => w i - v i + v i) w) in B by (intros; ring).
  rewrite (nrm_ext (fun i => w i - v i) (fun i => -1 * (v i - w i))) in B by (intros; ring).
  rewrite nrm_scal, Rabs_left in B by lra.
  apply Rabs_le. lra.
Qed.

Section Norm.
  Context {F : Format} {P : Type} {PT : Point float P} {CP : CwPoint float P}.
  Notation D := (p_dim (P := P)).

  Definition sq_step (p : P) (acc : float) (i : nat) : float := s_add acc (s_mul (cw p i) (cw p i)).

  Lemma sq_fold_err (p : P) W k : (k <= D)%nat -> 4 * INR (D + 1) * uro <= 1 -> 4 * INR D * (W * W) <= fmax ->
    (forall i, (i < D)%nat -> fin (cw p i) /\ Rabs (val (cw p i)) <= W) ->
    let s := fold_left (sq_step p) (seq 0 k) (s_lit 0) in
    let S := Rsum (fun i => val (cw p i) * val (cw p i)) k in
    fin s /\ 0 <= val s /\
    Rabs (val s - S) <= ((1 + uro) ^ (k + 1) - 1) * S + INR k * (1 + uro) ^ k * eta.
  Proof.
    intros Hk Hu Hov HW. pose proof uro_pos as U0. pose proof eta_pos as E0. pose proof uro_small as U1.
    pose proof eta_uro as EU. pose proof fmax_ge as FM.
    induction k as [|k IH].
    - cbn [seq fold_left Rsum]. destruct (lit_small 0) as [L1 L2]; [lia|]. rewrite L2.
      split; [exact L1|]. split; [lra|]. rewrite Rminus_diag_eq, Rabs_R0 by reflexivity. simpl. lra.
    - rewrite seq_S, fold_left_app. cbn [fold_left Nat.add].
      destruct IH as (A & B & C); [lia|]. cbn [Rsum].
      set (s := fold_left (sq_step p) (seq 0 k) (s_lit 0)) in *.
      set (S := Rsum (fun i => val (cw p i) * val (cw p i)) k) in *.
      destruct (HW k) as [Wf Wb]; [lia|]. set (w := val (cw p k)) in *.
      assert (S0 : 0 <= S) by (apply Rsum_nonneg; intros; apply Rle_0_sqr).
      assert (w0 : 0 <= w * w) by apply Rle_0_sqr.
      assert (W0 : 0 <= W) by (pose proof (Rabs_pos w); lra).
      assert (Bnd : forall j, (j <= D)%nat -> (1 + uro) ^ (j + 1) - 1 <= / 2 /\ (1 + uro) ^ j <= 2).
      { intros j Hj. assert (INR (j + 1) * uro <= / 4).
        { apply Rle_trans with (INR (D + 1) * uro); [|lra].
          apply Rmult_le_compat_r; [lra|]. apply le_INR. lia. }
        destruct (pow_lin uro (j + 1)) as [X _]; [lra|lra|].
        assert (INR j * uro <= / 2).
        { eapply Rle_trans; [|apply Rle_trans with (/ 4); [exact H|lra]].
          apply Rmult_le_compat_r; [lra|]. apply le_INR. lia. }
        destruct (pow_lin uro j) as [_ Y]; [lra|lra|]. lra. }
      assert (Sle : Rsum (fun i => val (cw p i) * val (cw p i)) (k + 1) <= INR (k + 1) * (W * W)).
      { assert (forall j, (j <= D)%nat -> Rsum (fun i => val (cw p i) * val (cw p i)) j <= INR j * (W * W)).
        { induction j as [|j IHj]; intros Hj; [simpl; lra|]. cbn [Rsum]. rewrite S_INR.
          specialize (IHj ltac:(lia)). destruct (HW j) as [_ Wj]; [lia|].
          apply Rabs_le_inv in Wj. nra. }
        apply H. lia. }
      rewrite (Nat.add_1_r k) in Sle. cbn [Rsum] in Sle. fold S w in Sle.
      assert (SD : S + w * w <= INR D * (W * W)).
      { eapply Rle_trans; [exact Sle|]. apply Rmult_le_compat_r; [apply Rle_0_sqr|]. apply le_INR. lia. }
      (* the square *)
      destruct (mul_ok (cw p k) (cw p k) Wf Wf) as [Q1 Q2].
      { fold w. rewrite Rabs_pos_eq by exact w0. pose proof (pos_INR D). nra. }
      fold w in Q2. set (q := val (s_mul (cw p k) (cw p k))) in *.
      assert (Q0 : 0 <= q) by (rewrite Q2; now apply rnd_nonneg).
      assert (Q3 : Rabs (q - w * w) <= uro * (w * w) + eta).
      { rewrite Q2. eapply Rle_trans; [apply rnd_err|]. rewrite (Rabs_pos_eq (w * w)) by exact w0. lra. }
      set (kap := (1 + uro) ^ (k + 1) - 1) in *. set (mu := INR k * (1 + uro) ^ k * eta) in *.
      assert (kap_u : uro <= kap).
      { unfold kap. rewrite Nat.add_1_r. cbn [pow].
        assert (1 <= (1 + uro) ^ k) by (apply pow_R1_Rle; lra). nra. }
      assert (X : Rabs (val s + q - (S + w * w)) <= kap * (S + w * w) + (mu + eta)).
      { replace (val s + q - (S + w * w)) with ((val s - S) + (q - w * w)) by ring.
        eapply Rle_trans; [apply Rabs_triang|].
        assert (uro * (w * w) <= kap * (w * w)) by (apply Rmult_le_compat_r; lra). lra. }
      assert (mu0 : 0 <= mu).
      { unfold mu. apply Rmult_le_pos; [|lra]. apply Rmult_le_pos; [apply pos_INR|]. apply pow_le. lra. }
      assert (mu1 : mu <= 1).
      { unfold mu. destruct (Bnd k ltac:(lia)) as [_ Y].
        assert (INR k <= INR (D + 1)) by (apply le_INR; lia). pose proof (pos_INR k).
        assert (INR k * eta <= INR (D + 1) * uro).
        { apply Rmult_le_compat; lra. }
        assert (0 <= INR k * eta) by (apply Rmult_le_pos; lra).
        replace (INR k * (1 + uro) ^ k * eta) with ((1 + uro) ^ k * (INR k * eta)) by ring.
        apply Rle_trans with (2 * (INR k * eta)); [apply Rmult_le_compat_r; lra|lra]. }
      assert (Ov : Rabs (val s + q) <= fmax).
      { rewrite Rabs_pos_eq by lra. apply Rabs_le_inv in X.
        destruct (Bnd k ltac:(lia)) as [Y _]. fold kap in Y.
        assert (kap * (S + w * w) <= / 2 * (S + w * w)) by (apply Rmult_le_compat_r; lra). lra. }
      destruct (add_ok s (s_mul (cw p k) (cw p k)) A Q1 Ov) as [R1 R2]. fold q in R2.
      unfold sq_step at 1 2 3. split; [exact R1|]. rewrite R2.
      split; [apply rnd_nonneg; lra|].
      pose proof (rnd_sum_err (val s) q (val_float _) (val_float _)) as Er.
      replace (rnd (val s + q) - (S + w * w))
        with ((rnd (val s + q) - (val s + q)) + (val s + q - (S + w * w))) by ring.
      eapply Rle_trans; [apply Rabs_triang|].
      assert (Z1 : Rabs (val s + q) <= (S + w * w) + Rabs (val s + q - (S + w * w))).
      { replace (val s + q) with ((S + w * w) + (val s + q - (S + w * w))) at 1 by ring.
        eapply Rle_trans; [apply Rabs_triang|]. rewrite (Rabs_pos_eq (S + w * w)) by lra. lra. }
      set (E1 := Rabs (val s + q - (S + w * w))) in *.
      apply Rle_trans with ((1 + uro) * E1 + uro * (S + w * w)).
      { assert (uro * Rabs (val s + q) <= uro * ((S + w * w) + E1)) by (apply Rmult_le_compat_l; lra). lra. }
      apply Rle_trans with ((1 + uro) * (kap * (S + w * w) + (mu + eta)) + uro * (S + w * w)).
      { apply Rplus_le_compat_r. apply Rmult_le_compat_l; lra. }
      replace ((1 + uro) ^ (Datatypes.S k + 1) - 1) with ((1 + uro) * (kap + 1) - 1)
        by (unfold kap; cbn [pow Nat.add]; ring).
      rewrite S_INR. cbn [pow].
      assert (1 <= (1 + uro) ^ k) by (apply pow_R1_Rle; lra).
      assert ((1 + uro) * (mu + eta) <= (INR k + 1) * ((1 + uro) * (1 + uro) ^ k) * eta).
      { replace ((INR k + 1) * ((1 + uro) * (1 + uro) ^ k) * eta)
          with ((1 + uro) * (mu + (1 + uro) ^ k * eta)) by (unfold mu; ring).
        apply Rmult_le_compat_l; [lra|]. apply Rplus_le_compat_l.
        rewrite <- (Rmult_1_l eta) at 1. apply Rmult_le_compat_r; lra. }
      lra.
  Qed.

  (** the length of a vector *)
  Lemma length_err (p : P) W : 4 * INR (D + 1) * uro <= 1 -> 4 * INR D * (W * W) <= fmax ->
    (forall i, (i < D)%nat -> fin (cw p i) /\ Rabs (val (cw p i)) <= W) ->
    let L := nrm (fun i => val (cw p i)) D in
    fin (p_sqlen p) /\ 0 <= val (p_sqlen p) /\
    fin (s_sqrt (p_sqlen p)) /\ 0 <= val (s_sqrt (p_sqlen p)) /\
    Rabs (val (s_sqrt (p_sqlen p)) - L) <= (2 * INR D + 4) * uro * L + 2 * sqrt (2 * INR D * eta) + eta.
  Proof.
    intros Hu Hov HW L. pose proof uro_pos as U0. pose proof eta_pos as E0. pose proof uro_small as U1.
    destruct (sq_fold_err p W D (Nat.le_refl _) Hu Hov HW) as (A & B & C).
    rewrite cw_sqlen. change (fun (acc : float) (i : nat) => s_add acc (s_mul (cw p i) (cw p i))) with (sq_step p).
    set (s := fold_left (sq_step p) (seq 0 D) (s_lit 0)) in *.
    set (S := Rsum (fun i => val (cw p i) * val (cw p i)) D) in *.
    assert (S0 : 0 <= S) by (apply Rsum_nonneg; intros; apply Rle_0_sqr).
    change L with (sqrt S). clear L.
    destruct (sqrt_ok s A B) as [R1 R2].
    split; [exact A|]. split; [exact B|]. split; [exact R1|]. rewrite R2.
    split; [apply rnd_nonneg, sqrt_pos|].
    destruct (pow_lin uro (D + 1)) as [X _]; [lra|lra|].
    assert (INR D * uro <= INR (D + 1) * uro) by (apply Rmult_le_compat_r; [lra|apply le_INR; lia]).
    destruct (pow_lin uro D) as [_ Y]; [lra|lra|].
    set (kap := 2 * (INR (D + 1) * uro)) in *.
    assert (C' : Rabs (val s - S) <= kap * S + 2 * INR D * eta).
    { eapply Rle_trans; [exact C|]. apply Rplus_le_compat.
      - apply Rmult_le_compat_r; lra.
      - apply Rmult_le_compat_r; [lra|]. rewrite (Rmult_comm 2). apply Rmult_le_compat_l; [apply pos_INR|lra]. }
    assert (D0 : 0 <= 2 * INR D * eta) by (apply Rmult_le_pos; [|lra]; apply Rmult_le_pos; [lra|apply pos_INR]).
    assert (K0 : 0 <= kap <= 1).
    { unfold kap. split; [|lra]. apply Rmult_le_pos; [lra|]. apply Rmult_le_pos; [apply pos_INR|lra]. }
    pose proof (sqrt_err (val s) S kap (2 * INR D * eta) S0 B K0 D0 C') as SE.
    pose proof (rnd_err (sqrt (val s))) as Er. rewrite (Rabs_pos_eq (sqrt (val s))) in Er by apply sqrt_pos.
    set (m := sqrt (2 * INR D * eta)) in *. pose proof (sqrt_pos (2 * INR D * eta)) as M0. fold m in M0.
    pose proof (sqrt_pos S) as L0. set (L := sqrt S) in *.
    assert (SL : sqrt (val s) <= 2 * L + m).
    { apply Rabs_le_inv in SE. assert (kap * L <= 1 * L) by (apply Rmult_le_compat_r; lra). lra. }
    replace (rnd (sqrt (val s)) - L) with ((rnd (sqrt (val s)) - sqrt (val s)) + (sqrt (val s) - L)) by ring.
    eapply Rle_trans; [apply Rabs_triang|].
    assert (uro * sqrt (val s) <= uro * (2 * L + m)) by (apply Rmult_le_compat_l; lra).
    assert (uro * m <= 1 * m) by (apply Rmult_le_compat_r; lra).
    replace ((2 * INR D + 4) * uro * L) with (kap * L + uro * (2 * L)).
    2:{ unfold kap. rewrite plus_INR. simpl. ring. }
    lra.
  Qed.
End Norm.
