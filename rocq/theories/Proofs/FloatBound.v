(** The De Casteljau error bound in closed, linear form. *)
From Coq Require Import Reals ZArith List Arith Lia Lra Bool.
From Flocq Require Import Core.Core IEEE754.BinarySingleNaN.
From Verif Require Import Base.Outcome Base.Scalar Model.Point Model.Bezier
  Inst.FloatInst Spec.Sums Spec.Bernstein Spec.Rounding Spec.Componentwise
  Proofs.FloatFacts Proofs.FloatEval.
Import ListNotations.
Local Open Scope R_scope.

Section Bound.
  Context {F : Format}.

  (** (1+u)^k (1 - k u) <= 1 *)
  Lemma pow_bernoulli u k : 0 <= u -> INR k * u <= 1 -> (1 + u) ^ k * (1 - INR k * u) <= 1.
  Proof.
    intros Hu. induction k as [|k IH]; intros Hk.
    - simpl. lra.
    - rewrite S_INR in *. assert (Hk' : INR k * u <= 1) by (pose proof (pos_INR k); nra).
      specialize (IH Hk'). cbn [pow].
      assert (P : 0 < (1 + u) ^ k) by (apply pow_lt; lra).
      assert ((1 + u) * (1 - (INR k + 1) * u) <= 1 - INR k * u).
      { pose proof (pos_INR k). nra. }
      apply Rle_trans with ((1 + u) ^ k * (1 - INR k * u)); [|exact IH].
      rewrite (Rmult_comm (1 + u)), Rmult_assoc. apply Rmult_le_compat_l; lra.
  Qed.

  Lemma pow_lin u k : 0 <= u -> INR k * u <= / 2 -> (1 + u) ^ k - 1 <= 2 * (INR k * u) /\ (1 + u) ^ k <= 2.
  Proof.
    intros Hu Hk. pose proof (pow_bernoulli u k Hu ltac:(lra)) as B.
    set (x := INR k * u) in *. set (g := (1 + u) ^ k) in *.
    assert (0 <= x) by (apply Rmult_le_pos; [apply pos_INR|exact Hu]).
    assert (G2 : g <= 2) by nra. split; [nra|exact G2].
  Qed.

  Lemma gro_pow k : gro ^ k = (1 + uro) ^ (3 * k).
  Proof. unfold gro. now rewrite pow_mult. Qed.

  Lemma eta_uro : eta * 1024 <= uro.
  Proof.
    unfold eta, uro. change 1024 with (bpow radix2 10). rewrite <- bpow_plus.
    apply bpow_le. pose proof femax_ge. pose proof fprec_ge. lia.
  Qed.

  Lemma casteljau_err_lin M n : 0 <= M -> 6 * INR n * uro <= 1 ->
    casteljau_err M n <= 6 * INR n * uro * M + 5 * INR n * eta.
  Proof.
    intros HM Hn. pose proof uro_pos. pose proof eta_pos. pose proof uro_small.
    assert (HI : INR (3 * n) = 3 * INR n) by (rewrite mult_INR; simpl; lra).
    destruct (pow_lin uro (3 * n)) as [A B]; [lra|rewrite HI; lra|]. rewrite HI in A.
    unfold casteljau_err, hro. rewrite gro_pow. set (g := (1 + uro) ^ (3 * n)) in *.
    pose proof (pos_INR n).
    assert ((g - 1) * M <= 6 * INR n * uro * M) by (apply Rmult_le_compat_r; lra).
    assert (INR n * g * (2 * eta * (1 + uro)) <= INR n * 5 * eta); [|lra].
    replace (INR n * g * (2 * eta * (1 + uro))) with (INR n * (g * (2 * (1 + uro))) * eta) by ring.
    apply Rmult_le_compat_r; [lra|]. apply Rmult_le_compat_l; [lra|].
    assert (0 < g) by (apply pow_lt; lra). nra.
  Qed.

  Lemma no_overflow_cond M n : 0 <= M -> 6 * INR n * uro <= 1 -> 4 * M <= fmax ->
    (M + casteljau_err M n) * (1 + uro) ^ 2 + 2 * eta <= fmax.
  Proof.
    intros HM Hn H4. pose proof (casteljau_err_lin M n HM Hn) as B.
    pose proof uro_pos. pose proof eta_pos. pose proof uro_small. pose proof eta_uro.
    pose proof fmax_ge. pose proof (pos_INR n).
    assert (E1 : 6 * INR n * uro * M <= 1 * M) by (apply Rmult_le_compat_r; lra).
    assert (E2 : 5 * INR n * eta <= 1) by nra.
    assert (C : 0 <= casteljau_err M n) by now apply casteljau_err_ge0.
    assert (G : (1 + uro) ^ 2 <= 1 + / 512) by (cbn [pow]; nra).
    apply Rle_trans with ((2 * M + 1) * (1 + / 512) + 2 * eta).
    - apply Rplus_le_compat_r. apply Rmult_le_compat; try lra. apply pow2_ge_0.
    - destruct (Rle_or_lt M 4); lra.
  Qed.

  Context {P : Type} {PT : Point float P} {CP : CwPoint float P}.

  Theorem bezier_eval_err_lin (ps : list P) t M : ps <> [] ->
    6 * INR (length ps - 1) * uro <= 1 -> 4 * M <= fmax ->
    fin t -> 0 <= val t <= 1 ->
    (forall p i, In p ps -> (i < p_dim (P := P))%nat -> fin (cw p i) /\ Rabs (val (cw p i)) <= M) ->
    exists p, bezier_eval (Bezier ps) t = Ret p /\
      forall i, (i < p_dim (P := P))%nat ->
        fin (cw p i) /\
        Rabs (val (cw p i) - bezier_poly (map (fun q => val (cw q i)) ps) (val t))
          <= 6 * INR (length ps - 1) * uro * M + 5 * INR (length ps - 1) * eta.
  Proof.
    intros Hne Hn H4 Ht Hr H.
    destruct (Rle_or_lt 0 M) as [HM|HM].
    - destruct (bezier_eval_err ps t M Hne Ht Hr HM H) as (p & E & B).
      { now apply no_overflow_cond. }
      exists p. split; [exact E|]. intros i Hi. destruct (B i Hi) as [B1 B2].
      split; [exact B1|]. eapply Rle_trans; [exact B2|]. now apply casteljau_err_lin.
    - destruct ps as [|q ps]; [contradiction|].
      rewrite (BezierGeneric.bezier_eval_closed _ t q Hne).
      eexists. split; [reflexivity|]. intros i Hi.
      destruct (H q i (or_introl eq_refl) Hi) as [_ B]. pose proof (Rabs_pos (val (cw q i))). lra.
  Qed.
End Bound.
