(** The bounding box of cubics in floating point after the change of the root formula
    (Model/RepairsRoots.v, not the code): right to a multiple of uro M for every cubic. *)
From Coq Require Import Reals ZArith List Arith Lia Lra Psatz Bool Permutation.
From Flocq Require Import Core.Core IEEE754.BinarySingleNaN Mult_error.
From Verif Require Import Base.Outcome Base.Scalar Model.Point Model.Line Model.Quadratic Model.Cubic Model.RepairsRoots Proofs.OutcomeFacts Proofs.RealTac
  Inst.RealInst Inst.FloatInst Proofs.BBoxFacts Spec.Bernstein Spec.Rounding Spec.Componentwise Spec.FloatPoints Spec.FloatBoxes
  Proofs.FloatFacts Proofs.FloatEval Proofs.FloatBound Proofs.FloatNorm Proofs.FloatNear Proofs.FloatEnds Proofs.ExactEval Proofs.BoxGeneric
  Proofs.FloatBox Proofs.FloatBoxQuad Proofs.FloatBoxCubic Proofs.FloatBoxFlat Proofs.FloatBoxBackward.
Import ListNotations.
Local Open Scope R_scope.

Section Pos.
  Context {F : Format}.
  Lemma pos_ge (x : float) : 0 < val x -> 2 * eta <= val x.
  Proof.
    intros H. replace (2 * eta) with (bpow radix2 (SpecFloat.emin fprec femax)).
    - apply generic_format_ge_bpow with (fexp := SpecFloat.fexp fprec femax).
      + intros e. unfold SpecFloat.fexp. lia.
      + exact H.
      + apply (val_float x).
    - unfold eta, SpecFloat.emin. change 2%R with (bpow radix2 1). rewrite <- bpow_plus. f_equal. lia.
  Qed.
  Lemma double_exact (x : float) : fin x -> Rabs (val x) * 2 <= fmax -> fin (s_mul x (s_lit 2)) /\ val (s_mul x (s_lit 2)) = val x * 2.
  Proof.
    intros Fx H. destruct (lit_small 2) as [L1 L2]; [lia|].
    destruct (mul_ok x (s_lit 2) Fx L1) as [F1 E1]; [rewrite L2, Rabs_mult, (Rabs_pos_eq 2) by lra; exact H|].
    split; [exact F1|]. rewrite E1, L2. apply rnd_float. change 2%R with (bpow radix2 1).
    apply (mult_bpow_pos_exact_FLT radix2 (SpecFloat.emin fprec femax) fprec); [apply (val_float x)|lia].
  Qed.
End Pos.

(** a quotient of nearly right numbers *)
Lemma quot_near n q n' q' t e1 e2 : q' <> 0 -> n = t * q -> 0 <= t <= 1 ->
  Rabs (n' - n) <= e1 -> Rabs (q' - q) <= e2 -> Rabs q <= 11 / 10 * Rabs q' ->
  Rabs (n' / q' - t) * Rabs q <= 11 / 10 * (e1 + e2).
Proof.
  intros Hq Hn Ht H1 H2 HQ.
  assert (E : n' / q' - t = ((n' - n) - t * (q' - q)) / q') by (rewrite Hn; field; exact Hq).
  rewrite E. unfold Rdiv. rewrite Rabs_mult, Rabs_inv. pose proof (Rabs_pos_lt q' Hq) as Q0.
  assert (N : Rabs (n' - n - t * (q' - q)) <= e1 + e2).
  { apply abs_minus; [exact H1|]. rewrite <- (Rmult_1_l e2). apply abs_prod; [apply Rabs_le; lra|exact H2]. }
  rewrite Rmult_assoc. pose proof (Rabs_pos (n' - n - t * (q' - q))) as N0. pose proof (Rabs_pos q) as Q1.
  assert (IQ : / Rabs q' * Rabs q <= 11 / 10).
  { apply Rmult_le_reg_l with (Rabs q'); [exact Q0|]. rewrite <- Rmult_assoc, Rinv_r by lra. lra. }
  rewrite (Rmult_comm (11 / 10)). apply Rmult_le_compat; try assumption.
  apply Rmult_le_pos; [left; now apply Rinv_0_lt_compat|exact Q1].
Qed.

Section Cub.
  Context {F : Format}.
  Variable M : R.
  Hypotheses (HM : 0 < M) (HO : 2048 * (M * M) <= fmax) (HU : eta <= uro * (M * M)) (HM1 : 1 <= M).
  Let w := uro * M.
  Variables s k1 k2 e : float.
  Hypotheses (Fs : fin s) (F1 : fin k1) (F2 : fin k2) (Fe : fin e).
  Hypotheses (Bs : Rabs (val s) <= M) (B1 : Rabs (val k1) <= M) (B2 : Rabs (val k2) <= M) (Be : Rabs (val e) <= M).
  Let d0 := s_mul (s_sub k1 s) (s_lit 3).
  Let d1 := s_mul (s_sub k2 k1) (s_lit 3).
  Let d2 := s_mul (s_sub e k2) (s_lit 3).
  Let fa := s_add (s_add d0 (s_mul d1 (s_lit (-2)))) d2.
  Let fb := s_add (s_mul d0 (s_lit (-2))) (s_mul d1 (s_lit 2)).
  Let a := 3 * (val e - 3 * val k2 + 3 * val k1 - val s).
  Let b := 6 * (val k2 - 2 * val k1 + val s).
  Let c := 3 * (val k1 - val s).
  Let fD := s_sub (s_mul fb fb) (s_mul (s_mul fa d0) (s_lit 4)).
  Let fm := s_mul fa (s_lit 2).
  Let fq := if s_ltb fb (s_lit 0) then s_add (s_neg fb) (s_sqrt fD) else s_sub (s_neg fb) (s_sqrt fD).
  Let A := val fa.
  Let B := val fb.

  Hypothesis Hfa : 2 * uro <= Rabs A.

  (** the computed q against the exact one *)
  Lemma q_near K S : 1 - 21 / 10 * uro <= K <= 1 + 21 / 10 * uro -> val fD = K * (S * S) -> 0 < val fD ->
    let q := if Rlt_dec B 0 then - B + Rabs S else - B - Rabs S in
    fin fq /\ Rabs q = Rabs B + Rabs S /\ Rabs (val fq - q) <= 5 * uro * Rabs q /\ Rabs S <= 35 * M /\
    eta <= 105 / 100 * uro * Rabs S /\ 0 < Rabs S.
  Proof.
    intros HK ED HD q. pose proof uro_pos as U0. pose proof uro_small as U1. pose proof eta_pos as T0.
    destruct (sizes3 M HM HO HU) as (H32 & H4 & Hw & Hw2 & HW2 & W0 & W00). fold w in Hw, Hw2, W0.
    destruct (coeffs M HM HO HU s k1 k2 e Fs F1 F2 Fe Bs B1 B2 Be) as (_ & [Ffb _] & _).
    destruct (coeff_sizes M HM HO HU s k1 k2 e Fs F1 F2 Fe Bs B1 B2 Be) as (_ & _ & _ & _ & Bfb & _).
    destruct (disc_err M HM HO HU s k1 k2 e Fs F1 F2 Fe Bs B1 B2 Be) as (FD & _ & BD).
    fold d0 d1 d2 in Ffb, Bfb, FD, BD. fold fa in FD, BD. fold fb in Ffb, Bfb, FD, BD. fold fD in FD, BD. fold B in Bfb.
    assert (SS : 0 <= S * S) by apply Rle_0_sqr.
    assert (AS : Rabs S * Rabs S = S * S) by (rewrite <- Rabs_mult; now apply Rabs_pos_eq).
    assert (M2 : 0 < M * M) by (apply Rmult_lt_0_compat; exact HM).
    assert (M12 : M * 1 <= M * M) by (apply Rmult_le_compat_l; lra).
    assert (K1 : 99 / 100 * (S * S) <= K * (S * S)) by (apply Rmult_le_compat_r; lra).
    assert (K2 : K * (S * S) <= 101 / 100 * (S * S)) by (apply Rmult_le_compat_r; lra).
    assert (BS : Rabs S <= 35 * M).
    { apply Rsqr_incr_0; [|apply Rabs_pos|lra]. unfold Rsqr. rewrite AS. rewrite Rabs_pos_eq in BD by lra. lra. }
    assert (SE : 19 / 10 * eta <= Rabs S * Rabs S).
    { rewrite AS. pose proof (pos_ge fD HD). lra. }
    pose proof (Rabs_pos S) as S0.
    (* the square root *)
    assert (S2 : sqrt (S * S) = Rabs S) by apply sqrt_Rsqr_abs.
    pose proof (sqrt_near K (S * S) uro (Rlt_le _ _ U0) U1 HK SS) as SN. rewrite S2, <- ED in SN.
    destruct (sqrt_ok fD FD ltac:(lra)) as [Fq Eq]. pose proof (rnd_err (sqrt (val fD))) as RE. rewrite <- Eq in RE.
    set (Sh := sqrt (val fD)) in *. assert (Sh0 : 0 <= Sh) by apply sqrt_pos. rewrite (Rabs_pos_eq Sh) in RE by exact Sh0.
    assert (ET : eta <= 105 / 100 * uro * Rabs S).
    { apply Rsqr_incr_0; [|lra|apply Rmult_le_pos; lra]. unfold Rsqr.
      replace (105 / 100 * uro * Rabs S * (105 / 100 * uro * Rabs S)) with (11025 / 10000 * (uro * uro) * (Rabs S * Rabs S)) by field.
      pose proof eta_sq as TS. pose proof (Rmult_lt_0_compat _ _ U0 U0) as UU.
      apply Rle_trans with (eta * (2 * (uro * uro))); [apply Rmult_le_compat_l; lra|].
      replace (eta * (2 * (uro * uro))) with (2 * (uro * uro) * eta) by ring.
      assert (11025 / 10000 * (uro * uro) * (19 / 10 * eta) <= 11025 / 10000 * (uro * uro) * (Rabs S * Rabs S)) by (apply Rmult_le_compat_l; lra).
      assert (0 <= uro * uro * eta) by (apply Rmult_le_pos; lra). lra. }
    pose proof ET as ET'. assert (SP : 0 < Rabs S) by (apply Rnot_le_lt; intros C; assert (Rabs S = 0) as Z by lra; rewrite Z in SE; lra).
    set (us := uro * Rabs S) in *. assert (US0 : 0 <= us) by (unfold us; apply Rmult_le_pos; lra).
    replace (105 / 100 * uro * Rabs S) with (105 / 100 * us) in ET by (unfold us; ring).
    replace (12 / 10 * uro * Rabs S) with (12 / 10 * us) in SN by (unfold us; ring).
    assert (USm : us <= Rabs S / 2048) by (unfold us, Rdiv; rewrite (Rmult_comm (Rabs S)); apply Rmult_le_compat_r; lra).
    assert (E1 : Rabs (val (s_sqrt fD) - Rabs S) <= 33 / 10 * us).
    { apply Rabs_le_inv in SN. apply Rabs_le_inv in RE.
      assert (uro * Sh <= 1001 / 1000 * us).
      { replace (1001 / 1000 * us) with (uro * (1001 / 1000 * Rabs S)) by (unfold us; field). apply Rmult_le_compat_l; lra. }
      apply Rabs_le. lra. }
    assert (Bq : Rabs (val (s_sqrt fD)) <= 36 * M).
    { apply Rle_trans with (35 * M + 33 / 10 * us); [apply abs_near with (Rabs S); [rewrite Rabs_Rabsolu; exact BS|exact E1]|lra]. }
    assert (Fn : fin (s_neg fb)) by now apply neg_fin.
    assert (Bn : Rabs (val (s_neg fb)) <= 2406 / 100 * M) by (rewrite neg_val, Rabs_Ropp; exact Bfb).
    destruct (lit_small 0) as [L0 V0]; [lia|].
    pose proof (Rabs_pos B) as PB.
    assert (HQ : Rabs q = Rabs B + Rabs S).
    { unfold q. destruct (Rlt_dec B 0) as [N|N].
      - rewrite (Rabs_left B) by exact N. rewrite Rabs_pos_eq; lra.
      - rewrite (Rabs_pos_eq B) by lra. rewrite Rabs_left1; lra. }
    set (uq := uro * Rabs q). assert (UQ : us <= uq) by (unfold us, uq; apply Rmult_le_compat_l; lra).
    assert (UQ0 : uro * (Rabs q + 33 / 10 * us) <= 101 / 100 * uq).
    { replace (101 / 100 * uq) with (uro * (101 / 100 * Rabs q)) by (unfold uq; field). apply Rmult_le_compat_l; lra. }
    assert (N : fin fq /\ Rabs (val fq - (if Rlt_dec B 0 then - B + val (s_sqrt fD) else - B - val (s_sqrt fD))) <= 101 / 100 * uq).
    { unfold fq. rewrite ltb_val by assumption. rewrite V0. fold B.
      assert (HB : forall z, z = (if Rlt_dec B 0 then - B + val (s_sqrt fD) else - B - val (s_sqrt fD)) -> Rabs z <= Rabs q + 33 / 10 * us).
      { intros z ->. apply (abs_near _ q); [lra|]. unfold q. apply Rabs_le_inv in E1.
        destruct (Rlt_dec B 0); apply Rabs_le; lra. }
      destruct (Rlt_dec B 0) as [N|N]; [rewrite Rlt_bool_true by exact N|rewrite Rlt_bool_false by lra].
      - destruct (add_err (s_neg fb) (s_sqrt fD) (Rabs q + 33 / 10 * us)) as [X1 X2]; try assumption;
          [rewrite neg_val; fold B; now apply HB|lra|]. rewrite neg_val in X2. fold B in X2. split; [exact X1|lra].
      - destruct (sub_err (s_neg fb) (s_sqrt fD) (Rabs q + 33 / 10 * us)) as [X1 X2]; try assumption;
          [rewrite neg_val; fold B; now apply HB|lra|]. rewrite neg_val in X2. fold B in X2. split; [exact X1|lra]. }
    destruct N as [FN EN]. split; [exact FN|]. split; [exact HQ|]. split; [|split; [exact BS|split; [exact ET'|exact SP]]].
    replace (5 * uro * Rabs q) with (5 * uq) by (unfold uq; ring).
    unfold q. apply Rabs_le_inv in EN. apply Rabs_le_inv in E1. apply Rabs_le. destruct (Rlt_dec B 0); lra.
  Qed.

  (** a critical point of the neighbouring curve is nearly one of the two roots *)
  Lemma stable_near K c' t : 1 - 21 / 10 * uro <= K <= 1 + 21 / 10 * uro ->
    val fD = K * (B * B - 4 * A * c') -> 0 < val fD ->
    Rabs (c' - val d0) * Rabs A <= 301 / 100 * uro * (Rabs A * Rabs (val d0)) + 2 * eta ->
    0 <= t <= 1 -> A * (t * t) + B * t + c' = 0 ->
    exists r, In r [s_div fq fm; s_div (s_mul d0 (s_lit 2)) fq] /\ fin r /\
      let S := 2 * A * t + B in let y := Rabs (val r - t) in
      Rabs S / 2 * (y * y) + Rabs A / 3 * (y * y * y) <= 64 * w.
  Proof.
    intros HK ED HD EC Ht Hp. pose proof (crit_disc A B c' t Hp) as HS. set (S := 2 * A * t + B) in *.
    rewrite <- HS in ED. pose proof uro_pos as U0. pose proof uro_small as U1. pose proof eta_pos as T0. pose proof eta_uro as T1.
    destruct (sizes3 M HM HO HU) as (H32 & H4 & Hw & Hw2 & HW2 & W0 & W00). fold w in Hw, Hw2, W0.
    destruct (coeffs M HM HO HU s k1 k2 e Fs F1 F2 Fe Bs B1 B2 Be) as ([Ffa _] & [Ffb _] & [Fc _]).
    destruct (coeff_sizes M HM HO HU s k1 k2 e Fs F1 F2 Fe Bs B1 B2 Be) as (_ & _ & _ & Bfa & Bfb & Bfc).
    fold d0 d1 d2 in Ffa, Ffb, Fc, Bfa, Bfb, Bfc. fold fa in Ffa, Bfa. fold fb in Ffb, Bfb. fold A in Bfa. fold B in Bfb.
    assert (M2 : 0 < M * M) by (apply Rmult_lt_0_compat; exact HM).
    assert (M12 : M * 1 <= M * M) by (apply Rmult_le_compat_l; lra).
    assert (NA : A <> 0) by (intros Z; rewrite Z, Rabs_R0 in Hfa; lra).
    destruct (q_near K S HK ED HD) as (Fq & HQ & EQ & BS & ET & S0).
    set (q := if Rlt_dec B 0 then - B + Rabs S else - B - Rabs S) in *.
    pose proof (Rabs_pos B) as B0. assert (Q0 : 0 < Rabs q) by lra.
    assert (uQ : 5 * uro * Rabs q <= 5 / 2048 * Rabs q) by (apply Rmult_le_compat_r; lra).
    assert (QQ : Rabs q <= 11 / 10 * Rabs (val fq)).
    { assert (Rabs (val fq - (val fq - q)) <= Rabs (val fq) + 5 * uro * Rabs q) as Q by (apply abs_minus; [lra|exact EQ]).
      replace (val fq - (val fq - q)) with q in Q by ring. lra. }
    assert (Nq : val fq <> 0) by (intros Z; rewrite Z, Rabs_R0 in QQ; lra).
    destruct (double_exact fa Ffa) as [Fm Em]; [fold A; lra|]. fold fm in Fm, Em. fold A in Em.
    destruct (double_exact d0 Fc) as [Fn En]; [lra|].
    assert (F1000 : 2048 <= fmax) by (assert (1 * 1 <= M * M) by (apply Rmult_le_compat; lra); lra).
    (* rounding of a quotient near t *)
    assert (RD : forall x y h, fin x -> val y <> 0 -> Rabs (val x / val y - t) <= h -> h <= 1000 ->
      fin (s_div x y) /\ Rabs (val (s_div x y) - t) <= h + uro * (1 + h) + eta).
    { intros x y h Fx Ny Hh Hh2.
      assert (Bx : Rabs (val x / val y) <= 1 + h) by (apply abs_near with t; [rewrite Rabs_pos_eq; lra|exact Hh]).
      destruct (div_ok x y Fx Ny) as [Fd Ed]; [lra|]. split; [exact Fd|]. rewrite Ed.
      pose proof (rnd_err (val x / val y)) as RE.
      assert (uro * Rabs (val x / val y) <= uro * (1 + h)) by (apply Rmult_le_compat_l; lra).
      replace (rnd (val x / val y) - t) with ((val x / val y - t) + (rnd (val x / val y) - val x / val y)) by ring.
      apply Rle_trans with (h + (uro * (1 + h) + eta)); [apply abs_plus; [exact Hh|lra]|lra]. }
    assert (Wu : uro <= w) by (unfold w; rewrite <- (Rmult_1_r uro) at 1; apply Rmult_le_compat_l; lra).
    assert (Cs : (S = Rabs S /\ B < 0 \/ S = - Rabs S /\ 0 <= B) \/ (S = Rabs S /\ 0 <= B \/ S = - Rabs S /\ B < 0)).
    { destruct (Rle_or_lt 0 S) as [Z|Z]; [rewrite (Rabs_pos_eq S) by exact Z|rewrite (Rabs_left S) by exact Z];
        destruct (Rle_or_lt 0 B) as [Y|Y]; lra. }
    (* the two bounds, from y <= 12 u + 5 z *)
    set (z := eta / (Rabs A * Rabs S)). pose proof (Rabs_pos A) as A0.
    assert (AP : 0 < Rabs A) by lra. assert (ASP : 0 < Rabs A * Rabs S) by now apply Rmult_lt_0_compat.
    assert (Z0 : 0 <= z) by (unfold z; apply Rmult_le_pos; [lra|left; now apply Rinv_0_lt_compat]).
    assert (ZA : z * Rabs A <= 105 / 100 * uro).
    { apply Rmult_le_reg_r with (Rabs S); [exact S0|]. replace (z * Rabs A * Rabs S) with eta by (unfold z; field; lra). exact ET. }
    assert (ZS : z * Rabs S <= uro).
    { apply Rmult_le_reg_r with (Rabs A); [exact AP|]. replace (z * Rabs S * Rabs A) with eta by (unfold z; field; lra).
      pose proof eta_sq. assert (uro * (2 * uro) <= uro * Rabs A) by (apply Rmult_le_compat_l; lra). lra. }
    assert (Z1 : z <= 525 / 1000).
    { apply Rmult_le_reg_r with (2 * uro); [lra|]. assert (z * (2 * uro) <= z * Rabs A) by (apply Rmult_le_compat_l; lra). lra. }
    assert (G : forall y, 0 <= y <= 12 * uro + 5 * z -> Rabs S / 2 * (y * y) + Rabs A / 3 * (y * y * y) <= 64 * w).
    { intros y Hy.
      assert (uu : uro * uro <= / 2048 * uro) by (apply Rmult_le_compat_r; lra).
      assert (uu0 : 0 <= uro * uro) by (apply Rmult_le_pos; lra).
      assert (zz0 : 0 <= z * z) by (apply Rmult_le_pos; lra).
      assert (Y2 : y * y <= 288 * (uro * uro) + 50 * (z * z)).
      { apply Rle_trans with ((12 * uro + 5 * z) * (12 * uro + 5 * z)); [apply Rmult_le_compat; lra|].
        assert (0 <= (12 * uro - 5 * z) * (12 * uro - 5 * z)) by apply Rle_0_sqr. lra. }
      assert (y20 : 0 <= y * y) by (apply Rmult_le_pos; lra).
      assert (SU : Rabs S * (uro * uro) <= 35 / 2048 * w).
      { replace (35 / 2048 * w) with (35 * M * (/ 2048 * uro)) by (unfold w; field). apply Rmult_le_compat; lra. }
      assert (AU : Rabs A * (uro * uro) <= 2406 / 100 / 2048 * w).
      { replace (2406 / 100 / 2048 * w) with (2406 / 100 * M * (/ 2048 * uro)) by (unfold w; field). apply Rmult_le_compat; lra. }
      assert (SZ : Rabs S * (z * z) <= 525 / 1000 * w).
      { replace (Rabs S * (z * z)) with (z * Rabs S * z) by ring. rewrite (Rmult_comm (525 / 1000)). apply Rmult_le_compat; try lra. apply Rmult_le_pos; lra. }
      assert (AZ : Rabs A * (z * z) <= 552 / 1000 * w).
      { replace (Rabs A * (z * z)) with (z * Rabs A * z) by ring.
        apply Rle_trans with (105 / 100 * uro * (525 / 1000)); [apply Rmult_le_compat; try lra; apply Rmult_le_pos; lra|lra]. }
      assert (SY : Rabs S * (y * y) <= 32 * w).
      { apply Rle_trans with (Rabs S * (288 * (uro * uro) + 50 * (z * z))); [apply Rmult_le_compat_l; lra|].
        replace (Rabs S * (288 * (uro * uro) + 50 * (z * z))) with (288 * (Rabs S * (uro * uro)) + 50 * (Rabs S * (z * z))) by ring. lra. }
      assert (AY : Rabs A * (y * y) <= 32 * w).
      { apply Rle_trans with (Rabs A * (288 * (uro * uro) + 50 * (z * z))); [apply Rmult_le_compat_l; lra|].
        replace (Rabs A * (288 * (uro * uro) + 50 * (z * z))) with (288 * (Rabs A * (uro * uro)) + 50 * (Rabs A * (z * z))) by ring. lra. }
      assert (AY3 : Rabs A * (y * y * y) <= 32 * w * (27 / 10)).
      { rewrite <- Rmult_assoc. replace (Rabs A * (y * y) * y) with (Rabs A * (y * y) * y) by ring. apply Rmult_le_compat; try lra. apply Rmult_le_pos; lra. }
      lra. }
    destruct Cs as [Cs|Cs].
    - (* the root q / 2 A *)
      assert (Eq : q = 2 * A * t).
      { assert (2 * A * t = S - B) by (unfold S; ring). unfold q. destruct (Rlt_dec B 0); lra. }
      exists (s_div fq fm). split; [left; reflexivity|].
      assert (Nm : val fm <> 0) by (rewrite Em; lra).
      assert (NR : Rabs (val fq / val fm - t) <= 5 * uro).
      { replace (val fq / val fm - t) with ((val fq - q) / (2 * A)) by (rewrite Em, Eq; field; exact NA).
        unfold Rdiv. rewrite Rabs_mult, Rabs_inv. assert (A2 : 0 < Rabs (2 * A)) by (apply Rabs_pos_lt; lra).
        apply Rmult_le_reg_r with (Rabs (2 * A)); [exact A2|]. rewrite Rmult_assoc, Rinv_l, Rmult_1_r by lra.
        apply Rle_trans with (1 := EQ). apply Rmult_le_compat_l; [lra|]. rewrite Eq.
        rewrite (Rabs_mult (2 * A)), (Rabs_pos_eq t) by lra.
        rewrite <- (Rmult_1_r (Rabs (2 * A))) at 2. apply Rmult_le_compat_l; lra. }
      destruct (RD fq fm (5 * uro) Fq Nm NR ltac:(lra)) as [FR ER]. split; [exact FR|]. cbv zeta. apply G. split; [apply Rabs_pos|].
      apply Rle_trans with (1 := ER). assert (uro * (5 * uro) <= uro * (5 / 2048)) by (apply Rmult_le_compat_l; lra). lra.
    - (* the root 2 c / q *)
      assert (Eq : 2 * c' = t * q).
      { assert (Q1 : q = - B - S) by (unfold q; destruct (Rlt_dec B 0); lra).
        rewrite Q1. unfold S. lra. }
      exists (s_div (s_mul d0 (s_lit 2)) fq). split; [right; left; reflexivity|].
      assert (C1 : 2 * Rabs c' <= Rabs q).
      { rewrite <- (Rabs_pos_eq 2) by lra. rewrite <- Rabs_mult, Eq, Rabs_mult, (Rabs_pos_eq t) by lra.
        rewrite <- (Rmult_1_l (Rabs q)) at 2. apply Rmult_le_compat_r; lra. }
      set (h := eta / Rabs A). assert (H0 : 0 <= h) by (unfold h; apply Rmult_le_pos; [lra|left; now apply Rinv_0_lt_compat]).
      assert (HZ : h = z * Rabs S) by (unfold h, z; field; lra).
      assert (EC' : Rabs (c' - val d0) <= 301 / 100 * uro * Rabs (val d0) + 2 * h).
      { apply Rmult_le_reg_r with (Rabs A); [exact AP|]. apply Rle_trans with (1 := EC). right. unfold h. field. lra. }
      assert (D0 : Rabs (val d0) <= Rabs c' + Rabs (c' - val d0)).
      { replace (val d0) with (c' - (c' - val d0)) at 1 by ring. apply abs_minus; lra. }
      assert (E1 : Rabs (val (s_mul d0 (s_lit 2)) - 2 * c') <= 31 / 10 * uro * Rabs q + 41 / 10 * h).
      { rewrite En. replace (val d0 * 2 - 2 * c') with (- (2 * (c' - val d0))) by ring. rewrite Rabs_Ropp, Rabs_mult, (Rabs_pos_eq 2) by lra.
        set (d := Rabs (c' - val d0)) in *. assert (d0' : 0 <= d) by apply Rabs_pos.
        assert (X1 : uro * Rabs (val d0) <= uro * (Rabs c' + d)) by (apply Rmult_le_compat_l; lra).
        assert (X2 : uro * d <= / 2048 * d) by (apply Rmult_le_compat_r; lra).
        assert (X3 : uro * (2 * Rabs c') <= uro * Rabs q) by (apply Rmult_le_compat_l; lra).
        assert (X4 : 0 <= uro * Rabs q) by (apply Rmult_le_pos; lra). lra. }
      pose proof (quot_near (2 * c') q (val (s_mul d0 (s_lit 2))) (val fq) t _ _ Nq Eq Ht E1 EQ QQ) as QN.
      assert (NR : Rabs (val (s_mul d0 (s_lit 2)) / val fq - t) <= 9 * uro + 46 / 10 * z).
      { apply Rmult_le_reg_r with (Rabs q); [exact Q0|]. apply Rle_trans with (1 := QN).
        assert (z * Rabs S <= z * Rabs q) by (apply Rmult_le_compat_l; lra).
        assert (0 <= uro * Rabs q) by (apply Rmult_le_pos; lra). rewrite HZ. lra. }
      destruct (RD _ fq _ Fn Nq NR ltac:(lra)) as [FR ER]. split; [exact FR|]. cbv zeta. apply G. split; [apply Rabs_pos|].
      apply Rle_trans with (1 := ER).
      assert (uro * (9 * uro + 46 / 10 * z) <= / 2048 * (9 * uro + 46 / 10 * z)) by (apply Rmult_le_compat_r; lra). lra.
  Qed.
  Let X t := val s + c * t + b / 2 * (t * t) + a / 3 * (t * t * t).
  Lemma stable_axis_box (l : list float) : stable_roots fa fb d0 = Ret l ->
    (forall t, fin t -> 0 <= val t <= 1 -> fin (cubic_at s k1 k2 e t) /\
       Rabs (val (cubic_at s k1 k2 e t) - bezier_poly [val s; val k1; val k2; val e] (val t)) <= 16 * uro * M + 4 * eta) ->
    forall lo hi, (forall z, In z (map (cubic_at s k1 k2 e) (filter in_unit l) ++ [s; e]) -> val lo <= val z <= val hi) ->
    forall t, 0 <= t <= 1 -> val lo - (16 * uro * M + 4 * eta + 334 * w) <= X t <= val hi + (16 * uro * M + 4 * eta + 334 * w).
  Proof.
    intros Hl Hev lo hi Hin. pose proof uro_pos as U0. pose proof uro_small as U1. pose proof eta_pos as T0.
    destruct (sizes3 M HM HO HU) as (H32 & H4 & Hw & Hw2 & HW2 & W0 & W00). fold w in Hw, Hw2, W0.
    destruct (coeffs M HM HO HU s k1 k2 e Fs F1 F2 Fe Bs B1 B2 Be) as ([Ffa Ea] & [Ffb Eb] & [Fc Ec]).
    destruct (coeff_sizes M HM HO HU s k1 k2 e Fs F1 F2 Fe Bs B1 B2 Be) as (Ba & Bb & Bc & Bfa & Bfb & Bfc).
    destruct (disc_err M HM HO HU s k1 k2 e Fs F1 F2 Fe Bs B1 B2 Be) as (FD & _ & BD).
    fold d0 d1 d2 in Ffa, Ea, Ffb, Eb, Fc, Ec, Bfa, Bfb, Bfc, FD, BD. fold fa in Ffa, Ea, Bfa, FD, BD.
    fold fb in Ffb, Eb, Bfb, FD, BD. fold fD in FD, BD. fold w in Ea, Eb, Ec.
    fold a in Ea, Ba. fold b in Eb, Bb. fold c in Ec, Bc.
    destruct (disc_near M HM HO HU HM1 s k1 k2 e Fs F1 F2 Fe Bs B1 B2 Be Hfa) as (K & c' & HK & ED & Ec' & EC).
    fold d0 d1 d2 in ED, EC. fold fa in ED, EC. fold fb in ED. fold fD in ED. fold A in ED, EC, Ea, Bfa. fold B in ED, Eb, Bfb. fold w c in Ec'.
    pose (slack0 := 64 * w).
    assert (NA : A <> 0) by (intros Z; rewrite Z, Rabs_R0 in Hfa; lra).
    assert (M2 : 0 < M * M) by (apply Rmult_lt_0_compat; exact HM).
    set (Y := fun t => val s + c' * t + B / 2 * (t * t) + A / 3 * (t * t * t)).
    assert (Z0 : 0 <= slack0) by (unfold slack0; lra).
    set (dd := 16 * uro * M + 4 * eta) in *.
    assert (Dd : 0 <= dd) by (unfold dd; assert (0 <= 16 * uro * M) by (repeat apply Rmult_le_pos; lra); lra).
    (* the two curves are close *)
    assert (XY : forall t, 0 <= t <= 1 -> Rabs (X t - Y t) <= 135 * w).
    { intros t Ht. assert (T2 : 0 <= t * t <= 1) by (split; [apply Rmult_le_pos; lra|rewrite <- (Rmult_1_l 1); apply Rmult_le_compat; lra]).
      assert (T3 : 0 <= t * t * t <= 1) by (split; [apply Rmult_le_pos; lra|rewrite <- (Rmult_1_l 1); apply Rmult_le_compat; lra]).
      apply Rabs_le_inv in Ea, Eb, Ec'.
      pose proof (mul_unit (c' - c) t (35 * w) ltac:(lra) Ht).
      pose proof (mul_unit ((B - b) / 2) (t * t) (54 * w) ltac:(lra) T2).
      pose proof (mul_unit ((A - a) / 3) (t * t * t) (38 * w) ltac:(lra) T3).
      replace (X t - Y t) with (- ((c' - c) * t) - (B - b) / 2 * (t * t) - (A - a) / 3 * (t * t * t)) by (unfold X, Y; field).
      apply Rabs_le. lra. }
    assert (X0 : X 0 = val s) by (unfold X; ring). assert (X1 : X 1 = val e) by (unfold X, a, b, c; field).
    assert (Is : val lo <= X 0 <= val hi) by (rewrite X0; apply Hin, in_or_app; right; left; reflexivity).
    assert (Ie : val lo <= X 1 <= val hi) by (rewrite X1; apply Hin, in_or_app; right; right; left; reflexivity).
    (* critical points of the neighbouring curve *)
    assert (C : forall t, 0 <= t <= 1 -> A * (t * t) + B * t + c' = 0 ->
      val lo - (dd + 135 * w + slack0) <= Y t <= val hi + (dd + 135 * w + slack0)).
    { intros t Ht Hp. pose proof (crit_disc A B c' t Hp) as HS. set (S := 2 * A * t + B) in *.
      pose proof ED as ED'. rewrite <- HS in ED. assert (SS : 0 <= S * S) by apply Rle_0_sqr.
      assert (Y0 := XY 0 ltac:(lra)). assert (Y1 := XY 1 ltac:(lra)). apply Rabs_le_inv in Y0, Y1.
      unfold stable_roots in Hl. rewrite ltb_val in Hl; [|now apply abs_fin|apply eps_ok].
      rewrite abs_val, (proj2 eps_ok), Rlt_bool_false in Hl by exact Hfa. cbv zeta in Hl. fold fD in Hl. fold fm fq in Hl.
      destruct (lit_small 0) as [L0 V0']; [lia|]. rewrite ltb_val in Hl by assumption. rewrite V0' in Hl.
      destruct (Rlt_bool_spec 0 (val fD)) as [HD|HD].
      - rewrite av_push_lt in Hl by (cbn; lia). cbn [bind app] in Hl. rewrite av_push_lt in Hl by (cbn; lia).
        cbn [app] in Hl. injection Hl as <-.
        fold fq in Hin.
        destruct (stable_near K c' t HK ED' HD EC Ht Hp) as (r & Ir & Fr & G). fold S in G. cbv zeta in G.
        set (y := Rabs (val r - t)) in *.
        assert (KK : forall z, 0 <= z <= 1 -> Rabs (z - t) <= y -> val lo - dd <= X z <= val hi + dd ->
          val lo - (dd + 135 * w + slack0) <= Y t <= val hi + (dd + 135 * w + slack0)).
        { intros z Hz Hq HX. pose proof (gap_le (val s) A B c' z t _ Hp Hq) as GL. fold S in GL.
          assert (GL' : Rabs (Y z - Y t) <= slack0) by (eapply Rle_trans; [exact GL|exact G]).
          pose proof (XY z Hz) as XZ. apply Rabs_le_inv in GL', XZ. lra. }
        destruct (Rle_or_lt (val r) 0) as [R0|R0]; [|destruct (Rle_or_lt 1 (val r)) as [R1|R1]].
        + apply (KK 0); [lra| |lra]. unfold y. rewrite !Rabs_left1 by lra. lra.
        + apply (KK 1); [lra| |lra]. unfold y. rewrite !Rabs_pos_eq by lra. lra.
        + apply (KK (val r)); [lra|unfold y; lra|].
          assert (I : in_unit r = true).
          { unfold in_unit. destruct (lit_small 1) as [A1' B1']; [lia|].
            rewrite !ltb_val by assumption. rewrite V0', B1'. rewrite !Rlt_bool_true by assumption. reflexivity. }
          assert (Hr : val lo <= val (cubic_at s k1 k2 e r) <= val hi).
          { apply Hin, in_or_app. left. apply in_map. apply filter_In. split; [exact Ir|exact I]. }
          destruct (Hev r Fr) as [_ Ev]; [lra|]. rewrite X_poly in Ev. apply Rabs_le_inv in Ev. fold a b c in Ev.
          change (- dd <= val (cubic_at s k1 k2 e r) - X (val r) <= dd) in Ev. lra.
      - (* a horizontal inflection point *)
        assert (S0 : S * S = 0).
        { assert (9 / 10 * (S * S) <= K * (S * S)) by (apply Rmult_le_compat_r; lra). lra. }
        assert (S00 : Rabs S <= 0) by (assert (S = 0) as -> by (apply Rsqr_0_uniq; exact S0); rewrite Rabs_R0; lra).
        pose proof (flat_crit (val s) A B c' t 0 Ht Hp NA (Rle_refl 0) S00) as FC.
        assert (Hp' : - A * (t * t) + - B * t + - c' = 0) by lra.
        assert (S00' : Rabs (2 * - A * t + - B) <= 0) by (replace (2 * - A * t + - B) with (- S) by (unfold S; ring); now rewrite Rabs_Ropp).
        assert (NA' : - A <> 0) by lra.
        pose proof (flat_crit (- val s) (- A) (- B) (- c') t 0 Ht Hp' NA' (Rle_refl 0) S00') as FC'.
        replace (0 * 0 * 0 / (6 * (A * A))) with 0 in FC by (field; exact NA).
        replace (0 * 0 * 0 / (6 * (- A * - A))) with 0 in FC' by (field; exact NA).
        assert (NX : forall q, - val s + - c' * q + - B / 2 * (q * q) + - A / 3 * (q * q * q) = - Y q) by (intros; unfold Y; field).
        rewrite !NX in FC'. change (Y 0 <= Y t + 0 \/ Y 1 <= Y t + 0) in FC. split.
        + destruct FC as [FC|FC]; lra.
        + destruct FC' as [FC'|FC']; lra. }
    unfold slack0 in C, Z0. intros t Ht. assert (XT := XY t Ht). apply Rabs_le_inv in XT.
    assert (Y0 := XY 0 ltac:(lra)). assert (Y1 := XY 1 ltac:(lra)). apply Rabs_le_inv in Y0, Y1. split.
    - destruct (crit_min (val s) A B c' t Ht) as (m & Hm & Hle & Cm). change (Y m <= Y t) in Hle.
      destruct Cm as [-> |[-> |Cm]]; [lra|lra|]. pose proof (C m Hm Cm). lra.
    - destruct (crit_min (- val s) (- A) (- B) (- c') t Ht) as (m & Hm & Hle & Cm).
      assert (NX : forall q, - val s + - c' * q + - B / 2 * (q * q) + - A / 3 * (q * q * q) = - Y q) by (intros; unfold Y; field).
      rewrite !NX in Hle.
      destruct Cm as [-> |[-> |Cm]]; [lra|lra|].
      assert (Cm' : A * (m * m) + B * m + c' = 0) by lra. pose proof (C m Hm Cm'). lra.
  Qed.
End Cub.

Section Generic.
  Context {T P : Type} {ST : Scalar T} {PT : Point T P} {CP : CwPoint T P}.
  Lemma stable_roots_len (a b c : T) : exists l, stable_roots a b c = Ret l /\ (length l <= 2)%nat.
  Proof.
    unfold stable_roots. cbv zeta.
    destruct (s_ltb (s_abs a) s_eps); [destruct (s_ltb (s_abs b) s_eps)|destruct (s_ltb (s_lit 0) _); [|destruct (s_ltb (s_abs _) s_eps)]];
      rewrite ?av_push_lt by (cbn; lia); cbn [bind app]; rewrite ?av_push_lt by (cbn; lia); eexists; (split; [reflexivity|cbn; lia]).
  Qed.
  Lemma stable_axis_roots (k : cubic P) i : (i < p_dim (P := P))%nat ->
    let s := cw (c_start k) i in let c1 := cw (c_ctrl1 k) i in
    let c2 := cw (c_ctrl2 k) i in let e := cw (c_end k) i in
    let d0 := s_mul (s_sub c1 s) (s_lit 3) in let d1 := s_mul (s_sub c2 c1) (s_lit 3) in
    let d2 := s_mul (s_sub e c2) (s_lit 3) in
    let a := s_add (s_add d0 (s_mul d1 (s_lit (-2)))) d2 in
    let b := s_add (s_mul d0 (s_lit (-2))) (s_mul d1 (s_lit 2)) in
    exists l, stable_roots a b d0 = Ret l /\
      stable_bbox_axis k i = box_of (map (cubic_at s c1 c2 e) (filter in_unit l) ++ [s; e]).
  Proof.
    intros Hi s c1 c2 e d0 d1 d2 a b. unfold stable_bbox_axis. cbv zeta. rewrite !axis_in by exact Hi. cbn [bind].
    unfold cubic_derivative. cbn [q_start q_ctrl q_end]. rewrite !cw_add, !cw_mul, !cw_sub by exact Hi.
    fold s c1 c2 e d0 d1 d2. fold a b.
    destruct (stable_roots_len a b d0) as (l & -> & L). cbn [bind].
    exists l. split; [reflexivity|].
    rewrite av_extend_le by (cbn [length]; lia). cbn [bind app].
    rewrite cubic_eval_roots_value by exact Hi. cbn [bind]. fold s c1 c2 e.
    pose proof (filter_length_gen in_unit l) as FL.
    rewrite av_push_lt by (rewrite map_length; lia). cbn [bind].
    rewrite av_push_lt by (rewrite app_length, map_length; cbn [length]; lia). cbn [bind].
    unfold box_of. rewrite <- app_assoc. reflexivity.
  Qed.
End Generic.

Lemma stable_flat {F : Format} (a b c : float) : fin a -> Rabs (val a) < 2 * uro -> stable_roots a b c = quad_real_roots a b c.
Proof.
  intros Fa H. unfold stable_roots, quad_real_roots. rewrite ltb_val; [|now apply abs_fin|apply eps_ok].
  now rewrite abs_val, (proj2 eps_ok), Rlt_bool_true by exact H.
Qed.

Section Box.
  Context {F : Format} {P : Type} {PT : Point float P} {CP : CwPoint float P}.

  Theorem stable_box (q : cubic P) M : 1 <= M -> 2048 * (M * M) <= fmax -> 4 * M <= uro * fmax ->
    bounded M (c_start q) -> bounded M (c_ctrl1 q) -> bounded M (c_ctrl2 q) -> bounded M (c_end q) ->
    exists bounds, stable_bounding_box q = Ret bounds /\ length bounds = p_dim (P := P) /\
      encloses (p_dim (P := P)) bounds (fun i =>
        bezier_poly [val (cw (c_start q) i); val (cw (c_ctrl1 q) i); val (cw (c_ctrl2 q) i); val (cw (c_end q) i)])
        (350 * uro * M + 4 * eta) (16 * uro * M + 4 * eta).
  Proof.
    intros HM HO HB Bs B1 B2 Be.
    pose proof uro_pos as U0. pose proof eta_uro as TU. pose proof eta_pos as T0.
    assert (M1 : 1 * 1 <= M * M) by (apply Rmult_le_compat; lra).
    assert (M2 : M * 1 <= M * M) by (apply Rmult_le_compat_l; lra).
    assert (HU : eta <= uro * (M * M)).
    { assert (uro * 1 <= uro * (M * M)) by (apply Rmult_le_compat_l; lra). lra. }
    assert (H4 : 4 * M <= fmax) by lra.
    assert (UM : uro * 1 <= uro * M) by (apply Rmult_le_compat_l; lra).
    set (sl := 350 * uro * M + 4 * eta).
    assert (A : forall i, (i < p_dim (P := P))%nat -> exists lo hi, stable_bbox_axis q i = Ret (lo, hi) /\
      holds_axis lo hi (bezier_poly [val (cw (c_start q) i); val (cw (c_ctrl1 q) i); val (cw (c_ctrl2 q) i); val (cw (c_end q) i)]) sl /\
      tight_axis lo hi (bezier_poly [val (cw (c_start q) i); val (cw (c_ctrl1 q) i); val (cw (c_ctrl2 q) i); val (cw (c_end q) i)])
        (16 * uro * M + 4 * eta)).
    { intros i Hi. destruct (stable_axis_roots q i Hi) as (l & El & ->).
      destruct (Bs i Hi) as [Fs Vs], (B1 i Hi) as [F1 V1], (B2 i Hi) as [F2 V2], (Be i Hi) as [Fe Ve].
      assert (Hev : forall t, fin t -> 0 <= val t <= 1 ->
        fin (cubic_at (cw (c_start q) i) (cw (c_ctrl1 q) i) (cw (c_ctrl2 q) i) (cw (c_end q) i) t) /\
        Rabs (val (cubic_at (cw (c_start q) i) (cw (c_ctrl1 q) i) (cw (c_ctrl2 q) i) (cw (c_end q) i) t) -
          bezier_poly [val (cw (c_start q) i); val (cw (c_ctrl1 q) i); val (cw (c_ctrl2 q) i); val (cw (c_end q) i)] (val t)) <= 16 * uro * M + 4 * eta).
      { intros t Ft Ht. assert (HM0 : 0 <= M) by lra.
        pose proof (cubic_casteljau_err M HM0 H4 q t i Hi Ft Ht (Bs i Hi) (B1 i Hi) (B2 i Hi) (Be i Hi)) as Q.
        unfold cubic_eval_casteljau in Q. rewrite !cw_mixg in Q by exact Hi. exact Q. }
      assert (HMp : 0 < M) by lra.
      match type of El with stable_roots ?x _ _ = _ => destruct (Rlt_or_le (Rabs (val x)) (2 * uro)) as [Sm|Lm] end.
      - destruct (coeffs M HMp HO HU _ _ _ _ Fs F1 F2 Fe Vs V1 V2 Ve) as ([Ffa _] & _). rewrite stable_flat in El by assumption.
        destruct (flat_axis_box M HMp HM HO HU HB _ _ _ _ Fs F1 F2 Fe Vs V1 V2 Ve Sm l El Hev) as (lo & hi & Eb & (H1 & H2 & H3) & T).
        exists lo, hi. split; [exact Eb|]. split; [|exact T]. split; [exact H1|]. split; [exact H2|]. intros t Ht.
        specialize (H3 t Ht). unfold sl. lra.
      - set (s := cw (c_start q) i) in *. set (k1 := cw (c_ctrl1 q) i) in *. set (k2 := cw (c_ctrl2 q) i) in *. set (e := cw (c_end q) i) in *.
        assert (Fl : forall z, In z (map (cubic_at s k1 k2 e) (filter in_unit l) ++ [s; e]) -> fin z).
        { intros z Hz. apply in_app_or in Hz as [Hz|Hz].
          - apply in_map_iff in Hz as (t & <- & Ht). apply filter_In in Ht as [_ Ht].
            destruct (in_unit_fin t Ht) as [Ft Vt]. apply Hev; [exact Ft|lra].
          - destruct Hz as [<-|[<-|[]]]; assumption. }
        destruct (box_fin _ (tail_len (cubic_at s k1 k2 e) (filter in_unit l) s e) Fl) as (lo & hi & Eb' & Ilo & Ihi & Hin).
        exists lo, hi. split; [exact Eb'|]. split.
        + split; [auto|]. split; [auto|]. intros t Ht.
          pose proof (stable_axis_box M HMp HO HU HM s k1 k2 e Fs F1 F2 Fe Vs V1 V2 Ve Lm l El Hev lo hi Hin t Ht) as Q.
          rewrite X_poly. unfold sl. lra.
        + assert (G : forall z, In z (map (cubic_at s k1 k2 e) (filter in_unit l) ++ [s; e]) ->
            exists t, 0 <= t <= 1 /\ Rabs (val z - bezier_poly [val s; val k1; val k2; val e] t) <= 16 * uro * M + 4 * eta).
          { intros z Hz. apply in_app_or in Hz as [Hz|Hz].
            - apply in_map_iff in Hz as (t & <- & Ht). apply filter_In in Ht as [_ Ht].
              destruct (in_unit_fin t Ht) as [Ft Vt]. exists (val t). split; [lra|]. apply Hev; [exact Ft|lra].
            - assert (UM' : 0 <= uro * M) by lra.
              destruct Hz as [<-|[<-|[]]]; [exists 0|exists 1]; (split; [lra|]); rewrite poly3;
                (match goal with |- Rabs ?x <= _ => replace x with 0 by ring end); rewrite Rabs_R0; lra. }
          split; apply G; assumption. }
    change (stable_bounding_box q) with (fill (stable_bbox_axis q) (repeat (s_lit 0, s_lit 0) (p_dim (P := P))) (p_dim (P := P))).
    destruct (fill_ret (stable_bbox_axis q) (repeat (s_lit 0, s_lit 0) (p_dim (P := P))) (p_dim (P := P)))
      as (bs & E & L & N).
    - apply len_init.
    - intros i Hi. destruct (A i Hi) as (lo & hi & -> & _). eauto.
    - exists bs.  split; [exact E|]. rewrite repeat_length in L. split; [exact L|].
      intros i Hi. destruct (A i Hi) as (lo & hi & E1 & H1 & T). destruct (N i Hi) as (z & E2 & E3).
      rewrite E1 in E2. injection E2 as <-. exists lo, hi. auto.
  Qed.

End Box.

(** over the reals the change of the formula changes nothing *)
Section Same.
  Context {E : Eps}.
  Lemma stable_perm (a b c : R) : exists l l', quad_real_roots a b c = Ret l /\ stable_roots a b c = Ret l' /\ Permutation l l'.
  Proof.
    unfold quad_real_roots, stable_roots. cbv zeta. rs.
    destruct (Rltb_spec (Rabs a) eps) as [Ha|Ha].
    - destruct (Rltb_spec (Rabs b) eps); [eexists _, _; split; [reflexivity|]; split; [reflexivity|apply Permutation_refl]|].
      rewrite av_push_lt by (cbn; lia). eexists _, _. split; [reflexivity|]. split; [reflexivity|apply Permutation_refl].
    - assert (Na : a <> 0) by (apply abs_ge_eps_neq; lra).
      destruct (Rltb_spec 0 (b * b - a * c * 4)) as [HD|HD].
      + set (D := sqrt (b * b - a * c * 4)). assert (DD : D * D = b * b - a * c * 4) by (apply sqrt_def; lra).
        assert (D0 : 0 < D) by (apply sqrt_lt_R0; exact HD).
        rewrite !av_push_lt by (cbn; lia). cbn [bind app]. rewrite !av_push_lt by (cbn; lia). cbn [app].
        eexists _, _. split; [reflexivity|]. split; [reflexivity|].
        destruct (Rltb_spec b 0) as [Hb|Hb].
        * replace (c * 2 / (- b + D)) with ((- b - D) / (a * 2)); [apply perm_swap|].
          replace c with ((b * b - D * D) / (4 * a)) by (rewrite DD; field; lra). field. split; lra.
        * replace (c * 2 / (- b - D)) with ((- b + D) / (a * 2)); [apply Permutation_refl|].
          replace c with ((b * b - D * D) / (4 * a)) by (rewrite DD; field; lra). field. split; lra.
      + destruct (Rltb_spec (Rabs (b * b - a * c * 4)) eps).
        * rewrite av_push_lt by (cbn; lia). eexists _, _. split; [reflexivity|]. split; [reflexivity|apply Permutation_refl].
        * eexists _, _; split; [reflexivity|]; split; [reflexivity|apply Permutation_refl].
  Qed.

  Lemma box_of_R (l : list R) : l <> [] -> exists lo hi, box_of l = Ret (lo, hi) /\ In lo l /\ In hi l /\ forall x, In x l -> lo <= x <= hi.
  Proof.
    intros H. unfold box_of. rewrite sort_R. cbn [bind]. destruct (isort_ends l H) as (lo & hi & -> & E2 & I1 & I2 & I3).
    cbn [bind]. rewrite E2. cbn [bind]. exists lo, hi. auto.
  Qed.
  Lemma box_of_same (l l' : list R) : l <> [] -> (forall x, In x l <-> In x l') -> box_of l = box_of l'.
  Proof.
    intros H HI. assert (H' : l' <> []) by (destruct l as [|x l]; [congruence|]; intros ->; exact (proj1 (HI x) (or_introl eq_refl))).
    destruct (box_of_R l H) as (lo & hi & -> & I1 & I2 & I3). destruct (box_of_R l' H') as (lo' & hi' & -> & J1 & J2 & J3).
    pose proof (I3 lo' (proj2 (HI _) J1)). pose proof (I3 hi' (proj2 (HI _) J2)).
    pose proof (J3 lo (proj1 (HI _) I1)). pose proof (J3 hi (proj1 (HI _) I2)). f_equal. f_equal; lra.
  Qed.

  Context {P : Type} {PT : Point R P} {CP : CwPoint R P}.
  Lemma stable_axis_same (k : cubic P) i : (i < p_dim (P := P))%nat -> stable_bbox_axis k i = cubic_bbox_axis k i.
  Proof.
    intros Hi. destruct (stable_axis_roots k i Hi) as (l & El & ->). destruct (cubic_bbox_axis_roots k i Hi) as (l' & El' & ->).
    match type of El with stable_roots ?x ?y ?z = _ => destruct (stable_perm x y z) as (m & m' & E1 & E2 & HP) end.
    rewrite E1 in El'. injection El' as <-. rewrite E2 in El. injection El as <-.
    apply box_of_same; [intros C; apply app_eq_nil in C as [_ C]; discriminate|].
    intros x. rewrite !in_app_iff, !in_map_iff.
    assert (Q : forall t, In t (filter in_unit m') <-> In t (filter in_unit m)).
    { intros t. rewrite !filter_In. split; intros [I1 I2]; (split; [|exact I2]);
        [apply Permutation_in with (1 := Permutation_sym HP)|apply Permutation_in with (1 := HP)]; exact I1. }
    split; (intros [(t & E0 & It)|It]; [left; exists t; split; [exact E0|now apply Q]|now right]).
  Qed.
  Lemma fill_ext {B} (f g : nat -> outcome B) init n : (forall i, (i < n)%nat -> f i = g i) -> fill f init n = fill g init n.
  Proof.
    intros H. unfold fill. apply for_in_ext. intros i s Hi. unfold range in Hi. apply in_seq in Hi. rewrite H by lia. reflexivity.
  Qed.
  Theorem stable_box_same (k : cubic P) : stable_bounding_box k = cubic_bounding_box k.
  Proof.
    rewrite cubic_box_fill.
    change (stable_bounding_box k) with (fill (stable_bbox_axis k) (repeat (s_lit 0, s_lit 0) (p_dim (P := P))) (p_dim (P := P))).
    apply fill_ext. intros i Hi. now apply stable_axis_same.
  Qed.
End Same.
