(** Bounding boxes of cubics in floating point, by backward error: the roots computed for the
    derivative are nearly the exact roots of a polynomial with coefficients that are all nearly
    right, hence critical points of a curve that is nearly the given one. *)
From Coq Require Import Reals ZArith List Arith Lia Lra Psatz Bool.
From Flocq Require Import Core.Core IEEE754.BinarySingleNaN.
From Verif Require Import Base.Outcome Base.Scalar Model.Point Model.Line Model.Quadratic Model.Cubic Proofs.OutcomeFacts
  Inst.FloatInst Spec.Bernstein Spec.Rounding Spec.Componentwise Spec.FloatPoints Spec.FloatBoxes Spec.Scaling Spec.Exact
  Proofs.FloatFacts Proofs.FloatEval Proofs.FloatBound Proofs.FloatNorm Proofs.FloatNear Proofs.FloatEnds Proofs.ExactEval Proofs.BoxGeneric
  Proofs.FloatBox Proofs.FloatBoxQuad Proofs.FloatBoxCubic Proofs.FloatScale Proofs.FloatExact Proofs.FloatBoxFlat.
Import ListNotations.
Local Open Scope R_scope.

Lemma abs_le_0 x : Rabs x <= 0 -> x = 0.
Proof. intros H. apply Rabs_le_inv in H. lra. Qed.
(** an error bounded by u |x| + h as a relative and an absolute part *)
Lemma err_parts x y u h : 0 <= u -> 0 <= h -> Rabs (y - x) <= u * Rabs x + h ->
  exists d k, y = x * (1 + d) + k /\ Rabs d <= u /\ Rabs k <= h.
Proof.
  intros Hu Hh H. pose proof (Rabs_pos x) as X0.
  assert (P0 : 0 <= u * Rabs x) by now apply Rmult_le_pos.
  destruct (Req_dec (u * Rabs x + h) 0) as [Z|N].
  - assert (Y : y - x = 0) by (apply abs_le_0; lra).
    exists 0, 0. rewrite Rabs_R0. split; [lra|]. split; lra.
  - assert (S0 : 0 < u * Rabs x + h) by (destruct (Rtotal_order 0 (u * Rabs x + h)) as [?|[?|?]]; lra).
    set (s := u * Rabs x + h) in *.
    set (g := (y - x) / s). assert (G : Rabs g <= 1).
    { unfold g, Rdiv. rewrite Rabs_mult, Rabs_inv, (Rabs_pos_eq s) by lra.
      apply Rmult_le_reg_r with s; [exact S0|]. rewrite Rmult_assoc, Rinv_l by lra. lra. }
    assert (GU : Rabs (g * u) <= u).
    { rewrite Rabs_mult, (Rabs_pos_eq u) by exact Hu. rewrite <- (Rmult_1_l u) at 2. now apply Rmult_le_compat_r. }
    assert (GH : Rabs (g * h) <= h).
    { rewrite Rabs_mult, (Rabs_pos_eq h) by exact Hh. rewrite <- (Rmult_1_l h) at 2. now apply Rmult_le_compat_r. }
    assert (Y : y = x + g * s) by (unfold g; field; lra).
    destruct (Rle_or_lt 0 x) as [Px|Nx].
    + exists (g * u), (g * h). split; [|auto]. rewrite Y. unfold s. rewrite (Rabs_pos_eq x) by exact Px. ring.
    + exists (- (g * u)), (g * h). rewrite Rabs_Ropp. split; [|auto]. rewrite Y. unfold s. rewrite (Rabs_left x) by exact Nx. ring.
Qed.

(** the computed discriminant is nearly that of a polynomial with another constant term *)
Lemma disc_backward A B C D u h d1 h1 d2 h2 d3 d4 h4 : A <> 0 -> 0 <= u -> u <= / 2048 -> 0 <= h ->
  Rabs d1 <= u -> Rabs d2 <= u -> Rabs d3 <= u -> Rabs d4 <= u -> Rabs h1 <= h -> Rabs h2 <= h -> Rabs h4 <= h ->
  D = (B * B * (1 + d1) + h1 - ((A * C * (1 + d2) + h2) * 4 * (1 + d4) + h4)) * (1 + d3) ->
  exists K C', 1 - 21 / 10 * u <= K <= 1 + 21 / 10 * u /\ D = K * (B * B - 4 * A * C') /\
    Rabs (C' - C) * Rabs A <= 301 / 100 * u * (Rabs A * Rabs C) + 2 * h.
Proof.
  intros HA U0 U1 H0 D1 D2 D3 D4 K1 K2 K4 HD.
  apply Rabs_le_inv in D1. apply Rabs_le_inv in D3.
  assert (P1 : 0 < 1 + d1) by lra. assert (P3 : 0 < 1 + d3) by lra.
  set (K := (1 + d1) * (1 + d3)). assert (PK : 0 < K) by now apply Rmult_lt_0_compat.
  set (C' := (B * B - D / K) / (4 * A)). exists K, C'. split; [|split].
  - assert (UU : u * u <= / 2048 * u) by (apply Rmult_le_compat_r; lra).
    assert (Q : - (u * u) <= d1 * d3 <= u * u).
    { apply Rabs_le_inv, abs_prod; apply Rabs_le; lra. }
    unfold K. replace ((1 + d1) * (1 + d3)) with (1 + d1 + d3 + d1 * d3) by ring. lra.
  - unfold C'. field. split; lra.
  - assert (E : (C' - C) * A = (A * C * (d2 + d4 + d2 * d4 - d1) + h2 * (1 + d4) + h4 / 4 - h1 / 4) / (1 + d1)).
    { unfold C'. rewrite HD. unfold K. field. repeat split; lra. }
    rewrite <- Rabs_mult, E. unfold Rdiv at 1. rewrite Rabs_mult, Rabs_inv, (Rabs_pos_eq (1 + d1)) by lra.
    apply Rmult_le_reg_r with (1 + d1); [exact P1|]. rewrite Rmult_assoc, Rinv_l, Rmult_1_r by lra.
    assert (UU : u * u <= / 2048 * u) by (apply Rmult_le_compat_r; lra).
    pose proof (Rabs_pos A). pose proof (Rabs_pos C). assert (AC : 0 <= Rabs A * Rabs C) by now apply Rmult_le_pos.
    assert (DD : Rabs (d2 + d4 + d2 * d4 - d1) <= 3001 / 1000 * u).
    { apply Rle_trans with (u + u + u * u + u); [|lra].
      apply abs_minus; [apply abs_plus; [now apply abs_plus|now apply abs_prod]|apply Rabs_le; lra]. }
    assert (Q1 : Rabs (A * C * (d2 + d4 + d2 * d4 - d1)) <= Rabs A * Rabs C * (3001 / 1000 * u)).
    { apply abs_prod; [rewrite Rabs_mult; lra|exact DD]. }
    assert (Q2 : Rabs (h2 * (1 + d4)) <= h * (1 + / 2048)).
    { apply abs_prod; [exact K2|]. apply Rabs_le_inv in D4. apply Rabs_le. lra. }
    assert (Q : Rabs (A * C * (d2 + d4 + d2 * d4 - d1) + h2 * (1 + d4) + h4 / 4 - h1 / 4)
      <= Rabs A * Rabs C * (3001 / 1000 * u) + h * (1 + / 2048) + h / 4 + h / 4).
    { apply abs_minus; [apply abs_plus; [now apply abs_plus|]|];
        (unfold Rdiv; rewrite Rabs_mult, (Rabs_pos_eq (/ 4)) by lra; lra). }
    apply Rle_trans with (1 := Q).
    assert (ACu : 0 <= Rabs A * Rabs C * u) by now apply Rmult_le_pos.
    assert (L : (301 / 100 * u * (Rabs A * Rabs C) + 2 * h) * (1 - u) <= (301 / 100 * u * (Rabs A * Rabs C) + 2 * h) * (1 + d1)).
    { apply Rmult_le_compat_l; [|lra]. replace (301 / 100 * u * (Rabs A * Rabs C)) with (301 / 100 * (Rabs A * Rabs C * u)) by ring. lra. }
    apply Rle_trans with (2 := L). replace (301 / 100 * u * (Rabs A * Rabs C)) with (301 / 100 * (Rabs A * Rabs C * u)) by ring.
    set (Z := Rabs A * Rabs C * u) in *. replace (Rabs A * Rabs C * (3001 / 1000 * u)) with (3001 / 1000 * Z) by (unfold Z; ring).
    assert (uZ : u * Z <= / 2048 * Z) by (apply Rmult_le_compat_r; lra).
    assert (uh : u * h <= / 2048 * h) by (apply Rmult_le_compat_r; lra).
    replace ((301 / 100 * Z + 2 * h) * (1 - u)) with (301 / 100 * Z + 2 * h - 301 / 100 * (u * Z) - 2 * (u * h)) by ring. lra.
Qed.

Lemma sqrt_near K x u : 0 <= u -> u <= / 2048 -> 1 - 21 / 10 * u <= K <= 1 + 21 / 10 * u -> 0 <= x ->
  Rabs (sqrt x - sqrt (K * x)) <= 12 / 10 * u * sqrt x.
Proof.
  intros U0 U1 HK Hx. rewrite sqrt_mult by lra. pose proof (sqrt_pos x) as S0.
  replace (sqrt x - sqrt K * sqrt x) with ((1 - sqrt K) * sqrt x) by ring.
  rewrite Rabs_mult, (Rabs_pos_eq (sqrt x)) by exact S0. apply Rmult_le_compat_r; [exact S0|].
  pose proof (sqrt_pos K) as K0. assert (KK : sqrt K * sqrt K = K) by (apply sqrt_def; lra).
  assert (K1 : 9 / 10 <= sqrt K).
  { apply Rsqr_incr_0; [unfold Rsqr; rewrite KK; lra|lra|exact K0]. }
  assert (E : (1 - sqrt K) * (1 + sqrt K) = 1 - K) by (rewrite <- KK at 3; ring).
  assert (A : Rabs (1 - sqrt K) * (1 + sqrt K) <= 21 / 10 * u).
  { rewrite <- (Rabs_pos_eq (1 + sqrt K)) by lra. rewrite <- Rabs_mult, E. apply Rabs_le. lra. }
  assert (Rabs (1 - sqrt K) * (19 / 10) <= Rabs (1 - sqrt K) * (1 + sqrt K)) by (apply Rmult_le_compat_l; [apply Rabs_pos|lra]).
  lra.
Qed.

Section Cub.
  Context {F : Format}.
  Variable M : R.
  Hypotheses (HM : 0 < M) (HO : 2048 * (M * M) <= fmax) (HU : eta <= uro * (M * M)) (HM1 : 1 <= M).
  Let w := uro * M.
  Let W := uro * (M * M).
  Variables s k1 k2 e : float.
  Hypotheses (Fs : fin s) (F1 : fin k1) (F2 : fin k2) (Fe : fin e).
  Hypotheses (Bs : Rabs (val s) <= M) (B1 : Rabs (val k1) <= M) (B2 : Rabs (val k2) <= M) (Be : Rabs (val e) <= M).
  Let d0 := s_mul (s_sub k1 s) (s_lit 3).
  Let d1 := s_mul (s_sub k2 k1) (s_lit 3).
  Let d2 := s_mul (s_sub e k2) (s_lit 3).
  Let fa := s_add (s_add d0 (s_mul d1 (s_lit (-2)))) d2.
  Let fb := s_add (s_mul d0 (s_lit (-2))) (s_mul d1 (s_lit 2)).
  Let a := 3 * (val e - 3 * val k2 + 3 * val k1 - val s).
  Let b := 6 * (val k2 - 2 * val k1 + val s).
  Let c := 3 * (val k1 - val s).
  Let fD := s_sub (s_mul fb fb) (s_mul (s_mul fa d0) (s_lit 4)).
  Let fm := s_mul fa (s_lit 2).

  Lemma eta_sq : eta <= 2 * (uro * uro).
  Proof.
    unfold eta, uro. pose proof femax_gt. rewrite <- bpow_plus. change 2%R with (bpow radix2 1).
    rewrite <- bpow_plus. apply bpow_le. lia.
  Qed.

  Lemma disc_near : 2 * uro <= Rabs (val fa) -> exists K c', 1 - 21 / 10 * uro <= K <= 1 + 21 / 10 * uro /\
    val fD = K * (val fb * val fb - 4 * val fa * c') /\ Rabs (c' - c) <= 35 * w /\
    Rabs (c' - val d0) * Rabs (val fa) <= 301 / 100 * uro * (Rabs (val fa) * Rabs (val d0)) + 2 * eta.
  Proof.
    intros Hfa. destruct (sizes3 M HM HO HU) as (H32 & H4 & Hw & Hw2 & HW2 & W0 & W00). fold w in Hw, Hw2, W0. fold W in HW2, W00.
    destruct (coeffs M HM HO HU s k1 k2 e Fs F1 F2 Fe Bs B1 B2 Be) as ([Ffa Ea] & [Ffb Eb] & [Fc Ec]).
    destruct (coeff_sizes M HM HO HU s k1 k2 e Fs F1 F2 Fe Bs B1 B2 Be) as (_ & _ & _ & Bfa & Bfb & Bfc).
    fold d0 d1 d2 in Ffa, Ea, Ffb, Eb, Fc, Ec, Bfa, Bfb, Bfc. fold fa in Ffa, Ea, Bfa. fold fb in Ffb, Eb, Bfb. fold w in Ea, Eb, Ec.
    fold c in Ec. pose proof uro_pos as U0. pose proof uro_small as U1. pose proof eta_pos as T0.
    assert (M2 : 0 < M * M) by (apply Rmult_lt_0_compat; exact HM).
    assert (Na : val fa <> 0) by (intros Z; rewrite Z, Rabs_R0 in Hfa; lra).
    assert (P1 : Rabs (val fb * val fb) <= 579 * (M * M)).
    { apply Rle_trans with (2406 / 100 * M * (2406 / 100 * M)); [now apply abs_prod|lra]. }
    destruct (mul_ok fb fb Ffb Ffb) as [Fbb Ebb]; [lra|].
    pose proof (rnd_err (val fb * val fb)) as R1. rewrite <- Ebb in R1.
    assert (P2 : Rabs (val fa * val d0) <= 1447 / 10 * (M * M)).
    { apply Rle_trans with (2406 / 100 * M * (601 / 100 * M)); [now apply abs_prod|lra]. }
    destruct (mul_ok fa d0 Ffa Fc) as [Fac Eac]; [lra|].
    pose proof (rnd_err (val fa * val d0)) as R2. rewrite <- Eac in R2.
    assert (P3 : Rabs (val (s_mul fa d0)) <= 1449 / 10 * (M * M)).
    { apply Rle_trans with (1447 / 10 * (M * M) + (uro * (1447 / 10 * (M * M)) + W)).
      - eapply abs_near; [exact P2|]. eapply Rle_trans; [exact R2|]. apply Rplus_le_compat; [apply Rmult_le_compat_l; lra|exact HU].
      - replace (uro * (1447 / 10 * (M * M))) with (1447 / 10 * W) by (unfold W; field). lra. }
    destruct (lit_small 4) as [L1 L2]; [lia|].
    assert (P3' : Rabs (val (s_mul fa d0) * 4) <= 5796 / 10 * (M * M)).
    { apply Rle_trans with (1449 / 10 * (M * M) * 4); [apply abs_prod; [exact P3|rewrite Rabs_pos_eq; lra]|lra]. }
    destruct (mul_ok (s_mul fa d0) (s_lit 4) Fac L1) as [Fm Em]; [rewrite L2; lra|].
    rewrite L2 in Em. pose proof (rnd_err (val (s_mul fa d0) * 4)) as R3. rewrite <- Em in R3.
    assert (P4 : Rabs (val (s_mul fb fb)) <= 580 * (M * M)).
    { apply Rle_trans with (579 * (M * M) + (uro * (579 * (M * M)) + W)).
      - eapply abs_near; [exact P1|]. eapply Rle_trans; [exact R1|]. apply Rplus_le_compat; [apply Rmult_le_compat_l; lra|exact HU].
      - replace (uro * (579 * (M * M))) with (579 * W) by (unfold W; ring). lra. }
    assert (P5 : Rabs (val (s_mul (s_mul fa d0) (s_lit 4))) <= 581 * (M * M)).
    { apply Rle_trans with (5796 / 10 * (M * M) + (uro * (5796 / 10 * (M * M)) + W)).
      - eapply abs_near; [exact P3'|]. eapply Rle_trans; [exact R3|]. apply Rplus_le_compat; [apply Rmult_le_compat_l; lra|exact HU].
      - replace (uro * (5796 / 10 * (M * M))) with (5796 / 10 * W) by (unfold W; field). lra. }
    destruct (sub_ok (s_mul fb fb) (s_mul (s_mul fa d0) (s_lit 4)) Fbb Fm) as [Fd Ed].
    { apply Rle_trans with (580 * (M * M) + 581 * (M * M)); [now apply abs_minus|lra]. }
    fold fD in Fd, Ed.
    pose proof (rnd_sum_err (val (s_mul fb fb)) (- val (s_mul (s_mul fa d0) (s_lit 4))) (val_float _) (float_opp _ (val_float _))) as R4.
    replace (val (s_mul fb fb) + - val (s_mul (s_mul fa d0) (s_lit 4))) with (val (s_mul fb fb) - val (s_mul (s_mul fa d0) (s_lit 4))) in R4 by ring.
    rewrite <- Ed in R4.
    destruct (err_parts _ _ uro eta (Rlt_le _ _ U0) (Rlt_le _ _ T0) R1) as (x1 & y1 & E1 & X1 & Y1).
    destruct (err_parts _ _ uro eta (Rlt_le _ _ U0) (Rlt_le _ _ T0) R2) as (x2 & y2 & E2 & X2 & Y2).
    destruct (err_parts _ _ uro eta (Rlt_le _ _ U0) (Rlt_le _ _ T0) R3) as (x4 & y4 & E4 & X4 & Y4).
    rewrite <- (Rplus_0_r (uro * _)) in R4.
    destruct (err_parts _ _ uro 0 (Rlt_le _ _ U0) (Rle_refl 0) R4) as (x3 & y3 & E3 & X3 & Y3).
    assert (Z3 : y3 = 0) by now apply abs_le_0. rewrite Z3, Rplus_0_r in E3.
    rewrite E1, E4, E2 in E3.
    destruct (disc_backward (val fa) (val fb) (val d0) (val fD) uro eta x1 y1 x2 y2 x3 x4 y4 Na) as (K & c' & HK & ED & EC);
      try assumption; try lra.
    exists K, c'. split; [exact HK|]. split; [exact ED|]. split; [|exact EC].
    assert (PA : 0 < Rabs (val fa)) by lra.
    assert (EC' : Rabs (c' - val d0) <= 301 / 100 * uro * Rabs (val d0) + 2 * uro).
    { apply Rmult_le_reg_r with (Rabs (val fa)); [exact PA|]. apply Rle_trans with (1 := EC).
      pose proof eta_sq as TS.
      assert (uro * (2 * uro) <= uro * Rabs (val fa)) by (apply Rmult_le_compat_l; lra).
      replace ((301 / 100 * uro * Rabs (val d0) + 2 * uro) * Rabs (val fa))
        with (301 / 100 * uro * (Rabs (val fa) * Rabs (val d0)) + 2 * (uro * Rabs (val fa))) by ring. lra. }
    assert (Q : uro * Rabs (val d0) <= 601 / 100 * w).
    { replace (601 / 100 * w) with (uro * (601 / 100 * M)) by (unfold w; field). apply Rmult_le_compat_l; lra. }
    assert (uro * 1 <= w) by (unfold w; apply Rmult_le_compat_l; lra).
    replace (c' - c) with ((c' - val d0) + (val d0 - c)) by ring.
    apply Rle_trans with (21 * w + 14 * w); [|lra]. apply abs_plus; [lra|exact Ec].
  Qed.

  Let X t := val s + c * t + b / 2 * (t * t) + a / 3 * (t * t * t).
  Let Hs t := bezier_poly [val s; val k1; val k2; val e] t.
  Variable lam : R.
  Hypotheses (Hlam : 3 * M <= lam * Rabs a) (Hlu : 2048 * lam * uro <= 1).
  Let slack0 := 524288 * (lam * uro * (lam * uro)) * M.

  Lemma scale2 B : B * (a * a) <= 4718592 * (w * w) * M -> B <= slack0.
  Proof.
    intros H. destruct (lead_ok M HM HO HU s k1 k2 e Fs F1 F2 Fe Bs B1 B2 Be lam Hlam Hlu HM1) as (L & Na & _). fold a in Na.
    assert (A2 : 0 < a * a) by now apply Rsqr_pos_lt.
    apply Rmult_le_reg_r with (a * a); [exact A2|]. apply Rle_trans with (1 := H).
    assert (AA : Rabs a * Rabs a = a * a) by (rewrite <- Rabs_mult; apply Rabs_pos_eq; lra).
    assert (K : 3 * M * (3 * M) <= lam * Rabs a * (lam * Rabs a)) by (apply Rmult_le_compat; lra).
    replace (lam * Rabs a * (lam * Rabs a)) with (lam * lam * (a * a)) in K by (rewrite <- AA; ring).
    unfold slack0, w. pose proof uro_pos.
    replace (4718592 * (uro * M * (uro * M)) * M) with (524288 * (uro * uro) * M * (3 * M * (3 * M))) by ring.
    replace (524288 * (lam * uro * (lam * uro)) * M * (a * a)) with (524288 * (uro * uro) * M * (lam * lam * (a * a))) by ring.
    apply Rmult_le_compat_l; [|exact K]. repeat apply Rmult_le_pos; lra.
  Qed.

  Lemma back_axis_box (l : list float) : quad_real_roots fa fb d0 = Ret l ->
    (forall t, fin t -> 0 <= val t <= 1 -> fin (cubic_at s k1 k2 e t) /\
       Rabs (val (cubic_at s k1 k2 e t) - bezier_poly [val s; val k1; val k2; val e] (val t)) <= 16 * uro * M + 4 * eta) ->
    forall lo hi, (forall z, In z (map (cubic_at s k1 k2 e) (filter in_unit l) ++ [s; e]) -> val lo <= val z <= val hi) ->
    forall t, 0 <= t <= 1 -> val lo - (16 * uro * M + 4 * eta + 270 * w + slack0) <= X t <= val hi + (16 * uro * M + 4 * eta + 270 * w + slack0).
  Proof.
    intros Hl Hev lo hi Hin. pose proof uro_pos as U0. pose proof uro_small as U1. pose proof eta_pos as T0.
    destruct (sizes3 M HM HO HU) as (H32 & H4 & Hw & Hw2 & HW2 & W0 & W00). fold w in Hw, Hw2, W0. fold W in HW2, W00.
    destruct (lead_ok M HM HO HU s k1 k2 e Fs F1 F2 Fe Bs B1 B2 Be lam Hlam Hlu HM1) as (L & Na & Hwa & Hfa).
    destruct (coeffs M HM HO HU s k1 k2 e Fs F1 F2 Fe Bs B1 B2 Be) as ([Ffa Ea] & [Ffb Eb] & [Fc Ec]).
    destruct (coeff_sizes M HM HO HU s k1 k2 e Fs F1 F2 Fe Bs B1 B2 Be) as (Ba & Bb & Bc & Bfa & Bfb & Bfc).
    destruct (disc_err M HM HO HU s k1 k2 e Fs F1 F2 Fe Bs B1 B2 Be) as (FD & _ & BD).
    fold d0 d1 d2 in Ffa, Ea, Ffb, Eb, Fc, Ec, Bfa, Bfb, Bfc, Hfa, FD, BD. fold fa in Ffa, Ea, Bfa, Hfa, FD, BD.
    fold fb in Ffb, Eb, Bfb, FD, BD. fold fD in FD, BD. fold w in Ea, Eb, Ec, Hwa.
    fold a in Ea, Na, Hwa, Ba. fold b in Eb, Bb. fold c in Ec, Bc.
    destruct (disc_near Hfa) as (K & c' & HK & ED & Ec' & _).
    set (A := val fa) in *. set (B := val fb) in *.
    assert (NA : A <> 0) by (intros Z; rewrite Z, Rabs_R0 in Hfa; lra).
    assert (M2 : 0 < M * M) by (apply Rmult_lt_0_compat; exact HM).
    set (Y := fun t => val s + c' * t + B / 2 * (t * t) + A / 3 * (t * t * t)).
    assert (Z0 : 0 <= slack0) by (unfold slack0; repeat apply Rmult_le_pos; lra).
    set (dd := 16 * uro * M + 4 * eta) in *.
    assert (Dd : 0 <= dd) by (unfold dd; assert (0 <= 16 * uro * M) by (repeat apply Rmult_le_pos; lra); lra).
    (* the two curves are close *)
    assert (XY : forall t, 0 <= t <= 1 -> Rabs (X t - Y t) <= 135 * w).
    { intros t Ht. assert (T2 : 0 <= t * t <= 1) by (split; [apply Rmult_le_pos; lra|rewrite <- (Rmult_1_l 1); apply Rmult_le_compat; lra]).
      assert (T3 : 0 <= t * t * t <= 1) by (split; [apply Rmult_le_pos; lra|rewrite <- (Rmult_1_l 1); apply Rmult_le_compat; lra]).
      apply Rabs_le_inv in Ea, Eb, Ec'.
      pose proof (mul_unit (c' - c) t (35 * w) ltac:(lra) Ht).
      pose proof (mul_unit ((B - b) / 2) (t * t) (54 * w) ltac:(lra) T2).
      pose proof (mul_unit ((A - a) / 3) (t * t * t) (38 * w) ltac:(lra) T3).
      replace (X t - Y t) with (- ((c' - c) * t) - (B - b) / 2 * (t * t) - (A - a) / 3 * (t * t * t)) by (unfold X, Y; field).
      apply Rabs_le. lra. }
    assert (X0 : X 0 = val s) by (unfold X; ring). assert (X1 : X 1 = val e) by (unfold X, a, b, c; field).
    assert (Is : val lo <= X 0 <= val hi) by (rewrite X0; apply Hin, in_or_app; right; left; reflexivity).
    assert (Ie : val lo <= X 1 <= val hi) by (rewrite X1; apply Hin, in_or_app; right; right; left; reflexivity).
    (* critical points of the neighbouring curve *)
    assert (C : forall t, 0 <= t <= 1 -> A * (t * t) + B * t + c' = 0 ->
      val lo - (dd + 135 * w + slack0) <= Y t <= val hi + (dd + 135 * w + slack0)).
    { intros t Ht Hp. pose proof (crit_disc A B c' t Hp) as HS. set (S := 2 * A * t + B) in *.
      rewrite <- HS in ED. assert (SS : 0 <= S * S) by apply Rle_0_sqr.
      assert (Y0 := XY 0 ltac:(lra)). assert (Y1 := XY 1 ltac:(lra)). apply Rabs_le_inv in Y0, Y1.
      unfold quad_real_roots in Hl. rewrite ltb_val in Hl; [|now apply abs_fin|apply eps_ok].
      rewrite abs_val, (proj2 eps_ok), Rlt_bool_false in Hl by exact Hfa. cbv zeta in Hl. fold fD fm in Hl.
      destruct (lit_small 0) as [L0 V0']; [lia|]. rewrite ltb_val in Hl by assumption. rewrite V0' in Hl.
      destruct (Rlt_bool_spec 0 (val fD)) as [HD|HD].
      - rewrite av_push_lt in Hl by (cbn; lia). cbn [bind app] in Hl. rewrite av_push_lt in Hl by (cbn; lia).
        cbn [app] in Hl. injection Hl as <-.
        set (sg := if Rle_dec 0 S then true else false).
        destruct (root_ok M HM HO HU s k1 k2 e Fs F1 F2 Fe Bs B1 B2 Be lam Hlam Hlu HM1 sg HD) as [Fr Er].
        destruct (den_ok M HM HO HU s k1 k2 e Fs F1 F2 Fe Bs B1 B2 Be lam Hlam Hlu HM1) as (_ & _ & Bm & _).
        fold d0 d1 d2 in Fr, Er, Bm. fold fa in Fr, Er, Bm. fold fb in Fr, Er. fold fD in Fr, Er. fold fm in Fr, Er, Bm. fold a in Er, Bm. fold b in Er.
        fold w in Er. set (r := s_div (pm sg (s_neg fb) (s_sqrt fD)) fm) in *.
        specialize (Er t Ht).
        assert (S2 : sqrt (S * S) = Rabs S) by apply sqrt_Rsqr_abs.
        assert (BS : Rabs S <= 35 * M).
        { apply Rsqr_incr_0; [|apply Rabs_pos|lra]. unfold Rsqr. rewrite <- Rabs_mult, (Rabs_pos_eq (S * S)) by exact SS.
          rewrite Rabs_pos_eq in BD by lra. rewrite ED in BD.
          assert (99 / 100 * (S * S) <= K * (S * S)) by (apply Rmult_le_compat_r; lra). lra. }
        pose proof (sqrt_near K (S * S) uro (Rlt_le _ _ U0) U1 HK SS) as SN. rewrite S2, <- ED in SN.
        assert (SN' : Rabs (Rabs S - sqrt (val fD)) <= 42 * w).
        { apply Rle_trans with (1 := SN). replace (42 * w) with (12 / 10 * uro * (35 * M)) by (unfold w; field).
          apply Rmult_le_compat_l; lra. }
        assert (Sg : Rabs (pmr sg (- S) (sqrt (val fD))) <= 42 * w).
        { unfold sg, pmr. destruct (Rle_dec 0 S) as [P|P].
          - rewrite (Rabs_pos_eq S) in SN' by exact P. rewrite <- Rabs_Ropp. replace (- (- S + sqrt (val fD))) with (S - sqrt (val fD)) by ring. exact SN'.
          - rewrite (Rabs_left S) in SN' by lra. exact SN'. }
        assert (DS : Rabs ((2 * a * t + b) - S) <= 331 * w).
        { apply Rabs_le_inv in Ea, Eb. pose proof (mul_unit (A - a) t (112 * w) ltac:(lra) Ht).
          replace (2 * a * t + b - S) with (- 2 * ((A - a) * t) - (B - b)) by (unfold S; ring). apply Rabs_le. lra. }
        assert (Sg2 : Rabs (pmr sg (- (2 * a * t + b)) (sqrt (val fD))) <= 373 * w).
        { apply Rabs_le_inv in Sg. apply Rabs_le_inv in DS. apply Rabs_le. unfold pmr in *. destruct sg; lra. }
        set (y := Rabs (val r - t)) in *. assert (Py : 0 <= y) by apply Rabs_pos.
        assert (Er' : 19 / 10 * (Rabs a * y) <= 908 * w).
        { assert (19 / 10 * Rabs a * y <= Rabs (val fm) * y) by (apply Rmult_le_compat_r; assumption). lra. }
        set (q := Rabs a * y) in *. assert (PA : 0 < Rabs a) by now apply Rabs_pos_lt.
        assert (Pq : 0 <= q) by (unfold q; apply Rmult_le_pos; lra). assert (Q1 : q <= 478 * w) by lra.
        assert (Q2 : q * q <= 228484 * (w * w)) by (replace (228484 * (w * w)) with (478 * w * (478 * w)) by ring; apply Rmult_le_compat; assumption).
        assert (A1 : Rabs A <= 102 / 100 * Rabs a).
        { apply Rle_trans with (Rabs a + 112 * w); [apply (abs_near _ a); [lra|exact Ea]|lra]. }
        assert (G : Rabs S / 2 * (y * y) + Rabs A / 3 * (y * y * y) <= slack0).
        { apply scale2. assert (AA : a * a = Rabs a * Rabs a) by (rewrite <- Rabs_mult; symmetry; apply Rabs_pos_eq, Rle_0_sqr).
          rewrite AA. replace ((Rabs S / 2 * (y * y) + Rabs A / 3 * (y * y * y)) * (Rabs a * Rabs a))
            with (Rabs S / 2 * (q * q) + Rabs A * y / 3 * (q * q)) by (unfold q; field).
          assert (Pqq : 0 <= q * q) by now apply Rmult_le_pos.
          assert (AY : Rabs A * y <= 488 * w).
          { apply Rle_trans with (102 / 100 * Rabs a * y); [now apply Rmult_le_compat_r|]. replace (102 / 100 * Rabs a * y) with (102 / 100 * q) by (unfold q; ring). lra. }
          assert (T : Rabs S / 2 * (q * q) + Rabs A * y / 3 * (q * q) <= 18 * M * (q * q)).
          { rewrite <- Rmult_plus_distr_r. apply Rmult_le_compat_r; [exact Pqq|]. lra. }
          apply Rle_trans with (1 := T). apply Rle_trans with (18 * M * (228484 * (w * w))); [apply Rmult_le_compat_l; lra|].
          replace (4718592 * (w * w) * M) with (4718592 * (M * (w * w))) by ring.
          replace (18 * M * (228484 * (w * w))) with (4112712 * (M * (w * w))) by ring.
          assert (0 <= M * (w * w)) by (repeat apply Rmult_le_pos; lra). lra. }
        assert (KK : forall z, 0 <= z <= 1 -> Rabs (z - t) <= y -> val lo - dd <= X z <= val hi + dd ->
          val lo - (dd + 135 * w + slack0) <= Y t <= val hi + (dd + 135 * w + slack0)).
        { intros z Hz Hq HX. pose proof (gap_le (val s) A B c' z t _ Hp Hq) as GL. fold S in GL.
          assert (GL' : Rabs (Y z - Y t) <= slack0) by (eapply Rle_trans; [exact GL|exact G]).
          pose proof (XY z Hz) as XZ. apply Rabs_le_inv in GL', XZ. lra. }
        destruct (Rle_or_lt (val r) 0) as [R0|R0]; [|destruct (Rle_or_lt 1 (val r)) as [R1|R1]].
        + apply (KK 0); [lra| |lra]. unfold y. rewrite !Rabs_left1 by lra. lra.
        + apply (KK 1); [lra| |lra]. unfold y. rewrite !Rabs_pos_eq by lra. lra.
        + apply (KK (val r)); [lra|unfold y; lra|].
          assert (I : in_unit r = true).
          { unfold in_unit. destruct (lit_small 1) as [A1' B1']; [lia|].
            rewrite !ltb_val by assumption. rewrite V0', B1'. rewrite !Rlt_bool_true by assumption. reflexivity. }
          assert (Ir : In r [s_div (s_sub (s_neg fb) (s_sqrt fD)) fm; s_div (s_add (s_neg fb) (s_sqrt fD)) fm]).
          { unfold r, pm. destruct sg; [right; left|left]; reflexivity. }
          assert (Hr : val lo <= val (cubic_at s k1 k2 e r) <= val hi).
          { apply Hin, in_or_app. left. apply in_map. apply filter_In. split; [exact Ir|exact I]. }
          destruct (Hev r Fr) as [_ Ev]; [lra|]. rewrite X_poly in Ev. apply Rabs_le_inv in Ev. fold a b c in Ev.
          change (- dd <= val (cubic_at s k1 k2 e r) - X (val r) <= dd) in Ev. lra.
      - (* a horizontal inflection point *)
        assert (S0 : S * S = 0).
        { assert (9 / 10 * (S * S) <= K * (S * S)) by (apply Rmult_le_compat_r; lra). lra. }
        assert (S00 : Rabs S <= 0) by (assert (S = 0) as -> by (apply Rsqr_0_uniq; exact S0); rewrite Rabs_R0; lra).
        pose proof (flat_crit (val s) A B c' t 0 Ht Hp NA (Rle_refl 0) S00) as FC.
        assert (Hp' : - A * (t * t) + - B * t + - c' = 0) by lra.
        assert (S00' : Rabs (2 * - A * t + - B) <= 0) by (replace (2 * - A * t + - B) with (- S) by (unfold S; ring); now rewrite Rabs_Ropp).
        assert (NA' : - A <> 0) by lra.
        pose proof (flat_crit (- val s) (- A) (- B) (- c') t 0 Ht Hp' NA' (Rle_refl 0) S00') as FC'.
        replace (0 * 0 * 0 / (6 * (A * A))) with 0 in FC by (field; exact NA).
        replace (0 * 0 * 0 / (6 * (- A * - A))) with 0 in FC' by (field; exact NA).
        assert (NX : forall q, - val s + - c' * q + - B / 2 * (q * q) + - A / 3 * (q * q * q) = - Y q) by (intros; unfold Y; field).
        rewrite !NX in FC'. change (Y 0 <= Y t + 0 \/ Y 1 <= Y t + 0) in FC. split.
        + destruct FC as [FC|FC]; lra.
        + destruct FC' as [FC'|FC']; lra. }
    intros t Ht. assert (XT := XY t Ht). apply Rabs_le_inv in XT.
    assert (Y0 := XY 0 ltac:(lra)). assert (Y1 := XY 1 ltac:(lra)). apply Rabs_le_inv in Y0, Y1. split.
    - destruct (crit_min (val s) A B c' t Ht) as (m & Hm & Hle & Cm). change (Y m <= Y t) in Hle.
      destruct Cm as [-> |[-> |Cm]]; [lra|lra|]. pose proof (C m Hm Cm). lra.
    - destruct (crit_min (- val s) (- A) (- B) (- c') t Ht) as (m & Hm & Hle & Cm).
      assert (NX : forall q, - val s + - c' * q + - B / 2 * (q * q) + - A / 3 * (q * q * q) = - Y q) by (intros; unfold Y; field).
      rewrite !NX in Hle.
      destruct Cm as [-> |[-> |Cm]]; [lra|lra|].
      assert (Cm' : A * (m * m) + B * m + c' = 0) by lra. pose proof (C m Hm Cm'). lra.
  Qed.
End Cub.

Lemma poly3_bound M x0 x1 x2 x3 t : Rabs x0 <= M -> Rabs x1 <= M -> Rabs x2 <= M -> Rabs x3 <= M -> 0 <= t <= 1 ->
  - M <= bezier_poly [x0; x1; x2; x3] t <= M.
Proof.
  intros H0 H1 H2 H3 Ht. apply Rabs_le_inv in H0, H1, H2, H3. rewrite poly3.
  assert (A : 0 <= 1 - t) by lra. destruct Ht as [B _].
  assert (W0 : 0 <= (1 - t) * (1 - t) * (1 - t)) by (repeat apply Rmult_le_pos; assumption).
  assert (W1 : 0 <= (1 - t) * (1 - t) * t) by (repeat apply Rmult_le_pos; assumption).
  assert (W2 : 0 <= (1 - t) * t * t) by (repeat apply Rmult_le_pos; assumption).
  assert (W3 : 0 <= t * t * t) by (repeat apply Rmult_le_pos; assumption).
  assert (K : forall w x, 0 <= w -> - M <= x <= M -> - (w * M) <= w * x <= w * M).
  { intros w x Hw Hx. replace (- (w * M)) with (w * - M) by ring. split; apply Rmult_le_compat_l; lra. }
  pose proof (K _ x0 W0 H0). pose proof (K _ x1 W1 H1). pose proof (K _ x2 W2 H2). pose proof (K _ x3 W3 H3).
  split; lra.
Qed.

Section Box.
  Context {F : Format} {P : Type} {PT : Point float P} {CP : CwPoint float P}.

  Theorem cubic_box_back (q : cubic P) M lam : 1 <= M -> 2048 * (M * M) <= fmax -> 4 * M <= uro * fmax -> 0 <= lam ->
    bounded M (c_start q) -> bounded M (c_ctrl1 q) -> bounded M (c_ctrl2 q) -> bounded M (c_end q) ->
    (forall i, (i < p_dim (P := P))%nat -> Rabs (val (flead q i)) < 2 * uro \/
       M <= lam * Rabs (val (cw (c_end q) i) - 3 * val (cw (c_ctrl2 q) i) + 3 * val (cw (c_ctrl1 q) i) - val (cw (c_start q) i))) ->
    exists bounds, cubic_bounding_box q = Ret bounds /\ length bounds = p_dim (P := P) /\
      encloses (p_dim (P := P)) bounds (fun i =>
        bezier_poly [val (cw (c_start q) i); val (cw (c_ctrl1 q) i); val (cw (c_ctrl2 q) i); val (cw (c_end q) i)])
        (286 * uro * M + 4 * eta + 8388608 * (lam * uro * (lam * uro)) * M) (16 * uro * M + 4 * eta).
  Proof.
    intros HM HO HB HL0 Bs B1 B2 Be Hl.
    pose proof uro_pos as U0. pose proof eta_uro as TU. pose proof eta_pos as T0.
    assert (M1 : 1 * 1 <= M * M) by (apply Rmult_le_compat; lra).
    assert (M2 : M * 1 <= M * M) by (apply Rmult_le_compat_l; lra).
    assert (HU : eta <= uro * (M * M)).
    { assert (uro * 1 <= uro * (M * M)) by (apply Rmult_le_compat_l; lra). lra. }
    assert (H4 : 4 * M <= fmax) by lra.
    assert (UM : uro * 1 <= uro * M) by (apply Rmult_le_compat_l; lra).
    assert (LU : 0 <= lam * uro) by (apply Rmult_le_pos; lra).
    assert (L2 : 0 <= lam * uro * (lam * uro) * M) by (repeat apply Rmult_le_pos; lra).
    set (sl := 286 * uro * M + 4 * eta + 8388608 * (lam * uro * (lam * uro)) * M).
    assert (A : forall i, (i < p_dim (P := P))%nat -> exists lo hi, cubic_bbox_axis q i = Ret (lo, hi) /\
      holds_axis lo hi (bezier_poly [val (cw (c_start q) i); val (cw (c_ctrl1 q) i); val (cw (c_ctrl2 q) i); val (cw (c_end q) i)]) sl /\
      tight_axis lo hi (bezier_poly [val (cw (c_start q) i); val (cw (c_ctrl1 q) i); val (cw (c_ctrl2 q) i); val (cw (c_end q) i)])
        (16 * uro * M + 4 * eta)).
    { intros i Hi. destruct (cubic_bbox_axis_roots q i Hi) as (l & El & ->).
      destruct (Bs i Hi) as [Fs Vs], (B1 i Hi) as [F1 V1], (B2 i Hi) as [F2 V2], (Be i Hi) as [Fe Ve].
      assert (Hev : forall t, fin t -> 0 <= val t <= 1 ->
        fin (cubic_at (cw (c_start q) i) (cw (c_ctrl1 q) i) (cw (c_ctrl2 q) i) (cw (c_end q) i) t) /\
        Rabs (val (cubic_at (cw (c_start q) i) (cw (c_ctrl1 q) i) (cw (c_ctrl2 q) i) (cw (c_end q) i) t) -
          bezier_poly [val (cw (c_start q) i); val (cw (c_ctrl1 q) i); val (cw (c_ctrl2 q) i); val (cw (c_end q) i)] (val t)) <= 16 * uro * M + 4 * eta).
      { intros t Ft Ht. assert (HM0 : 0 <= M) by lra.
        pose proof (cubic_casteljau_err M HM0 H4 q t i Hi Ft Ht (Bs i Hi) (B1 i Hi) (B2 i Hi) (Be i Hi)) as Q.
        unfold cubic_eval_casteljau in Q. rewrite !cw_mixg in Q by exact Hi. exact Q. }
      assert (HMp : 0 < M) by lra.
      destruct (Hl i Hi) as [Sm|Lm].
      - rewrite flead_eq in Sm by exact Hi.
        destruct (flat_axis_box M HMp HM HO HU HB _ _ _ _ Fs F1 F2 Fe Vs V1 V2 Ve Sm l El Hev) as (lo & hi & Eb & (H1 & H2 & H3) & T).
        exists lo, hi. split; [exact Eb|]. split; [|exact T]. split; [exact H1|]. split; [exact H2|]. intros t Ht.
        specialize (H3 t Ht). unfold sl. lra.
      - set (s := cw (c_start q) i) in *. set (k1 := cw (c_ctrl1 q) i) in *. set (k2 := cw (c_ctrl2 q) i) in *. set (e := cw (c_end q) i) in *.
        assert (Lm' : 3 * M <= lam * Rabs (3 * (val e - 3 * val k2 + 3 * val k1 - val s))).
        { rewrite Rabs_mult, (Rabs_pos_eq 3) by lra. lra. }
        assert (Fl : forall z, In z (map (cubic_at s k1 k2 e) (filter in_unit l) ++ [s; e]) -> fin z).
        { intros z Hz. apply in_app_or in Hz as [Hz|Hz].
          - apply in_map_iff in Hz as (t & <- & Ht). apply filter_In in Ht as [_ Ht].
            destruct (in_unit_fin t Ht) as [Ft Vt]. apply Hev; [exact Ft|lra].
          - destruct Hz as [<-|[<-|[]]]; assumption. }
        destruct (box_fin _ (tail_len (cubic_at s k1 k2 e) (filter in_unit l) s e) Fl) as (lo & hi & Eb' & Ilo & Ihi & Hin).
        exists lo, hi. split; [exact Eb'|]. split.
        + split; [auto|]. split; [auto|]. intros t Ht.
          destruct (Rle_or_lt (2048 * lam * uro) 1) as [Lu|Lu].
          * pose proof (back_axis_box M HMp HO HU HM s k1 k2 e Fs F1 F2 Fe Vs V1 V2 Ve lam Lm' Lu l El Hev lo hi Hin t Ht) as Q.
            rewrite X_poly. unfold sl. lra.
          * pose proof (poly3_bound M _ _ _ _ t Vs V1 V2 Ve Ht) as Q.
            assert (Is : val lo <= val s <= val hi) by (apply Hin, in_or_app; right; left; reflexivity).
            apply Rabs_le_inv in Vs.
            assert (Q2 : / 2048 * / 2048 <= lam * uro * (lam * uro)) by (apply Rmult_le_compat; lra).
            assert (Q3 : / 2048 * / 2048 * M <= lam * uro * (lam * uro) * M) by (apply Rmult_le_compat_r; lra).
            unfold sl. lra.
        + assert (G : forall z, In z (map (cubic_at s k1 k2 e) (filter in_unit l) ++ [s; e]) ->
            exists t, 0 <= t <= 1 /\ Rabs (val z - bezier_poly [val s; val k1; val k2; val e] t) <= 16 * uro * M + 4 * eta).
          { intros z Hz. apply in_app_or in Hz as [Hz|Hz].
            - apply in_map_iff in Hz as (t & <- & Ht). apply filter_In in Ht as [_ Ht].
              destruct (in_unit_fin t Ht) as [Ft Vt]. exists (val t). split; [lra|]. apply Hev; [exact Ft|lra].
            - assert (UM' : 0 <= uro * M) by lra.
              destruct Hz as [<-|[<-|[]]]; [exists 0|exists 1]; (split; [lra|]); rewrite poly3;
                (match goal with |- Rabs ?x <= _ => replace x with 0 by ring end); rewrite Rabs_R0; lra. }
          split; apply G; assumption. }
    destruct (fill_ret (cubic_bbox_axis q) (repeat (s_lit 0, s_lit 0) (p_dim (P := P))) (p_dim (P := P)))
      as (bs & E & L & N).
    - apply len_init.
    - intros i Hi. destruct (A i Hi) as (lo & hi & -> & _). eauto.
    - exists bs. rewrite cubic_box_fill. split; [exact E|]. rewrite repeat_length in L. split; [exact L|].
      intros i Hi. destruct (A i Hi) as (lo & hi & E1 & H1 & T). destruct (N i Hi) as (z & E2 & E3).
      rewrite E1 in E2. injection E2 as <-. exists lo, hi. auto.
  Qed.

  (** every axis on which the coordinates are multiples of 2^g: the leading coefficient is exact *)
  Theorem cubic_box_grid (q : cubic P) g M : 1 <= M -> 2048 * (M * M) <= fmax -> 4 * M <= uro * fmax ->
    room g (24 * M) -> (forall p, In p (cubic_control_points q) -> coarse_point g M p) ->
    exists bounds, cubic_bounding_box q = Ret bounds /\ length bounds = p_dim (P := P) /\
      encloses (p_dim (P := P)) bounds (fun i =>
        bezier_poly [val (cw (c_start q) i); val (cw (c_ctrl1 q) i); val (cw (c_ctrl2 q) i); val (cw (c_end q) i)])
        (286 * uro * M + 4 * eta + 8388608 * (M / bpow radix2 g * uro * (M / bpow radix2 g * uro)) * M) (16 * uro * M + 4 * eta).
  Proof.
    intros HM HO HB Rm Hp. pose proof (bpow_gt_0 radix2 g) as G0. pose proof uro_pos as U0.
    assert (Bd : forall p, In p (cubic_control_points q) -> bounded M p).
    { intros p Hin i Hi. destruct (Hp p Hin i Hi) as (X1 & _ & X3). split; assumption. }
    apply cubic_box_back; try assumption; try (apply Bd; cbn; auto).
    - apply Rmult_le_pos; [lra|]. left. now apply Rinv_0_lt_compat.
    - intros i Hi.
      assert (Gr : forall p, In p (cubic_control_points q) -> multiple g (val (cw p i))).
      { intros p Hin. exact (proj1 (proj2 (Hp p Hin i Hi))). }
      set (T := val (cw (c_end q) i) - 3 * val (cw (c_ctrl2 q) i) + 3 * val (cw (c_ctrl1 q) i) - val (cw (c_start q) i)).
      assert (MT : multiple g T).
      { destruct (Gr (c_start q)) as [z0 E0]; [cbn; auto|]. destruct (Gr (c_ctrl1 q)) as [z1 E1]; [cbn; auto|].
        destruct (Gr (c_ctrl2 q)) as [z2 E2]; [cbn; auto|]. destruct (Gr (c_end q)) as [z3 E3]; [cbn; auto|].
        exists (z3 - 3 * z2 + 3 * z1 - z0)%Z. unfold T. rewrite E0, E1, E2, E3, !minus_IZR, plus_IZR, minus_IZR, !mult_IZR. ring. }
      destruct (Req_dec T 0) as [Z|N].
      + left. assert (HM0 : 0 <= M) by lra. rewrite (flead_exact q g M i Hi HM0 Rm Hp). fold T. rewrite Z, Rmult_0_r, Rabs_R0. lra.
      + right. pose proof (multiple_far g T MT N) as L. apply Rmult_le_reg_r with (bpow radix2 g); [exact G0|].
        replace (M / bpow radix2 g * Rabs T * bpow radix2 g) with (M * Rabs T) by (field; lra).
        apply Rmult_le_compat_l; lra.
  Qed.
End Box.
