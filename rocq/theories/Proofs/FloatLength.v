(** [arclen] in IEEE arithmetic: the parameters stay in [0,1], the computed sum is
    finite and close to the sum of the exact chords. *)
From Coq Require Import Reals ZArith List Arith Lia Lra Bool.
From Flocq Require Import Core.Core IEEE754.BinarySingleNaN Relative Plus_error.
From Verif Require Import Base.Outcome Base.Scalar Model.Point Model.Line Model.Quadratic
  Model.Cubic Model.Bezier Inst.FloatInst Spec.Sums Spec.Bernstein
  Spec.Rounding Spec.Componentwise Spec.FloatPoints Spec.FloatCurves
  Proofs.OutcomeFacts Proofs.PointFacts Proofs.Metric Proofs.FloatFacts Proofs.BezierGeneric
  Proofs.BezierReal Proofs.FloatEval Proofs.FloatBound Proofs.FloatNear Proofs.FloatSplit Proofs.FloatNorm.
Import ListNotations.
Local Open Scope R_scope.

Section Params.
  Context {F : Format}.

  Lemma eta_sq : eta <= 2 * (uro * uro).
  Proof.
    unfold eta, uro. rewrite <- bpow_plus. change 2 with (bpow radix2 1). rewrite <- bpow_plus.
    apply bpow_le. pose proof femax_gt. lia.
  Qed.

  (** the sharp relative error *)
  Lemma rnd_sharp (x : R) : 4 * uro <= x -> Rabs (rnd x - x) <= uro / (1 + uro) * x.
  Proof.
    intros Hx. pose proof uro_pos as U0. pose proof uro_small as U1. pose proof eta_sq as ES.
    assert (Hp : (0 < fprec)%Z) by (pose proof fprec_ge; lia).
    destruct (relative_error_N_FLT'_ex radix2 (SpecFloat.emin fprec femax) fprec Hp
                (fun z => negb (Z.even z)) x) as (e & h & He & Hh & Hz & Hr).
    change (rnd x) with (round radix2 (FLT_exp (SpecFloat.emin fprec femax) fprec) ZnearestE x).
    rewrite Hr.
    assert (Hu : u_ro radix2 fprec = uro).
    { unfold u_ro, uro. replace (- fprec + 1)%Z with (1 + - fprec)%Z by ring.
      rewrite bpow_plus. cbn. lra. }
    rewrite Hu in He.
    assert (Ht : / 2 * bpow radix2 (SpecFloat.emin fprec femax) = eta).
    { unfold eta, SpecFloat.emin.
      replace (3 - femax - fprec)%Z with (2 - femax - fprec + 1)%Z by ring.
      rewrite bpow_plus. cbn. lra. }
    rewrite Ht in Hh.
    replace (x * (1 + e) + h - x) with (e * x + h) by ring.
    destruct (Rmult_integral _ _ Hz) as [->| ->].
    - rewrite Rmult_0_l, Rplus_0_l. eapply Rle_trans; [exact Hh|]. eapply Rle_trans; [exact ES|].
      apply Rle_trans with (uro / (1 + uro) * (4 * uro)).
      + replace (uro / (1 + uro) * (4 * uro)) with (uro * uro * (4 / (1 + uro))) by (field; lra).
        rewrite (Rmult_comm 2). apply Rmult_le_compat_l; [nra|].
        apply (Rmult_le_reg_r (1 + uro)); [lra|].
        replace (4 / (1 + uro) * (1 + uro)) with 4 by (field; lra). lra.
      + apply Rmult_le_compat_l; [|exact Hx].
        apply Rmult_le_pos; [lra|]. apply Rlt_le, Rinv_0_lt_compat. lra.
    - rewrite Rplus_0_r, Rabs_mult, (Rabs_pos_eq x) by lra. apply Rmult_le_compat_r; [lra|exact He].
  Qed.

  #[local] Instance fx_valid' : Valid_exp fx := fexp_correct fprec femax _.

  (** anything below 1 + u rounds to at most 1 *)
  Lemma rnd_below_1 (x : R) : x < 1 + uro -> rnd x <= 1.
  Proof.
    intros Hx. apply (round_N_le_midp radix2 fx (fun z => negb (Z.even z)) 1 x).
    - apply float_1.
    - assert (Hs : succ radix2 fx 1 = 1 + 2 * uro).
      { rewrite succ_eq_pos by lra. f_equal. change 1 with (bpow radix2 0). rewrite ulp_bpow.
        unfold fx, SpecFloat.fexp, SpecFloat.emin.
        pose proof femax_gt. pose proof fprec_ge.
        replace (Z.max (0 + 1 - fprec) (3 - femax - fprec)) with (1 + - fprec)%Z by lia.
        unfold uro. rewrite bpow_plus. reflexivity. }
      rewrite Hs. lra.
  Qed.

  Definition par (n i : nat) : float := s_div (s_mul (s_of_usize i) (s_lit 1)) (s_of_usize n).
  Definition par_next (n i : nat) : float := s_add (par n i) (s_div (s_lit 1) (s_of_usize n)).

  Lemma usize_small n : 4 * INR n * uro <= 1 -> (Z.of_nat n <= 2 ^ fprec)%Z.
  Proof.
    intros H. apply le_IZR. rewrite <- INR_IZR_INZ. change 2%Z with (radix_val radix2).
    rewrite IZR_Zpower by (pose proof fprec_ge; lia).
    assert (E : uro * bpow radix2 fprec = 1).
    { unfold uro. rewrite <- bpow_plus. replace (- fprec + fprec)%Z with 0%Z by ring. reflexivity. }
    pose proof (bpow_gt_0 radix2 fprec) as B. pose proof uro_pos as U0. pose proof (pos_INR n) as N0.
    apply (Rmult_le_reg_r uro); [exact U0|]. rewrite (Rmult_comm (bpow radix2 fprec)), E.
    apply Rle_trans with (4 * INR n * uro); [|exact H]. nra.
  Qed.

  Section Range.
    Variable n : nat.
    Hypothesis Hn0 : (0 < n)%nat.
    Hypothesis Hn : 4 * INR n * uro <= 1.

    Lemma n_pos : 0 < INR n. Proof. now apply lt_0_INR. Qed.
    Lemma inv_n_big : 4 * uro <= / INR n.
    Proof.
      pose proof n_pos. apply (Rmult_le_reg_r (INR n)); [lra|].
      rewrite Rinv_l by lra. lra.
    Qed.

    Lemma par_val i : (i <= n)%nat -> fin (par n i) /\ val (par n i) = rnd (INR i / INR n).
    Proof.
      intros Hi. pose proof n_pos as NP. pose proof fmax_ge as FM.
      destruct (usize_ok n (usize_small n Hn)) as [N1 N2].
      destruct (usize_ok i) as [I1 I2].
      { pose proof (usize_small n Hn). lia. }
      destruct lit1 as [L1 L2].
      destruct (mul_1 (s_of_usize i) (s_lit 1) I1 L1 L2) as [M1 M2].
      unfold par. destruct (div_ok (s_mul (s_of_usize i) (s_lit 1)) (s_of_usize n)) as [D1 D2].
      - exact M1.
      - rewrite N2. lra.
      - rewrite M2, I2, N2. apply le_INR in Hi. pose proof (pos_INR i).
        rewrite Rabs_pos_eq.
        + apply Rle_trans with 1; [|lra]. apply (Rmult_le_reg_r (INR n)); [lra|].
          unfold Rdiv. rewrite Rmult_assoc, Rinv_l by lra. lra.
        + apply Rmult_le_pos; [lra|]. apply Rlt_le, Rinv_0_lt_compat. lra.
      - split; [exact D1|]. now rewrite D2, M2, I2, N2.
    Qed.

    Lemma frac_range i : (i <= n)%nat -> 0 <= INR i / INR n <= 1.
    Proof.
      intros Hi. pose proof n_pos. apply le_INR in Hi. pose proof (pos_INR i). split.
      - apply Rmult_le_pos; [lra|]. apply Rlt_le, Rinv_0_lt_compat. lra.
      - apply (Rmult_le_reg_r (INR n)); [lra|]. unfold Rdiv. rewrite Rmult_assoc, Rinv_l by lra. lra.
    Qed.

    Lemma frac_err i : (i <= n)%nat ->
      Rabs (rnd (INR i / INR n) - INR i / INR n) <= uro / (1 + uro) * (INR i / INR n).
    Proof.
      intros Hi. destruct i as [|i].
      - simpl (INR 0). unfold Rdiv at 1 2 4. rewrite Rmult_0_l, rnd_0, Rminus_0_r, Rabs_R0. lra.
      - apply rnd_sharp. pose proof inv_n_big. pose proof n_pos.
        assert (1 <= INR (S i)) by (change 1 with (INR 1); apply le_INR; lia).
        unfold Rdiv. assert (1 * / INR n <= INR (S i) * / INR n); [|lra].
        apply Rmult_le_compat_r; [|lra]. apply Rlt_le, Rinv_0_lt_compat. lra.
    Qed.

    Lemma sharp_lt : 0 < uro / (1 + uro) < uro.
    Proof.
      pose proof uro_pos. assert (I : 0 < / (1 + uro)) by (apply Rinv_0_lt_compat; lra). split.
      - apply Rmult_lt_0_compat; lra.
      - unfold Rdiv. rewrite <- (Rmult_1_r uro) at 3. apply Rmult_lt_compat_l; [lra|].
        rewrite <- Rinv_1. apply Rinv_lt_contravar; lra.
    Qed.

    Lemma par_ok i : (i <= n)%nat ->
      fin (par n i) /\ 0 <= val (par n i) <= 1 /\ Rabs (val (par n i) - INR i / INR n) <= 3 * uro.
    Proof.
      intros Hi. destruct (par_val i Hi) as [A B]. rewrite B. pose proof (frac_range i Hi) as R.
      split; [exact A|]. split.
      - split; [now apply rnd_nonneg|]. apply rnd_le_float; [apply float_1|lra].
      - eapply Rle_trans; [now apply frac_err|]. pose proof sharp_lt. nra.
    Qed.

    Lemma par_next_ok i : (i + 1 <= n)%nat ->
      fin (par_next n i) /\ 0 <= val (par_next n i) <= 1 /\
      Rabs (val (par_next n i) - INR (i + 1) / INR n) <= 3 * uro.
    Proof.
      intros Hi. pose proof n_pos as NP. pose proof fmax_ge as FM. pose proof sharp_lt as SL.
      pose proof uro_pos as U0. pose proof uro_small as U1.
      destruct (par_ok i ltac:(lia)) as (A & R & _). destruct (par_val i ltac:(lia)) as [_ B].
      destruct (usize_ok n (usize_small n Hn)) as [N1 N2]. destruct lit1 as [L1 L2].
      assert (I0 : 0 < / INR n) by (apply Rinv_0_lt_compat; lra).
      destruct (frac_range 1 ltac:(lia)) as [_ I1]. simpl (INR 1) in I1. 
      destruct (div_ok (s_lit 1) (s_of_usize n) L1) as [D1 D2].
      { rewrite N2. lra. }
      { rewrite L2, N2, Rabs_pos_eq; unfold Rdiv in *; lra. }
      rewrite L2, N2 in D2.
      pose proof (frac_err i ltac:(lia)) as E1. pose proof (frac_err 1 ltac:(lia)) as E2.
      simpl (INR 1) in E2. rewrite <- B in E1. rewrite <- D2 in E2.
      set (t := val (par n i)) in *. set (h := val (s_div (s_lit 1) (s_of_usize n))) in *.
      assert (Sum : INR i / INR n + 1 / INR n = INR (i + 1) / INR n).
      { rewrite plus_INR. simpl (INR 1). field. lra. }
      pose proof (frac_range (i + 1) Hi) as RX. set (x := INR (i + 1) / INR n) in *.
      set (r := uro / (1 + uro)) in *.
      assert (ES : Rabs (t + h - x) <= r * x).
      { rewrite <- Sum. replace (t + h - (INR i / INR n + 1 / INR n)) with ((t - INR i / INR n) + (h - 1 / INR n)) by ring.
        eapply Rle_trans; [apply Rabs_triang|]. lra. }
      assert (H0 : 0 <= h). { rewrite D2. apply rnd_nonneg. unfold Rdiv. lra. }
      assert (rx : r * x <= r) by nra.
      assert (TH : t + h < 1 + uro) by (apply Rabs_le_inv in ES; lra).
      destruct (add_ok (par n i) (s_div (s_lit 1) (s_of_usize n)) A D1) as [S1 S2].
      { fold t h. rewrite Rabs_pos_eq by lra. lra. }
      fold t h in S2. unfold par_next. split; [exact S1|]. rewrite S2. split; [split|].
      - apply rnd_nonneg. lra.
      - now apply rnd_below_1.
      - replace (rnd (t + h) - x) with ((rnd (t + h) - (t + h)) + (t + h - x)) by ring.
        eapply Rle_trans; [apply Rabs_triang|].
        pose proof (rnd_sum_err t h (val_float _) (val_float _)) as Er.
        rewrite (Rabs_pos_eq (t + h)) in Er by lra.
        assert (uro * (t + h) <= uro * 2) by (apply Rmult_le_compat_l; lra). lra.
    Qed.
  End Range.
End Params.

(** a sum of squares is never negative: NaN, or with the sign bit clear *)
Section Sign.
  Context {F : Format}.
  Definition plain (x : float) : Prop := is_nan x = true \/ Bsign x = false.

  Lemma plain_mul (x : float) : plain (s_mul x x).
  Proof.
    unfold plain. destruct (is_nan (s_mul x x)) eqn:N; [now left|right].
    pose proof (Bmult_correct fprec femax _ _ mode_NE x x) as C.
    cbn [s_mul FScalar] in *.
    destruct (Rlt_bool _ _).
    - destruct C as (_ & _ & S). rewrite S by exact N. apply xorb_nilpotent.
    - rewrite xorb_nilpotent in C. cbn in C. destruct (Bmult mode_NE x x) as [|[]| |]; try discriminate; reflexivity.
  Qed.

  Lemma plain_add (x y : float) : plain x -> plain y -> plain (s_add x y).
  Proof.
    intros Hx Hy. unfold plain. destruct (is_nan (s_add x y)) eqn:N; [now left|right].
    cbn [s_add FScalar] in *.
    destruct Hx as [Hx|Hx].
    { now destruct x. }
    destruct Hy as [Hy|Hy].
    { destruct x, y; discriminate. }
    destruct (is_finite x) eqn:Fx; [destruct (is_finite y) eqn:Fy|].
    - pose proof (Bplus_correct fprec femax _ _ mode_NE x y Fx Fy) as C.
      destruct (Rlt_bool _ _).
      + destruct C as (_ & _ & S). rewrite S, Hx, Hy. cbn.
        assert (Px : 0 <= B2R x).
        { destruct x as [| | |[] m e ?]; try discriminate; cbn [B2R]; try lra. apply F2R_ge_0. cbn. lia. }
        assert (Py : 0 <= B2R y).
        { destruct y as [| | |[] m e ?]; try discriminate; cbn [B2R]; try lra. apply F2R_ge_0. cbn. lia. }
        destruct (Rcompare_spec (B2R x + B2R y) 0); try reflexivity. lra.
      + destruct C as (C & _). rewrite Hx in C. cbn in C.
        destruct (Bplus mode_NE x y) as [|[]| |]; try discriminate; reflexivity.
    - destruct y as [|[]| |]; try discriminate; destruct x as [|[]| |]; try discriminate; reflexivity.
    - destruct x as [|[]| |]; try discriminate; destruct y as [|[]| |]; try discriminate; reflexivity.
  Qed.

  Lemma ltb_not_nan (x y : float) : s_ltb x y = true -> is_nan x = false.
  Proof. destruct x; try reflexivity. discriminate. Qed.
End Sign.

Lemma sqlen_plain {F : Format} {P : Type} {PT : Point float P} {CP : CwPoint float P} (p : P) : plain (p_sqlen p).
Proof.
  rewrite cw_sqlen. generalize (seq 0 (p_dim (P := P))). intros l.
  assert (G : plain (s_lit 0)) by (right; reflexivity).
  revert G. generalize (s_lit (T := float) 0). induction l as [|i l IH]; intros a G; [exact G|].
  cbn [fold_left]. apply IH, plain_add; [exact G|apply plain_mul].
Qed.

(** a curve evaluated in floats, and the exact curve it approximates *)
Section Loop.
  Context {F : Format} {P : Type} {PT : Point float P} {CP : CwPoint float P}.
  Notation D := (p_dim (P := P)).
  Variables (pf : float -> P) (c : nat -> R -> R) (M E0 K : R).
  Hypothesis HE0 : 0 <= E0.
  Hypothesis HM : 0 <= M.
  Hypothesis HK : 0 <= K.
  Hypothesis Hpf : forall t, fin t -> 0 <= val t <= 1 -> forall i, (i < D)%nat ->
    fin (cw (pf t) i) /\ Rabs (val (cw (pf t) i) - c i (val t)) <= E0.
  Hypothesis Hc : forall i x, (i < D)%nat -> 0 <= x <= 1 -> Rabs (c i x) <= M.
  Hypothesis HL : forall i x y, (i < D)%nat -> 0 <= x <= 1 -> 0 <= y <= 1 ->
    Rabs (c i x - c i y) <= K * Rabs (x - y).
  Hypothesis HD : 4 * INR (D + 1) * uro <= 1.
  Hypothesis HW : 36 * INR D * ((M + E0) * (M + E0)) <= fmax.
  Hypothesis HW2 : 3 * (M + E0) <= fmax.

  (** exact distance between two parameters *)
  Definition xchord (x y : R) : R := nrm (fun i => c i x - c i y) D.

  (** rounding error of one chord, given parameters off by 3u *)
  Definition chord_err : R :=
    sqrt (INR D) * (2 * E0 + 6 * uro * K + (6 * INR D + 14) * uro * (M + E0))
    + 2 * sqrt (2 * INR D * eta) + eta.

  Lemma point_err (t : float) (x : R) i : fin t -> 0 <= val t <= 1 -> 0 <= x <= 1 ->
    Rabs (val t - x) <= 3 * uro -> (i < D)%nat ->
    fin (cw (pf t) i) /\ Rabs (val (cw (pf t) i)) <= M + E0 /\
    Rabs (val (cw (pf t) i) - c i x) <= E0 + K * (3 * uro).
  Proof.
    intros Ht Hr Hx Htx Hi. destruct (Hpf t Ht Hr i Hi) as [A B].
    split; [exact A|]. split.
    - replace (val (cw (pf t) i)) with (c i (val t) + (val (cw (pf t) i) - c i (val t))) by ring.
      eapply Rle_trans; [apply Rabs_triang|]. pose proof (Hc i (val t) Hi Hr). lra.
    - replace (val (cw (pf t) i) - c i x)
        with ((val (cw (pf t) i) - c i (val t)) + (c i (val t) - c i x)) by ring.
      eapply Rle_trans; [apply Rabs_triang|]. pose proof (HL i (val t) x Hi Hr Hx).
      assert (K * Rabs (val t - x) <= K * (3 * uro)) by (apply Rmult_le_compat_l; lra). lra.
  Qed.

  (** the computed difference of two points close to given ones *)
  Lemma diff_length (p q : P) (a b : nat -> R) (d : R) : 0 <= d ->
    (forall i, (i < D)%nat -> fin (cw p i) /\ Rabs (val (cw p i)) <= M + E0 /\ Rabs (val (cw p i) - a i) <= d) ->
    (forall i, (i < D)%nat -> fin (cw q i) /\ Rabs (val (cw q i)) <= M + E0 /\ Rabs (val (cw q i) - b i) <= d) ->
    let L := s_sqrt (p_sqlen (p_sub p q)) in
    fin (p_sqlen (p_sub p q)) /\ 0 <= val (p_sqlen (p_sub p q)) /\ fin L /\ 0 <= val L /\
    Rabs (val L - nrm (fun i => a i - b i) D)
      <= sqrt (INR D) * (2 * d + (6 * INR D + 14) * uro * (M + E0)) + 2 * sqrt (2 * INR D * eta) + eta.
  Proof.
    intros Hd Hp Hq L. pose proof uro_pos as U0. pose proof uro_small as U1. pose proof eta_pos as T0.
    set (W := M + E0) in *. assert (W0 : 0 <= W) by (unfold W; lra).
    assert (uW : uro * W <= / 2048 * W) by (apply Rmult_le_compat_r; lra).
    assert (uW0 : 0 <= uro * W) by (apply Rmult_le_pos; lra).
    assert (G : forall i, (i < D)%nat -> fin (cw (p_sub p q) i) /\
              Rabs (val (cw (p_sub p q) i)) <= 3 * W /\
              Rabs (val (cw (p_sub p q) i) - (a i - b i)) <= 2 * d + 2 * (uro * W)).
    { intros i Hi. destruct (Hp i Hi) as (A1 & A2 & A3). destruct (Hq i Hi) as (B1 & B2 & B3).
      rewrite cw_sub by exact Hi. set (x := val (cw p i)) in *. set (y := val (cw q i)) in *.
      assert (XY : Rabs (x - y) <= 2 * W).
      { unfold Rminus. eapply Rle_trans; [apply Rabs_triang|]. rewrite Rabs_Ropp. lra. }
      destruct (sub_ok (cw p i) (cw q i) A1 B1) as [S1 S2]; [fold x y; lra|]. fold x y in S2.
      assert (Er : Rabs (rnd (x - y) - (x - y)) <= uro * Rabs (x - y)).
      { apply (rnd_sum_err x (- y)); [apply val_float|apply float_opp, val_float]. }
      assert (uro * Rabs (x - y) <= uro * (2 * W)) by (apply Rmult_le_compat_l; lra).
      split; [exact S1|]. rewrite S2. split.
      - replace (rnd (x - y)) with ((rnd (x - y) - (x - y)) + (x - y)) by ring.
        eapply Rle_trans; [apply Rabs_triang|]. lra.
      - replace (rnd (x - y) - (a i - b i)) with ((rnd (x - y) - (x - y)) + ((x - a i) + - (y - b i))) by ring.
        eapply Rle_trans; [apply Rabs_triang|].
        assert (Rabs ((x - a i) + - (y - b i)) <= 2 * d).
        { eapply Rle_trans; [apply Rabs_triang|]. rewrite Rabs_Ropp. lra. }
        lra. }
    destruct (length_err (p_sub p q) (3 * W) HD) as (A & B & C & E & G2).
    { replace (4 * INR D * (3 * W * (3 * W))) with (36 * INR D * (W * W)) by ring. exact HW. }
    { intros i Hi. destruct (G i Hi) as (X & Y & _). split; assumption. }
    fold L in C, E, G2. split; [exact A|]. split; [exact B|]. split; [exact C|]. split; [exact E|].
    set (w := fun i => val (cw (p_sub p q) i)) in *. set (v := fun i => a i - b i) in *.
    assert (N1 : nrm w D <= sqrt (INR D) * (3 * W)).
    { apply nrm_const_bound; [lra|]. intros i Hi. apply (G i Hi). }
    assert (N2 : Rabs (nrm w D - nrm v D) <= sqrt (INR D) * (2 * d + 2 * (uro * W))).
    { eapply Rle_trans; [apply nrm_diff|]. apply nrm_const_bound; [lra|]. intros i Hi. apply (G i Hi). }
    replace (val L - nrm v D) with ((val L - nrm w D) + (nrm w D - nrm v D)) by ring.
    eapply Rle_trans; [apply Rabs_triang|].
    assert (N3 : (2 * INR D + 4) * uro * nrm w D <= (2 * INR D + 4) * uro * (sqrt (INR D) * (3 * W))).
    { apply Rmult_le_compat_l; [|exact N1]. apply Rmult_le_pos; [|lra]. pose proof (pos_INR D). lra. }
    set (sd := sqrt (INR D)) in *.
    replace (sd * (2 * d + (6 * INR D + 14) * uro * W))
      with ((2 * INR D + 4) * uro * (sd * (3 * W)) + sd * (2 * d + 2 * (uro * W))) by ring.
    lra.
  Qed.

  Lemma xchord_le x y : 0 <= x <= 1 -> 0 <= y <= 1 -> xchord x y <= sqrt (INR D) * (K * Rabs (x - y)).
  Proof.
    intros Hx Hy. apply nrm_const_bound.
    - apply Rmult_le_pos; [exact HK|apply Rabs_pos].
    - intros i Hi. now apply HL.
  Qed.

  Section Steps.
    Variable n : nat.
    Hypothesis Hn0 : (0 < n)%nat.
    Hypothesis Hn : 4 * INR n * uro <= 1.

    Definition fchord (i : nat) : float := s_sqrt (p_sqlen (p_sub (pf (par n i)) (pf (par_next n i)))).

    Lemma fchord_err i : (i + 1 <= n)%nat ->
      fin (fchord i) /\ 0 <= val (fchord i) /\
      Rabs (val (fchord i) - xchord (INR i / INR n) (INR (i + 1) / INR n)) <= chord_err.
    Proof.
      intros Hi. destruct (par_ok n Hn0 Hn i ltac:(lia)) as (T1 & T2 & T3).
      destruct (par_next_ok n Hn0 Hn i Hi) as (S1 & S2 & S3).
      pose proof (frac_range n Hn0 i ltac:(lia)) as X1.
      pose proof (frac_range n Hn0 (i + 1) Hi) as X2. pose proof uro_pos.
      destruct (diff_length (pf (par n i)) (pf (par_next n i))
                  (fun k => c k (INR i / INR n)) (fun k => c k (INR (i + 1) / INR n))
                  (E0 + K * (3 * uro))) as (_ & _ & A & B & C).
      - assert (0 <= K * (3 * uro)) by (apply Rmult_le_pos; lra). lra.
      - intros k Hk. now apply point_err.
      - intros k Hk. now apply point_err.
      - split; [exact A|]. split; [exact B|]. unfold fchord, xchord, chord_err.
        replace (2 * E0 + 6 * uro * K) with (2 * (E0 + K * (3 * uro))) by ring. exact C.
    Qed.

    Definition xsum (k : nat) : R := Rsum (fun i => xchord (INR (i + 1) / INR n) (INR (i + 2) / INR n)) k.

    Lemma xsum_range k : (k <= n)%nat -> (k + 1 <= n)%nat -> 0 <= xsum k <= sqrt (INR D) * K.
    Proof.
      intros _ Hk. unfold xsum. split.
      - apply Rsum_nonneg. intros. apply nrm_nonneg.
      - pose proof (n_pos n Hn0) as NP.
        assert (I0 : 0 < / INR n) by (apply Rinv_0_lt_compat; lra).
        set (sd := sqrt (INR D)). assert (S0 : 0 <= sd) by apply sqrt_pos.
        assert (Q : forall k, (k + 1 <= n)%nat ->
          Rsum (fun i => xchord (INR (i + 1) / INR n) (INR (i + 2) / INR n)) k <= INR k * (sd * K * / INR n)).
        { clear k Hk. induction k as [|k IH]; intros Hk; [simpl; lra|]. cbn [Rsum]. rewrite S_INR.
          specialize (IH ltac:(lia)).
          pose proof (xchord_le (INR (k + 1) / INR n) (INR (k + 2) / INR n)
                        (frac_range n Hn0 (k + 1) ltac:(lia)) (frac_range n Hn0 (k + 2) ltac:(lia))) as X.
          replace (INR (k + 1) / INR n - INR (k + 2) / INR n) with (- / INR n) in X.
          2:{ rewrite !plus_INR. simpl. field. lra. }
          rewrite Rabs_Ropp, (Rabs_pos_eq (/ INR n)) in X by lra. fold sd in X. lra. }
        eapply Rle_trans; [now apply Q|].
        replace (INR k * (sd * K * / INR n)) with (sd * K * (INR k * / INR n)) by ring.
        assert (0 <= sd * K) by (apply Rmult_le_pos; lra).
        rewrite <- (Rmult_1_r (sd * K)) at 2. apply Rmult_le_compat_l; [exact H|].
        destruct (frac_range n Hn0 k ltac:(lia)) as [_ G]. exact G.
    Qed.

    Definition total_err : R := 2 * INR n * (chord_err + uro * (sqrt (INR D) * K)).

    Hypothesis Hov : sqrt (INR D) * K + total_err <= fmax.

    Lemma chord_err_pos : 0 <= chord_err.
    Proof.
      unfold chord_err. pose proof uro_pos. pose proof eta_pos. pose proof (pos_INR D).
      assert (0 <= sqrt (INR D)) by apply sqrt_pos. assert (0 <= sqrt (2 * INR D * eta)) by apply sqrt_pos.
      apply Rplus_le_le_0_compat; [|lra]. apply Rplus_le_le_0_compat; [|lra].
      apply Rmult_le_pos; [assumption|]. repeat apply Rplus_le_le_0_compat; repeat apply Rmult_le_pos; lra.
    Qed.

    Theorem arclen_loop_err : exists a,
      for_in (range 1 n) (s_lit 0) (fun i arclen => Ret (s_add arclen (fchord i))) = Ret a /\
      fin a /\ 0 <= val a /\ Rabs (val a - xsum (n - 1)) <= total_err.
    Proof.
      pose proof uro_pos as U0. pose proof uro_small as U1. pose proof chord_err_pos as C0.
      set (eps := chord_err) in *. set (A := sqrt (INR D) * K).
      assert (A0 : 0 <= A) by (apply Rmult_le_pos; [apply sqrt_pos|exact HK]).
      assert (uA0 : 0 <= uro * A) by (apply Rmult_le_pos; lra).
      assert (Lin : forall k, (k <= n)%nat -> INR k * (1 + uro) ^ k * (eps + uro * A) <= total_err).
      { intros k Hk. unfold total_err. fold eps A. apply Rmult_le_compat_r; [lra|].
        assert (INR k <= INR n) by now apply le_INR. pose proof (pos_INR k).
        destruct (pow_lin uro k) as [_ Y]; [lra| |].
        - assert (INR k * uro <= INR n * uro) by (apply Rmult_le_compat_r; lra). lra.
        - assert (0 < (1 + uro) ^ k) by (apply pow_lt; lra). nra. }
      destruct (for_in_range_inv (fun k a => fin a /\ 0 <= val a /\
         Rabs (val a - xsum (k - 1)) <= INR (k - 1) * (1 + uro) ^ (k - 1) * (eps + uro * A))
         1 n (s_lit 0) (fun i arclen => Ret (s_add arclen (fchord i)))) as (a & Ea & B1 & B2 & B3).
      - lia.
      - destruct (lit_small 0) as [L1 L2]; [lia|]. split; [exact L1|]. rewrite L2. split; [lra|].
        simpl. rewrite Rminus_0_r, Rabs_R0. lra.
      - intros i a Hi (B1 & B2 & B3). eexists. split; [reflexivity|].
        replace (i + 1 - 1)%nat with (S (i - 1)) by lia. set (k := (i - 1)%nat) in *.
        destruct (fchord_err i ltac:(lia)) as (F1 & F2 & F3). fold eps in F3.
        assert (XS : xsum (S k) = xsum k + xchord (INR i / INR n) (INR (i + 1) / INR n)).
        { unfold xsum. cbn [Rsum]. unfold k. replace (i - 1 + 1)%nat with i by lia.
          replace (i - 1 + 2)%nat with (i + 1)%nat by lia. reflexivity. }
        pose proof (xsum_range (S k) ltac:(lia) ltac:(lia)) as XR. fold A in XR.
        set (X := xsum (S k)) in *.
        set (e := INR k * (1 + uro) ^ k * (eps + uro * A)) in *.
        set (f := val (fchord i)) in *.
        assert (Er : Rabs (val a + f - X) <= e + eps).
        { rewrite XS. replace (val a + f - (xsum k + xchord (INR i / INR n) (INR (i + 1) / INR n)))
            with ((val a - xsum k) + (f - xchord (INR i / INR n) (INR (i + 1) / INR n))) by ring.
          eapply Rle_trans; [apply Rabs_triang|]. lra. }
        assert (Step : (1 + uro) * (e + eps) + uro * A <= INR (S k) * (1 + uro) ^ S k * (eps + uro * A)).
        { rewrite S_INR. cbn [pow].
          assert (P1 : 1 <= (1 + uro) ^ k) by (apply pow_R1_Rle; lra).
          replace ((INR k + 1) * ((1 + uro) * (1 + uro) ^ k) * (eps + uro * A))
            with ((1 + uro) * e + (1 + uro) * ((1 + uro) ^ k * (eps + uro * A))) by (unfold e; ring).
          assert (1 * (eps + uro * A) <= (1 + uro) ^ k * (eps + uro * A)) by (apply Rmult_le_compat_r; lra).
          assert ((1 + uro) * (1 * (eps + uro * A)) <= (1 + uro) * ((1 + uro) ^ k * (eps + uro * A)))
            by (apply Rmult_le_compat_l; lra).
          assert (uro * A <= (1 + uro) * (uro * A)) by nra. lra. }
        pose proof (Lin (S k) ltac:(lia)) as LT.
        assert (e0 : 0 <= e).
        { unfold e. apply Rmult_le_pos; [|lra]. apply Rmult_le_pos; [apply pos_INR|]. apply pow_le. lra. }
        assert (ue : e + eps <= (1 + uro) * (e + eps)) by nra.
        assert (Ov : Rabs (val a + f) <= fmax).
        { rewrite Rabs_pos_eq by lra. apply Rabs_le_inv in Er. fold A in Hov. lra. }
        destruct (add_ok a (fchord i) B1 F1 Ov) as [S1 S2]. fold f in S2.
        split; [exact S1|]. rewrite S2. split; [apply rnd_nonneg; lra|].
        eapply Rle_trans; [|exact Step].
        replace (rnd (val a + f) - X) with ((rnd (val a + f) - (val a + f)) + (val a + f - X)) by ring.
        eapply Rle_trans; [apply Rabs_triang|].
        pose proof (rnd_sum_err (val a) f (val_float _) (val_float _)) as Rs.
        rewrite (Rabs_pos_eq (val a + f)) in Rs by lra.
        assert (val a + f <= A + (e + eps)) by (apply Rabs_le_inv in Er; lra).
        assert (uro * (val a + f) <= uro * (A + (e + eps))) by (apply Rmult_le_compat_l; lra).
        lra.
      - exists a. split; [exact Ea|]. split; [exact B1|]. split; [exact B2|].
        eapply Rle_trans; [exact B3|]. apply Lin. lia.
    Qed.
  End Steps.

  (** the two-pass search of [distance_to_point] *)
  Section Search.
    Variables (ev : float -> outcome P) (first p : P).
    Hypothesis Hev : forall t, ev t = Ret (pf t).
    Hypothesis Hfirst : forall i, (i < D)%nat -> fin (cw first i) /\ Rabs (val (cw first i)) <= M.
    Hypothesis Hp : forall i, (i < D)%nat -> fin (cw p i) /\ Rabs (val (cw p i)) <= M.

    Lemma small_64 : 4 * INR 64 * uro <= 1.
    Proof. pose proof uro_small. replace (INR 64) with 64 by (rewrite INR_IZR_INZ; reflexivity). lra. Qed.

    Lemma ltb_below (x y : float) : fin y -> Bsign x = false -> is_nan x = false -> s_ltb x y = true ->
      fin x /\ 0 <= val x <= val y.
    Proof.
      intros Hy Hx Nx H. assert (Fx : fin x).
      { destruct x as [|[]| |]; try reflexivity; try discriminate.
        destruct y as [|[]| |[]]; try discriminate. }
      split; [exact Fx|]. rewrite ltb_val in H by assumption.
      destruct (Rlt_bool_spec (val x) (val y)); [|discriminate]. split; [|lra].
      destruct x as [| | |[] m e ?]; try discriminate; unfold val; cbn [B2R]; try lra.
      apply F2R_ge_0. cbn. lia.
    Qed.

    Definition samp (i : nat) : float := p_sqlen (p_sub (pf (par 64 i)) p).

    Lemma samp_ok i : (i < 64)%nat -> fin (samp i) /\ 0 <= val (samp i) /\
      val (s_sqrt (samp i)) <= nrm (fun k => c k (INR i / 64) - val (cw p k)) D + chord_err.
    Proof.
      intros Hi. pose proof uro_pos.
      destruct (par_ok 64 ltac:(lia) small_64 i ltac:(lia)) as (T1 & T2 & T3).
      pose proof (frac_range 64 ltac:(lia) i ltac:(lia)) as X1.
      replace (INR 64) with 64 in * by (rewrite INR_IZR_INZ; reflexivity).
      assert (0 <= K * (3 * uro)) by (apply Rmult_le_pos; lra).
      destruct (diff_length (pf (par 64 i)) p (fun k => c k (INR i / 64)) (fun k => val (cw p k))
                  (E0 + K * (3 * uro))) as (A & B & _ & _ & C).
      - lra.
      - intros k Hk. now apply point_err.
      - intros k Hk. destruct (Hp k Hk) as [A B]. split; [exact A|]. split; [lra|].
        rewrite Rminus_diag_eq, Rabs_R0 by reflexivity. lra.
      - split; [exact A|]. split; [exact B|]. apply Rabs_le_inv in C. unfold chord_err.
        replace (2 * E0 + 6 * uro * K) with (2 * (E0 + K * (3 * uro))) by ring. unfold samp. lra.
    Qed.

    Lemma start_ok : fin (p_sqlen (p_sub p first)) /\ 0 <= val (p_sqlen (p_sub p first)).
    Proof.
      destruct (diff_length p first (fun k => val (cw p k)) (fun k => val (cw first k)) 0) as (A & B & _).
      - lra.
      - intros k Hk. destruct (Hp k Hk). rewrite Rminus_diag_eq, Rabs_R0 by reflexivity. repeat split; try assumption; lra.
      - intros k Hk. destruct (Hfirst k Hk). rewrite Rminus_diag_eq, Rabs_R0 by reflexivity. repeat split; try assumption; lra.
      - now split.
    Qed.

    Theorem search_err : exists d, search_distance ev first p = Ret d /\ fin d /\ 0 <= val d /\
      forall i, (i < 64)%nat -> val d <= nrm (fun k => c k (INR i / 64) - val (cw p k)) D + chord_err.
    Proof.
      unfold search_distance.
      destruct (for_in_range_inv (fun k st => fin (snd st) /\ 0 <= val (snd st) /\
          forall i, (i < k)%nat -> val (snd st) <= val (samp i)) 0 nsteps
          (s_half, p_sqlen (p_sub p first)) (coarse_body ev p)) as (st & Es & S1 & S2 & S3).
      - lia.
      - destruct start_ok. repeat split; try assumption. intros; lia.
      - intros i st Hi (B1 & B2 & B3). unfold coarse_body. rewrite Hev. cbn [bind].
        change (s_div (s_mul (s_of_usize i) (s_lit 1)) (s_of_usize nsteps)) with (par 64 i).
        change (p_sqlen (p_sub (pf (par 64 i)) p)) with (samp i).
        destruct (samp_ok i ltac:(unfold nsteps in Hi; lia)) as (C1 & C2 & _).
        rewrite ltb_val by assumption.
        destruct (Rlt_bool_spec (val (samp i)) (val (snd st))) as [L|L].
        + eexists. split; [reflexivity|]. cbn [snd]. split; [exact C1|]. split; [exact C2|].
          intros j Hj. destruct (Nat.eq_dec j i) as [->|Ne]; [lra|].
          specialize (B3 j ltac:(lia)). lra.
        + eexists. split; [reflexivity|]. split; [exact B1|]. split; [exact B2|].
          intros j Hj. destruct (Nat.eq_dec j i) as [->|Ne]; [lra|]. apply B3. lia.
      - rewrite Es. cbn [bind].
        destruct (for_in_range_inv (fun k st' => fin (snd st') /\ 0 <= val (snd st') <= val (snd st))
          0 nsteps st (fine_body ev p)) as (st' & Es' & F1 & F2).
        + lia.
        + repeat split; try assumption; lra.
        + intros i s Hi (B1 & B2). unfold fine_body. rewrite Hev. cbn [bind].
          set (q := pf _). destruct (s_ltb (p_sqlen (p_sub q p)) (snd s)) eqn:E.
          * eexists. split; [reflexivity|]. cbn [snd].
            pose proof (ltb_not_nan _ _ E) as NN.
            destruct (sqlen_plain (p_sub q p)) as [N|Sg]; [congruence|].
            destruct (ltb_below _ _ B1 Sg NN E) as [G1 G2].
            split; [exact G1|]. lra.
          * eexists. split; [reflexivity|]. now split.
        + rewrite Es'. cbn [bind]. eexists. split; [reflexivity|].
          destruct (sqrt_ok (snd st') F1 ltac:(lra)) as [R1 R2]. split; [exact R1|].
          rewrite R2. split; [apply rnd_nonneg, sqrt_pos|].
          intros i Hi. destruct (samp_ok i Hi) as (C1 & C2 & C3).
          destruct (sqrt_ok (samp i) C1 C2) as [_ R3]. rewrite R3 in C3.
          eapply Rle_trans; [|exact C3]. apply rnd_le, sqrt_le_1_alt.
          specialize (S3 i Hi). lra.
    Qed.
  End Search.
End Loop.
