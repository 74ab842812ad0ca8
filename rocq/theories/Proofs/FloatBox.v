(** Bounding boxes in IEEE arithmetic: no NaN reaches the sort when the control
    points are finite, whatever overflows on the way; the end points are inside. *)
From Coq Require Import Reals ZArith List Arith Lia Lra Bool Sorted.
From Flocq Require Import Core.Core IEEE754.BinarySingleNaN.
From Verif Require Import Base.Outcome Base.Scalar Model.Point Model.Line Model.Quadratic
  Model.Cubic Inst.FloatInst Spec.Rounding Spec.Componentwise Spec.FloatPoints
  Proofs.FloatFacts Proofs.FloatBound Proofs.FloatNear Proofs.FloatSpline Proofs.OutcomeFacts
  Proofs.BoxGeneric.
Import ListNotations.
Local Open Scope R_scope.

Section Numerics.
  Context {F : Format}.
  Implicit Types x y t a b : float.

  Notation B := (bpow radix2 femax).

  (** ** Operands of a finite result are finite *)
  Lemma add_fin x y : fin (s_add x y) -> fin x /\ fin y.
  Proof. destruct x as [|[]| |], y as [|[]| |]; try discriminate; split; reflexivity. Qed.
  Lemma sub_fin x y : fin (s_sub x y) -> fin x /\ fin y.
  Proof. destruct x as [|[]| |], y as [|[]| |]; try discriminate; split; reflexivity. Qed.
  Lemma mul_fin x y : fin (s_mul x y) -> fin x /\ fin y.
  Proof. destruct x as [|[]| |], y as [|[]| |]; try discriminate; split; reflexivity. Qed.

  Lemma overflow_not_fin x s : B2SF x = binary_overflow fprec femax mode_NE s -> ~ fin x.
  Proof. destruct x; cbn; try discriminate; intros _ H; discriminate H. Qed.

  Lemma mul_fin_val x y : fin x -> fin y -> fin (s_mul x y) ->
    val (s_mul x y) = rnd (val x * val y) /\ Rabs (rnd (val x * val y)) < B.
  Proof.
    intros Hx Hy H.
    pose proof (Bmult_correct fprec femax _ _ mode_NE x y) as C.
    cbv zeta in C. change (round_mode mode_NE) with ZnearestE in C.
    fold fx in C. fold (rnd (B2R x * B2R y)) in C.
    destruct (Rlt_bool_spec (Rabs (rnd (B2R x * B2R y))) B) as [L|L].
    - split; [apply C|exact L].
    - exfalso. exact (overflow_not_fin _ _ C H).
  Qed.
  Lemma sub_fin_val x y : fin x -> fin y -> fin (s_sub x y) ->
    val (s_sub x y) = rnd (val x - val y) /\ Rabs (rnd (val x - val y)) < B.
  Proof.
    intros Hx Hy H.
    pose proof (Bminus_correct fprec femax _ _ mode_NE x y Hx Hy) as C.
    cbv zeta in C. change (round_mode mode_NE) with ZnearestE in C.
    fold fx in C. fold (rnd (B2R x - B2R y)) in C.
    destruct (Rlt_bool_spec (Rabs (rnd (B2R x - B2R y))) B) as [L|L].
    - split; [apply C|exact L].
    - exfalso. exact (overflow_not_fin _ _ (proj1 C) H).
  Qed.
  Lemma add_rnd_ok x y : fin x -> fin y -> Rabs (rnd (val x + val y)) < B ->
    fin (s_add x y) /\ val (s_add x y) = rnd (val x + val y).
  Proof.
    intros Hx Hy H.
    pose proof (Bplus_correct fprec femax _ _ mode_NE x y Hx Hy) as C.
    cbv zeta in C. change (round_mode mode_NE) with ZnearestE in C.
    fold fx in C. fold (rnd (B2R x + B2R y)) in C.
    unfold val in H |- *. rewrite Rlt_bool_true in C by exact H. split; apply C.
  Qed.

  (** ** Rounding near the overflow threshold *)
  Lemma succ_fmax : succ radix2 fx fmax = B.
  Proof.
    pose proof fmax_ge. rewrite succ_eq_pos by lra.
    rewrite ulp_neq_0 by lra. unfold cexp.
    assert (M : mag radix2 fmax = femax :> Z).
    { apply mag_unique_pos. split; [|apply fmax_lt].
      rewrite fmax_eq. unfold Z.sub. rewrite bpow_plus. change (bpow radix2 (- (1))) with (/ 2).
      pose proof uro_small. pose proof bemax_ge.
      rewrite (Rmult_comm _ B). apply Rmult_le_compat_l; lra. }
    rewrite M. unfold fx, SpecFloat.fexp, SpecFloat.emin.
    pose proof femax_gt. pose proof femax_ge.
    rewrite Z.max_l by lia. unfold fmax. ring.
  Qed.

  Lemma rnd_below (x : R) : Rabs x < B - uro * B / 2 -> Rabs (rnd x) < B.
  Proof.
    intros H. apply Rle_lt_trans with fmax; [|apply fmax_lt].
    assert (U : forall y : R, y < B - uro * B / 2 -> rnd y <= fmax).
    { intros y Hy. apply round_N_le_midp; [typeclasses eauto|apply fmax_float|].
      rewrite succ_fmax, fmax_eq. lra. }
    apply Rabs_def2 in H. apply Rabs_le. split; [|apply U; lra].
    rewrite <- (Ropp_involutive (rnd x)), <- rnd_opp. apply Ropp_le_contravar, U. lra.
  Qed.

  Lemma half_float : is_float (B / 2).
  Proof.
    replace (B / 2) with (bpow radix2 (femax - 1)).
    - apply generic_format_bpow. unfold fx, SpecFloat.fexp, SpecFloat.emin.
      pose proof fprec_ge. pose proof femax_ge. lia.
    - unfold Z.sub. rewrite bpow_plus. reflexivity.
  Qed.
  Lemma B_float : is_float B.
  Proof.
    apply generic_format_bpow. unfold fx, SpecFloat.fexp, SpecFloat.emin.
    pose proof fprec_ge. pose proof femax_ge. lia.
  Qed.

  (** |rnd x| < b for a float b only when |x| < b *)
  Lemma rnd_lt_inv (x b : R) : is_float b -> Rabs (rnd x) < b -> Rabs x < b.
  Proof.
    intros Hb H. apply Rabs_def2 in H. apply Rabs_def1.
    - apply Rnot_le_lt. intros C. apply rnd_ge_float in C; [lra|exact Hb].
    - apply Rnot_le_lt. intros C. apply (rnd_le_float x (- b)) in C; [lra|now apply float_opp].
  Qed.

  Lemma val_lt_B x : Rabs (val x) < B.
  Proof. pose proof (val_le_fmax x). pose proof fmax_lt. lra. Qed.

  Lemma uB_pos : 0 < uro * B.
  Proof. apply Rmult_lt_0_compat; [apply uro_pos|apply bemax_pos]. Qed.
  Lemma eta_le_uB : eta <= uro * B / 4.
  Proof.
    pose proof eta_uro. pose proof uro_pos. pose proof eta_pos. pose proof bemax_ge.
    apply Rle_trans with uro; [lra|].
    apply Rle_trans with (uro * 4096 / 4); [lra|].
    apply Rmult_le_compat_r; [lra|]. apply Rmult_le_compat_l; lra.
  Qed.

  (** ** One level of de Casteljau does not overflow when the difference is below 2^(emax-1) *)
  Lemma mix_fin t a b : fin t -> 0 <= val t <= 1 -> fin a -> fin b ->
    Rabs (val b - val a) < B / 2 ->
    fin (fmix t a b) /\ Rabs (val (fmix t a b) - (val a + (val b - val a) * val t)) <= 3 * (uro * B).
  Proof.
    intros Ht Hr Ha Hb Hd. pose proof uB_pos as UB. pose proof bemax_ge as B4. pose proof uro_small as U1.
    pose proof uro_pos as U0.
    assert (Hfm : B / 2 <= fmax).
    { rewrite fmax_eq. unfold Rdiv. rewrite (Rmult_comm B). apply Rmult_le_compat_r; lra. }
    destruct (sub_ok b a Hb Ha) as [D1 D2]; [lra|].
    set (d := s_sub b a) in *.
    assert (ED : Rabs (val d - (val b - val a)) <= uro * B / 2).
    { rewrite D2. replace (val b - val a) with (val b + - val a) by ring.
      eapply Rle_trans; [apply rnd_sum_err; [apply val_float|apply float_opp, val_float]|].
      change (val b + - val a) with (val b - val a). unfold Rdiv. rewrite Rmult_assoc.
      apply Rmult_le_compat_l; lra. }
    assert (ED' : Rabs (val d - (val b - val a)) < uro * B / 2).
    { rewrite D2. replace (val b - val a) with (val b + - val a) by ring.
      eapply Rle_lt_trans; [apply rnd_sum_err; [apply val_float|apply float_opp, val_float]|].
      change (val b + - val a) with (val b - val a). unfold Rdiv. rewrite Rmult_assoc.
      apply Rmult_lt_compat_l; lra. }
    pose proof (val_le_fmax d) as Dm. pose proof (val_le_fmax a) as Am. pose proof (val_le_fmax b) as Bm.
    assert (Pm : Rabs (val d * val t) <= Rabs (val d)).
    { rewrite Rabs_mult, (Rabs_pos_eq (val t)) by lra. rewrite <- (Rmult_1_r (Rabs (val d))) at 2.
      apply Rmult_le_compat_l; [apply Rabs_pos|lra]. }
    destruct (mul_ok d t D1 Ht) as [P1 P2]; [lra|].
    set (p := s_mul d t) in *.
    assert (EP : Rabs (val p - val d * val t) <= uro * B + eta).
    { rewrite P2. eapply Rle_trans; [apply rnd_err|]. apply Rplus_le_compat_r.
      apply Rmult_le_compat_l; [lra|]. pose proof fmax_lt. lra. }
    assert (Pr : (0 <= val p <= val d) \/ (val d <= val p <= 0)).
    { rewrite P2. destruct (Rle_dec 0 (val d)) as [G|G].
      - left. split.
        + apply rnd_ge_float; [apply float_0|]. apply Rmult_le_pos; lra.
        + apply rnd_le_float; [apply val_float|]. rewrite <- (Rmult_1_r (val d)) at 2.
          apply Rmult_le_compat_l; lra.
      - right. split.
        + apply rnd_ge_float; [apply val_float|]. rewrite <- (Rmult_1_r (val d)) at 1.
          apply Rmult_le_compat_neg_l; lra.
        + apply rnd_le_float; [apply float_0|]. rewrite <- (Rmult_0_r (val d)).
          apply Rmult_le_compat_neg_l; lra. }
    assert (Sm : Rabs (val a + val p) < B - uro * B / 2).
    { rewrite fmax_eq in Am, Bm. apply Rabs_def2 in ED'.
      apply Rabs_le_inv in Am. apply Rabs_le_inv in Bm.
      apply Rabs_def1; destruct Pr; lra. }
    destruct (add_rnd_ok a p Ha P1) as [S1 S2]; [now apply rnd_below|].
    split; [exact S1|]. unfold fmix. fold d. fold p. rewrite S2.
    assert (ES : Rabs (rnd (val a + val p) - (val a + val p)) <= uro * B).
    { eapply Rle_trans; [apply rnd_sum_err; apply val_float|]. apply Rmult_le_compat_l; lra. }
    assert (ET : Rabs (val d * val t - (val b - val a) * val t) <= uro * B / 2).
    { rewrite <- Rmult_minus_distr_r, Rabs_mult, (Rabs_pos_eq (val t)) by lra.
      eapply Rle_trans; [|exact ED].
      rewrite <- (Rmult_1_r (Rabs (val d - _))) at 2. apply Rmult_le_compat_l; [apply Rabs_pos|lra]. }
    pose proof eta_le_uB.
    apply Rabs_le_inv in ES. apply Rabs_le_inv in ET. apply Rabs_le_inv in EP.
    apply Rabs_le. split; lra.
  Qed.

  (** ** Differences bounded because their multiple is finite *)
  Lemma diff_times (k : Z) x y : (2 <= k <= 2048)%Z -> fin (s_mul (s_sub x y) (s_lit k)) ->
    fin x /\ fin y /\ IZR k * (1 - uro) * Rabs (val x - val y) < B.
  Proof.
    intros Hk H. destruct (mul_fin _ _ H) as [H1 H2]. destruct (sub_fin _ _ H1) as [Hx Hy].
    split; [exact Hx|]. split; [exact Hy|].
    destruct (lit_small k) as [L1 L2]; [lia|].
    destruct (mul_fin_val _ _ H1 H2 H) as [_ E]. rewrite L2 in E.
    apply (rnd_lt_inv _ _ B_float) in E.
    destruct (sub_fin_val x y Hx Hy H1) as [E1 _]. rewrite E1 in E.
    assert (R : Rabs (rnd (val x - val y) - (val x - val y)) <= uro * Rabs (val x - val y)).
    { apply (rnd_sum_err (val x) (- val y)); [apply val_float|apply float_opp, val_float]. }
    assert (K : 2 <= IZR k) by (apply IZR_le; lia).
    rewrite Rabs_mult, (Rabs_pos_eq (IZR k)) in E by lra.
    set (m := Rabs (val x - val y)) in *. set (r := rnd (val x - val y)) in *.
    assert (T : m <= Rabs r + uro * m).
    { unfold m at 1. replace (val x - val y) with (r + - (r - (val x - val y))) by ring.
      eapply Rle_trans; [apply Rabs_triang|]. rewrite Rabs_Ropp. lra. }
    apply Rle_lt_trans with (Rabs r * IZR k); [|exact E].
    rewrite Rmult_assoc, (Rmult_comm (Rabs r)). apply Rmult_le_compat_l; lra.
  Qed.

  Lemma diff_half x y : fin (s_mul (s_sub x y) (s_lit 2)) -> Rabs (val x - val y) < B / 2.
  Proof.
    intros H. destruct (mul_fin _ _ H) as [H1 H2]. destruct (sub_fin _ _ H1) as [Hx Hy].
    destruct (lit_small 2) as [L1 L2]; [lia|].
    destruct (mul_fin_val _ _ H1 H2 H) as [_ E]. rewrite L2 in E.
    apply (rnd_lt_inv _ _ B_float) in E.
    destruct (sub_fin_val x y Hx Hy H1) as [E1 _]. rewrite E1 in E.
    rewrite Rabs_mult, (Rabs_pos_eq 2) in E by lra.
    apply (rnd_lt_inv _ _ half_float). lra.
  Qed.

  (** ** Roots inside the unit interval come from finite operands *)
  Lemma in_unit_fin t : in_unit t = true -> fin t /\ 0 < val t < 1.
  Proof.
    unfold in_unit. intros H. apply andb_true_iff in H as [H1 H2].
    assert (L0 : fin (s_lit 0) /\ val (s_lit 0) = 0) by (apply (lit_small 0); lia).
    assert (L1 : fin (s_lit 1) /\ val (s_lit 1) = 1) by (apply (lit_small 1); lia).
    assert (N : ~ nan t) by (intros N; rewrite ltb_nan_r in H1 by exact N; discriminate).
    assert (N0 : ~ nan (s_lit 0)) by (destruct (s_lit 0); try (now intros); now destruct L0).
    assert (N1 : ~ nan (s_lit 1)) by (destruct (s_lit 1); try (now intros); now destruct L1).
    rewrite ltb_key in H1, H2 by assumption.
    rewrite (key_fin (s_lit 0)) in H1 by apply L0. rewrite (key_fin (s_lit 1)) in H2 by apply L1.
    rewrite (proj2 L0) in H1. rewrite (proj2 L1) in H2.
    destruct (Rlt_bool_spec 0 (key t)) as [K1|]; [|discriminate].
    destruct (Rlt_bool_spec (key t) 1) as [K2|]; [|discriminate].
    pose proof bemax_ge.
    assert (Ft : fin t).
    { destruct t as [|[]| |]; try reflexivity; cbn [key] in *; try lra. now elim N. }
    rewrite key_fin in K1, K2 by exact Ft. auto.
  Qed.

  Lemma div_unit x y : in_unit (s_div x y) = true -> fin x /\ fin y.
  Proof.
    intros H. destruct (in_unit_fin _ H) as [Fd V].
    destruct x as [sx|sx| |sx mx ex Ex], y as [sy|sy| |sy my ey Ey]; try discriminate Fd;
      try (split; reflexivity); cbn in V; lra.
  Qed.

  Lemma abs_lt_fin x : s_ltb (s_abs x) s_eps = true -> fin x.
  Proof.
    intros H. destruct x as [|[]| |]; try reflexivity.
    - exfalso. cbn [s_abs FScalar Babs] in H.
      assert (Ne : ~ nan s_eps) by (destruct (s_eps (Scalar := FScalar)) eqn:Q; try (now intros); destruct eps_ok as [K _]; rewrite Q in K; discriminate K).
      rewrite ltb_key in H; [|now intros|exact Ne]. cbn [key] in H.
      rewrite key_fin in H by apply eps_ok.
      destruct (Rlt_bool_spec B (val s_eps)) as [C|C]; [|discriminate].
      pose proof (val_lt_B s_eps) as V. apply Rabs_def2 in V. lra.
    - exfalso. cbn [s_abs FScalar Babs] in H.
      assert (Ne : ~ nan s_eps) by (destruct (s_eps (Scalar := FScalar)) eqn:Q; try (now intros); destruct eps_ok as [K _]; rewrite Q in K; discriminate K).
      rewrite ltb_key in H; [|now intros|exact Ne]. cbn [key] in H.
      rewrite key_fin in H by apply eps_ok.
      destruct (Rlt_bool_spec B (val s_eps)) as [C|C]; [|discriminate].
      pose proof (val_lt_B s_eps) as V. apply Rabs_def2 in V. lra.
    - exfalso. rewrite ltb_nan_l in H; [discriminate|reflexivity].
  Qed.

  (** ** The last level may overflow to infinity but not to NaN *)
  Lemma sub_not_nan x y : fin x -> fin y -> ~ nan (s_sub x y).
  Proof.
    intros Hx Hy N.
    pose proof (Bminus_correct fprec femax _ _ mode_NE x y Hx Hy) as C. cbv zeta in C.
    cbn [s_sub FScalar] in N.
    destruct (Rlt_bool _ _) in C.
    - destruct C as (_ & C & _). destruct (Bminus mode_NE x y); discriminate.
    - destruct C as (C & _). destruct (Bminus mode_NE x y); discriminate.
  Qed.
  Lemma mul_not_nan x y : ~ nan x -> fin y -> val y <> 0 -> ~ nan (s_mul x y).
  Proof.
    intros Hx Hy Vy N. destruct (is_finite x) eqn:Fx.
    - pose proof (Bmult_correct fprec femax _ _ mode_NE x y) as C. cbv zeta in C.
      cbn [s_mul FScalar] in N. destruct (Rlt_bool _ _) in C.
      + destruct C as (_ & C & _). rewrite Fx, Hy in C. destruct (Bmult mode_NE x y); discriminate.
      + destruct (Bmult mode_NE x y); discriminate.
    - destruct x as [|sx| |]; try discriminate Fx; [|now elim Hx].
      destruct y as [sy|sy| |sy my ey Ey]; try discriminate Hy; [now elim Vy|discriminate N].
  Qed.
  Lemma add_not_nan x y : fin x -> ~ nan y -> ~ nan (s_add x y).
  Proof.
    intros Hx Hy N. destruct (is_finite y) eqn:Fy.
    - pose proof (Bplus_correct fprec femax _ _ mode_NE x y Hx Fy) as C. cbv zeta in C.
      cbn [s_add FScalar] in N. destruct (Rlt_bool _ _) in C.
      + destruct C as (_ & C & _). destruct (Bplus mode_NE x y); discriminate.
      + destruct C as (C & _). destruct (Bplus mode_NE x y); discriminate.
    - destruct y as [|sy| |]; try discriminate Fy; [|now elim Hy].
      destruct x as [sx|sx| |sx mx ex Ex]; try discriminate Hx; discriminate N.
  Qed.
  Lemma mix_not_nan t a b : fin t -> 0 < val t -> fin a -> fin b -> ~ nan (fmix t a b).
  Proof.
    intros Ht Vt Ha Hb. unfold fmix. apply add_not_nan; [exact Ha|].
    apply mul_not_nan; [now apply sub_not_nan|exact Ht|lra].
  Qed.

  (** ** Extrema are never NaN *)
  Lemma quad_at_not_nan s c e r :
    let d0 := s_mul (s_sub c s) (s_lit 2) in let d1 := s_mul (s_sub e c) (s_lit 2) in
    fin s -> fin c -> fin e ->
    in_unit r = true -> r = s_div (s_neg d0) (s_add (s_mul d0 (s_lit (-1))) d1) ->
    ~ nan (quad_at s c e r).
  Proof.
    intros d0 d1 Hs Hc He Hu Er. destruct (in_unit_fin r Hu) as [Fr Vr].
    rewrite Er in Hu. apply div_unit in Hu as [_ Fa]. apply add_fin in Fa as [F0 F1].
    apply mul_fin in F0 as [F0 _].
    apply diff_half in F0, F1.
    destruct (mix_fin r s c) as [M1 _]; try assumption; try lra.
    destruct (mix_fin r c e) as [M2 _]; try assumption; try lra.
    apply (mix_not_nan r (fmix r s c) (fmix r c e)); auto. lra.
  Qed.

  Lemma cubic_at_not_nan s c1 c2 e r :
    let d0 := s_mul (s_sub c1 s) (s_lit 3) in let d1 := s_mul (s_sub c2 c1) (s_lit 3) in
    let d2 := s_mul (s_sub e c2) (s_lit 3) in
    let a := s_add (s_add d0 (s_mul d1 (s_lit (-2)))) d2 in
    let b := s_add (s_mul d0 (s_lit (-2))) (s_mul d1 (s_lit 2)) in
    fin s -> fin c1 -> fin c2 -> fin e ->
    in_unit r = true ->
    ((s_ltb (s_abs a) s_eps = true /\ r = s_div (s_neg d0) b) \/
     (exists x, r = s_div x (s_mul a (s_lit 2)))) ->
    ~ nan (cubic_at s c1 c2 e r).
  Proof.
    intros d0 d1 d2 a b Hs H1 H2 He Hu Hr. destruct (in_unit_fin r Hu) as [Fr Vr].
    assert (Fa : fin a).
    { destruct Hr as [[E _]|[x E]]; [now apply abs_lt_fin|].
      rewrite E in Hu. apply div_unit in Hu as [_ Fa]. now apply mul_fin in Fa as [Fa _]. }
    apply add_fin in Fa as [Fa F2]. apply add_fin in Fa as [F0 F1]. apply mul_fin in F1 as [F1 _].
    apply (diff_times 3) in F0; [|lia]. apply (diff_times 3) in F1; [|lia]. apply (diff_times 3) in F2; [|lia].
    destruct F0 as (_ & _ & F0), F1 as (_ & _ & F1), F2 as (_ & _ & F2).
    pose proof uro_small as U1. pose proof uro_pos as U0. pose proof bemax_ge as B4.
    assert (Bound : forall m, 0 <= m -> 3 * (1 - uro) * m < B -> m < B / 3 + B / 100).
    { intros m Hm Hlt. assert (3 * (1 - uro) * m >= 3 * (1 - / 2048) * m).
      { apply Rle_ge. apply Rmult_le_compat_r; lra. } lra. }
    apply Bound in F0; [|apply Rabs_pos]. apply Bound in F1; [|apply Rabs_pos]. apply Bound in F2; [|apply Rabs_pos].
    clear Bound.
    assert (UB : uro * B <= / 2048 * B) by (apply Rmult_le_compat_r; lra).
    destruct (mix_fin r s c1) as [M1 E1]; try assumption; try lra.
    destruct (mix_fin r c1 c2) as [M2 E2]; try assumption; try lra.
    destruct (mix_fin r c2 e) as [M3 E3]; try assumption; try lra.
    assert (Conv : forall p q, Rabs p < B / 3 + B / 100 -> Rabs q < B / 3 + B / 100 ->
      Rabs (p * (1 - val r) + q * val r) < B / 3 + B / 100).
    { intros p q Hp Hq. apply Rabs_def2 in Hp, Hq.
      assert (Q1 : 0 < (B / 3 + B / 100 - p) * (1 - val r)) by (apply Rmult_lt_0_compat; lra).
      assert (Q2 : 0 < (B / 3 + B / 100 - q) * val r) by (apply Rmult_lt_0_compat; lra).
      assert (Q3 : 0 < (B / 3 + B / 100 + p) * (1 - val r)) by (apply Rmult_lt_0_compat; lra).
      assert (Q4 : 0 < (B / 3 + B / 100 + q) * val r) by (apply Rmult_lt_0_compat; lra).
      apply Rabs_def1; lra. }
    pose proof (Conv _ _ F0 F1) as C01. pose proof (Conv _ _ F1 F2) as C12.
    destruct (mix_fin r (fmix r s c1) (fmix r c1 c2)) as [N1 _]; try assumption; try lra.
    { apply Rabs_def2 in C01. apply Rabs_le_inv in E1. apply Rabs_le_inv in E2.
      apply Rabs_def1; lra. }
    destruct (mix_fin r (fmix r c1 c2) (fmix r c2 e)) as [N2 _]; try assumption; try lra.
    { apply Rabs_def2 in C12. apply Rabs_le_inv in E2. apply Rabs_le_inv in E3.
      apply Rabs_def1; lra. }
    apply (mix_not_nan r _ _ Fr); auto. lra.
  Qed.
End Numerics.

(** ** Sorting *)
Section Sorting.
  Context {F : Format}.
  Notation le := (fun x y : float => s_leb x y = true).

  Lemma leb_total (x y : float) : ~ nan x -> ~ nan y -> s_leb x y = false -> s_leb y x = true.
  Proof.
    intros Hx Hy. rewrite !leb_key by assumption.
    destruct (Rle_bool_spec (key x) (key y)); [discriminate|]. intros _. apply Rle_bool_true. lra.
  Qed.
  Lemma leb_refl (x : float) : ~ nan x -> s_leb x x = true.
  Proof. intros Hx. rewrite leb_key by assumption. apply Rle_bool_true. lra. Qed.

  Lemma insert_sorted_f (x : float) l : ~ nan x -> (forall y, In y l -> ~ nan y) ->
    StronglySorted le l -> StronglySorted le (s_insert x l).
  Proof.
    intros Nx. induction l as [|z l IH]; intros N H; cbn [s_insert].
    - repeat constructor.
    - inversion H as [|? ? Hs Hz]; subst. destruct (s_leb x z) eqn:E.
      + constructor; auto. constructor; auto. rewrite Forall_forall in *. intros y Hy.
        now apply leb_trans with z; [|apply Hz].
      + constructor; [apply IH; auto; intros; apply N; now right|].
        rewrite Forall_forall in *. intros y Hy.
        apply insert_in_gen in Hy as [->|Hy]; [|auto]. apply leb_total; auto. apply N. now left.
  Qed.
  Lemma isort_sorted_f (l : list float) : (forall y, In y l -> ~ nan y) -> StronglySorted le (s_isort l).
  Proof.
    induction l as [|x l IH]; intros N; cbn [s_isort]; [constructor|].
    apply insert_sorted_f; [apply N; now left| |apply IH; intros; apply N; now right].
    intros y Hy. apply N. right. now apply (isort_in_gen y l).
  Qed.

  Lemma sorted_first (l : list float) lo : (forall y, In y l -> ~ nan y) -> StronglySorted le l ->
    nth_error l 0 = Some lo -> forall x, In x l -> s_leb lo x = true.
  Proof.
    intros N H E x Hx. destruct l as [|z l]; [discriminate|]. injection E as ->.
    inversion H as [|? ? Hs Hz]; subst. rewrite Forall_forall in Hz.
    destruct Hx as [->|Hx]; [|auto]. apply leb_refl, N. now left.
  Qed.
  Lemma sorted_last (l : list float) hi : (forall y, In y l -> ~ nan y) -> StronglySorted le l ->
    nth_error l (length l - 1) = Some hi -> forall x, In x l -> s_leb x hi = true.
  Proof.
    induction l as [|z l IH]; intros N H E x Hx; [destruct Hx|].
    inversion H as [|? ? Hs Hz]; subst. rewrite Forall_forall in Hz.
    destruct l as [|w l].
    - injection E as ->. destruct Hx as [->|[]]. apply leb_refl, N. now left.
    - assert (E' : nth_error (w :: l) (length (w :: l) - 1) = Some hi).
      { rewrite <- E. cbn [length]. replace (S (S (length l)) - 1)%nat with (S (S (length l) - 1)) by lia. reflexivity. }
      destruct Hx as [->|Hx].
      + apply Hz. now apply nth_error_In in E'.
      + apply IH; auto. intros; apply N; now right.
  Qed.

  (** the box of a list: its members are inside, its bounds are members *)
  Lemma box_of_spec (vs : list float) b : (2 <= length vs)%nat -> box_of vs = Ret b ->
    In (fst b) vs /\ In (snd b) vs /\
    forall x, In x vs -> ~ nan x /\ s_leb (fst b) x = true /\ s_leb x (snd b) = true.
  Proof.
    intros L E. destruct (existsb s_is_nan vs) eqn:N.
    { rewrite box_of_nan in E by assumption. discriminate. }
    destruct (box_of_ok vs L N) as (lo & hi & E' & Elo & Ehi). rewrite E' in E. injection E as <-.
    assert (NN : forall y, In y vs -> ~ nan y).
    { intros y Hy Ny. assert (existsb s_is_nan vs = true) by (apply existsb_exists; exists y; split; [exact Hy|exact Ny]).
      congruence. }
    assert (NI : forall y, In y (s_isort vs) -> ~ nan y) by (intros y Hy; apply NN; now apply (isort_in_gen y vs)).
    pose proof (isort_sorted_f vs NN) as S.
    rewrite <- (isort_length_gen vs) in Ehi. cbn [fst snd].
    split; [apply (isort_in_gen lo vs); now apply nth_error_In in Elo|].
    split; [apply (isort_in_gen hi vs); now apply nth_error_In in Ehi|].
    intros x Hx. split; [auto|]. apply (isort_in_gen x vs) in Hx. split.
    - eapply sorted_first; eauto.
    - eapply sorted_last; eauto.
  Qed.
End Sorting.

Section Boxes.
  Context {F : Format} {P : Type} {PT : Point float P} {CP : CwPoint float P}.

  Lemma no_nan_list {A} (f : A -> float) l (x y : float) :
    (forall r, In r l -> ~ nan (f r)) -> fin x -> fin y ->
    existsb s_is_nan (map f l ++ [x; y]) = false.
  Proof.
    intros H Hx Hy. destruct (existsb s_is_nan (map f l ++ [x; y])) eqn:E; [|reflexivity].
    apply existsb_exists in E as (z & Hz & Nz). exfalso. apply in_app_or in Hz as [Hz|[<-|[<-|[]]]].
    - apply in_map_iff in Hz as (r & <- & Hr). exact (H r Hr Nz).
    - rewrite fin_not_nan in Nz by assumption. discriminate.
    - rewrite fin_not_nan in Nz by assumption. discriminate.
  Qed.

  (** C56 *)
  Theorem quad_box_total (q : quad P) : fin_point (q_start q) -> fin_point (q_ctrl q) -> fin_point (q_end q) ->
    exists bounds, quad_bounding_box q = Ret bounds /\ length bounds = p_dim (P := P).
  Proof.
    intros Hs Hc He. rewrite quad_box_fill.
    destruct (fill_ret (quad_bbox_axis q) (repeat (s_lit 0, s_lit 0) (p_dim (P := P))) (p_dim (P := P)))
      as (bs & E & L & _).
    - rewrite repeat_length. lia.
    - intros i Hi. destruct (quad_bbox_axis_box q i Hi) as (l & _ & Hl & ->).
      destruct (box_of_ok (map (quad_at (cw (q_start q) i) (cw (q_ctrl q) i) (cw (q_end q) i)) l ++
        [cw (q_start q) i; cw (q_end q) i])) as (lo & hi & -> & _); [apply tail_len| |eauto].
      apply no_nan_list; auto. intros r Hr. destruct (Hl r Hr) as [U E]. eapply quad_at_not_nan; eauto.
    - exists bs. rewrite repeat_length in L. auto.
  Qed.

  Theorem cubic_box_total (c : cubic P) :
    fin_point (c_start c) -> fin_point (c_ctrl1 c) -> fin_point (c_ctrl2 c) -> fin_point (c_end c) ->
    exists bounds, cubic_bounding_box c = Ret bounds /\ length bounds = p_dim (P := P).
  Proof.
    intros Hs Hc1 Hc2 He. rewrite cubic_box_fill.
    destruct (fill_ret (cubic_bbox_axis c) (repeat (s_lit 0, s_lit 0) (p_dim (P := P))) (p_dim (P := P)))
      as (bs & E & L & _).
    - rewrite repeat_length. lia.
    - intros i Hi. destruct (cubic_bbox_axis_box c i Hi) as (l & _ & Hl & ->).
      destruct (box_of_ok (map (cubic_at (cw (c_start c) i) (cw (c_ctrl1 c) i) (cw (c_ctrl2 c) i) (cw (c_end c) i)) l ++
        [cw (c_start c) i; cw (c_end c) i])) as (lo & hi & -> & _); [apply tail_len| |eauto].
      apply no_nan_list; auto. intros r Hr. destruct (Hl r Hr) as [U E]. eapply cubic_at_not_nan; eauto.
    - exists bs. rewrite repeat_length in L. auto.
  Qed.

  Lemma fill_inv {B} (f : nat -> outcome B) init n bs : (n <= length init)%nat ->
    (forall i, (i < n)%nat -> f i = Panic \/ exists b, f i = Ret b) -> fill f init n = Ret bs ->
    forall i, (i < n)%nat -> exists b, f i = Ret b /\ nth_error bs i = Some b.
  Proof.
    intros Hn Hf E.
    assert (A : forall i, (i < n)%nat -> exists b, f i = Ret b).
    { intros i Hi. destruct (Hf i Hi) as [P'|]; [|assumption].
      rewrite (fill_panic f init n Hn Hf) in E; [discriminate|eauto]. }
    destruct (fill_ret f init n Hn A) as (bs' & E' & _ & C). rewrite E in E'. injection E' as <-. exact C.
  Qed.

  Lemma len_init {B} {b : B} : (p_dim (P := P) <= length (repeat b (p_dim (P := P))))%nat.
  Proof. rewrite repeat_length. lia. Qed.

  Theorem quad_box_ends (q : quad P) bounds : quad_bounding_box q = Ret bounds ->
    box_has bounds (q_start q) /\ box_has bounds (q_end q).
  Proof.
    rewrite quad_box_fill. intros E.
    assert (A : forall i, (i < p_dim (P := P))%nat -> exists lo hi, nth_error bounds i = Some (lo, hi) /\
      (s_leb lo (cw (q_start q) i) = true /\ s_leb (cw (q_start q) i) hi = true) /\
      (s_leb lo (cw (q_end q) i) = true /\ s_leb (cw (q_end q) i) hi = true)).
    { intros i Hi. pose proof (fill_inv (quad_bbox_axis q) _ _ _ len_init (quad_axis_cases q) E i Hi) as ([lo hi] & E' & N).
      exists lo, hi. split; [exact N|]. destruct (quad_bbox_axis_box q i Hi) as (l & _ & _ & E2). rewrite E2 in E'.
      destruct (box_of_spec _ _ (tail_len _ _ _ _) E') as (_ & _ & S).
      split; apply S; apply in_or_app; right; cbn; auto. }
    split; intros i Hi; destruct (A i Hi) as (lo & hi & N & S & S'); exists lo, hi; tauto.
  Qed.

  Theorem cubic_box_ends (c : cubic P) bounds : cubic_bounding_box c = Ret bounds ->
    box_has bounds (c_start c) /\ box_has bounds (c_end c).
  Proof.
    rewrite cubic_box_fill. intros E.
    assert (A : forall i, (i < p_dim (P := P))%nat -> exists lo hi, nth_error bounds i = Some (lo, hi) /\
      (s_leb lo (cw (c_start c) i) = true /\ s_leb (cw (c_start c) i) hi = true) /\
      (s_leb lo (cw (c_end c) i) = true /\ s_leb (cw (c_end c) i) hi = true)).
    { intros i Hi. pose proof (fill_inv (cubic_bbox_axis c) _ _ _ len_init (cubic_axis_cases c) E i Hi) as ([lo hi] & E' & N).
      exists lo, hi. split; [exact N|]. destruct (cubic_bbox_axis_box c i Hi) as (l & _ & _ & E2). rewrite E2 in E'.
      destruct (box_of_spec _ _ (tail_len _ _ _ _) E') as (_ & _ & S).
      split; apply S; apply in_or_app; right; cbn; auto. }
    split; intros i Hi; destruct (A i Hi) as (lo & hi & N & S & S'); exists lo, hi; tauto.
  Qed.

  Lemma line_box_fill (l : line P) : line_bounding_box l
    = fill (fun i => let! s := p_axis (l_start l) i in let! e := p_axis (l_end l) i in
                     if s_ltb s e then Ret (s, e) else Ret (e, s))
        (repeat (s_lit 0, s_lit 0) (p_dim (P := P))) (p_dim (P := P)).
  Proof.
    unfold line_bounding_box, fill. apply for_in_ext. intros i s Hi. apply in_range in Hi.
    rewrite !axis_in by lia. cbn [bind]. now destruct (s_ltb _ _).
  Qed.

  Theorem line_box_ends (l : line P) bounds : line_bounding_box l = Ret bounds ->
    (forall i, (i < p_dim (P := P))%nat -> ~ nan (cw (l_start l) i) /\ ~ nan (cw (l_end l) i)) ->
    box_has bounds (l_start l) /\ box_has bounds (l_end l).
  Proof.
    rewrite line_box_fill. intros E NN.
    assert (A : forall i, (i < p_dim (P := P))%nat -> exists lo hi, nth_error bounds i = Some (lo, hi) /\
      (s_leb lo (cw (l_start l) i) = true /\ s_leb (cw (l_start l) i) hi = true) /\
      (s_leb lo (cw (l_end l) i) = true /\ s_leb (cw (l_end l) i) hi = true)).
    { intros i Hi. destruct (NN i Hi) as [N1 N2].
      edestruct (fill_inv (fun i => let! s := p_axis (l_start l) i in let! e := p_axis (l_end l) i in
        if s_ltb s e then Ret (s, e) else Ret (e, s))
        (repeat (s_lit 0, s_lit 0) (p_dim (P := P))) (p_dim (P := P)) bounds len_init) as ([lo hi] & E' & N); [|exact E|exact Hi|].
      { intros j Hj. right. rewrite !axis_in by exact Hj. cbn [bind]. destruct (s_ltb _ _); eauto. }
      exists lo, hi. split; [exact N|]. cbv beta in E'. rewrite !axis_in in E' by exact Hi. cbn [bind] in E'.
      rewrite ltb_key in E' by assumption. rewrite !leb_key.
      all: destruct (Rlt_bool_spec (key (cw (l_start l) i)) (key (cw (l_end l) i))); injection E' as <- <-; auto.
      all: repeat split; apply Rle_bool_true; lra. }
    split; intros i Hi; destruct (A i Hi) as (lo & hi & N & S & S'); exists lo, hi; tauto.
  Qed.
End Boxes.
