(** C127: the private cubic root finder of exact coordinates over a rounded [NativeFloat]. *)
From Coq Require Import Reals ZArith List Arith Bool Lia Lra Psatz.
From Flocq Require Import Core.Core IEEE754.BinarySingleNaN.
From Verif Require Import Base.Outcome Base.Scalar Model.Point Model.Roots Model.TwoScalars Inst.RealInst Inst.FloatInst
  Inst.ExactOver Spec.Rounding Spec.Widening Spec.CubicRoots
  Proofs.OutcomeFacts Proofs.RealTac Proofs.FloatFacts Proofs.FloatBound Proofs.FloatRoots Proofs.TwoScalars Proofs.Narrowing
  Proofs.Cardano.
Import ListNotations.

Section Low.
  Context {T S P : Type} {NT : Scalar T} {SS : Scalar S} {MX : Mixed T S} {PT : Point S P} {PS : Scaled T P}.
  Context {TN : ScalarTrans T} {TS : ScalarTrans S}.
  Lemma w_cubic_roots_low (a b c d : S) : widening T S P -> s_ltb (s_abs a) s_eps = true ->
    cubic_real_roots2 (T := T) a b c d = roots_cubic a b c d.
  Proof.
    intros W H. unfold cubic_real_roots2, roots_cubic, n_lit. cbn zeta. rewrite H.
    rewrite !(wd_mul _ _ _ W), !(wd_lit _ _ _ W) by (cbn; lia). reflexivity.
  Qed.
End Low.

Local Open Scope R_scope.
Section Third.
  Context {F : Format} {E : Eps} {TN : ScalarTrans float}.

  Definition third : R := val (s_div (s_lit 1) (s_lit 3)).
  Lemma third_close : Rabs (third - 1 / 3) <= uro / 2.
  Proof.
    unfold third. destruct (lit_small 1 ltac:(cbn; lia)) as [F1 V1]. destruct (lit_small 3 ltac:(cbn; lia)) as [F3 V3].
    pose proof (@fmax_ge F) as B. pose proof (@eta_uro F) as EU. pose proof (@uro_pos F) as U0.
    destruct (div_ok (s_lit 1) (s_lit 3) F1) as [_ ->]; [rewrite V3; lra|rewrite V1, V3, Rabs_pos_eq; lra|].
    rewrite V1, V3. pose proof (rnd_err (1 / 3)) as R0. rewrite (Rabs_pos_eq (1 / 3)) in R0 by lra. lra.
  Qed.
  Lemma third_not : third <> 1 / 3.
  Proof. intros H. apply (no_thirds (s_div (s_lit 1) (s_lit 3)) 1); [discriminate|]. unfold third in H. lra. Qed.

  Hypothesis Hpi : val (s_pi_f32 : float) = 13176795 / 4194304.
  Lemma pi_trip : val (narrow (val (s_pi_f32 : float))) = pi32 /\ fin (narrow (val (s_pi_f32 : float))).
  Proof.
    pose proof (@fmax_ge F) as B. destruct (narrow_ok (val (s_pi_f32 : float))) as [N V]; [rewrite Hpi, Rabs_pos_eq; lra|].
    split; [|exact N]. rewrite V, rnd_float by apply val_float. exact Hpi.
  Qed.
  Lemma pi_shift k z : (0 <= k <= 2)%Z -> IZR z = bpow radix2 k -> (1 <= z <= 4)%Z ->
    val (s_mul (s_lit z) (narrow (val (s_pi_f32 : float)))) = IZR z * pi32.
  Proof.
    intros Hk Hz Z4. destruct pi_trip as [V N]. destruct (lit_small z ltac:(lia)) as [Fz Vz]. pose proof (@fmax_ge F) as B.
    assert (Hb : 1 <= IZR z <= 4) by (split; apply (IZR_le _ _); lia).
    destruct (mul_ok _ _ Fz N) as [_ ->].
    { rewrite Vz, V. unfold pi32. rewrite Rabs_pos_eq; nra. }
    rewrite Vz, V. apply rnd_float. rewrite Hz, Rmult_comm. apply float_shift; [|lia]. rewrite <- V. apply val_float.
  Qed.

  Variables a b c d : R.
  Hypothesis Ha : eps <= Rabs a.
  Notation W := (cubic_real_roots2 (T := float) a b c d).

  Ltac vals := cbn [m_from m_into m_add m_sub m_mul m_div ExactMixed]; unfold n_lit; fold third;
    rewrite ?(proj2 (lit_small 0 ltac:(cbn; lia))), ?(proj2 (lit_small 2 ltac:(cbn; lia))), ?(proj2 (lit_small 3 ltac:(cbn; lia))),
      ?(proj2 (lit_small 9 ltac:(cbn; lia))), ?(proj2 (lit_small 27 ltac:(cbn; lia))), ?(proj2 (lit_small 54 ltac:(cbn; lia))).

  Definition wcb (x : R) : R :=
    (if Rlt_dec x 0 then -1 else 1) * (if Rlt_dec 0 (Rabs x) then Rpower (Rabs x) third else 0).
  Definition sP : R := wcb (cR a b c d + sqrt (cD a b c d)).
  Definition sM : R := wcb (cR a b c d - sqrt (cD a b c d)).
  Lemma wide_real : 0 <= cD a b c d ->
    W = Ret ([- (b / a) * third + (sP + sM)] ++
             if Rltb (Rabs (sP - sM)) eps && Rleb eps (Rabs (sP + sM)) then [- (b / a) * third - (sP + sM) / 2] else []).
  Proof.
    intros HD. unfold cubic_real_roots2. rs. destruct (Rltb_spec (Rabs a) eps) as [L|_]; [lra|].
    cbv zeta. vals. fold (cQ a b c). fold (cR a b c d). fold (cD a b c d).
    destruct (Rleb_spec 0 (cD a b c d)) as [_|L]; [|lra].
    cbn [s_signum s_powf RScalarTrans]. fold (wcb (cR a b c d + sqrt (cD a b c d))). fold (wcb (cR a b c d - sqrt (cD a b c d))).
    fold sP. fold sM. rewrite av_push_lt by (cbn; lia). cbn [bind app].
    destruct (Rltb _ _ && Rleb _ _)%bool; [|reflexivity]. rewrite av_push_lt by (cbn; lia). reflexivity.
  Qed.

  Lemma wide_trig : cD a b c d < 0 -> W =
    Ret [two_sq a b c * cos (theta a b c d * third) - b / a * third;
         two_sq a b c * cos ((theta a b c d + 2 * pi32) * third) - b / a * third;
         two_sq a b c * cos ((theta a b c d + 4 * pi32) * third) - b / a * third].
  Proof.
    intros HD. unfold cubic_real_roots2. rs. destruct (Rltb_spec (Rabs a) eps) as [L|_]; [lra|].
    cbv zeta. cbn [m_from m_into m_add m_sub m_mul m_div ExactMixed]. unfold n_lit.
    rewrite (pi_shift 1 2), (pi_shift 2 4) by (try lia; reflexivity). vals.
    fold (cQ a b c). fold (cR a b c d). fold (cD a b c d).
    destruct (Rleb_spec 0 (cD a b c d)) as [L|_]; [lra|].
    cbn [s_acos s_cos RScalarTrans]. fold (two_sq a b c). fold (theta a b c d).
    do 3 (rewrite av_push_lt by (cbn; lia); cbn [bind app]). reflexivity.
  Qed.

  Lemma wide_three : 0 < discriminant a b c d -> exists r1 r2 r3 x1 x2 x3, W = Ret [x1; x2; x3] /\
    (forall t, cubic_value a b c d t = 0 <-> t = r1 \/ t = r2 \/ t = r3) /\
    Rabs (x1 - r1) <= (6 * sqrt (b ^ 2 - 3 * a * c) + Rabs b) / Rabs a * uro /\
    Rabs (x2 - r2) <= (6 * sqrt (b ^ 2 - 3 * a * c) + Rabs b) / Rabs a * uro + sqrt (b ^ 2 - 3 * a * c) / Rabs a * / 10000000 /\
    Rabs (x3 - r3) <= (6 * sqrt (b ^ 2 - 3 * a * c) + Rabs b) / Rabs a * uro + sqrt (b ^ 2 - 3 * a * c) / Rabs a * / 10000000.
  Proof.
    intros Hd. pose proof (disc_pos _ _ _ _ Ha Hd) as HD. destruct (solve_three a b c d Ha Hd) as (r1 & r2 & r3 & y2 & y3 & E0 & R0 & C2 & C3).
    rewrite (solver_trig a b c d Ha HD) in E0. injection E0 as Y1 Y2 Y3.
    exists r1, r2, r3. do 3 eexists. split; [exact (wide_trig HD)|]. split; [exact R0|].
    destruct (w_bound a b c d Ha Hd) as [W0 W1]. pose proof (a_neq a Ha) as NA.
    pose proof third_close as T0. pose proof (@uro_pos F) as U0.
    assert (A : 0 < Rabs a) by now apply Rabs_pos_lt.
    set (G := sqrt (b ^ 2 - 3 * a * c) / Rabs a) in *. set (w := two_sq a b c) in *.
    assert (GE : (6 * sqrt (b ^ 2 - 3 * a * c) + Rabs b) / Rabs a = 6 * G + Rabs (b / a)).
    { unfold G, Rdiv. rewrite (Rabs_mult b), (Rabs_inv a). field. lra. }
    rewrite GE. set (al := theta a b c d) in *.
    assert (A0 : 0 <= al <= PI) by apply acos_bound. pose proof PI_4 as P4. pose proof pi32_bounds as [_ P5].
    assert (K : forall x, 0 <= x <= 16 + / 1000 ->
      Rabs ((w * cos (x * third) - b / a * third) - (w * cos (x * (1 / 3)) - b / a * (1 / 3))) <= (6 * G + Rabs (b / a)) * uro \/ 16 < x).
    { intros x Hx. destruct (Rle_dec x 16) as [X|X]; [left|right; lra].
      replace ((w * cos (x * third) - b / a * third) - (w * cos (x * (1 / 3)) - b / a * (1 / 3)))
        with (w * (cos (x * third) - cos (x * (1 / 3))) + - (b / a * (third - 1 / 3))) by ring.
      eapply Rle_trans; [apply Rabs_triang|]. rewrite Rabs_Ropp, !Rabs_mult, (Rabs_pos_eq w) by exact W0.
      pose proof (cos_lip (x * third) (x * (1 / 3))) as L. rewrite <- Rmult_minus_distr_l, Rabs_mult, (Rabs_pos_eq x) in L by lra.
      pose proof (Rabs_pos (third - 1 / 3)) as Z0. pose proof (Rabs_pos (b / a)) as Z1.
      assert (L1 : x * Rabs (third - 1 / 3) <= 16 * (uro / 2)) by (apply Rmult_le_compat; lra).
      assert (L2 : w * Rabs (cos (x * third) - cos (x * (1 / 3))) <= 3 / 4 * G * (8 * uro)).
      { apply Rmult_le_compat; [exact W0|apply Rabs_pos|lra|lra]. }
      assert (L3 : Rabs (b / a) * Rabs (third - 1 / 3) <= Rabs (b / a) * uro) by (apply Rmult_le_compat_l; lra). lra. }
    assert (K' : forall x, 0 <= x <= 16 ->
      Rabs ((w * cos (x * third) - b / a * third) - (w * cos (x * (1 / 3)) - b / a * (1 / 3))) <= (6 * G + Rabs (b / a)) * uro).
    { intros x Hx. destruct (K x) as [?|?]; [lra|assumption|lra]. }
    clear K. unfold close in C2, C3. fold G in C2, C3.
    assert (PP : pi32 < 3.15) by (unfold pi32; lra). assert (PL : 3 < pi32) by (unfold pi32; lra).
    assert (P3 : PI < 3.15) by (pose proof pi32_bounds as [? _]; lra).
    split; [|split].
    - rewrite <- Y1. apply K'. lra.
    - pose proof (K' (al + 2 * pi32) ltac:(lra)) as Q. rewrite Y2 in Q.
      eapply Rle_trans; [|apply Rplus_le_compat; [exact Q|exact C2]].
      match goal with |- Rabs (?x - ?r) <= Rabs (?x - ?y) + _ => replace (x - r) with ((x - y) + (y - r)) by ring end. apply Rabs_triang.
    - pose proof (K' (al + 4 * pi32) ltac:(lra)) as Q. rewrite Y3 in Q.
      eapply Rle_trans; [|apply Rplus_le_compat; [exact Q|exact C3]].
      match goal with |- Rabs (?x - ?r) <= Rabs (?x - ?y) + _ => replace (x - r) with ((x - y) + (y - r)) by ring end. apply Rabs_triang.
  Qed.
End Third.


Section One.
  Context {F : Format} {E : Eps} {TN : ScalarTrans float}.

  Lemma exp_near y : Rabs y <= 1 / 2 -> Rabs (exp y - 1) <= 2 * Rabs y.
  Proof.
    intros H. pose proof (exp_ineq1_le y) as L. pose proof (exp_ineq1_le (- y)) as M. pose proof (exp_pos y) as P.
    assert (E1 : exp y * exp (- y) = 1) by (rewrite <- exp_plus, Rplus_opp_r; apply exp_0).
    assert (X : exp y <= 1 + y * exp y) by nra.
    destruct (Rle_dec 0 y) as [S|S].
    - rewrite (Rabs_pos_eq y) in * by exact S. rewrite Rabs_pos_eq by lra. nra.
    - rewrite (Rabs_left y) in * by lra. apply Rabs_le. split; [lra|]. nra.
  Qed.

  Lemma wcb_close u : 4 * uro * Rabs (ln (Rabs u)) <= 1 -> Rabs (wcb (u * u * u) - u) <= 4 * uro * (Rabs u * Rabs (ln (Rabs u))).
  Proof.
    intros H. pose proof (@uro_pos F) as U0. pose proof third_close as T0. unfold wcb.
    destruct (Req_dec u 0) as [->|N].
    - replace (0 * 0 * 0) with 0 by ring. rewrite Rabs_R0. destruct (Rlt_dec 0 0) as [?|_]; [lra|].
      replace (1 * 0 - 0) with 0 by ring. rewrite Rabs_R0. lra.
    - assert (A : 0 < Rabs u) by now apply Rabs_pos_lt. set (m := Rabs u) in *.
      assert (AE : Rabs (u * u * u) = m * m * m) by (rewrite !Rabs_mult; reflexivity).
      assert (A3 : 0 < m * m * m) by (repeat apply Rmult_lt_0_compat; exact A).
      rewrite AE. destruct (Rlt_dec 0 (m * m * m)) as [_|?]; [|contradiction].
      assert (EQ : Rpower (m * m * m) third = m * exp ((3 * third - 1) * ln m)).
      { unfold Rpower. rewrite !ln_mult by (try apply Rmult_lt_0_compat; assumption).
        replace (third * (ln m + ln m + ln m)) with (ln m + (3 * third - 1) * ln m) by ring.
        rewrite exp_plus, exp_ln by exact A. reflexivity. }
      rewrite EQ. set (y := (3 * third - 1) * ln m).
      assert (Y : Rabs y <= 2 * uro * Rabs (ln m)).
      { unfold y. rewrite Rabs_mult. apply Rmult_le_compat_r; [apply Rabs_pos|].
        replace (3 * third - 1) with (3 * (third - 1 / 3)) by field. rewrite Rabs_mult, (Rabs_pos_eq 3) by lra. lra. }
      assert (EN : Rabs (exp y - 1) <= 2 * Rabs y) by (apply exp_near; lra).
      assert (US : (if Rlt_dec (u * u * u) 0 then -1 else 1) * (m * exp y) - u = u * (exp y - 1)).
      { unfold m. destruct (Rlt_dec u 0) as [L|L].
        - assert (u * u * u < 0) by (assert (0 < u * u) by nra; nra). destruct (Rlt_dec (u * u * u) 0) as [_|?]; [|contradiction].
          rewrite Rabs_left by exact L. ring.
        - assert (0 < u) by lra. assert (0 < u * u * u) by (repeat apply Rmult_lt_0_compat; assumption).
          destruct (Rlt_dec (u * u * u) 0) as [?|_]; [lra|]. rewrite Rabs_right by lra. ring. }
      rewrite US, Rabs_mult. fold m. replace (4 * uro * (m * Rabs (ln m))) with (m * (4 * uro * Rabs (ln m))) by ring.
      apply Rmult_le_compat_l; lra.
  Qed.

  Lemma cubes_order u v : v <= u -> v * v * v <= u * u * u.
  Proof. intros H. assert (0 <= (u - v) * (u * u + u * v + v * v)) by (apply Rmult_le_pos; [lra|]; nra). lra. Qed.

  Lemma wide_one a b c d u v : eps <= Rabs a -> v <= u ->
    (forall t, cubic_value a b c d t = a * ((t + b / (3 * a)) ^ 3 - 3 * u * v * (t + b / (3 * a)) - (u ^ 3 + v ^ 3))) ->
    4 * uro * Rabs (ln (Rabs u)) <= 1 -> 4 * uro * Rabs (ln (Rabs v)) <= 1 ->
    let r := u + v - b / (3 * a) in let err := 4 * uro * (Rabs u * Rabs (ln (Rabs u)) + Rabs v * Rabs (ln (Rabs v))) in
    cubic_value a b c d r = 0 /\
    exists x l, cubic_real_roots2 (T := float) a b c d = Ret (x :: l) /\ Rabs (x - r) <= Rabs (b / a) * (uro / 2) + err /\
      (eps + err <= u - v \/ Rabs (u + v) + err < eps -> l = []) /\
      (u - v + err < eps -> eps + err <= Rabs (u + v) ->
       exists y, l = [y] /\ Rabs (y - (- (b / (3 * a)) - (u + v) / 2)) <= Rabs (b / a) * (uro / 2) + err / 2).
  Proof.
    intros Ha Hvu Hv Lu Lv r err. pose proof (a_neq a Ha) as N.
    assert (Ec : c = a * (b * b / (3 * a * a) - 3 * u * v)).
    { pose proof (Hv 1) as H1. pose proof (Hv (-1)) as H2. unfold cubic_value in H1, H2.
      apply Rmult_eq_reg_l with 2; [|lra].
      transitivity ((a * 1 ^ 3 + b * 1 ^ 2 + c * 1 + d) - (a * (-1) ^ 3 + b * (-1) ^ 2 + c * (-1) + d) - 2 * a); [ring|].
      rewrite H1, H2. field. exact N. }
    assert (Ed : d = a * (b * b * b / (27 * a * a * a) - u * v * b / a - (u * u * u + v * v * v))).
    { pose proof (Hv 0) as H1. unfold cubic_value in H1.
      transitivity (a * 0 ^ 3 + b * 0 ^ 2 + c * 0 + d); [ring|]. rewrite H1. field. exact N. }
    assert (QE : cQ a b c = - (u * v)) by (unfold cQ; rewrite Ec; field; exact N).
    assert (RE : cR a b c d = (u * u * u + v * v * v) / 2) by (unfold cR; rewrite Ec, Ed; field; exact N).
    pose proof (cubes_order u v Hvu) as O.
    assert (DE : cD a b c d = ((u * u * u - v * v * v) / 2) * ((u * u * u - v * v * v) / 2)) by (unfold cD; rewrite QE, RE; field).
    assert (SE : sqrt (cD a b c d) = (u * u * u - v * v * v) / 2) by (rewrite DE; apply sqrt_square; lra).
    split.
    { rewrite Hv. unfold r. field. exact N. }
    rewrite (wide_real a b c d Ha) by (rewrite DE; apply Rle_0_sqr).
    assert (PE : sP a b c d = wcb (u * u * u)) by (unfold sP; rewrite SE, RE; f_equal; field).
    assert (ME : sM a b c d = wcb (v * v * v)) by (unfold sM; rewrite SE, RE; f_equal; field).
    rewrite PE, ME. pose proof (wcb_close u Lu) as Cu. pose proof (wcb_close v Lv) as Cv.
    set (su := wcb (u * u * u)) in *. set (sv := wcb (v * v * v)) in *.
    set (eu := 4 * uro * (Rabs u * Rabs (ln (Rabs u)))) in *. set (ev := 4 * uro * (Rabs v * Rabs (ln (Rabs v)))) in *.
    assert (EE : err = eu + ev) by (unfold err, eu, ev; ring).
    assert (CD : Rabs ((su - u) + (sv - v)) <= err) by (eapply Rle_trans; [apply Rabs_triang|]; lra).
    assert (CT : Rabs (b / a * (third - 1 / 3)) <= Rabs (b / a) * (uro / 2)).
    { rewrite Rabs_mult. apply Rmult_le_compat_l; [apply Rabs_pos|exact third_close]. }
    assert (S1 : Rabs (su + sv) <= Rabs (u + v) + err).
    { replace (su + sv) with ((u + v) + ((su - u) + (sv - v))) by ring. eapply Rle_trans; [apply Rabs_triang|lra]. }
    assert (S2 : Rabs (u + v) <= Rabs (su + sv) + err).
    { replace (u + v) with ((su + sv) + - ((su - u) + (sv - v))) by ring. eapply Rle_trans; [apply Rabs_triang|].
      rewrite Rabs_Ropp. lra. }
    apply Rabs_le_inv in Cu. apply Rabs_le_inv in Cv.
    eexists _, _. split; [reflexivity|]. split; [|split].
    - unfold r. replace (- (b / a) * third + (su + sv) - (u + v - b / (3 * a)))
        with (- (b / a * (third - 1 / 3)) + ((su - u) + (sv - v))) by (field; exact N).
      eapply Rle_trans; [apply Rabs_triang|]. rewrite Rabs_Ropp. lra.
    - intros [G|G].
      + rewrite (Rltb_false (Rabs (su - sv)) eps); [reflexivity|]. apply Rle_trans with (su - sv); [lra|apply Rle_abs].
      + rewrite (Rleb_false eps (Rabs (su + sv))); [|lra]. now rewrite andb_false_r.
    - intros G1 G2. rewrite (Rltb_true (Rabs (su - sv)) eps) by (apply Rabs_lt; lra).
      rewrite (Rleb_true eps (Rabs (su + sv))) by lra. cbn [andb]. eexists. split; [reflexivity|].
      replace (- (b / a) * third - (su + sv) / 2 - (- (b / (3 * a)) - (u + v) / 2))
        with (- (b / a * (third - 1 / 3)) + ((su - u) + (sv - v)) * (- / 2)) by (field; exact N).
      eapply Rle_trans; [apply Rabs_triang|]. rewrite Rabs_Ropp, (Rabs_mult (_ + _)), (Rabs_left (- / 2)) by lra. lra.
  Qed.

  (** (t - 1)^3: the value returned is three times a rounded third *)
  Lemma wide_roots_miss : eps <= 1 -> exists x, cubic_real_roots2 (T := float) 1 (-3) 3 (-1) = Ret [x] /\
    cubic_value 1 (-3) 3 (-1) x <> 0.
  Proof.
    intros He. assert (Ha : eps <= Rabs 1) by (rewrite Rabs_pos_eq; lra).
    assert (QE : cQ 1 (-3) 3 = 0) by (unfold cQ; field). assert (RE : cR 1 (-3) 3 (-1) = 0) by (unfold cR; field).
    assert (DE : cD 1 (-3) 3 (-1) = 0) by (unfold cD; rewrite QE, RE; ring).
    rewrite (wide_real 1 (-3) 3 (-1) Ha) by lra. unfold sP, sM. rewrite DE, RE, sqrt_0, Rplus_0_r, Rminus_0_r.
    assert (Z : wcb 0 = 0).
    { unfold wcb. rewrite Rabs_R0. destruct (Rlt_dec 0 0) as [?|_]; lra. }
    rewrite Z. pose proof eps_pos as Ep.
    rewrite (Rleb_false eps (Rabs (0 + 0))), andb_false_r by (rewrite Rplus_0_r, Rabs_R0; exact Ep).
    eexists. split; [reflexivity|].
    intros C. apply third_not. unfold cubic_value in C.
    assert (K : (3 * third - 1) ^ 3 = 0) by (rewrite <- C; field).
    destruct (Req_dec (3 * third - 1) 0) as [Q|Q]; [lra|]. now apply (pow_nonzero _ 3) in Q.
  Qed.
End One.
