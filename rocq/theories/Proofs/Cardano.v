(** The cubic solver of src/roots.rs over the reals. *)
From Coq Require Import Reals List Arith Lia Lra Psatz Machin Bool.
From Verif Require Import Base.Outcome Base.Scalar Model.Roots Inst.RealInst Spec.CubicRoots
  Proofs.OutcomeFacts Proofs.RealTac.
Import ListNotations.
Local Open Scope R_scope.

(** ** Cube roots *)
Definition cbrt (x : R) : R :=
  (if Rlt_dec x 0 then -1 else 1) * (if Rlt_dec 0 (Rabs x) then Rpower (Rabs x) (1 / 3) else 0).

Lemma Rpower_third x : 0 < x -> Rpower x (1 / 3) * Rpower x (1 / 3) * Rpower x (1 / 3) = x.
Proof.
  intros H. rewrite <- !Rpower_plus. replace (1 / 3 + 1 / 3 + 1 / 3) with 1 by lra. now apply Rpower_1.
Qed.
Lemma cbrt_cube x : cbrt x * cbrt x * cbrt x = x.
Proof.
  unfold cbrt. destruct (Rlt_dec 0 (Rabs x)) as [H|H].
  - pose proof (Rpower_third _ H) as C. set (p := Rpower (Rabs x) (1 / 3)) in *.
    destruct (Rlt_dec x 0) as [N|N].
    + rewrite Rabs_left in C by exact N. replace (-1 * p * (-1 * p) * (-1 * p)) with (- (p * p * p)) by ring. lra.
    + rewrite Rabs_right in C by lra. replace (1 * p * (1 * p) * (1 * p)) with (p * p * p) by ring. lra.
  - pose proof (Rabs_pos x). assert (E : Rabs x = 0) by lra.
    destruct (Req_dec x 0) as [->|Hx]; [ring|]. apply Rabs_no_R0 in Hx. lra.
Qed.

Lemma cube_inj x y : x * x * x = y * y * y -> x = y.
Proof.
  intros H. destruct (Rtotal_order x y) as [L|[E|L]]; [|exact E|]; exfalso.
  - assert (0 < (y - x) * (x * x + x * y + y * y)); [|lra].
    apply Rmult_lt_0_compat; [lra|].
    destruct (Req_dec x 0) as [->|Hx]; [nra|].
    assert (0 < x * x) by nra. nra.
  - assert (0 < (x - y) * (x * x + x * y + y * y)); [|lra].
    apply Rmult_lt_0_compat; [lra|].
    destruct (Req_dec x 0) as [->|Hx]; [nra|].
    assert (0 < x * x) by nra. nra.
Qed.
Lemma cbrt_mul x y : cbrt x * cbrt y = cbrt (x * y).
Proof.
  apply cube_inj. rewrite cbrt_cube.
  replace (cbrt x * cbrt y * (cbrt x * cbrt y) * (cbrt x * cbrt y))
    with ((cbrt x * cbrt x * cbrt x) * (cbrt y * cbrt y * cbrt y)) by ring.
  now rewrite !cbrt_cube.
Qed.
Lemma cbrt_of_cube x : cbrt (x * x * x) = x.
Proof. apply cube_inj. now rewrite cbrt_cube. Qed.

(** ** The solver *)
Section Solver.
  Context {E : Eps}.
  Variables a b c d : R.
  Hypothesis Ha : eps <= Rabs a.

  Lemma a_neq : a <> 0.
  Proof. intros ->. rewrite Rabs_R0 in Ha. pose proof eps_pos. lra. Qed.

  (** the reduced cubic y^3 + 3 Q y - 2 R with t = y - b/(3a) *)
  Definition cQ : R := (c / a * 3 - b / a * (b / a)) / 9.
  Definition cR : R := (b / a * (c / a) * 9 - d / a * 27 - b / a * (b / a) * (b / a) * 2) / 54.
  Definition cD : R := cQ * cQ * cQ + cR * cR.
  Definition cubic_poly (t : R) : R := a * (t * t * t) + b * (t * t) + c * t + d.
  Definition reduced (y : R) : R := y * y * y + 3 * cQ * y - 2 * cR.

  Lemma reduce t : cubic_poly t = a * reduced (t + b / a / 3).
  Proof. unfold cubic_poly, reduced, cQ, cR. field. exact a_neq. Qed.
  Lemma reduce' y : cubic_poly (- (b / a) * (1 / 3) + y) = a * reduced y.
  Proof. rewrite reduce. f_equal. f_equal. field. exact a_neq. Qed.
  Lemma root_iff y : cubic_poly (- (b / a) * (1 / 3) + y) = 0 <-> reduced y = 0.
  Proof.
    rewrite reduce'. split.
    - intros H. apply Rmult_integral in H as [H|H]; [now elim a_neq|exact H].
    - intros ->. ring.
  Qed.

  Definition cS : R := cbrt (cR + sqrt cD).
  Definition cT : R := cbrt (cR - sqrt cD).

  Lemma solver_real : 0 <= cD -> roots_cubic a b c d =
    Ret ([- (b / a) * (1 / 3) + (cS + cT)] ++
         if Rltb (Rabs (cS - cT)) eps && Rleb eps (Rabs (cS + cT))
         then [- (b / a) * (1 / 3) - (cS + cT) / 2] else []).
  Proof.
    intros HD. unfold roots_cubic. rs.
    destruct (Rltb_spec (Rabs a) eps) as [L|_]; [lra|].
    cbv zeta. fold cQ. fold cR. fold cD.
    destruct (Rleb_spec 0 cD) as [_|L]; [|lra].
    cbn [s_signum s_powf RScalarTrans].
    change ((if Rlt_dec (cR + sqrt cD) 0 then -1 else 1) *
      (if Rlt_dec 0 (Rabs (cR + sqrt cD)) then Rpower (Rabs (cR + sqrt cD)) (1 / 3) else 0)) with cS.
    change ((if Rlt_dec (cR - sqrt cD) 0 then -1 else 1) *
      (if Rlt_dec 0 (Rabs (cR - sqrt cD)) then Rpower (Rabs (cR - sqrt cD)) (1 / 3) else 0)) with cT.
    rewrite av_push_lt by (cbn; lia). cbn [bind app].
    destruct (Rltb _ _ && Rleb _ _)%bool; [|reflexivity].
    rewrite av_push_lt by (cbn; lia). reflexivity.
  Qed.

  Lemma ST : 0 <= cD -> cS * cT = - cQ.
  Proof.
    intros HD. unfold cS, cT. rewrite cbrt_mul. rewrite <- (cbrt_of_cube (- cQ)). f_equal.
    replace ((cR + sqrt cD) * (cR - sqrt cD)) with (cR * cR - sqrt cD * sqrt cD) by ring.
    rewrite sqrt_sqrt by exact HD. unfold cD. ring.
  Qed.
  Lemma SST : cS * cS * cS + cT * cT * cT = 2 * cR.
  Proof. unfold cS, cT. rewrite !cbrt_cube. ring. Qed.


  Lemma factored y : 0 <= cD -> reduced y = (y - (cS + cT)) *
    ((y + (cS + cT) / 2) * (y + (cS + cT) / 2) + 3 / 4 * ((cS - cT) * (cS - cT))).
  Proof.
    intros HD. unfold reduced. rewrite <- SST.
    replace cQ with (- (cS * cT)) by (rewrite (ST HD); ring). field.
  Qed.

  Lemma S_neq_T : 0 < cD -> cS <> cT.
  Proof.
    intros H K. assert (C : cR + sqrt cD = cR - sqrt cD).
    { rewrite <- (cbrt_cube (cR + sqrt cD)), <- (cbrt_cube (cR - sqrt cD)). fold cS cT. now rewrite K. }
    pose proof (sqrt_lt_R0 _ H). lra.
  Qed.

  (** one real root: it is the first value returned *)
  Theorem one_root : 0 < cD -> exists r l, roots_cubic a b c d = Ret (r :: l) /\
    forall t, cubic_poly t = 0 <-> t = r.
  Proof.
    intros HD. rewrite solver_real by lra. eexists _, _. split; [reflexivity|].
    intros t. replace t with (- (b / a) * (1 / 3) + (t + b / a * (1 / 3))) at 1 by ring.
    rewrite root_iff. rewrite factored by lra. split.
    - intros H. apply Rmult_integral in H as [H|H]; [lra|].
      pose proof (S_neq_T HD) as N.
      assert (0 < (cS - cT) * (cS - cT)) by nra.
      pose proof (Rle_0_sqr (t + b / a * (1 / 3) + (cS + cT) / 2)) as Q. unfold Rsqr in Q. nra.
    - intros ->. apply Rmult_eq_0_compat_r. ring.
  Qed.
  (** ... and the only one, when the cube roots are at least EPSILON apart *)
  Theorem one_root_exact : 0 < cD -> eps <= Rabs (cS - cT) ->
    exists r, roots_cubic a b c d = Ret [r] /\ forall t, cubic_poly t = 0 <-> t = r.
  Proof.
    intros HD Hs. destruct (one_root HD) as (r & l & Er & Hr). exists r. split; [|exact Hr].
    rewrite solver_real in * by lra. destruct (Rltb_spec (Rabs (cS - cT)) eps) as [L|_]; [lra|].
    cbn [andb app] in *. injection Er as <- <-. reflexivity.
  Qed.


  (** ** Three real roots: the trigonometric branch *)
  Definition two_sq : R := sqrt (- cQ) * 2.
  Definition theta : R := acos (cR / sqrt (- cQ * cQ * cQ)).
  Definition pi32 : R := 13176795 / 4194304.

  Lemma solver_trig : cD < 0 -> roots_cubic a b c d =
    Ret [two_sq * cos (theta * (1 / 3)) - b / a * (1 / 3);
         two_sq * cos ((theta + 2 * pi32) * (1 / 3)) - b / a * (1 / 3);
         two_sq * cos ((theta + 4 * pi32) * (1 / 3)) - b / a * (1 / 3)].
  Proof.
    intros HD. unfold roots_cubic. rs.
    destruct (Rltb_spec (Rabs a) eps) as [L|_]; [lra|].
    cbv zeta. fold cQ. fold cR. fold cD.
    destruct (Rleb_spec 0 cD) as [L|_]; [lra|].
    cbn [s_acos s_cos s_pi_f32 RScalarTrans].
    rewrite av_push_lt by (cbn; lia). cbn [bind app].
    rewrite av_push_lt by (cbn; lia). cbn [bind app].
    rewrite av_push_lt by (cbn; lia). reflexivity.
  Qed.

  Hypothesis HD : cD < 0.
  Lemma Q_neg : cQ < 0.
  Proof.
    apply Rnot_le_lt. intros H. unfold cD in HD.
    assert (0 <= cQ * cQ * cQ) by (apply Rmult_le_pos; [apply Rmult_le_pos; exact H|exact H]). nra.
  Qed.
  Definition q3 : R := sqrt (- cQ * cQ * cQ).
  Lemma q3_pos : 0 < q3.
  Proof.
    apply sqrt_lt_R0. pose proof Q_neg.
    replace (- cQ * cQ * cQ) with ((- cQ) * (cQ * cQ)) by ring. apply Rmult_lt_0_compat; [lra|]. nra.
  Qed.
  Lemma q3_eq : q3 = sqrt (- cQ) * - cQ.
  Proof.
    pose proof Q_neg. unfold q3. replace (- cQ * cQ * cQ) with ((- cQ) * ((- cQ) * (- cQ))) by ring.
    rewrite sqrt_mult_alt by lra. f_equal. apply sqrt_square. lra.
  Qed.
  Lemma cos_theta : cos theta = cR / q3.
  Proof.
    unfold theta. fold q3. apply cos_acos. pose proof q3_pos as P.
    assert (S : cR * cR < q3 * q3).
    { unfold q3. rewrite sqrt_sqrt.
      - unfold cD in HD. lra.
      - pose proof Q_neg. replace (- cQ * cQ * cQ) with ((- cQ) * (cQ * cQ)) by ring. apply Rmult_le_pos; nra. }
    assert (B : - q3 < cR < q3) by (split; nra).
    split.
    - apply Rmult_le_reg_r with q3; [exact P|]. unfold Rdiv. rewrite Rmult_assoc, Rinv_l by lra. lra.
    - apply Rmult_le_reg_r with q3; [exact P|]. unfold Rdiv. rewrite Rmult_assoc, Rinv_l by lra. lra.
  Qed.

  Lemma cos_3 x : cos (3 * x) = 4 * (cos x * cos x * cos x) - 3 * cos x.
  Proof.
    replace (3 * x) with (2 * x + x) by ring. rewrite cos_plus, cos_2a_cos, sin_2a.
    pose proof (sin2_cos2 x) as H. unfold Rsqr in H.
    replace (2 * sin x * cos x * sin x) with (2 * cos x * (sin x * sin x)) by ring.
    replace (sin x * sin x) with (1 - cos x * cos x) by lra. ring.
  Qed.

  (** value of the reduced cubic at 2 sqrt(-Q) cos(phi/3) *)
  Lemma trig_value phi : reduced (two_sq * cos (phi * (1 / 3))) = 2 * q3 * (cos phi - cos theta).
  Proof.
    assert (E1 : cos phi = 4 * (cos (phi * (1 / 3)) * cos (phi * (1 / 3)) * cos (phi * (1 / 3))) - 3 * cos (phi * (1 / 3))).
    { rewrite <- cos_3. f_equal. field. }
    rewrite E1, cos_theta. unfold reduced, two_sq. rewrite q3_eq. pose proof Q_neg.
    assert (S : sqrt (- cQ) * sqrt (- cQ) = - cQ) by (apply sqrt_sqrt; lra).
    pose proof (sqrt_lt_R0 (- cQ)) as Sp. set (x := sqrt (- cQ)) in *. set (y := cos (phi * (1 / 3))).
    replace cQ with (- (x * x)) by lra. field. nra.
  Qed.


  Lemma trig_residual phi : cubic_poly (two_sq * cos (phi * (1 / 3)) - b / a * (1 / 3))
    = a * (2 * q3 * (cos phi - cos theta)).
  Proof.
    replace (two_sq * cos (phi * (1 / 3)) - b / a * (1 / 3))
      with (- (b / a) * (1 / 3) + two_sq * cos (phi * (1 / 3))) by ring.
    rewrite reduce'. now rewrite trig_value.
  Qed.
End Solver.

(** ** The f32 constant *)
Lemma pi32_bounds : 0 < pi32 - PI < / 10000000.
Proof.
  pose proof (PI_2_3_7_ineq 4) as [L U]. unfold pi32.
  unfold PI_2_3_7_tg, Ratan_seq, tg_alt in L, U. cbn [Nat.mul Nat.add] in L, U.
  cbn [sum_f_R0 Nat.mul Nat.add pow INR] in L, U.
  split; lra.
Qed.

Lemma cos_lip x y : Rabs (cos x - cos y) <= Rabs (x - y).
Proof.
  destruct (Req_dec x y) as [->|N]; [rewrite !Rminus_eq_0, Rabs_R0; lra|].
  rewrite form2, !Rabs_mult. rewrite (Rabs_left (-2)) by lra.
  assert (H1 : Rabs (sin ((x + y) / 2)) <= 1) by (apply Rabs_le; apply SIN_bound).
  assert (H2 : forall z, 0 <= z -> sin z <= z).
  { intros z [Hz|<-]; [left; now apply sin_lt_x|rewrite sin_0; lra]. }
  assert (H3 : Rabs (sin ((x - y) / 2)) <= Rabs ((x - y) / 2)).
  { assert (K : forall z, Rabs (sin z) <= Rabs z).
    { assert (K0 : forall z, 0 <= z -> Rabs (sin z) <= z).
      { intros z Hz. destruct (Rle_dec z 1) as [Z1|Z1].
        - rewrite Rabs_pos_eq; [now apply H2|]. apply sin_ge_0; [exact Hz|]. pose proof PI_4. pose proof PI2_1. lra.
        - apply Rle_trans with 1; [apply Rabs_le; apply SIN_bound|lra]. }
      intros z. destruct (Rle_dec 0 z) as [Z|Z].
      - rewrite (Rabs_pos_eq z) by exact Z. now apply K0.
      - rewrite (Rabs_left z) by lra. rewrite <- Rabs_Ropp, <- sin_neg. apply K0. lra. }
    apply K. }
  replace (Rabs (x - y)) with (2 * Rabs ((x - y) / 2) * 1)
    by (unfold Rdiv; rewrite Rabs_mult, (Rabs_pos_eq (/ 2)) by lra; lra).
  pose proof (Rabs_pos (sin ((x - y) / 2))). pose proof (Rabs_pos (sin ((x + y) / 2))).
  apply Rmult_le_compat; lra.
Qed.

Section Trig.
  Context {E : Eps}.
  Variables a b c d : R.
  Hypothesis Ha : eps <= Rabs a.
  Hypothesis HD : cD a b c d < 0.

End Trig.

(** ** Counterexamples *)
Section CE.
  Context {E : Eps}.

  (** 4 k t^3 - 3 k t has three roots; the second value returned is none of them *)
  Theorem trig_refuted : exists a b c d l, eps <= Rabs a /\ cD a b c d < 0 /\ roots_cubic a b c d = Ret l /\
    exists t, In t l /\ cubic_poly a b c d t <> 0.
  Proof.
    pose proof eps_pos as Ep. set (k := 1 + eps).
    assert (Ea : eps <= Rabs (4 * k)) by (unfold k; rewrite Rabs_pos_eq; lra).
    assert (EQ : cQ (4 * k) 0 (-3 * k) = - (1 / 4)) by (unfold cQ, k; field; lra).
    assert (ER : cR (4 * k) 0 (-3 * k) 0 = 0) by (unfold cR, k; field; lra).
    assert (HD : cD (4 * k) 0 (-3 * k) 0 < 0) by (unfold cD; rewrite EQ, ER; lra).
    exists (4 * k), 0, (-3 * k), 0. eexists. split; [exact Ea|]. split; [exact HD|]. split; [now apply solver_trig|].
    eexists. split; [right; left; reflexivity|]. rewrite trig_residual by assumption.
    pose proof (q3_pos _ _ _ _ HD) as Q.
    assert (T : theta (4 * k) 0 (-3 * k) 0 = PI / 2).
    { unfold theta. rewrite ER. unfold Rdiv at 1. rewrite Rmult_0_l. apply acos_0. }
    rewrite T, cos_PI2. pose proof pi32_bounds as [P1 P2]. pose proof PI_4 as P4. pose proof PI2_1 as P3.
    assert (C : cos (PI / 2 + 2 * pi32) < 0).
    { replace (PI / 2 + 2 * pi32) with (PI / 2 + 2 * (pi32 - PI) + 2 * INR 1 * PI) by (cbn [INR]; ring).
      rewrite cos_period. apply cos_lt_0; lra. }
    intros Z. apply Rmult_integral in Z as [Z|Z]; [unfold k in Z; lra|].
    apply Rmult_integral in Z as [Z|Z]; [|lra]. lra.
  Qed.

  (** two cube roots closer than EPSILON: a second value that is no root *)
  Theorem window_refuted : exists a b c d l, eps <= Rabs a /\ 0 < cD a b c d /\ roots_cubic a b c d = Ret l /\
    exists t, In t l /\ cubic_poly a b c d t <> 0.
  Proof.
    pose proof eps_pos as Ep. set (k := 1 + eps). set (T := 1 + eps). set (S := 1 + 3 / 2 * eps).
    set (Q := - (S * T)). set (R0 := (S * S * S + T * T * T) / 2).
    assert (Hk : 0 < k) by (unfold k; lra).
    assert (Ea : eps <= Rabs k) by (unfold k; rewrite Rabs_pos_eq; lra).
    assert (EQ : cQ k 0 (3 * Q * k) = Q) by (unfold cQ; field; lra).
    assert (ER : cR k 0 (3 * Q * k) (-2 * R0 * k) = R0) by (unfold cR; field; lra).
    assert (HT : 1 < T) by (unfold T; lra). assert (HS : T < S) by (unfold S, T; lra).
    assert (HC : 0 < S * S * S - T * T * T).
    { assert (0 < (S - T) * (S * S + S * T + T * T)); [|lra]. apply Rmult_lt_0_compat; [lra|]. nra. }
    assert (ED : cD k 0 (3 * Q * k) (-2 * R0 * k) = ((S * S * S - T * T * T) / 2) * ((S * S * S - T * T * T) / 2)).
    { unfold cD. rewrite EQ, ER. unfold Q, R0. field. }
    assert (HD : 0 < cD k 0 (3 * Q * k) (-2 * R0 * k)) by (rewrite ED; apply Rmult_lt_0_compat; lra).
    assert (Esq : sqrt (cD k 0 (3 * Q * k) (-2 * R0 * k)) = (S * S * S - T * T * T) / 2).
    { rewrite ED. apply sqrt_square. lra. }
    assert (ES : cS k 0 (3 * Q * k) (-2 * R0 * k) = S).
    { unfold cS. rewrite ER, Esq. transitivity (cbrt (S * S * S)); [f_equal; unfold R0; field|apply cbrt_of_cube]. }
    assert (ET : cT k 0 (3 * Q * k) (-2 * R0 * k) = T).
    { unfold cT. rewrite ER, Esq. transitivity (cbrt (T * T * T)); [f_equal; unfold R0; field|apply cbrt_of_cube]. }
    exists k, 0, (3 * Q * k), (-2 * R0 * k). eexists. split; [exact Ea|]. split; [exact HD|].
    split; [apply solver_real; lra|]. rewrite ES, ET.
    rewrite (Rltb_true (Rabs (S - T)) eps) by (unfold S, T; rewrite Rabs_pos_eq; lra).
    rewrite (Rleb_true eps (Rabs (S + T))) by (unfold S, T; rewrite Rabs_pos_eq; lra).
    cbn [andb app]. eexists. split; [right; left; reflexivity|].
    intros Z. destruct (one_root k 0 (3 * Q * k) (-2 * R0 * k) Ea HD) as (r & l & Er & Hr).
    rewrite solver_real in Er by lra. rewrite ES, ET in Er. injection Er as Er _.
    apply Hr in Z. rewrite <- Er in Z. lra.
  Qed.
End CE.

(** ** Statements in terms of the discriminant and of the roots *)
Section Discriminant.
  Context {E : Eps}.

  Lemma value_poly a b c d t : cubic_value a b c d t = cubic_poly a b c d t.
  Proof. unfold cubic_value, cubic_poly. ring. Qed.

  Lemma disc_D a b c d : a <> 0 -> cD a b c d = - discriminant a b c d / (108 * a ^ 4).
  Proof. intros Ha. unfold cD, cQ, cR, discriminant. field. exact Ha. Qed.

  Lemma sq_pos x : x <> 0 -> 0 < x ^ 2.
  Proof. intros H. replace (x ^ 2) with (Rsqr x) by (unfold Rsqr; ring). now apply Rsqr_pos_lt. Qed.
  Lemma a4_pos a : a <> 0 -> 0 < 108 * a ^ 4.
  Proof.
    intros Ha. apply Rmult_lt_0_compat; [lra|]. replace (a ^ 4) with ((a * a) * (a * a)) by ring.
    assert (0 < a * a) by (destruct (Rtotal_order a 0) as [H|[H|H]]; [nra|contradiction|nra]).
    now apply Rmult_lt_0_compat.
  Qed.

  Lemma disc_neg a b c d : eps <= Rabs a -> discriminant a b c d < 0 -> 0 < cD a b c d.
  Proof.
    intros Ha H. pose proof (a_neq a Ha) as N. rewrite disc_D by exact N.
    apply Rmult_lt_0_compat; [lra|]. apply Rinv_0_lt_compat, a4_pos, N.
  Qed.
  Lemma disc_pos a b c d : eps <= Rabs a -> 0 < discriminant a b c d -> cD a b c d < 0.
  Proof.
    intros Ha H. pose proof (a_neq a Ha) as N. rewrite disc_D by exact N.
    unfold Rdiv. rewrite Ropp_mult_distr_l_reverse. apply Ropp_lt_gt_0_contravar.
    apply Rmult_lt_0_compat; [lra|]. apply Rinv_0_lt_compat, a4_pos, N.
  Qed.

  Lemma D_disc a b c d : eps <= Rabs a -> 0 < cD a b c d -> discriminant a b c d < 0.
  Proof.
    intros Ha H. destruct (Rtotal_order (discriminant a b c d) 0) as [K|[K|K]]; [exact K| |].
    - rewrite disc_D in H by (now apply a_neq). rewrite K in H. unfold Rdiv in H. rewrite Ropp_0, Rmult_0_l in H. lra.
    - apply disc_pos in K; [lra|exact Ha].
  Qed.

  (** in the second counterexample there is a single real root *)
  Theorem window_refuted' : exists a b c d l, eps <= Rabs a /\ discriminant a b c d < 0 /\
    roots_cubic a b c d = Ret l /\ exists t, In t l /\ cubic_value a b c d t <> 0.
  Proof.
    destruct window_refuted as (a & b & c & d & l & Ha & HD & El & t & Ht & V).
    exists a, b, c, d, l. repeat split; auto using D_disc. exists t. split; [exact Ht|]. now rewrite value_poly.
  Qed.
  Theorem trig_refuted' : exists a b c d l, eps <= Rabs a /\ 0 < discriminant a b c d /\
    roots_cubic a b c d = Ret l /\ exists t, In t l /\ cubic_value a b c d t <> 0.
  Proof.
    destruct trig_refuted as (a & b & c & d & l & Ha & HD & El & t & Ht & V).
    exists a, b, c, d, l. split; [exact Ha|]. split; [|split; [exact El|]].
    - destruct (Rtotal_order (discriminant a b c d) 0) as [K|[K|K]]; [| |exact K].
      + apply disc_neg in K; [lra|exact Ha].
      + rewrite disc_D in HD by (now apply a_neq). rewrite K in HD. unfold Rdiv in HD. rewrite Ropp_0, Rmult_0_l in HD. lra.
    - exists t. split; [exact Ht|]. now rewrite value_poly.
  Qed.

  Theorem solve_one a b c d : eps <= Rabs a -> discriminant a b c d < 0 ->
    exists r l, roots_cubic a b c d = Ret (r :: l) /\ forall t, cubic_value a b c d t = 0 <-> t = r.
  Proof.
    intros Ha H. destruct (one_root a b c d Ha (disc_neg _ _ _ _ Ha H)) as (r & l & A & B).
    exists r, l. split; [exact A|]. intros t. rewrite value_poly. apply B.
  Qed.

  (** a (t - r) ((t - m)^2 + n^2) *)
  Theorem solve_one_exact a r m n : eps <= Rabs a -> sqrt 3 * eps <= 2 * Rabs n ->
    roots_cubic a (- a * (r + 2 * m)) (a * (m ^ 2 + n ^ 2 + 2 * m * r)) (- a * r * (m ^ 2 + n ^ 2)) = Ret [r].
  Proof.
    intros Ha Hn. pose proof (a_neq a Ha) as N. pose proof eps_pos as Ep.
    assert (S3 : 0 < sqrt 3) by (apply sqrt_lt_R0; lra).
    assert (S33 : sqrt 3 * sqrt 3 = 3) by (apply sqrt_sqrt; lra).
    assert (Hn0 : 0 < Rabs n) by (assert (0 < sqrt 3 * eps) by (now apply Rmult_lt_0_compat); lra).
    assert (Nn : n <> 0) by (intros ->; rewrite Rabs_R0 in Hn0; lra).
    set (b := - a * (r + 2 * m)). set (c := a * (m ^ 2 + n ^ 2 + 2 * m * r)).
    set (d := - a * r * (m ^ 2 + n ^ 2)).
    assert (V : forall t, cubic_poly a b c d t = a * ((t - r) * ((t - m) ^ 2 + n ^ 2))).
    { intros t. unfold cubic_poly, b, c, d. ring. }
    assert (HD : 0 < cD a b c d).
    { apply disc_neg; [exact Ha|].
      replace (discriminant a b c d) with (- (4 * (a ^ 2 * a ^ 2) * (n ^ 2 * (((r - m) ^ 2 + n ^ 2) * ((r - m) ^ 2 + n ^ 2)))))
        by (unfold discriminant, b, c, d; ring).
      assert (0 < n ^ 2) by now apply sq_pos. assert (0 < a ^ 2) by now apply sq_pos.
      assert (0 < (r - m) ^ 2 + n ^ 2) by (pose proof (pow2_ge_0 (r - m)); lra).
      apply Ropp_lt_gt_0_contravar. repeat (first [assumption | lra | apply Rmult_lt_0_compat]). }
    destruct (one_root a b c d Ha HD) as (r' & l & El & Hr).
    assert (Er : r = r') by (apply Hr; rewrite V; ring). subst r'.
    pose proof El as El'. rewrite solver_real in El' by lra.
    cbn [app] in El'. injection El' as Er _.
    set (y1 := cS a b c d + cT a b c d) in *.
    assert (K : (cS a b c d - cT a b c d) * (cS a b c d - cT a b c d) * (3 / 4) = n ^ 2).
    { pose proof (reduce' a b c d Ha (y1 + 1)) as Q1. rewrite (factored a b c d) in Q1 by lra. fold y1 in Q1.
      rewrite V in Q1. apply Rmult_eq_reg_l in Q1; [|exact N].
      replace (- (b / a) * (1 / 3) + (y1 + 1) - r) with 1 in Q1 by lra.
      replace (- (b / a) * (1 / 3) + (y1 + 1) - m) with (y1 + 1 + y1 / 2) in Q1.
      - lra.
      - assert (b / a = - (r + 2 * m)) by (unfold b; field; exact N). lra. }
    destruct (one_root_exact a b c d Ha HD) as (r2 & E2 & _).
    - apply Rsqr_incr_0_var; [|apply Rabs_pos]. rewrite <- Rsqr_abs. unfold Rsqr.
      apply Rmult_le_reg_r with (3 / 4); [lra|]. rewrite K.
      replace (eps * eps * (3 / 4)) with ((sqrt 3 * eps / 2) * (sqrt 3 * eps / 2))
        by (replace (sqrt 3 * eps / 2 * (sqrt 3 * eps / 2)) with (sqrt 3 * sqrt 3 * eps * eps / 4) by field; rewrite S33; field).
      replace (n ^ 2) with (Rabs n * Rabs n).
      + assert (0 <= sqrt 3 * eps / 2) by (apply Rmult_le_pos; [apply Rmult_le_pos|]; lra).
        apply Rmult_le_compat; lra.
      + rewrite <- Rabs_mult, Rabs_pos_eq; [ring|]. nra.
    - rewrite El in E2. injection E2 as -> ->. exact El.
  Qed.

  (** a (t - r) (t - m)^2 *)
  Theorem solve_double a r m : eps <= Rabs a -> 3 / 2 * eps <= Rabs (r - m) ->
    roots_cubic a (- a * (r + 2 * m)) (a * (m ^ 2 + 2 * m * r)) (- a * r * m ^ 2) = Ret [r; m].
  Proof.
    intros Ha Hn. pose proof (a_neq a Ha) as N. pose proof eps_pos as Ep.
    set (b := - a * (r + 2 * m)). set (c := a * (m ^ 2 + 2 * m * r)). set (d := - a * r * m ^ 2).
    assert (ED : cD a b c d = 0).
    { rewrite disc_D by exact N. replace (discriminant a b c d) with 0 by (unfold discriminant, b, c, d; ring).
      unfold Rdiv. ring. }
    set (z := (r - m) / 3).
    assert (ER : cR a b c d = z * z * z) by (unfold cR, b, c, d, z; field; exact N).
    assert (ES : cS a b c d = z) by (unfold cS; rewrite ED, sqrt_0, Rplus_0_r, ER; apply cbrt_of_cube).
    assert (ET : cT a b c d = z) by (unfold cT; rewrite ED, sqrt_0, Rminus_0_r, ER; apply cbrt_of_cube).
    rewrite solver_real by lra. rewrite ES, ET.
    rewrite (Rltb_true (Rabs (z - z)) eps) by (rewrite Rminus_eq_0, Rabs_R0; exact Ep).
    rewrite (Rleb_true eps (Rabs (z + z))).
    - cbn [andb app]. do 3 f_equal; [|f_equal]; unfold z, b; field; exact N.
    - replace (z + z) with (2 / 3 * (r - m)) by (unfold z; field).
      rewrite Rabs_mult, (Rabs_pos_eq (2 / 3)) by lra. lra.
  Qed.
  (** a (t - r)^3 *)
  Theorem solve_triple a r : eps <= Rabs a ->
    roots_cubic a (- 3 * a * r) (3 * a * r ^ 2) (- a * r ^ 3) = Ret [r].
  Proof.
    intros Ha. pose proof (a_neq a Ha) as N. pose proof eps_pos as Ep.
    set (b := - 3 * a * r). set (c := 3 * a * r ^ 2). set (d := - a * r ^ 3).
    assert (ED : cD a b c d = 0).
    { rewrite disc_D by exact N. replace (discriminant a b c d) with 0 by (unfold discriminant, b, c, d; ring).
      unfold Rdiv. ring. }
    assert (ER : cR a b c d = 0) by (unfold cR, b, c, d; field; exact N).
    assert (Z : cbrt 0 = 0) by (apply cube_inj; rewrite cbrt_cube; ring).
    assert (ES : cS a b c d = 0) by (unfold cS; rewrite ED, sqrt_0, Rplus_0_r, ER; exact Z).
    assert (ET : cT a b c d = 0) by (unfold cT; rewrite ED, sqrt_0, Rminus_0_r, ER; exact Z).
    rewrite solver_real by lra. rewrite ES, ET.
    rewrite (Rleb_false eps _) by (rewrite Rplus_0_r, Rabs_R0; exact Ep).
    rewrite Bool.andb_false_r. cbn [app]. do 2 f_equal. unfold b. field. exact N.
  Qed.
End Discriminant.

(** ** Three roots *)
Section Three.
  Context {E : Eps}.
  Variables a b c d : R.
  Hypothesis Ha : eps <= Rabs a.
  Hypothesis Hd : 0 < discriminant a b c d.

  Let HD : cD a b c d < 0 := disc_pos a b c d Ha Hd.
  Let w := two_sq a b c.
  Let al := theta a b c d * (1 / 3).

  Lemma cos_23 x : cos (x + 2 * PI / 3) = - (cos x + sqrt 3 * sin x) / 2.
  Proof.
    replace (2 * PI / 3) with (2 * (PI / 3)) by field.
    rewrite cos_plus, cos_2a, sin_2a, sin_PI3, cos_PI3.
    assert (S33 : sqrt 3 * sqrt 3 = 3) by (apply sqrt_sqrt; lra).
    replace (sqrt 3 / 2 * (sqrt 3 / 2)) with (sqrt 3 * sqrt 3 / 4) by field. rewrite S33. field.
  Qed.
  Lemma sin_23 x : sin (x + 2 * PI / 3) = (sqrt 3 * cos x - sin x) / 2.
  Proof.
    replace (2 * PI / 3) with (2 * (PI / 3)) by field.
    rewrite sin_plus, cos_2a, sin_2a, sin_PI3, cos_PI3.
    assert (S33 : sqrt 3 * sqrt 3 = 3) by (apply sqrt_sqrt; lra).
    replace (sqrt 3 / 2 * (sqrt 3 / 2)) with (sqrt 3 * sqrt 3 / 4) by field. rewrite S33. field.
  Qed.

  Lemma three_factors y : reduced a b c d y =
    (y - w * cos al) * (y - w * cos (al + 2 * PI / 3)) * (y - w * cos (al + 2 * PI / 3 + 2 * PI / 3)).
  Proof.
    rewrite (cos_23 (al + 2 * PI / 3)), (cos_23 al), (sin_23 al).
    assert (S33 : sqrt 3 * sqrt 3 = 3) by (apply sqrt_sqrt; lra).
    pose proof (sin2_cos2 al) as SC. unfold Rsqr in SC.
    pose proof (cos_theta a b c d HD) as CT.
    assert (E3 : cos (theta a b c d) = 4 * (cos al * cos al * cos al) - 3 * cos al).
    { rewrite <- cos_3. f_equal. unfold al. field. }
    rewrite E3, (q3_eq a b c d HD) in CT.
    pose proof (Q_neg a b c d HD) as QN.
    assert (S : sqrt (- cQ a b c) * sqrt (- cQ a b c) = - cQ a b c) by (apply sqrt_sqrt; lra).
    pose proof (sqrt_lt_R0 (- cQ a b c)) as Sp.
    unfold reduced. unfold w, two_sq. set (x := sqrt (- cQ a b c)) in *.
    set (k := cos al) in *. set (s := sin al) in *.
    assert (EQ : cQ a b c = - (x * x)) by lra.
    assert (ER : cR a b c d = (4 * (k * k * k) - 3 * k) * (x * (x * x))).
    { rewrite CT, EQ. field. assert (0 < x) by (apply Sp; lra). nra. }
    rewrite ER, EQ.
    replace (- (- (k + sqrt 3 * s) / 2 + sqrt 3 * ((sqrt 3 * k - s) / 2)) / 2)
      with (- (k - sqrt 3 * s) / 2)
      by (replace (sqrt 3 * ((sqrt 3 * k - s) / 2)) with ((sqrt 3 * sqrt 3 * k - sqrt 3 * s) / 2) by field;
          rewrite S33; field).
    assert (SS : s * s = 1 - k * k) by lra.
    replace ((y - x * 2 * k) * (y - x * 2 * (- (k + sqrt 3 * s) / 2)) * (y - x * 2 * (- (k - sqrt 3 * s) / 2)))
      with ((y - 2 * x * k) * ((y + x * k) * (y + x * k) - x * x * (sqrt 3 * sqrt 3) * (s * s))) by field.
    rewrite S33, SS. ring.
  Qed.

  Definition exact_roots : list R := map (fun y => y - b / a * (1 / 3))
    [w * cos al; w * cos (al + 2 * PI / 3); w * cos (al + 2 * PI / 3 + 2 * PI / 3)].

  Lemma exact_roots_iff t : cubic_value a b c d t = 0 <-> In t exact_roots.
  Proof.
    rewrite value_poly. replace t with (- (b / a) * (1 / 3) + (t + b / a * (1 / 3))) at 1 by ring.
    rewrite (root_iff a b c d Ha), three_factors. unfold exact_roots. cbn [map In]. split.
    - intros H. apply Rmult_integral in H as [H|H]; [apply Rmult_integral in H as [H|H]|].
      + left. lra.
      + right; left. lra.
      + right; right; left. lra.
    - intros [<-|[<-|[<-|[]]]].
      + replace (w * cos al - b / a * (1 / 3) + b / a * (1 / 3) - w * cos al) with 0 by ring. ring.
      + replace (w * cos (al + 2 * PI / 3) - b / a * (1 / 3) + b / a * (1 / 3) - w * cos (al + 2 * PI / 3)) with 0 by ring. ring.
      + replace (w * cos (al + 2 * PI / 3 + 2 * PI / 3) - b / a * (1 / 3) + b / a * (1 / 3)
                 - w * cos (al + 2 * PI / 3 + 2 * PI / 3)) with 0 by ring. ring.
  Qed.

  Lemma w_bound : 0 <= w /\ w * (4 / 3) <= sqrt (b ^ 2 - 3 * a * c) / Rabs a.
  Proof.
    pose proof (a_neq a Ha) as N. pose proof (Q_neg a b c d HD) as QN.
    assert (A : 0 < Rabs a) by now apply Rabs_pos_lt.
    assert (EQ : b ^ 2 - 3 * a * c = (3 * Rabs a) * (3 * Rabs a) * - cQ a b c).
    { replace (3 * Rabs a * (3 * Rabs a)) with (9 * (Rabs a * Rabs a)) by ring.
      rewrite <- Rabs_mult, Rabs_pos_eq by nra. unfold cQ. field. exact N. }
    rewrite EQ, sqrt_mult_alt by nra. rewrite sqrt_square by lra.
    unfold w, two_sq. pose proof (sqrt_pos (- cQ a b c)). split; [lra|].
    replace (3 * Rabs a * sqrt (- cQ a b c) / Rabs a) with (3 * sqrt (- cQ a b c)) by (field; lra). lra.
  Qed.

  Lemma near_root phi psi : Rabs (phi - psi) <= 4 / 3 * / 10000000 ->
    Rabs ((w * cos phi - b / a * (1 / 3)) - (w * cos psi - b / a * (1 / 3)))
      <= sqrt (b ^ 2 - 3 * a * c) / Rabs a * / 10000000.
  Proof.
    intros H. destruct w_bound as [W0 W1].
    replace (w * cos phi - b / a * (1 / 3) - (w * cos psi - b / a * (1 / 3)))
      with (w * (cos phi - cos psi)) by ring.
    rewrite Rabs_mult, (Rabs_pos_eq w) by exact W0.
    pose proof (cos_lip phi psi). apply Rle_trans with (w * (4 / 3 * / 10000000)).
    - apply Rmult_le_compat_l; lra.
    - rewrite <- Rmult_assoc. apply Rmult_le_compat_r; lra.
  Qed.

  Definition close (x y : R) : Prop := Rabs (x - y) <= sqrt (b ^ 2 - 3 * a * c) / Rabs a * / 10000000.

  Theorem solve_three : exists r1 r2 r3 x2 x3,
    roots_cubic a b c d = Ret [r1; x2; x3] /\
    (forall t, cubic_value a b c d t = 0 <-> t = r1 \/ t = r2 \/ t = r3) /\
    close x2 r2 /\ close x3 r3.
  Proof.
    pose proof pi32_bounds as [P1 P2].
    exists (w * cos al - b / a * (1 / 3)), (w * cos (al + 2 * PI / 3) - b / a * (1 / 3)),
           (w * cos (al + 2 * PI / 3 + 2 * PI / 3) - b / a * (1 / 3)).
    eexists _, _. split; [now apply solver_trig|]. split.
    - intros t. rewrite exact_roots_iff. unfold exact_roots. cbn [map In]. intuition.
    - fold w. unfold close. split; apply near_root.
      + replace ((theta a b c d + 2 * pi32) * (1 / 3) - (al + 2 * PI / 3)) with (2 / 3 * (pi32 - PI)) by (unfold al; field).
        rewrite Rabs_pos_eq by lra. lra.
      + replace ((theta a b c d + 4 * pi32) * (1 / 3) - (al + 2 * PI / 3 + 2 * PI / 3)) with (4 / 3 * (pi32 - PI)) by (unfold al; field).
        rewrite Rabs_pos_eq by lra. lra.
  Qed.
End Three.
