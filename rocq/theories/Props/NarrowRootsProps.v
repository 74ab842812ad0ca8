(** C127: the private cubic root finder (cubic_bezier.rs:262-330) of a scalar wider than
    [NativeFloat].  Its third is the float nearest 1/3; everything else it takes from
    [NativeFloat] converts exactly. *)
From Coq Require Import Reals ZArith List Arith Bool Lia Lra.
From Flocq Require Import Core.Core IEEE754.BinarySingleNaN.
From Verif Require Import Base.Outcome Base.Scalar Model.Point Model.Cubic Model.Roots Model.TwoScalars Inst.RealInst Inst.FloatInst
  Inst.ExactOver Spec.Sums Spec.Lawful Spec.Metric Spec.Rounding Spec.Widening Spec.CubicRoots Spec.Points
  Proofs.RealTac Proofs.FloatFacts Proofs.FloatRoots Proofs.PointFacts Proofs.ExactEval Proofs.BoxSpec Proofs.NarrowRoots Proofs.NarrowSolve Props.TwoScalarsProps.
Import ListNotations.

(** full statement: [cubic_real_roots2 a b c d = roots_cubic a b c d] for every widening.  It
    holds while the equation is of degree two or less ... *)
Theorem C127_roots_low_partial {T S P : Type} {NT : Scalar T} {SS : Scalar S} {MX : Mixed T S} {PT : Point S P}
  {PS : Scaled T P} {TN : ScalarTrans T} {TS : ScalarTrans S} (a b c d : S) :
  widening T S P -> s_ltb (s_abs a) s_eps = true ->
  cubic_real_roots2 (T := T) a b c d = roots_cubic a b c d.
Proof. exact (w_cubic_roots_low a b c d). Qed.

Local Open Scope R_scope.
Section Roots.
  Context {F : Format} {E : Eps} {TN : ScalarTrans float}.

  (** ... fails for (t - 1)^3 ... *)
  Theorem C127_roots_refuted : eps <= 1 -> exists x, cubic_real_roots2 (T := float) 1 (-3) 3 (-1) = Ret [x] /\
    cubic_value 1 (-3) 3 (-1) x <> 0.
  Proof. exact wide_roots_miss. Qed.

  (** ... and otherwise the error is a multiple of the unit roundoff of [NativeFloat]: three
      real roots (the second summand is that of C59, from [core::f32::consts::PI]) *)
  Theorem C127_roots_three_partial a b c d : val (s_pi_f32 : float) = 13176795 / 4194304 ->
    eps <= Rabs a -> 0 < discriminant a b c d ->
    exists r1 r2 r3 x1 x2 x3, cubic_real_roots2 (T := float) a b c d = Ret [x1; x2; x3] /\
    (forall t, cubic_value a b c d t = 0 <-> t = r1 \/ t = r2 \/ t = r3) /\
    Rabs (x1 - r1) <= (6 * sqrt (b ^ 2 - 3 * a * c) + Rabs b) / Rabs a * uro /\
    Rabs (x2 - r2) <= (6 * sqrt (b ^ 2 - 3 * a * c) + Rabs b) / Rabs a * uro + sqrt (b ^ 2 - 3 * a * c) / Rabs a * / 10000000 /\
    Rabs (x3 - r3) <= (6 * sqrt (b ^ 2 - 3 * a * c) + Rabs b) / Rabs a * uro + sqrt (b ^ 2 - 3 * a * c) / Rabs a * / 10000000.
  Proof. exact (fun Hpi Ha => wide_three Hpi a b c d Ha). Qed.

  (** one real root u + v - b/3a and two complex ones, of real part - b/3a - (u + v)/2, where -3uv and -(u^3 + v^3) are the coefficients of the
      reduced equation (u = v: a double root, returned second) *)
  Theorem C127_roots_one_partial a b c d u v : eps <= Rabs a -> v <= u ->
    (forall t, cubic_value a b c d t = a * ((t + b / (3 * a)) ^ 3 - 3 * u * v * (t + b / (3 * a)) - (u ^ 3 + v ^ 3))) ->
    4 * uro * Rabs (ln (Rabs u)) <= 1 -> 4 * uro * Rabs (ln (Rabs v)) <= 1 ->
    let r := u + v - b / (3 * a) in let err := 4 * uro * (Rabs u * Rabs (ln (Rabs u)) + Rabs v * Rabs (ln (Rabs v))) in
    cubic_value a b c d r = 0 /\
    exists x l, cubic_real_roots2 (T := float) a b c d = Ret (x :: l) /\ Rabs (x - r) <= Rabs (b / a) * (uro / 2) + err /\
      (eps + err <= u - v \/ Rabs (u + v) + err < eps -> l = []) /\
      (u - v + err < eps -> eps + err <= Rabs (u + v) ->
       exists y, l = [y] /\ Rabs (y - (- (b / (3 * a)) - (u + v) / 2)) <= Rabs (b / a) * (uro / 2) + err / 2).
  Proof. exact (wide_one a b c d u v). Qed.

  (** solving a cubic curve for a coordinate with three solutions (compare C64) *)
  Theorem C127_cubic_solve_partial {P : Type} {PT : Point R P} {LP : LawfulPoint P} (c : cubic P) v i
    (s := coord (c_start c) i) (k1 := coord (c_ctrl1 c) i) (k2 := coord (c_ctrl2 c) i) (e := coord (c_end c) i)
    (A := e - 3 * k2 + 3 * k1 - s) (B := 3 * (s - 2 * k1 + k2)) (K := 3 * (k1 - s))
    (err := (6 * sqrt (B ^ 2 - 3 * A * K) + Rabs B) / Rabs A * uro + sqrt (B ^ 2 - 3 * A * K) / Rabs A * / 10000000) :
    (13 <= femax)%Z -> eps = 2 * uro -> val (s_pi_f32 : float) = 13176795 / 4194304 ->
    (i < p_dim (P := P))%nat -> ~ cubic_skipped (c_start c) (c_ctrl1 c) (c_ctrl2 c) (c_end c) -> eps <= Rabs A ->
    0 < discriminant A B K (s - v) ->
    exists l, cubic_solve_t_for_axis2 (T := float) c v i = Ret l /\ (length l <= 3)%nat /\
      (forall t, In t l -> 0 < t < 1 /\ exists r, Rabs (t - r) <= err /\ coord (cubic_eval c r) i = v) /\
      (forall r, err < r < 1 - err -> coord (cubic_eval c r) i = v -> exists t, In t l /\ Rabs (t - r) <= err).
  Proof. exact (fun Hx He => wide_solve_three Hx He c v i). Qed.
  (** ... and with one solution r *)
  Theorem C127_cubic_solve_one_partial {P : Type} {PT : Point R P} {LP : LawfulPoint P} (c : cubic P) v i u w
    (s := coord (c_start c) i) (k1 := coord (c_ctrl1 c) i) (k2 := coord (c_ctrl2 c) i) (e := coord (c_end c) i)
    (A := e - 3 * k2 + 3 * k1 - s) (B := 3 * (s - 2 * k1 + k2)) (r := u + w - B / (3 * A))
    (err := 4 * uro * (Rabs u * Rabs (ln (Rabs u)) + Rabs w * Rabs (ln (Rabs w)))) (near := Rabs (B / A) * (uro / 2) + err) :
    (13 <= femax)%Z -> eps = 2 * uro -> (i < p_dim (P := P))%nat ->
    ~ cubic_skipped (c_start c) (c_ctrl1 c) (c_ctrl2 c) (c_end c) -> eps <= Rabs A -> eps + err <= u - w ->
    (forall t, coord (cubic_eval c t) i - v = A * ((t + B / (3 * A)) ^ 3 - 3 * u * w * (t + B / (3 * A)) - (u ^ 3 + w ^ 3))) ->
    4 * uro * Rabs (ln (Rabs u)) <= 1 -> 4 * uro * Rabs (ln (Rabs w)) <= 1 ->
    coord (cubic_eval c r) i = v /\
    exists l, cubic_solve_t_for_axis2 (T := float) c v i = Ret l /\ (length l <= 1)%nat /\
      (forall t, In t l -> 0 < t < 1 /\ Rabs (t - r) <= near) /\
      (near < r < 1 - near -> exists t, l = [t]).
  Proof. exact (fun Hx He => wide_solve_one Hx He c v i u w). Qed.
End Roots.

Local Existing Instances Binary64 Eps64.
(** some transcendental functions of f64; the results above hold for any *)
Definition trans64 : ScalarTrans float := {|
  s_powf := fun x _ => x; s_acos := fun x => x; s_cos := fun x => x; s_signum := fun x => x;
  s_pi_f32 := s_div (s_lit 13176795) (s_lit 4194304) |}.
Local Existing Instance trans64.
Lemma eps_le_1 : eps <= 1.
Proof. cbn [eps Eps64]. rewrite <- Rinv_1. apply Rinv_le_contravar; [lra|]. apply pow_R1_Rle. lra. Qed.
Lemma pi64 : val (s_pi_f32 : float) = 13176795 / 4194304.
Proof.
  destruct (lit_ok 13176795) as [F1 V1]; [cbn; lia|]. destruct (lit_ok 4194304) as [F2 V2]; [cbn; lia|].
  pose proof (@fmax_ge Binary64) as B. cbn [s_pi_f32 trans64].
  destruct (div_ok (s_lit 13176795) (s_lit 4194304) F1) as [_ ->]; [rewrite V2; lra|rewrite V1, V2, Rabs_pos_eq; lra|].
  rewrite V1, V2. apply rnd_float. unfold is_float, fx.
  change (SpecFloat.fexp fprec femax) with (FLT_exp (SpecFloat.emin fprec femax) fprec).
  apply generic_format_FLT. exists (Float radix2 13176795 (-22)).
  - unfold F2R. cbn [Fnum Fexp]. change (bpow radix2 (-22)) with (/ 4194304). lra.
  - cbn; lia.
  - cbn; lia.
Qed.

(** 0 t^3 + 0 t^2 + 3 t - 1 *)
Example C127_roots_low_ex : cubic_real_roots2 (T := float) 0 0 3 (-1) = roots_cubic 0 0 3 (-1).
Proof.
  refine (C127_roots_low_partial (P := P1) _ _ _ _ (C126_exact _) _); [cbn; lia|].
  refine (Rltb_true (Rabs 0) eps _). rewrite Rabs_R0. apply eps_pos.
Qed.
(** t^3 - 6 t - 9 has the one real root 3 *)
Example C127_roots_one_ex : exists x l, cubic_real_roots2 (T := float) 1 0 (-6) (-9) = Ret (x :: l) /\ Rabs (x - 3) <= 8 * uro.
Proof.
  pose proof (@uro_pos Binary64) as U0. pose proof (@uro_small Binary64) as U1.
  assert (L2 : 0 <= ln 2 <= 1).
  { split; [rewrite <- ln_1; left; apply ln_increasing; lra|]. pose proof ln_lt_2. pose proof (exp_ineq1 1).
    rewrite <- (ln_exp 1). destruct (Req_dec 2 (exp 1)) as [->|N]; [lra|]. left. apply ln_increasing; [lra|].
    pose proof (exp_ineq1_le 1). lra. }
  destruct (C127_roots_one_partial 1 0 (-6) (-9) 2 1) as (_ & x & l & A & B & _).
  - pose proof eps_le_1. rewrite Rabs_pos_eq; lra.
  - lra.
  - intros t. unfold cubic_value. field.
  - rewrite (Rabs_pos_eq 2), Rabs_pos_eq by lra. nra.
  - rewrite (Rabs_pos_eq 1), ln_1, Rabs_R0 by lra. lra.
  - exists x, l. split; [exact A|]. rewrite (Rabs_pos_eq 1), ln_1, (Rabs_pos_eq 2), (Rabs_pos_eq (ln 2)) in B by lra.
    replace (2 + 1 - 0 / (3 * 1)) with 3 in B by field. replace (0 / 1) with 0 in B by field. rewrite Rabs_R0 in B. nra.
Qed.
(** t^3 - 3 t - 2 = (t - 2)(t + 1)^2: nothing is rounded, as a power of one needs no third *)
Example C127_roots_double_ex : cubic_real_roots2 (T := float) 1 0 (-3) (-2) = Ret [2; -1].
Proof.
  pose proof eps_le_1 as E1. pose proof (@eps_pos Eps64) as E0.
  destruct (C127_roots_one_partial 1 0 (-3) (-2) 1 1) as (_ & x & l & A & B & _ & D).
  - rewrite Rabs_pos_eq; lra.
  - lra.
  - intros t. unfold cubic_value. field.
  - rewrite (Rabs_pos_eq 1), ln_1, Rabs_R0 by lra. lra.
  - rewrite (Rabs_pos_eq 1), ln_1, Rabs_R0 by lra. lra.
  - rewrite (Rabs_pos_eq 1), ln_1 in B, D by lra. rewrite (Rabs_pos_eq (1 + 1)) in D by lra.
    replace (0 / 1) with 0 in B, D by field. rewrite Rabs_R0 in B, D.
    destruct D as (y & -> & D); [lra|lra|].
    assert (Z : forall z, Rabs z <= 0 -> z = 0).
    { intros z Hz. pose proof (Rle_abs z). pose proof (Rle_abs (- z)) as Q. rewrite Rabs_Ropp in Q. lra. }
    assert (X : x = 2) by (pose proof (Z (x - (1 + 1 - 0 / (3 * 1))) ltac:(lra)); lra).
    assert (Y : y = -1) by (pose proof (Z (y - (- (0 / (3 * 1)) - (1 + 1) / 2)) ltac:(lra)); lra).
    now rewrite A, X, Y.
Qed.
(** (t - 1)(t - 2)(t - 3): all three values are within 3 / 10^7 of a root *)
Example C127_roots_three_ex : exists x1 x2 x3, cubic_real_roots2 (T := float) 1 (-6) 11 (-6) = Ret [x1; x2; x3] /\
  forall x, In x [x1; x2; x3] -> exists r, (r = 1 \/ r = 2 \/ r = 3) /\ Rabs (x - r) <= 18 * uro + 2 / 10000000.
Proof.
  pose proof (@uro_pos Binary64) as U0.
  destruct (C127_roots_three_partial 1 (-6) 11 (-6) pi64) as (r1 & r2 & r3 & x1 & x2 & x3 & A & R0 & B1 & B2 & B3).
  { pose proof eps_le_1. rewrite Rabs_pos_eq; lra. }
  { unfold discriminant. lra. }
  assert (Rt : forall r, cubic_value 1 (-6) 11 (-6) r = 0 -> r = 1 \/ r = 2 \/ r = 3).
  { intros r H. assert (H' : (r - 1) * ((r - 2) * (r - 3)) = 0) by (unfold cubic_value in H; lra).
    apply Rmult_integral in H' as [H'|H']; [lra|]. apply Rmult_integral in H' as [H'|H']; lra. }
  assert (S2 : sqrt ((-6) ^ 2 - 3 * 1 * 11) <= 2).
  { replace ((-6) ^ 2 - 3 * 1 * 11) with 3 by ring. rewrite <- (sqrt_square 2) by lra. apply sqrt_le_1_alt. lra. }
  assert (D1 : forall z, z / 1 = z) by (intros z; field).
  rewrite (Rabs_left (-6)), (Rabs_pos_eq 1), !D1 in B1, B2, B3 by lra.
  set (s := sqrt ((-6) ^ 2 - 3 * 1 * 11)) in *.
  assert (SU : s * uro <= 2 * uro) by (apply Rmult_le_compat_r; lra).
  exists x1, x2, x3. split; [exact A|]. intros x [<-|[<-|[<-|[]]]]; [exists r1|exists r2|exists r3];
    (split; [apply Rt, R0; tauto|]; lra).
Qed.
(** the coordinate 96 t^3 - 144 t^2 + 66 t - 9 = 96 (t - 1/4)(t - 1/2)(t - 3/4) *)
Example C127_cubic_solve_ex : let c := Cubic (pt1 (-9)) (pt1 13) (pt1 (-13)) (pt1 9) in
  exists l t, cubic_solve_t_for_axis2 (T := float) c 0 0 = Ret l /\ In t l /\ Rabs (t - 1 / 2) <= 5 * uro + / 10000000.
Proof.
  intros c. pose proof (@uro_pos Binary64) as U0. pose proof (@uro_small Binary64) as U1. pose proof eps_le_1 as E1.
  assert (I0 : (0 < p_dim (P := P1))%nat) by (unfold P1; cbn; lia).
  destruct (C127_cubic_solve_partial c 0 0) as (l & A & _ & _ & C).
  - cbn; lia.
  - cbn [eps Eps64]. assert (UE : uro = / 9007199254740992) by reflexivity. rewrite UE. lra.
  - exact pi64.
  - exact I0.
  - unfold cubic_skipped. cbn [c c_start c_ctrl1 c_ctrl2 c_end]. rewrite !dist_pt1.
    replace (-9 - 9) with (-18) by ring. rewrite (Rabs_left (-18)) by lra. intros [[H _]|[H _]]; lra.
  - cbn [c c_start c_ctrl1 c_ctrl2 c_end]. rewrite !coord_pt1. rewrite Rabs_pos_eq; lra.
  - cbn [c c_start c_ctrl1 c_ctrl2 c_end]. rewrite !coord_pt1. unfold discriminant. lra.
  - cbn [c c_start c_ctrl1 c_ctrl2 c_end] in C. rewrite !coord_pt1 in C.
    replace (9 - 3 * -13 + 3 * 13 - -9) with 96 in C by ring.
    replace (3 * (-9 - 2 * 13 + -13)) with (-144) in C by ring. replace (3 * (13 - -9)) with 66 in C by ring.
    rewrite (Rabs_pos_eq 96), (Rabs_left (-144)) in C by lra.
    assert (S2 : 0 <= sqrt ((-144) ^ 2 - 3 * 96 * 66) <= 42).
    { split; [apply sqrt_pos|]. rewrite <- (sqrt_square 42) by lra. apply sqrt_le_1_alt. lra. }
    set (q := sqrt ((-144) ^ 2 - 3 * 96 * 66)) in *.
    assert (EB : 0 <= (6 * q + - -144) / 96 * uro + q / 96 * / 10000000 <= 5 * uro + / 10000000) by nra.
    destruct (C (1 / 2)) as (t & It & Ht).
    + lra.
    + rewrite cubic_eval_coord by exact I0. cbn [c c_start c_ctrl1 c_ctrl2 c_end]. rewrite !coord_pt1. lra.
    + exists l, t. split; [exact A|]. split; [exact It|]. lra.
Qed.
(** the coordinate t^3 + 3/2 t of this curve is 7/8 at t = 1/2 *)
Example C127_cubic_solve_one_ex : let c := Cubic (pt1 0) (pt1 (1 / 2)) (pt1 1) (pt1 (5 / 2)) in
  exists t, cubic_solve_t_for_axis2 (T := float) c (7 / 8) 0 = Ret [t] /\ Rabs (t - 1 / 2) <= 2 * uro.
Proof.
  intros c. pose proof (@uro_pos Binary64) as U0. pose proof (@uro_small Binary64) as U1. pose proof eps_le_1 as E1.
  assert (I0 : (0 < p_dim (P := P1))%nat) by (unfold P1; cbn; lia).
  assert (L2 : 0 <= ln 2 <= 1).
  { split; [rewrite <- ln_1; left; apply ln_increasing; lra|]. rewrite <- (ln_exp 1).
    destruct (Req_dec 2 (exp 1)) as [->|N]; [lra|]. left. apply ln_increasing; [lra|]. pose proof (exp_ineq1_le 1). lra. }
  assert (L1 : Rabs (ln (Rabs 1)) = 0) by (rewrite (Rabs_pos_eq 1), ln_1, Rabs_R0 by lra; reflexivity).
  assert (LW : Rabs (ln (Rabs (- (1 / 2)))) = ln 2).
  { rewrite Rabs_Ropp, (Rabs_pos_eq (1 / 2)) by lra. replace (1 / 2) with (/ 2) by field. rewrite ln_Rinv by lra.
    rewrite Rabs_Ropp, Rabs_pos_eq; lra. }
  assert (AW : Rabs (- (1 / 2)) = 1 / 2) by (rewrite Rabs_Ropp; apply Rabs_pos_eq; lra).
  assert (UL : 0 <= uro * ln 2 <= uro) by nra.
  assert (EU : eps = 2 * uro).
  { cbn [eps Eps64]. assert (UE : uro = / 9007199254740992) by reflexivity. rewrite UE. lra. }
  destruct (C127_cubic_solve_one_partial c (7 / 8) 0 1 (- (1 / 2))) as (_ & l & A & _ & B & C).
  - cbn; lia.
  - exact EU.
  - exact I0.
  - unfold cubic_skipped. cbn [c c_start c_ctrl1 c_ctrl2 c_end]. rewrite !dist_pt1.
    rewrite (Rabs_left (0 - 5 / 2)) by lra. intros [[H _]|[H _]]; lra.
  - cbn [c c_start c_ctrl1 c_ctrl2 c_end]. rewrite !coord_pt1. rewrite Rabs_pos_eq; lra.
  - rewrite L1, LW, AW, EU. lra.
  - intros t. rewrite cubic_eval_coord by exact I0. cbn [c c_start c_ctrl1 c_ctrl2 c_end]. rewrite !coord_pt1. field.
  - rewrite L1. lra.
  - rewrite LW. lra.
  - cbn [c c_start c_ctrl1 c_ctrl2 c_end] in B, C. rewrite !coord_pt1, L1, LW, AW in B, C.
    replace (3 * (0 - 2 * (1 / 2) + 1)) with 0 in B, C by field. unfold Rdiv in B, C.
    rewrite !Rmult_0_l, Rabs_R0 in B, C.
    destruct C as (t & ->); [lra|]. exists t. split; [exact A|]. destruct (B t (or_introl eq_refl)) as [_ D].
    replace (t - 1 / 2) with (t - (1 + - (1 * / 2) - 0)) by field. lra.
Qed.
Example C127_roots_refuted_ex : exists x, cubic_real_roots2 (T := float) 1 (-3) 3 (-1) = Ret [x] /\ x <> 1.
Proof.
  destruct (C127_roots_refuted eps_le_1) as (x & A & B). exists x. split; [exact A|]. intros ->. apply B. unfold cubic_value. ring.
Qed.

Print Assumptions C127_roots_low_partial.
Print Assumptions C127_roots_refuted.
Print Assumptions C127_roots_three_partial.
Print Assumptions C127_roots_one_partial.
Print Assumptions C127_cubic_solve_partial.
Print Assumptions C127_cubic_solve_one_partial.
