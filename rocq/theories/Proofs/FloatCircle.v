(** The circle tests in floating point. *)
From Coq Require Import Reals ZArith List Arith Lia Lra Psatz.
From Flocq Require Import Core.Core IEEE754.BinarySingleNaN.
From Verif Require Import Base.Outcome Base.Scalar Model.Point Model.Cubic Inst.RealInst Inst.FloatInst
  Spec.Sums Spec.Lawful Spec.Bernstein Spec.Length Spec.Rounding Spec.Componentwise Spec.FloatPoints
  Spec.FloatCurves Spec.Points Spec.Circle
  Proofs.PointFacts Proofs.ExactEval Proofs.Metric Proofs.CurveCalc Proofs.FloatFacts Proofs.FloatPoint Proofs.FloatEval Proofs.FloatBound Proofs.FloatNear
  Proofs.FloatNorm Proofs.FloatLength Proofs.FloatCurve Proofs.FloatBoxCubic Proofs.FloatTrueLength
  Proofs.Circle Proofs.CircleLength.
Import ListNotations.
Local Open Scope R_scope.

Section FloatCircle.
  Context {F : Format}.
  Variable c : float.
  Hypothesis Fc : fin c.
  Hypothesis Hc : circle_constant (val c).

  Lemma lit_01 : fin (s_lit 0) /\ val (s_lit 0) = 0 /\ fin (s_lit 1) /\ val (s_lit 1) = 1.
  Proof. destruct (lit_small 0) as [A B]; [lia|]. destruct (lit_small 1) as [C D]; [lia|]. auto. Qed.

  Lemma float_quarter q : In q (quadrants c) ->
    quarter (val c) (map (fun p => val (cw p 0)) (cubic_control_points q)) (map (fun p => val (cw p 1)) (cubic_control_points q)).
  Proof.
    destruct lit_01 as (_ & V0 & _ & V1). unfold quarter.
    assert (N1 : val (s_neg (s_lit 1)) = -1) by (rewrite neg_val, V1; reflexivity).
    intros [<-|[<-|[<-|[<-|[]]]]]; cbn [quadrant_1 quadrant_2 quadrant_3 quadrant_4 cubic_control_points c_start c_ctrl1 c_ctrl2 c_end map];
      repeat match goal with |- context [cw (corner ?x ?y) 0] => change (cw (corner x y) 0) with x end;
      repeat match goal with |- context [cw (corner ?x ?y) 1] => change (cw (corner x y) 1) with y end;
      rewrite ?V0, ?V1, ?N1, ?neg_val.
    - left. split; reflexivity.
    - right. left. split; reflexivity.
    - right. right. left. split; reflexivity.
    - right. right. right. split; reflexivity.
  Qed.

  Lemma corner_bounded x y : fin x -> fin y -> Rabs (val x) <= 1 -> Rabs (val y) <= 1 -> bounded 1 (corner x y).
  Proof.
    intros Fx Fy Bx By [|[|i]] Hi.
    - change (cw (corner x y) 0) with x. auto.
    - change (cw (corner x y) 1) with y. auto.
    - cbn in Hi. lia.
  Qed.

  Lemma quadrant_bounded q p : In q (quadrants c) -> In p (cubic_control_points q) -> bounded 1 p.
  Proof.
    destruct lit_01 as (F0 & V0 & F1 & V1). pose proof (c_range _ Hc) as CR.
    assert (A0 : Rabs (val (s_lit 0)) <= 1) by (rewrite V0, Rabs_R0; lra).
    assert (A1 : Rabs (val (s_lit 1)) <= 1) by (rewrite V1, Rabs_pos_eq; lra).
    assert (AC : Rabs (val c) <= 1) by (rewrite Rabs_pos_eq; lra).
    assert (FN1 : fin (s_neg (s_lit 1))) by now apply neg_fin.
    assert (FNC : fin (s_neg c)) by now apply neg_fin.
    assert (AN1 : Rabs (val (s_neg (s_lit 1))) <= 1) by (rewrite neg_val, Rabs_Ropp; exact A1).
    assert (ANC : Rabs (val (s_neg c)) <= 1) by (rewrite neg_val, Rabs_Ropp; exact AC).
    intros [<-|[<-|[<-|[<-|[]]]]] [<-|[<-|[<-|[<-|[]]]]]; apply corner_bounded; assumption.
  Qed.

  Lemma circle_float t q : In q (quadrants c) -> fin t -> 0 <= val t <= 1 ->
    fin (radial (cubic_eval q t)) /\
    Rabs (val (radial (cubic_eval q t))) <= max_drift - 2 / 1000000000 + 128 * uro.
  Proof.
    intros Hq Ft Ht. pose proof uro_pos as U0. pose proof uro_small as U1. pose proof eta_pos as E0. pose proof fmax_ge as FM.
    pose proof sqrt_eta as [SE0 SE1].
    assert (EU : eta * 1024 <= uro) by apply eta_uro.
    set (p := cubic_eval q t).
    assert (B : forall p, In p (cubic_control_points q) -> bounded 1 p) by (intros; now apply (quadrant_bounded q)).
    assert (EV : forall i, (i < 2)%nat -> fin (cw p i) /\
      Rabs (val (cw p i) - exact_at (cubic_control_points q) (val t) i) <= 40 * uro).
    { intros i Hi.
      destruct (cubic_eval_err 1 ltac:(lra) ltac:(lra) q t i Hi Ft Ht
        (B (c_start q) ltac:(cbn; auto) i Hi) (B (c_ctrl1 q) ltac:(cbn; auto) i Hi)
        (B (c_ctrl2 q) ltac:(cbn; auto) i Hi) (B (c_end q) ltac:(cbn; auto 6) i Hi)) as [A1 A2].
      split; [exact A1|]. eapply Rle_trans; [exact A2|]. lra. }
    set (X := fun i => exact_at (cubic_control_points q) (val t) i).
    assert (NX : nrm X 2 = sqrt (1 + drift (val c) (val t * (1 - val t)))).
    { unfold nrm, sq. f_equal. cbn [Rsum]. rewrite Rplus_0_l. unfold X, exact_at.
      apply (quarter_drift _ _ _ (val t) (float_quarter q Hq)). }
    pose proof (radius_near _ _ Hc (unit_product _ Ht)) as RN. rewrite <- NX in RN.
    assert (S2 : 0 <= sqrt (INR 2) <= 3 / 2).
    { split; [apply sqrt_pos|]. rewrite (INR_IZR_INZ 2). simpl IZR. rewrite <- (sqrt_square (3 / 2)) by lra.
      apply sqrt_le_1_alt. lra. }
    assert (ND : Rabs (nrm (fun i => val (cw p i)) 2 - nrm X 2) <= 60 * uro).
    { eapply Rle_trans; [apply nrm_diff|]. eapply Rle_trans; [apply (nrm_const_bound _ 2 (40 * uro)); [lra|]|].
      - intros i Hi. apply EV. exact Hi.
      - replace (60 * uro) with (3 / 2 * (40 * uro)) by field. apply Rmult_le_compat_r; lra. }
    assert (MD : max_drift = 19608 / 100000000) by reflexivity.
    apply Rabs_le_inv in RN. apply Rabs_le_inv in ND.
    assert (XB : forall i, (i < 2)%nat -> Rabs (X i) <= nrm X 2).
    { intros i Hi. rewrite <- sqrt_Rsqr_abs. unfold nrm, sq. apply sqrt_le_1_alt. unfold Rsqr. cbn [Rsum].
      pose proof (Rle_0_sqr (X 0%nat)). pose proof (Rle_0_sqr (X 1%nat)). unfold Rsqr in *.
      destruct i as [|[|i]]; [lra|lra|lia]. }
    assert (W : forall i, (i < p_dim (P := PointN float 2))%nat -> fin (cw p i) /\ Rabs (val (cw p i)) <= 2).
    { intros i Hi. destruct (EV i Hi) as [A1 A2]. split; [exact A1|]. specialize (XB i Hi).
      apply Rabs_le_inv in A2. apply Rabs_le_inv in XB. fold (X i) in A2. apply Rabs_le. lra. }
    assert (D1 : 4 * INR (p_dim (P := PointN float 2) + 1) * uro <= 1).
    { change (p_dim (P := PointN float 2) + 1)%nat with 3%nat. rewrite (INR_IZR_INZ 3). simpl IZR. lra. }
    assert (I2 : INR (p_dim (P := PointN float 2)) = 2) by (change (p_dim (P := PointN float 2)) with 2%nat; rewrite (INR_IZR_INZ 2); reflexivity).
    destruct (length_err p 2 D1 ltac:(rewrite I2; lra) W) as (_ & _ & Fs & _ & LE).
    rewrite I2 in LE. change (p_dim (P := PointN float 2)) with 2%nat in LE.
    set (N := nrm (fun i => val (cw p i)) 2) in *.
    assert (SQ : sqrt (2 * 2 * eta) = 2 * sqrt eta).
    { rewrite sqrt_mult by lra. rewrite sqrt_square by lra. reflexivity. }
    rewrite SQ in LE.
    assert (LE' : Rabs (val (s_sqrt (p_sqlen p)) - N) <= 20 * uro).
    { eapply Rle_trans; [exact LE|].
      assert ((2 * 2 + 4) * uro * N <= (2 * 2 + 4) * uro * (3 / 2)) by (apply Rmult_le_compat_l; lra). lra. }
    apply Rabs_le_inv in LE'. destruct lit_01 as (_ & _ & F1 & V1).
    destruct (sub_err (s_sqrt (p_sqlen p)) (s_lit 1) 1 Fs F1) as [FR ER]; [rewrite V1; apply Rabs_le; lra|lra|].
    fold (radial p) in FR, ER. split; [exact FR|]. rewrite V1 in ER. apply Rabs_le_inv in ER. apply Rabs_le. lra.
  Qed.
End FloatCircle.

Section Tests.
  #[local] Existing Instance Binary64.
  #[local] Existing Instance Eps64.
  Variable c : float.
  Hypothesis Fc : fin c.
  Hypothesis Hc : circle_constant (val c).

  (** [contour.abs() <= max_error] with max_error = 0.019608 * 0.01 computed in f64 *)
  Lemma circle_test (drift_perc hundredth t : float) q : In q (quadrants c) -> fin t -> 0 <= val t <= 1 ->
    fin drift_perc -> Rabs (val drift_perc - 19608 / 1000000) <= / 1000000000000 ->
    fin hundredth -> Rabs (val hundredth - / 100) <= / 1000000000000 ->
    s_leb (s_abs (radial (cubic_eval q t))) (s_mul drift_perc hundredth) = true.
  Proof.
    intros Hq Ft Ht Fd Hd Fh Hh. destruct (circle_float c Fc Hc t q Hq Ft Ht) as [FR RR].
    pose proof uro_64 as U. pose proof uro_pos as U0. pose proof (@fmax_ge Binary64) as FM.
    assert (EU : @eta Binary64 * 1024 <= uro) by apply eta_uro. pose proof (@eta_pos Binary64) as E0.
    apply Rabs_le_inv in Hd. apply Rabs_le_inv in Hh.
    assert (PR : 19607999 / 100000000000 <= val drift_perc * val hundredth <= 1) by nra.
    destruct (mul_ok drift_perc hundredth Fd Fh) as [Fm Em]; [rewrite Rabs_pos_eq; lra|].
    rewrite leb_val; [|now apply abs_fin|exact Fm]. apply Rle_bool_true. rewrite abs_val, Em.
    pose proof (rnd_err (val drift_perc * val hundredth)) as RE. rewrite (Rabs_pos_eq (val drift_perc * val hundredth)) in RE by lra.
    assert (uro * (val drift_perc * val hundredth) <= uro * 1) by (apply Rmult_le_compat_l; lra).
    apply Rabs_le_inv in RE. unfold max_drift in RR. lra.
  Qed.

  Lemma quarter_arclen_float q n : In q (quadrants c) -> (1000 <= n <= 10 ^ 9)%nat ->
    exists a, cubic_arclen q n = Ret a /\ fin a /\ 15683 / 10000 <= val a <= 15714 / 10000.
  Proof.
    intros Hq [Hn1 Hn2]. pose proof uro_64 as U. pose proof uro_pos as U0. pose proof fmax_64 as FM.
    pose proof (@sqrt_eta Binary64) as [SE0 SE1].
    assert (N2 : INR n <= 1000000000).
    { replace 1000000000 with (INR (10 ^ 9)); [now apply le_INR|]. rewrite pow_INR. simpl INR. lra. }
    assert (N1 : 1000 <= INR n).
    { replace 1000 with (INR 1000); [now apply le_INR|]. rewrite INR_IZR_INZ. reflexivity. }
    assert (I2 : INR (p_dim (P := PointN float 2)) = 2) by (change (p_dim (P := PointN float 2)) with 2%nat; rewrite (INR_IZR_INZ 2); reflexivity).
    destruct (cubic_arclen_err (P := PointN float 2) 1 ltac:(lra) ltac:(cbn; lia)
      ltac:(change (p_dim (P := PointN float 2) + 1)%nat with 3%nat; rewrite (INR_IZR_INZ 3); simpl IZR; lra) q
      (fun p => quadrant_bounded c Fc Hc q p Hq) ltac:(unfold no_over; rewrite I2; lra) n ltac:(lia) ltac:(nra)) as (a & Ea & Fa & _ & He).
    exists a. split; [exact Ea|]. split; [exact Fa|].
    assert (T : 15684 / 10000 <= tail_length (cubic_control_points q) n <= 15713 / 10000).
    { destruct (exact_function (cubic_control_points q) ltac:(discriminate)) as (f & Hf & Hg).
      set (ps := map exact_point (cubic_control_points q)) in *.
      apply (quarter_sum (E := Eps64) (val c) ps Hc) with (f := f) (m := n).
      - pose proof (float_quarter c q Hq) as Q.
        assert (M : forall i, (i < 2)%nat -> map (fun p => coord p i) ps = map (fun p => val (cw p i)) (cubic_control_points q)).
        { intros i Hi. unfold ps. rewrite map_map. apply map_ext. intros p. now apply (coord_exact p i). }
        rewrite <- (M 0%nat), <- (M 1%nat) in Q by lia. exact Q.
      - exact Hf.
      - exact Hn1.
      - apply (tail_polyline (cubic_control_points q) f n); [lia|exact Hg]. }
    rewrite I2 in He.
    assert (S2 : 0 <= sqrt 2 <= 3 / 2).
    { split; [apply sqrt_pos|]. rewrite <- (sqrt_square (3 / 2)) by lra. apply sqrt_le_1_alt. lra. }
    assert (K : 2 * INR n * (sqrt 2 * ((6 * 2 + 146) * uro * 1 + 6 * sqrt eta)) <= / 10000).
    { apply Rle_trans with (2 * 1000000000 * (3 / 2 * (200 * uro))); [|lra].
      apply Rmult_le_compat; [lra| |lra|].
      - apply Rmult_le_pos; lra.
      - apply Rmult_le_compat; lra. }
    apply Rabs_le_inv in He. lra.
  Qed.

  Lemma circumference_float n : (1000 <= n <= 10 ^ 9)%nat ->
    exists a1 a2 a3 a4, cubic_arclen (quadrant_1 c) n = Ret a1 /\ cubic_arclen (quadrant_2 c) n = Ret a2 /\
      cubic_arclen (quadrant_3 c) n = Ret a3 /\ cubic_arclen (quadrant_4 c) n = Ret a4 /\
      let l := s_add (s_add (s_add a1 a2) a3) a4 in fin l /\ Rabs (val l - 2 * PI) < / 100.
  Proof.
    intros Hn. pose proof pi_range as PR. pose proof uro_64 as U. pose proof uro_pos as U0. pose proof (@fmax_ge Binary64) as FM.
    destruct (quarter_arclen_float (quadrant_1 c) n ltac:(unfold quadrants; cbn [In]; tauto) Hn) as (a1 & E1 & F1 & R1).
    destruct (quarter_arclen_float (quadrant_2 c) n ltac:(unfold quadrants; cbn [In]; tauto) Hn) as (a2 & E2 & F2 & R2).
    destruct (quarter_arclen_float (quadrant_3 c) n ltac:(unfold quadrants; cbn [In]; tauto) Hn) as (a3 & E3 & F3 & R3).
    destruct (quarter_arclen_float (quadrant_4 c) n ltac:(unfold quadrants; cbn [In]; tauto) Hn) as (a4 & E4 & F4 & R4).
    exists a1, a2, a3, a4. split; [exact E1|]. split; [exact E2|]. split; [exact E3|]. split; [exact E4|]. cbv zeta.
    destruct (add_err a1 a2 10 F1 F2) as [G1 H1]; [rewrite Rabs_pos_eq; lra|lra|]. apply Rabs_le_inv in H1.
    destruct (add_err (s_add a1 a2) a3 10 G1 F3) as [G2 H2]; [rewrite Rabs_pos_eq; lra|lra|]. apply Rabs_le_inv in H2.
    destruct (add_err (s_add (s_add a1 a2) a3) a4 10 G2 F4) as [G3 H3]; [rewrite Rabs_pos_eq; lra|lra|]. apply Rabs_le_inv in H3.
    split; [exact G3|]. apply Rabs_def1; lra.
  Qed.
End Tests.
