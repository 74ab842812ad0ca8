(** [BSpline::derivative] in IEEE arithmetic: the rounding error of its control
    points, and what repeated knots do to them. *)
From Coq Require Import Reals ZArith List Arith Lia Lra Bool.
From Flocq Require Import Core.Core IEEE754.BinarySingleNaN.
From Verif Require Import Base.Outcome Base.Scalar Model.Point Model.BSpline
  Inst.FloatInst Spec.Rounding Spec.Componentwise Spec.FloatPoints Spec.FloatSplines
  Proofs.FloatFacts Proofs.FloatPoint Proofs.FloatSpline Proofs.FloatSplineEval Proofs.BSplineGeneric.
Import ListNotations.
Local Open Scope R_scope.

Section Bounds.
  Lemma inv_bound u g gh n : 0 < u <= / 2048 -> 0 < g -> Rabs (gh - g) <= u * g -> 0 <= n ->
    0 < gh /\ 0 <= n / gh /\ Rabs (n / gh - n / g) <= u * (n / gh) /\ n / gh <= (1 + / 1024) * (n / g).
  Proof.
    intros Hu Hg H Hn. apply Rabs_le_inv in H.
    assert (Ug : u * g <= / 2048 * g) by (apply Rmult_le_compat_r; lra).
    assert (0 < gh) by lra.
    assert (N : 0 <= n / gh) by (apply Rmult_le_pos; [exact Hn|left; now apply Rinv_0_lt_compat]).
    assert (N' : 0 <= n / g) by (apply Rmult_le_pos; [exact Hn|left; now apply Rinv_0_lt_compat]).
    assert (E : n / gh * gh = n / g * g) by (field; lra).
    set (y := n / gh) in *. set (z := n / g) in *.
    assert (A : y * ((1 - u) * g) <= y * gh) by (apply Rmult_le_compat_l; lra).
    assert (B : y * gh <= y * ((1 + u) * g)) by (apply Rmult_le_compat_l; lra).
    assert (A' : y * (1 - u) <= z) by (apply Rmult_le_reg_r with g; lra).
    assert (B' : z <= y * (1 + u)) by (apply Rmult_le_reg_r with g; lra).
    assert (Uy : y * u <= y * / 2048) by (apply Rmult_le_compat_l; lra).
    split; [assumption|]. split; [exact N|]. split; [apply Rabs_le; lra|lra].
  Qed.

  Lemma quotient_bound u e d dh Y Yh q r : 0 < u <= / 2048 -> 0 < e <= / 2048 ->
    Rabs (dh - d) <= u * Rabs d -> 0 <= Y -> 0 <= Yh -> Rabs (Yh - Y) <= u * Yh -> Yh <= (1 + / 1024) * Y ->
    Rabs (q - Yh) <= u * Yh + e ->
    Rabs (dh * q) <= (1 + / 100) * (Rabs d * Y) + (1 + / 100) * (e * Rabs d) /\
    (Rabs (r - dh * q) <= u * Rabs (dh * q) + e ->
     Rabs (r - d * Y) <= 5 * u * (Rabs d * Y) + 2 * e * (1 + Rabs d)).
  Proof.
    intros Hu He Hd HY HYh H1 H2 Hq. set (D := Rabs d) in *.
    assert (HD : 0 <= D) by apply Rabs_pos.
    assert (UD : u * D <= / 2048 * D) by (apply Rmult_le_compat_r; lra).
    assert (Bd : Rabs dh <= (1 + / 2048) * D).
    { replace dh with ((dh - d) + d) by ring. eapply Rle_trans; [apply Rabs_triang|]. fold D. lra. }
    assert (HUY : 0 <= u * Y) by (apply Rmult_le_pos; lra).
    assert (Bq : Rabs (q - Y) <= (2 + / 500) * (u * Y) + e).
    { replace (q - Y) with ((q - Yh) + (Yh - Y)) by ring. eapply Rle_trans; [apply Rabs_triang|].
      assert (u * Yh <= u * ((1 + / 1024) * Y)) by (apply Rmult_le_compat_l; lra). lra. }
    set (X := D * Y). assert (HX : 0 <= X) by (apply Rmult_le_pos; lra).
    assert (HE : 0 <= e * D) by (apply Rmult_le_pos; lra).
    assert (HUX : 0 <= u * X) by (apply Rmult_le_pos; lra).
    assert (UX : u * X <= / 2048 * X) by (apply Rmult_le_compat_r; lra).
    assert (Bp : Rabs (dh * q - d * Y) <= (3 + / 100) * (u * X) + (1 + / 1000) * (e * D)).
    { replace (dh * q - d * Y) with (dh * (q - Y) + (dh - d) * Y) by ring.
      eapply Rle_trans; [apply Rabs_triang|]. rewrite !Rabs_mult, (Rabs_pos_eq Y) by exact HY.
      assert (Rabs dh * Rabs (q - Y) <= ((1 + / 2048) * D) * ((2 + / 500) * (u * Y) + e))
        by (apply Rmult_le_compat; try apply Rabs_pos; assumption).
      assert (Rabs (dh - d) * Y <= u * D * Y) by (apply Rmult_le_compat_r; assumption).
      assert (E1 : ((1 + / 2048) * D) * ((2 + / 500) * (u * Y) + e)
                   = ((1 + / 2048) * (2 + / 500)) * (u * X) + (1 + / 2048) * (e * D)) by (unfold X; ring).
      assert (E2 : u * D * Y = u * X) by (unfold X; ring). lra. }
    assert (Bdq : Rabs (dh * q) <= X + (3 + / 100) * (u * X) + (1 + / 1000) * (e * D)).
    { replace (dh * q) with ((dh * q - d * Y) + d * Y) by ring. eapply Rle_trans; [apply Rabs_triang|].
      rewrite (Rabs_mult d Y), (Rabs_pos_eq Y) by exact HY. fold D. fold X. lra. }
    split; [lra|]. intros Hr.
    replace (r - d * Y) with ((r - dh * q) + (dh * q - d * Y)) by ring.
    eapply Rle_trans; [apply Rabs_triang|].
    assert (S : u * Rabs (dh * q) <= u * (X + (3 + / 100) * (u * X) + (1 + / 1000) * (e * D)))
      by (apply Rmult_le_compat_l; lra).
    assert (S2 : u * (u * X) <= / 2048 * (u * X)) by (apply Rmult_le_compat_r; lra).
    assert (S3 : u * (e * D) <= / 2048 * (e * D)) by (apply Rmult_le_compat_r; lra).
    lra.
  Qed.
End Bounds.

Section Derivative.
  Context {F : Format} {P : Type} {PT : Point float P} {CP : CwPoint float P}.

  Lemma eta_small : eta <= / 2048.
  Proof.
    apply Rle_trans with uro; [|apply uro_small]. unfold eta, uro. apply bpow_le. pose proof femax_ge. lia.
  Qed.

  (** one coordinate of one control point *)
  Lemma quotient_err n (a b k0 k1 : float) : (Z.of_nat n <= 2 ^ fprec)%Z ->
    fin a -> fin b -> Rabs (val b - val a) <= fmax ->
    fin k0 -> fin k1 -> Rabs (val k0) <= fmax / 2 -> Rabs (val k1) <= fmax / 2 -> val k0 < val k1 ->
    2 * INR n * (1 + Rabs (val b - val a)) <= fmax * (val k1 - val k0) ->
    let r := s_mul (s_sub b a) (s_div (s_of_usize n) (s_sub k1 k0)) in
    let x := INR n * (val b - val a) / (val k1 - val k0) in
    fin r /\ Rabs (val r - x) <= 5 * uro * Rabs x + 2 * eta * (1 + Rabs (val b - val a)).
  Proof.
    intros Hn Fa Fb Hd F0 F1 B0 B1 Hg Hbig r x.
    pose proof uro_pos as U0. pose proof uro_small as U1. pose proof eta_pos as E0. pose proof eta_small as E1.
    pose proof fmax_ge as FM.
    destruct (usize_ok n Hn) as [Fn Vn].
    destruct (sub_ok b a Fb Fa Hd) as [Fd Vd].
    assert (Ed : Rabs (val (s_sub b a) - (val b - val a)) <= uro * Rabs (val b - val a)).
    { rewrite Vd. exact (rnd_sum_err (val b) (- val a) (val_float b) (float_opp _ (val_float a))). }
    destruct (sub_err k1 k0 F1 F0 B1 B0) as (Fg & Vg & Eg).
    set (g := val k1 - val k0) in *. assert (Pg : 0 < g) by (unfold g; lra).
    rewrite (Rabs_pos_eq g) in Eg by lra.
    pose proof (pos_INR n) as Pn.
    destruct (inv_bound uro g (val (s_sub k1 k0)) (INR n) (conj U0 U1) Pg Eg Pn) as (Pgh & PY & EY & BY).
    set (D := Rabs (val b - val a)) in *. assert (PD : 0 <= D) by apply Rabs_pos.
    set (Y := INR n / g) in *. assert (PY' : 0 <= Y) by (apply Rmult_le_pos; [exact Pn|left; now apply Rinv_0_lt_compat]).
    assert (Ybig : 2 * Y + 2 * (D * Y) <= fmax).
    { apply Rmult_le_reg_r with g; [exact Pg|].
      replace ((2 * Y + 2 * (D * Y)) * g) with (2 * INR n * (1 + D)) by (unfold Y; field; lra). exact Hbig. }
    assert (PDY : 0 <= D * Y) by (apply Rmult_le_pos; assumption).
    destruct (div_ok (s_of_usize n) (s_sub k1 k0) Fn) as [Fq Vq].
    { lra. }
    { rewrite Vn, Rabs_pos_eq by exact PY. lra. }
    rewrite Vn in Vq.
    assert (Eq : Rabs (val (s_div (s_of_usize n) (s_sub k1 k0)) - INR n / val (s_sub k1 k0))
                 <= uro * (INR n / val (s_sub k1 k0)) + eta).
    { rewrite Vq. pose proof (rnd_err (INR n / val (s_sub k1 k0))) as H.
      rewrite (Rabs_pos_eq (INR n / _)) in H by exact PY. exact H. }
    destruct (quotient_bound uro eta (val b - val a) (val (s_sub b a)) Y (INR n / val (s_sub k1 k0))
                (val (s_div (s_of_usize n) (s_sub k1 k0))) (val r)
                (conj U0 U1) (conj E0 E1) Ed PY' PY EY BY Eq) as [O R]. fold D in O, R.
    destruct (mul_ok (s_sub b a) (s_div (s_of_usize n) (s_sub k1 k0)) Fd Fq) as [Fr Vr].
    { eapply Rle_trans; [exact O|].
      assert (eta * D <= / 2048 * D) by (apply Rmult_le_compat_r; lra). lra. }
    split; [exact Fr|].
    assert (Ex : x = (val b - val a) * Y) by (unfold x, Y; field; lra).
    rewrite Ex, Rabs_mult, (Rabs_pos_eq Y) by exact PY'. fold D. apply R.
    fold r in Vr. rewrite Vr. apply rnd_err.
  Qed.

  Lemma derivative_point D ks (ps : list P) s s' j i : bspline_new D ks ps = Ret (Ok s) ->
    bspline_derivative s = Ret s' -> (j + 1 < length ps)%nat -> (i < p_dim (P := P))%nat -> (1 <= D)%nat ->
    cw (nth j (bs_points s') p_default) i
    = s_mul (s_sub (cw (nth (j + 1) ps p_default) i) (cw (nth j ps p_default) i))
        (s_div (s_of_usize D) (s_sub (nth (j + D + 1) ks (s_lit 0)) (nth (j + 1) ks (s_lit 0)))).
  Proof.
    intros Hn Hs Hj Hi HD. pose proof (new_wf D ks ps s Hn) as W.
    destruct (new_fields D ks ps s Hn) as (E1 & E2 & E3).
    destruct (derivative_ok s W) as (q & Eq & Lq & Nq); [now rewrite E1|].
    rewrite Hs in Eq. assert (s' = BSpline (bs_degree s - 1) (bs_knots s) (bs_kind s) q) as -> by congruence.
    cbn [bs_points]. rewrite Nq by (rewrite E3; exact Hj). rewrite cw_mul, cw_sub by exact Hi.
    unfold cpoint, knot. rewrite E1, E2, E3. reflexivity.
  Qed.

  Lemma knot_in D ks (ps : list P) s m : bspline_new D ks ps = Ret (Ok s) -> (m <= length ps + D)%nat ->
    In (nth m ks (s_lit 0)) ks.
  Proof.
    intros Hn Hm. apply nth_In. pose proof (new_wf D ks ps s Hn) as [W1 W2].
    destruct (new_fields D ks ps s Hn) as (E1 & E2 & E3). rewrite E1, E2, E3 in *. lia.
  Qed.

  Theorem derivative_err D ks (ps : list P) s s' j i : bspline_new D ks ps = Ret (Ok s) ->
    (1 <= D)%nat -> (Z.of_nat D <= 2 ^ fprec)%Z -> moderate ks -> bspline_derivative s = Ret s' ->
    (j + 1 < length ps)%nat -> (i < p_dim (P := P))%nat ->
    fin (cw (nth j ps p_default) i) -> fin (cw (nth (j + 1) ps p_default) i) ->
    let d := val (cw (nth (j + 1) ps p_default) i) - val (cw (nth j ps p_default) i) in
    let g := fknot ks (j + D + 1) - fknot ks (j + 1) in
    0 < g -> Rabs d <= fmax -> 2 * INR D * (1 + Rabs d) <= fmax * g ->
    fin (cw (nth j (bs_points s') p_default) i) /\
    Rabs (val (cw (nth j (bs_points s') p_default) i) - INR D * d / g)
      <= 5 * uro * Rabs (INR D * d / g) + 2 * eta * (1 + Rabs d).
  Proof.
    intros Hn HD HDp Hk Hs Hj Hi Fa Fb d g Hg Hd Hb.
    rewrite (derivative_point D ks ps s s' j i Hn Hs Hj Hi HD).
    destruct (Hk _ (knot_in D ks ps s (j + 1) Hn ltac:(lia))) as [F0 B0].
    destruct (Hk _ (knot_in D ks ps s (j + D + 1) Hn ltac:(lia))) as [F1 B1].
    apply quotient_err; auto. unfold g, fknot in Hg. lra.
  Qed.

  Lemma sub_zero (x y : float) : fin x -> fin y -> val x = val y ->
    exists b, s_sub x y = B754_zero b.
  Proof.
    intros Hx Hy E. destruct (sub_ok x y Hx Hy) as [A B].
    { rewrite E, Rminus_diag_eq, Rabs_R0 by reflexivity. pose proof fmax_ge. lra. }
    rewrite E, Rminus_diag_eq, rnd_0 in B by reflexivity. unfold fin, val in A, B.
    destruct (s_sub x y) as [b|b| |b m e H]; try discriminate; [now exists b|].
    exfalso. cbn in B. apply (F2R_neq_0 radix2 (Float radix2 (cond_Zopp b (Z.pos m)) e)); [|exact B].
    cbn. destruct b; discriminate.
  Qed.

  Lemma sub_nonzero (x y : float) : fin x -> fin y -> val x <> val y -> Rabs (val x - val y) <= fmax ->
    fin (s_sub x y) /\ val (s_sub x y) <> 0.
  Proof.
    intros Hx Hy E H. destruct (sub_ok x y Hx Hy H) as [A B]. split; [exact A|].
    intros Z. pose proof (rnd_sum_err (val x) (- val y) (val_float x) (float_opp _ (val_float y))) as R.
    change (val x + - val y) with (val x - val y) in R. rewrite <- B, Z in R.
    pose proof uro_small. pose proof uro_pos.
    assert (0 < Rabs (val x - val y)) by (apply Rabs_pos_lt; lra).
    replace (0 - (val x - val y)) with (- (val x - val y)) in R by ring. rewrite Rabs_Ropp in R.
    assert (uro * Rabs (val x - val y) <= / 2048 * Rabs (val x - val y)) by (apply Rmult_le_compat_r; lra). lra.
  Qed.

  Theorem derivative_repeated D ks (ps : list P) s s' j i : bspline_new D ks ps = Ret (Ok s) ->
    (1 <= D)%nat -> (Z.of_nat D <= 2 ^ fprec)%Z -> moderate ks -> bspline_derivative s = Ret s' ->
    (j + 1 < length ps)%nat -> (i < p_dim (P := P))%nat ->
    fknot ks (j + D + 1) = fknot ks (j + 1) ->
    fin (cw (nth j ps p_default) i) -> fin (cw (nth (j + 1) ps p_default) i) ->
    let a := val (cw (nth j ps p_default) i) in
    let b := val (cw (nth (j + 1) ps p_default) i) in
    (a = b -> nan (cw (nth j (bs_points s') p_default) i)) /\
    (a <> b -> Rabs (b - a) <= fmax -> exists sg, cw (nth j (bs_points s') p_default) i = (B754_infinity sg : float)).
  Proof.
    intros Hn HD HDp Hk Hs Hj Hi He Fa Fb a b.
    rewrite (derivative_point D ks ps s s' j i Hn Hs Hj Hi HD).
    destruct (Hk _ (knot_in D ks ps s (j + 1) Hn ltac:(lia))) as [F0 B0].
    destruct (Hk _ (knot_in D ks ps s (j + D + 1) Hn ltac:(lia))) as [F1 B1].
    destruct (sub_zero _ _ F1 F0 He) as [zb Ez]. rewrite Ez.
    destruct (usize_ok D HDp) as [Fn Vn].
    assert (Q : exists sg, s_div (s_of_usize D) (B754_zero zb : float) = B754_infinity sg).
    { assert (V : val (s_of_usize D) <> 0) by (rewrite Vn; apply not_0_INR; lia).
      unfold fin, val in Fn, V. destruct (s_of_usize D) as [c|c| |c m e H]; try discriminate; [now elim V|].
      eexists. cbn. reflexivity. }
    destruct Q as [sg Eq]. rewrite Eq. split.
    - intros E. destruct (sub_zero _ _ Fb Fa (eq_sym E)) as [c Ec]. rewrite Ec. reflexivity.
    - intros E Hd. destruct (sub_nonzero _ _ Fb Fa (not_eq_sym E) Hd) as [Ff Vf].
      unfold fin, val in Ff, Vf.
      destruct (s_sub (cw (nth (j + 1) ps p_default) i) (cw (nth j ps p_default) i)) as [c|c| |c m e H];
        try discriminate; [now elim Vf|]. eexists. cbn. reflexivity.
  Qed.

  Theorem derivative_returns D ks (ps : list P) s : bspline_new D ks ps = Ret (Ok s) -> (1 <= D)%nat ->
    exists s', bspline_derivative s = Ret s' /\ bs_degree s' = (D - 1)%nat /\ bs_knots s' = ks /\
      length (bs_points s') = (length ps - 1)%nat.
  Proof.
    intros Hn HD. pose proof (new_wf D ks ps s Hn) as W.
    destruct (new_fields D ks ps s Hn) as (E1 & E2 & E3).
    destruct (derivative_ok s W) as (q & Eq & Lq & Nq); [now rewrite E1|].
    eexists. split; [exact Eq|]. cbn [bs_degree bs_knots bs_points]. rewrite E1, E2, Lq, E3. auto.
  Qed.
End Derivative.
