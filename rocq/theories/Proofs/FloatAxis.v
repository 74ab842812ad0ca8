(** C144: [axis] of lines, quadratics and cubics beside [eval], over every scalar and in
    IEEE-754 arithmetic. *)
From Coq Require Import Reals List Arith ZArith Lia Lra Psatz.
From Flocq Require Import Core.Core IEEE754.BinarySingleNaN.
From Verif Require Import Base.Outcome Base.Scalar Model.Point Model.Line Model.Quadratic Model.Cubic Inst.FloatInst
  Spec.Sums Spec.Bernstein Spec.Rounding Spec.Componentwise Spec.FloatPoints Spec.FloatCurves
  Proofs.FloatFacts Proofs.FloatBound Proofs.FloatPoint Proofs.FloatNear Proofs.FloatEval Proofs.FloatDd.
Import ListNotations.
Local Open Scope R_scope.

Section Generic.
  Context {T P : Type} {S : Scalar T} {PT : Point T P} {CP : CwPoint T P}.
  Theorem line_axis_same (l : line P) t i : line_axis l t i = p_axis (line_eval l t) i.
  Proof.
    unfold line_axis, line_eval. rewrite !cw_axis. destruct (Nat.ltb_spec i (p_dim (P := P))) as [H|H]; [|reflexivity]. cbn [bind].
    rewrite cw_add, cw_mul, cw_sub by exact H. reflexivity.
  Qed.
  Theorem quad_axis_same (q : quad P) t i : quad_axis q t i = p_axis (quad_eval q t) i.
  Proof.
    unfold quad_axis, quad_eval. rewrite !cw_axis. destruct (Nat.ltb_spec i (p_dim (P := P))) as [H|H]; [|reflexivity]. cbn [bind].
    rewrite !cw_add, !cw_mul by exact H. reflexivity.
  Qed.
  Theorem cubic_axis_panics (c : cubic P) t i : (p_dim (P := P) <= i)%nat ->
    cubic_axis c t i = Panic /\ p_axis (cubic_eval c t) i = Panic.
  Proof. intros H. apply Nat.ltb_ge in H. unfold cubic_axis. rewrite !cw_axis, H. split; reflexivity. Qed.
End Generic.

Section Curves.
  Context {F : Format} {P : Type} {PT : Point float P} {CP : CwPoint float P}.
  Variable M : R.
  Hypothesis HM : 0 <= M.
  Hypothesis HF : 16 * M <= fmax.

  Lemma mul_swap (x y : float) : fin x -> fin y -> Rabs (val x * val y) <= fmax ->
    fin (s_mul x y) /\ fin (s_mul y x) /\ val (s_mul x y) = val (s_mul y x).
  Proof.
    intros A B C. destruct (mul_ok x y A B C) as [H V]. rewrite Rmult_comm in C. destruct (mul_ok y x B A C) as [H' V'].
    split; [exact H|]. split; [exact H'|]. rewrite V, V', Rmult_comm. reflexivity.
  Qed.
  Lemma tm_mult_l x c v w C k B m : fin x -> Rabs v <= M -> val x = v -> co c w C k -> C <= B -> 0 <= k <= 490 -> B <= 12 ->
    k + B + 2 <= m -> tm M (s_mul c x) (v * w) B m.
  Proof.
    intros Fx Hv Vx Hc CB Hk B1 Hm. destruct (tm_mult M HM HF x c v w C k B m Fx Hv Vx Hc CB Hk B1 Hm) as (H1 & H2 & H3).
    destruct Hc as (Fc & HC & Ec). pose proof (@uro_pos F) as U0. pose proof (@eta_pos F) as E0.
    assert (Bd : Rabs (val x * val c) <= fmax).
    { assert (C0 : 0 <= C) by (eapply Rle_trans; [apply Rabs_pos|exact HC]).
      replace (val x * val c) with (v * w + v * (val c - w)) by (rewrite Vx; ring).
      eapply Rle_trans; [apply Rabs_triang|]. rewrite !Rabs_mult.
      assert (Rabs v * Rabs w <= M * B) by (apply Rmult_le_compat; try apply Rabs_pos; lra).
      assert (Rabs v * Rabs (val c - w) <= M * (k * uro)) by (apply Rmult_le_compat; try apply Rabs_pos; assumption).
      pose proof (small M HM HF k B ltac:(lra) B1) as S0. assert (0 <= k * eta) by (apply Rmult_le_pos; lra). lra. }
    destruct (mul_swap x c Fx Fc Bd) as (_ & G1 & G2). split; [exact G1|]. split; [exact H2|]. rewrite <- G2. exact H3.
  Qed.
  Lemma tm_triple x v B k : tm M x v B k -> 0 <= B <= 4 -> 0 <= k <= 100 -> tm M (s_mul x (s_lit 3)) (v * 3) (3 * B) (3 * k + 3 * B + 2).
  Proof.
    intros (Fx & Hv & Ex) HB Hk. pose proof (@uro_pos F) as U0. pose proof (@uro_small F) as U1. pose proof (@eta_pos F) as E0.
    destruct (lit_small 3 ltac:(lia)) as [F3 V3].
    assert (UM : 0 <= uro * M) by (apply Rmult_le_pos; lra).
    pose proof (small M HM HF (3 * k) (3 * B) ltac:(lra) ltac:(lra)) as S0. set (g := uro * M + eta) in *.
    assert (Es : Rabs (val x * 3 - v * 3) <= 3 * k * g).
    { rewrite <- Rmult_minus_distr_r, Rabs_mult, (Rabs_right 3) by lra. lra. }
    assert (Bv : Rabs (v * 3) <= 3 * B * M) by (rewrite Rabs_mult, (Rabs_right 3) by lra; lra).
    assert (Bs : Rabs (val x * 3) <= 3 * B * M + 3 * k * g).
    { replace (val x * 3) with (v * 3 + (val x * 3 - v * 3)) by ring. eapply Rle_trans; [apply Rabs_triang|lra]. }
    destruct (mul_ok x (s_lit 3) Fx F3) as [Fs Vs]; [rewrite V3; lra|]. split; [exact Fs|]. split; [exact Bv|]. fold g. rewrite Vs, V3.
    pose proof (rnd_err (val x * 3)) as R0.
    replace (rnd (val x * 3) - v * 3) with ((rnd (val x * 3) - val x * 3) + (val x * 3 - v * 3)) by ring.
    eapply Rle_trans; [apply Rabs_triang|].
    assert (A0 : uro * Rabs (val x * 3) <= uro * (3 * B * M + 3 * k * g)) by (apply Rmult_le_compat_l; lra).
    assert (A1 : uro * (3 * k * g) <= 1 * g).
    { rewrite <- Rmult_assoc. apply Rmult_le_compat_r; [unfold g; lra|]. nra. }
    assert (B0 : 0 <= B * eta) by (apply Rmult_le_pos; lra).
    assert (A3 : uro * (3 * B * M) <= 3 * B * g) by (unfold g; lra). assert (eta <= g) by (unfold g; lra). lra.
  Qed.

  Ltac bnd := apply Rabs_le; split; first [lra|nra].

  Theorem cubic_axis_err (c : cubic P) t i : (i < p_dim (P := P))%nat -> fin t -> 0 <= val t <= 1 ->
    (forall p, In p (cubic_control_points c) -> bounded M p) ->
    exists x, cubic_axis c t i = Ret x /\ fin x /\
      Rabs (val x - exact_at (cubic_control_points c) (val t) i) <= 128 * (uro * M + eta).
  Proof.
    intros Hi Ft Ht B. unfold cubic_axis. rewrite !axis_ok by exact Hi. cbn [bind].
    destruct (B (c_start c) ltac:(cbn; auto) i Hi) as [F0 B0]. destruct (B (c_ctrl1 c) ltac:(cbn; auto) i Hi) as [F1 B1].
    destruct (B (c_ctrl2 c) ltac:(cbn; auto) i Hi) as [F2 B2]. destruct (B (c_end c) ltac:(cbn; auto 6) i Hi) as [F3 B3].
    unfold exact_at, cubic_control_points. cbn [map]. rewrite cubic_poly.
    pose proof (co_same t 1 Ft ltac:(apply Rabs_le; lra)) as CT.
    assert (CO : co (s_add (s_neg t) (s_lit 1)) (1 - val t) 1 2).
    { destruct (one_minus t Ft Ht) as (G1 & _ & _ & G2). pose proof (@uro_pos F) as U0. split; [exact G1|]. split; [apply Rabs_le; lra|].
      eapply Rle_trans; [exact G2|]. rewrite (Rmult_comm 2). apply Rmult_le_compat_l; lra. }
    set (x := val t) in *. set (o := s_add (s_neg t) (s_lit 1)) in *.
    assert (X1 : 0 <= x * x <= 1) by nra. assert (X2 : 0 <= (1 - x) * (1 - x) <= 1) by nra.
    assert (CT2 : co (s_mul t t) (x * x) 1 3) by (apply (co_mult _ _ _ _ 1 1 1 0 0); try lra; try bnd; exact CT).
    assert (CT3 : co (s_mul (s_mul t t) t) (x * x * x) 1 6) by (apply (co_mult _ _ _ _ 1 1 1 3 0); try lra; try bnd; [exact CT2|exact CT]).
    assert (CO2 : co (s_mul o o) ((1 - x) * (1 - x)) 1 7) by (apply (co_mult _ _ _ _ 1 1 1 2 2); try lra; try bnd; exact CO).
    assert (CO3 : co (s_mul (s_mul o o) o) ((1 - x) * (1 - x) * (1 - x)) 1 12) by (apply (co_mult _ _ _ _ 1 1 1 7 2); try lra; try bnd; [exact CO2|exact CO]).
    assert (C1 : co (s_mul (s_mul o o) t) ((1 - x) * (1 - x) * x) 1 10) by (apply (co_mult _ _ _ _ 1 1 1 7 0); try lra; try bnd; [exact CO2|exact CT]).
    assert (C2 : co (s_mul o (s_mul t t)) ((1 - x) * (x * x)) 1 8) by (apply (co_mult _ _ _ _ 1 1 1 2 3); try lra; try bnd; [exact CO|exact CT2]).
    set (va := val (cw (c_start c) i)) in *. set (vb := val (cw (c_ctrl1 c) i)) in *. set (vc := val (cw (c_ctrl2 c) i)) in *.
    set (vd := val (cw (c_end c) i)) in *.
    pose proof (tm_mult_l _ _ va _ 1 12 1 15 F0 B0 eq_refl CO3 ltac:(lra) ltac:(lra) ltac:(lra) ltac:(lra)) as T0.
    pose proof (tm_triple _ _ _ _ (tm_mult_l _ _ vb _ 1 10 1 13 F1 B1 eq_refl C1 ltac:(lra) ltac:(lra) ltac:(lra) ltac:(lra)) ltac:(lra) ltac:(lra)) as T1.
    pose proof (tm_triple _ _ _ _ (tm_mult_l _ _ vc _ 1 8 1 11 F2 B2 eq_refl C2 ltac:(lra) ltac:(lra) ltac:(lra) ltac:(lra)) ltac:(lra) ltac:(lra)) as T2.
    pose proof (tm_mult_l _ _ vd _ 1 6 1 9 F3 B3 eq_refl CT3 ltac:(lra) ltac:(lra) ltac:(lra) ltac:(lra)) as T3.
    pose proof (tm_plus M HM HF _ _ _ _ _ _ 4 _ _ 64 T0 T1 ltac:(lra) ltac:(lra) ltac:(lra) ltac:(lra) ltac:(lra) ltac:(lra)) as S1.
    pose proof (tm_plus M HM HF _ _ _ _ _ _ 7 _ _ 110 S1 T2 ltac:(lra) ltac:(lra) ltac:(lra) ltac:(lra) ltac:(lra) ltac:(lra)) as S2.
    pose proof (tm_plus M HM HF _ _ _ _ _ _ 8 _ _ 128 S2 T3 ltac:(lra) ltac:(lra) ltac:(lra) ltac:(lra) ltac:(lra) ltac:(lra)) as S3.
    destruct S3 as (FS & _ & ES). eexists. split; [reflexivity|]. split; [exact FS|].
    eapply Rle_trans; [|exact ES]. right. f_equal. ring.
  Qed.

  Theorem cubic_axis_close (c : cubic P) t i : (i < p_dim (P := P))%nat -> fin t -> 0 <= val t <= 1 ->
    (forall p, In p (cubic_control_points c) -> bounded M p) ->
    exists x y, cubic_axis c t i = Ret x /\ p_axis (cubic_eval c t) i = Ret y /\ Rabs (val x - val y) <= 167 * (uro * M + eta).
  Proof.
    intros Hi Ft Ht B. destruct (cubic_axis_err c t i Hi Ft Ht B) as (x & E & _ & X).
    exists x, (cw (cubic_eval c t) i). split; [exact E|]. split; [apply axis_ok; exact Hi|].
    assert (H4 : 4 * M <= fmax) by lra.
    destruct (cubic_eval_err M HM H4 c t i Hi Ft Ht) as [_ Y]; try (apply B; [cbn; auto 6|exact Hi]).
    unfold exact_at, cubic_control_points in X. cbn [map] in X. pose proof (@eta_pos F) as E0.
    apply Rabs_le_inv in X, Y. apply Rabs_le. lra.
  Qed.
End Curves.
