(** C119: BSpline::arclen in IEEE-754 arithmetic. *)
From Coq Require Import Reals List Arith ZArith Lia Lra.
From Flocq Require Import Core.Core IEEE754.BinarySingleNaN.
From Verif Require Import Base.Outcome Base.Scalar Model.Point Model.BSpline Inst.FloatInst
  Spec.Sums Spec.Points Spec.Basis Spec.Rounding Spec.Componentwise Spec.FloatPoints Spec.FloatCurves Spec.FloatSplines
  Proofs.FloatFacts Proofs.FloatPoint Proofs.FloatCurve Proofs.FloatLength Proofs.FloatNorm Proofs.FloatSpline Proofs.FloatSplineEval Proofs.FloatSplineLength
  Props.FloatSplineProps.
Import ListNotations.
Local Open Scope R_scope.

Section Floats.
  Context {F : Format} {P : Type} {PT : Point float P} {CP : CwPoint float P}.
  Variables (D : nat) (ks : list float) (ps : list P) (s : bspline float P).
  Hypothesis Hnew : bspline_new D ks ps = Ret (Ok s).
  Hypothesis Hk : bs_kind s = Clamped.
  Hypothesis Hm : moderate ks.
  Local Notation dim := (p_dim (P := P)).
  Local Notation C := (length ps).
  Local Notation vals p := (fun k => val (cw p k)).

  (** no steps: 0/0 is NaN and both ends of the only chord count as the origin *)
  Theorem C119_no_steps : exists a, bspline_arclen s 0 = Ret a /\ is a 0.
  Proof. exact (arclen_0_steps D ks ps s Hnew Hk Hm). Qed.

  Section Steps.
    Variables (M : R) (n : nat).
    Hypothesis HM : 0 <= M.
    Hypothesis Hps : forall p, In p ps -> bounded M p.
    Hypothesis HD : 6 * INR D * uro <= 1.
    (** bound of the computed points *)
    Local Notation W := (M + 6 * INR D * uro * M + 5 * INR D * eta).
    (** rounding error of one chord *)
    Local Notation e := (sqrt (INR dim) * ((6 * INR dim + 14) * uro * W) + 2 * sqrt (2 * INR dim * eta) + eta).
    Hypothesis HW : 4 * W <= fmax.
    Hypothesis HW2 : 36 * INR dim * (W * W) <= fmax.
    Hypothesis Hdim : 4 * INR (dim + 1) * uro <= 1.
    Hypothesis Hn : 4 * INR (n + 1) * uro <= 1.
    Hypothesis Hov : 3 * INR (n + 1) * (sqrt (INR dim) * (2 * W) + e) <= fmax.
    (** the two ends of chord i, as the code computes them *)
    Local Notation lo := (nth D ks (s_lit 0)).
    Local Notation hi := (nth C ks (s_lit 0)).
    Local Notation x i := (s_add lo (s_mul (s_div (s_of_usize i) (s_of_usize n)) (s_sub hi lo))).
    Local Notation y i := (s_add (x i) (s_div (s_lit 1) (s_of_usize n))).

    (** finite, not negative, and the sum of the n + 1 chords between the points that eval returns,
        with the origin for parameters that it rejects *)
    Theorem C119_sum : exists a f, bspline_arclen s n = Ret a /\ fin a /\ 0 <= val a /\
      (forall t, bspline_eval s t = Ret (Ok (f t)) \/ (exists r, bspline_eval s t = Ret (Err r)) /\ f t = p_default) /\
      (forall t, bounded W (f t)) /\
      Rabs (val a - Rsum (fun i => gap (P := P) (vals (f (x i))) (vals (f (y i)))) (n + 1))
        <= 2 * INR (n + 1) * (e + uro * (INR (n + 1) * (sqrt (INR dim) * (2 * W)))).
    Proof.
      assert (H4 : 4 * M <= fmax) by (pose proof (top_ge D M HM); unfold top in *; lra).
      assert (H3 : 3 * W <= fmax) by (pose proof (top_ge D M HM); unfold top in *; lra).
      destruct (arclen_sum D ks ps s Hnew Hk Hm M Hps HD H4 HM Hdim HW2 H3 n Hn Hov) as (a & A1 & A2 & A3 & A4).
      exists a, (sample s). split; [exact A1|]. split; [exact A2|]. split; [exact A3|]. split; [|split; [|exact A4]].
      - exact (sample_cases D ks ps s Hnew Hk).
      - exact (sample_bounded D ks ps s Hnew Hk Hm M Hps HD H4 HM).
    Qed.

    Section Unit.
      Hypothesis H0 : fknot ks D = 0.
      Hypothesis H1 : fknot ks C = 1.
      Hypothesis Hn0 : (0 < n)%nat.

      (** over [0,1] the n chords of the curve, and the last control point taken for a vector *)
      Theorem C119_unit : exists a f, bspline_arclen s n = Ret a /\ fin a /\
        (forall i, (i <= n)%nat -> bspline_eval s (x i) = Ret (Ok (f (x i)))) /\
        (forall i, (i < n)%nat -> bspline_eval s (y i) = Ret (Ok (f (y i)))) /\
        Rabs (val a - (Rsum (fun i => gap (P := P) (vals (f (x i))) (vals (f (y i)))) n
                       + gap (P := P) (vals (last ps p_default)) (fun _ => 0)))
          <= 2 * INR (n + 1) * (e + uro * (INR (n + 1) * (sqrt (INR dim) * (2 * W)))).
      Proof.
        assert (H4 : 4 * M <= fmax) by (pose proof (top_ge D M HM); unfold top in *; lra).
        assert (H3 : 3 * W <= fmax) by (pose proof (top_ge D M HM); unfold top in *; lra).
        destruct (arclen_unit_float D ks ps s Hnew Hk Hm M Hps HD H4 HM Hdim HW2 H3 n Hn Hov H0 H1 Hn0) as (a & A1 & A2 & A3).
        exists a, (sample s). split; [exact A1|]. split; [exact A2|]. split; [|split; [|exact A3]].
        - exact (inner_x D ks ps s Hnew Hk Hm M Hps HD H4 HM n Hn H0 H1 Hn0).
        - exact (inner_y D ks ps s Hnew Hk Hm M Hps HD H4 HM n Hn H0 H1 Hn0).
      Qed.

      (** so the result is at least as long as the way from the origin to the end of the curve *)
      Theorem C119_unit_far : exists a, bspline_arclen s n = Ret a /\
        gap (P := P) (vals (last ps p_default)) (fun _ => 0)
          - 2 * INR (n + 1) * (e + uro * (INR (n + 1) * (sqrt (INR dim) * (2 * W)))) <= val a.
      Proof.
        destruct C119_unit as (a & f & A1 & _ & _ & _ & A). exists a. split; [exact A1|].
        apply Rabs_le_inv in A.
        assert (0 <= Rsum (fun i => gap (P := P) (vals (f (x i))) (vals (f (y i)))) n).
        { apply PointFacts.Rsum_nonneg. intros. apply sqrt_pos. }
        lra.
      Qed.
    End Unit.
  End Steps.
End Floats.

(** f64: the spline of C65_case in 100 steps *)
Section Example_.
  Local Existing Instance Binary64.
  Example C119_case : exists s a, bspline_new 2 kn cp = Ret (Ok s) /\ bspline_arclen s 100 = Ret a /\
    1 - / 1000000000 <= val a.
  Proof.
    destruct kn_new as (s & E). destruct kn_values as (V0 & V1 & V2 & V3).
    pose proof uro_64 as U. pose proof uro_pos as U0. pose proof fmax_64 as FM. pose proof eta_pos as T0.
    pose proof (@sqrt_eta Binary64) as [S0 S1]. pose proof eta_sq as ES.
    assert (N : INR (100 + 1) = 101) by (rewrite INR_IZR_INZ; reflexivity).
    assert (N1 : INR (p_dim (P := PointN float 1)) = 1) by reflexivity.
    assert (N2 : INR (p_dim (P := PointN float 1) + 1) = 2) by (cbn; lra).
    assert (N3 : INR 2 = 2) by (cbn; lra).
    assert (UU : uro * uro <= uro * / 1000000000000000) by (apply Rmult_le_compat_l; lra).
    set (W := 1 + 6 * INR 2 * uro * 1 + 5 * INR 2 * eta).
    assert (W1 : 1 <= W <= 2) by (unfold W; rewrite N3; lra).
    assert (WW : W * W <= 4) by nra.
    set (e := sqrt (INR (p_dim (P := PointN float 1))) * ((6 * INR (p_dim (P := PointN float 1)) + 14) * uro * W)
              + 2 * sqrt (2 * INR (p_dim (P := PointN float 1)) * eta) + eta).
    assert (E1 : 0 <= e <= / 100000000000000).
    { unfold e. rewrite N1, sqrt_1. replace (2 * 1 * eta) with (2 * eta) by ring. rewrite sqrt_mult by lra.
      assert (sqrt 2 <= 2).
      { rewrite <- (sqrt_square 2) at 2 by lra. apply sqrt_le_1_alt. lra. }
      pose proof (sqrt_pos 2). assert (sqrt 2 * sqrt eta <= 2 * sqrt eta) by (apply Rmult_le_compat_r; lra).
      assert (0 <= sqrt 2 * sqrt eta) by (apply Rmult_le_pos; lra).
      assert (uro * W <= uro * 2) by (apply Rmult_le_compat_l; lra).
      assert (0 <= uro * W) by (apply Rmult_le_pos; lra). split; lra. }
    destruct (C119_unit_far 2 kn cp s E (kn_clamped s E) kn_moderate 1 100) as (a & A1 & A2).
    - lra.
    - exact cp_bounded.
    - rewrite N3. lra.
    - fold W. lra.
    - fold W. rewrite N1. lra.
    - rewrite N2. lra.
    - rewrite N. lra.
    - fold W e. rewrite N, N1, sqrt_1. lra.
    - exact V0.
    - exact V2.
    - lia.
    - exists s, a. split; [exact E|]. split; [exact A1|]. eapply Rle_trans; [|exact A2]. fold W e.
      rewrite N, N1, sqrt_1.
      assert (G : gap (P := PointN float 1) (fun k => val (cw (last cp p_default) k)) (fun _ => 0) = 1).
      { unfold gap. cbn [Rsum p_dim PointN_Point]. change (cw (last cp p_default) 0) with (flt 1 0). rewrite V2.
        replace (0 + (1 - 0) * (1 - 0)) with 1 by ring. apply sqrt_1. }
      rewrite G. assert (uro * W <= uro * 2) by (apply Rmult_le_compat_l; lra). lra.
  Qed.
End Example_.

Print Assumptions C119_no_steps.
Print Assumptions C119_sum.
Print Assumptions C119_unit.
Print Assumptions C119_unit_far.
