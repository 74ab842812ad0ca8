(** C72, C73: bounding boxes in IEEE-754 arithmetic, for every binary format with at least 11 bits. *)
From Coq Require Import Reals List Arith ZArith Lia Lra.
From Flocq Require Import Core.Core IEEE754.BinarySingleNaN.
From Verif Require Import Base.Outcome Base.Scalar Model.Point Model.Line Model.Quadratic Model.Cubic
  Inst.FloatInst Spec.Bernstein Spec.Rounding Spec.Componentwise
  Spec.FloatPoints Spec.FloatCurves Spec.FloatBoxes Spec.Points
  Spec.Scaling Spec.Exact
  Proofs.FloatFacts Proofs.FloatCurve Proofs.FloatBoxQuad Proofs.FloatBoxCubic Proofs.FloatBoxFlat Proofs.FloatBoxBackward Proofs.FloatBound.
Import ListNotations.
Local Open Scope R_scope.

Section Floats.
  Context {F : Format} {P : Type} {PT : Point float P} {CP : CwPoint float P}.
  Notation D := (p_dim (P := P)).

  (** C72: the box of a segment is exact *)
  Theorem C72_line (l : line P) : fin_point (l_start l) -> fin_point (l_end l) ->
    exists bounds, line_bounding_box l = Ret bounds /\ length bounds = D /\
      encloses D bounds (fun i t => exact_at [l_start l; l_end l] t i) 0 0.
  Proof. exact (line_box_float l). Qed.

  (** C72: the box of a quadratic holds the exact curve up to rounding and EPSILON / 8,
      and its bounds are values of the curve up to rounding *)
  Theorem C72_quad (q : quad P) M : 0 <= M -> 4 * M <= uro * fmax ->
    (forall p, In p (quad_control_points q) -> bounded M p) ->
    exists bounds, quad_bounding_box q = Ret bounds /\ length bounds = D /\
      encloses D bounds (fun i t => exact_at (quad_control_points q) t i)
        (uro / 4 + 54 * uro * M + 9 * eta) (11 * uro * M + 3 * eta).
  Proof. intros HM HB B. apply (quad_box_float M HM HB q); apply B; cbn; auto. Qed.

  (** C73: the same for a cubic whose cubic coefficient is at least M / lam on every axis *)
  Theorem C73_cubic_partial (c : cubic P) M lam : 1 <= M -> 2048 * (M * M) <= fmax -> 2048 * lam * uro <= 1 ->
    (forall p, In p (cubic_control_points c) -> bounded M p) ->
    (forall i, (i < D)%nat ->
       M <= lam * Rabs (val (cw (c_end c) i) - 3 * val (cw (c_ctrl2 c) i)
                        + 3 * val (cw (c_ctrl1 c) i) - val (cw (c_start c) i))) ->
    exists bounds, cubic_bounding_box c = Ret bounds /\ length bounds = D /\
      encloses D bounds (fun i t => exact_at (cubic_control_points c) t i)
        (16 * uro * M + 4 * eta + 65536 * (lam * lam) * (uro * sqrt uro) * M) (16 * uro * M + 4 * eta).
  Proof. intros HM HO HL B H. apply (cubic_box_float c M lam HM HO HL); try assumption; apply B; cbn; auto. Qed.
  (** C73: on axes where the leading coefficient of the derivative is computed as less than EPSILON
      the box is right too; what is missing are computed coefficients of at least EPSILON far from
      the exact ones ([C73_cubic_refuted]) *)
  Theorem C73_cubic_cases_partial (c : cubic P) M lam : 1 <= M -> 2048 * (M * M) <= fmax -> 4 * M <= uro * fmax ->
    0 <= lam -> 2048 * lam * uro <= 1 ->
    (forall p, In p (cubic_control_points c) -> bounded M p) ->
    (forall i, (i < D)%nat ->
       (let d := cubic_derivative c in
        Rabs (val (cw (p_add (p_add (q_start d) (p_mul (q_ctrl d) (s_lit (-2)))) (q_end d)) i)) < 2 * uro) \/
       M <= lam * Rabs (val (cw (c_end c) i) - 3 * val (cw (c_ctrl2 c) i)
                        + 3 * val (cw (c_ctrl1 c) i) - val (cw (c_start c) i))) ->
    exists bounds, cubic_bounding_box c = Ret bounds /\ length bounds = D /\
      encloses D bounds (fun i t => exact_at (cubic_control_points c) t i)
        (251 * uro * M + 4 * eta + 65536 * (lam * lam) * (uro * sqrt uro) * M) (16 * uro * M + 4 * eta).
  Proof. intros HM HO HB HL HLU B H. apply (cubic_box_cases c M lam HM HO HB HL HLU); try assumption; apply B; cbn; auto. Qed.

  (** C73: every cubic whose coordinates are multiples of 2^g not much smaller than the largest one *)
  Theorem C73_cubic_coarse (c : cubic P) g M : 1 <= M -> 2048 * (M * M) <= fmax -> 4 * M <= uro * fmax ->
    room g (24 * M) -> 2048 * M * uro <= bpow radix2 g ->
    (forall p, In p (cubic_control_points c) -> coarse_point g M p) ->
    exists bounds, cubic_bounding_box c = Ret bounds /\ length bounds = D /\
      encloses D bounds (fun i t => exact_at (cubic_control_points c) t i)
        (251 * uro * M + 4 * eta + 65536 * (M / bpow radix2 g * (M / bpow radix2 g)) * (uro * sqrt uro) * M)
        (16 * uro * M + 4 * eta).
  Proof. exact (cubic_box_coarse c g M). Qed.

  (** C73: without a limit on lam and with the square of lam uro in place of lam^2 uro^(3/2): the box is
      right to a multiple of uro M as long as the cubic coefficient is at least sqrt(uro) M, and can only
      be off by a fraction of M when the coefficient is of the order of uro M, as in [C73_cubic_refuted] *)
  Theorem C73_cubic_backward_partial (c : cubic P) M lam : 1 <= M -> 2048 * (M * M) <= fmax -> 4 * M <= uro * fmax ->
    0 <= lam -> (forall p, In p (cubic_control_points c) -> bounded M p) ->
    (forall i, (i < D)%nat ->
       (let d := cubic_derivative c in
        Rabs (val (cw (p_add (p_add (q_start d) (p_mul (q_ctrl d) (s_lit (-2)))) (q_end d)) i)) < 2 * uro) \/
       M <= lam * Rabs (val (cw (c_end c) i) - 3 * val (cw (c_ctrl2 c) i)
                        + 3 * val (cw (c_ctrl1 c) i) - val (cw (c_start c) i))) ->
    exists bounds, cubic_bounding_box c = Ret bounds /\ length bounds = D /\
      encloses D bounds (fun i t => exact_at (cubic_control_points c) t i)
        (286 * uro * M + 4 * eta + 8388608 * (lam * uro * (lam * uro)) * M) (16 * uro * M + 4 * eta).
  Proof. intros HM HO HB HL B H. apply (cubic_box_back c M lam HM HO HB HL); try assumption; apply B; cbn; auto. Qed.
  Theorem C73_cubic_grid (c : cubic P) g M : 1 <= M -> 2048 * (M * M) <= fmax -> 4 * M <= uro * fmax ->
    room g (24 * M) -> (forall p, In p (cubic_control_points c) -> coarse_point g M p) ->
    exists bounds, cubic_bounding_box c = Ret bounds /\ length bounds = D /\
      encloses D bounds (fun i t => exact_at (cubic_control_points c) t i)
        (286 * uro * M + 4 * eta + 8388608 * (M / bpow radix2 g * uro * (M / bpow radix2 g * uro)) * M)
        (16 * uro * M + 4 * eta).
  Proof. exact (cubic_box_grid c g M). Qed.
End Floats.

(** The hypotheses hold for the f32 quadratic (0,0), (1,3), (4,1) and the f64 cubic
    (0,0), (1,3), (4,1), (-2,2). *)
Section Single.
  #[local] Existing Instance Binary32.
  Lemma range_32 : 4 * 4 <= uro * fmax.
  Proof.
    assert (A : uro = / 16777216) by reflexivity.
    assert (B : 340282346638528859811704183484516925440 <= fmax) by (vm_compute fmax; lra).
    rewrite A. lra.
  Qed.
  Definition g0 : PointN float 2 := fpt2 (flt 0 0) (flt 0 0).
  Definition g1 : PointN float 2 := fpt2 (flt 1 0) (flt 3 0).
  Definition g2 : PointN float 2 := fpt2 (flt 4 0) (flt 1 0).
  Example g_bounded p : In p [g0; g1; g2] -> bounded 4 p.
  Proof. intros [<-|[<-|[<-|[]]]]; apply bounded_int2; try lia; rewrite Rabs_right by lra; lra. Qed.
  Example C72_case : exists bounds, quad_bounding_box (Quad g0 g1 g2) = Ret bounds /\ length bounds = 2%nat /\
    encloses 2 bounds (fun i t => exact_at [g0; g1; g2] t i) (uro / 4 + 54 * uro * 4 + 9 * eta) (11 * uro * 4 + 3 * eta).
  Proof.
    destruct (C72_quad (Quad g0 g1 g2) 4 ltac:(lra) range_32 g_bounded) as (bounds & E & L & H).
    exists bounds. split; [exact E|]. split; [exact L|exact H].
  Qed.
End Single.

Section Double.
  #[local] Existing Instance Binary64.
  Definition e0 : PointN float 2 := fpt2 (flt 0 0) (flt 0 0).
  Definition e1 : PointN float 2 := fpt2 (flt 1 0) (flt 3 0).
  Definition e2 : PointN float 2 := fpt2 (flt 4 0) (flt 1 0).
  Definition e3 : PointN float 2 := fpt2 (flt (-2) 0) (flt 2 0).
  Example e_bounded p : In p [e0; e1; e2; e3] -> bounded 4 p.
  Proof.
    intros [<-|[<-|[<-|[<-|[]]]]]; apply bounded_int2; try lia;
      (rewrite Rabs_right by lra; lra) || (rewrite Rabs_left by lra; lra).
  Qed.
  Lemma int_val z : (Z.abs z <= 2048)%Z -> val (flt z 0) = IZR z.
  Proof. intros H. exact (proj2 (lit_small z H)). Qed.
  Example C73_case : exists bounds, cubic_bounding_box (Cubic e0 e1 e2 e3) = Ret bounds /\ length bounds = 2%nat /\
    encloses 2 bounds (fun i t => exact_at [e0; e1; e2; e3] t i)
      (16 * uro * 4 + 4 * eta + 65536 * (1 * 1) * (uro * sqrt uro) * 4) (16 * uro * 4 + 4 * eta).
  Proof.
    pose proof fmax_64 as FM. pose proof uro_64 as U.
    destruct (C73_cubic_partial (Cubic e0 e1 e2 e3) 4 1) as (bounds & E & L & H);
      [lra|lra|lra|exact e_bounded| |exists bounds; split; [exact E|]; split; [exact L|exact H]].
    intros [|[|i]] Hi; [| |cbn in Hi; lia]; cbn [c_start c_ctrl1 c_ctrl2 c_end].
    - change (cw e0 0) with (flt 0 0). change (cw e1 0) with (flt 1 0). change (cw e2 0) with (flt 4 0). change (cw e3 0) with (flt (-2) 0).
      rewrite !int_val by lia. rewrite Rabs_left; lra.
    - change (cw e0 1) with (flt 0 0). change (cw e1 1) with (flt 3 0). change (cw e2 1) with (flt 1 0). change (cw e3 1) with (flt 2 0).
      rewrite !int_val by lia. rewrite Rabs_right; lra.
  Qed.

  (** the quadratic 0, 6, 0 as a cubic, and whole numbers up to 1000 in general *)
  Example C73_whole (c : cubic (PointN float 2)) : (forall p, In p (cubic_control_points c) -> coarse_point 0 1000 p) ->
    exists bounds, cubic_bounding_box c = Ret bounds /\ length bounds = 2%nat /\
      encloses 2 bounds (fun i t => exact_at (cubic_control_points c) t i) (/ 1000000000) (/ 1000000000).
  Proof.
    pose proof fmax_64 as FM. pose proof uro_64 as U. pose proof eta_pos as T0. pose proof eta_uro as T1. intros Hc.
    assert (V0 : 0 <= sqrt uro) by apply sqrt_pos.
    assert (V1 : sqrt uro <= / 90000000).
    { apply Rsqr_incr_0; [|exact V0|lra]. unfold Rsqr. rewrite sqrt_def by lra. lra. }
    assert (UE : uro = / 9007199254740992) by reflexivity.
    assert (FM2 : 340282346638528859811704183484516925440 <= fmax) by (vm_compute fmax; lra).
    assert (UF : 4 * 1000 <= uro * fmax) by (rewrite UE; lra).
    assert (Rm : room 0 (24 * 1000)).
    { unfold room, least. cbn [fprec femax Binary64]. split; [lia|].
      split; apply Rle_trans with (bpow radix2 15); try (cbn; lra); apply bpow_le; lia. }
    destruct (C73_cubic_coarse c 0 1000) as (bounds & E & L & H); try assumption; [lra|lra|cbn; lra|].
    exists bounds. split; [exact E|]. split; [exact L|]. intros i Hi.
    assert (SU : uro * sqrt uro <= uro * / 90000000) by (apply Rmult_le_compat_l; lra).
    destruct (H i Hi) as (lo & hi & N & (H1 & H2 & H3) & (t1 & T1' & A1) & (t2 & T2' & A2)).
    exists lo, hi. split; [exact N|]. cbn [bpow] in H3. split; [split; [exact H1|]; split; [exact H2|]|].
    - intros t Ht. specialize (H3 t Ht). lra.
    - split; [exists t1|exists t2]; (split; [assumption|]); lra.
  Qed.
  Example C73_whole_case p : In p [e0; e1; e2; e3] -> coarse_point 0 1000 p.
  Proof.
    intros Hp i Hi. assert (B : bounded 4 p) by (now apply e_bounded). destruct (B i Hi) as [B1 B2].
    split; [exact B1|]. split; [|lra].
    assert (K : forall z, (Z.abs z <= 2048)%Z -> on_grid 0 (flt z 0)) by (intros z Hz; exists z; rewrite int_val by exact Hz; cbn; ring).
    destruct i as [|[|i]]; [| |cbn in Hi; lia]; destruct Hp as [<-|[<-|[<-|[<-|[]]]]]; apply K; lia.
  Qed.

  (** whole numbers up to a million, in f64 *)
  Example C73_million (c : cubic (PointN float 2)) : (forall p, In p (cubic_control_points c) -> coarse_point 0 1000000 p) ->
    exists bounds, cubic_bounding_box c = Ret bounds /\ length bounds = 2%nat /\
      encloses 2 bounds (fun i t => exact_at (cubic_control_points c) t i) (/ 5000000) (/ 100000000).
  Proof.
    pose proof fmax_64 as FM. pose proof uro_64 as U. pose proof eta_pos as T0. pose proof eta_uro as T1. intros Hc.
    assert (UE : uro = / 9007199254740992) by reflexivity.
    assert (FM2 : 340282346638528859811704183484516925440 <= fmax) by (vm_compute fmax; lra).
    assert (UF : 4 * 1000000 <= uro * fmax) by (rewrite UE; lra).
    assert (Rm : room 0 (24 * 1000000)).
    { unfold room, least. cbn [fprec femax Binary64]. split; [lia|].
      split; apply Rle_trans with (bpow radix2 25); try (cbn; lra); apply bpow_le; lia. }
    destruct (C73_cubic_grid c 0 1000000) as (bounds & E & L & H); try assumption; [lra|lra|].
    exists bounds. split; [exact E|]. split; [exact L|]. intros i Hi.
    destruct (H i Hi) as (lo & hi & N & (H1 & H2 & H3) & (t1 & T1' & A1) & (t2 & T2' & A2)).
    exists lo, hi. split; [exact N|]. cbn [bpow] in H3. split; [split; [exact H1|]; split; [exact H2|]|].
    - intros t Ht. specialize (H3 t Ht). rewrite UE in *. lra.
    - rewrite UE in *. split; [exists t1|exists t2]; (split; [assumption|]); lra.
  Qed.

  (** C73: without that condition the f64 box can miss the curve by 70 percent of the largest
      coordinate (control coordinates 1, -1, -0.9, 1.3: the box starts at 1, the curve goes below -0.4) *)
  Theorem C73_cubic_refuted : exists (c : cubic (PointN float 1)) lo hi,
    (forall p, In p (cubic_control_points c) -> bounded 2 p) /\
    cubic_bounding_box c = Ret [(lo, hi)] /\ fin lo /\
    exact_at (cubic_control_points c) (/ 2) 0 < val lo - 14 / 10.
  Proof.
    destruct cubic_box_misses as (c & lo & hi & B0 & B1 & B2 & B3 & E & Fl & H).
    exists c, lo, hi. split; [|auto]. intros p [<-|[<-|[<-|[<-|[]]]]]; assumption.
  Qed.
End Double.

Print Assumptions C72_line.
Print Assumptions C72_quad.
Print Assumptions C73_cubic_partial.
Print Assumptions C73_cubic_cases_partial.
Print Assumptions C73_cubic_coarse.
Print Assumptions C73_cubic_backward_partial.
Print Assumptions C73_cubic_grid.
Print Assumptions C73_cubic_refuted.
