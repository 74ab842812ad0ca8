(** C103: the quadratic solver and [solve_t_for_axis] in IEEE-754 arithmetic. *)
From Coq Require Import Reals List Arith ZArith Lia Lra.
From Flocq Require Import Core.Core IEEE754.BinarySingleNaN.
From Verif Require Import Base.Outcome Base.Scalar Model.Point Model.Line Model.Quadratic Model.Roots
  Inst.FloatInst Spec.Bernstein Spec.Points Spec.Rounding Spec.Componentwise Spec.FloatPoints
  Proofs.FloatFacts Proofs.FloatPoint Proofs.ExactEval Proofs.FloatBoxCubic Proofs.FloatRoots Proofs.FloatSolve.
Import ListNotations.
Local Open Scope R_scope.

Section Roots.
  Context {F : Format}.
  (** a x^2 + b x + c with finite coefficients of magnitude at most M *)
  Variables (fa fb fc : float) (M : R).
  Notation a := (val fa).
  Notation b := (val fb).
  Notation c := (val fc).
  Hypotheses (HM : 1 <= M) (H8 : 8 * (M * M) <= fmax) (Hq : 2 * M <= uro * fmax).
  Hypotheses (Fa : fin fa) (Fb : fin fb) (Fc : fin fc) (Ba : Rabs a <= M) (Bb : Rabs b <= M) (Bc : Rabs c <= M).
  (** what the discriminant is accurate to, relative to u; the last term is underflow *)
  Notation S := (b * b + 4 * Rabs (a * c) + 64 * (M * M) * (eta / uro)).
  Notation disc := (b * b - 4 * (a * c)).

  (** every value returned is nearly a root *)
  Theorem C103_residual l t : 2 * uro <= Rabs a -> quad_real_roots fa fb fc = Ret l -> In t l ->
    fin t /\ Rabs (a * val t * val t + b * val t + c) <= (4 * uro * S + uro / 2) / Rabs a.
  Proof. exact (root_residual fa fb fc M HM H8 Hq Fa Fb Fc Ba Bb Bc l t). Qed.
  (** a positive discriminant above the rounding noise: two values, each near its root *)
  Theorem C103_two : 2 * uro <= Rabs a -> 11 / 5 * uro * S < disc ->
    exists t1 t2, quad_real_roots fa fb fc = Ret [t1; t2] /\
    Rabs (val t1 - (- b - sqrt disc) / (2 * a)) <= 9 / 2 * uro * S / (Rabs a * sqrt disc) /\
    Rabs (val t2 - (- b + sqrt disc) / (2 * a)) <= 9 / 2 * uro * S / (Rabs a * sqrt disc).
  Proof. exact (two_roots' fa fb fc M HM H8 Hq Fa Fb Fc Ba Bb Bc). Qed.
  (** a negative one: none *)
  Theorem C103_none : 2 * uro <= Rabs a -> disc < - (11 / 5 * uro * S + 2 * uro) ->
    quad_real_roots fa fb fc = Ret [].
  Proof. exact (no_roots' fa fb fc M HM H8 Fa Fb Fc Ba Bb Bc). Qed.
  (** a below EPSILON (2 u): the linear equation b x + c *)
  Theorem C103_linear : Rabs a < 2 * uro -> 2 * uro <= Rabs b ->
    exists t, quad_real_roots fa fb fc = Ret [t] /\ fin t /\ Rabs (b * val t + c) <= uro * Rabs c + M * eta.
  Proof. exact (linear_roots' fa fb fc M HM Hq Fa Fb Fc Bb Bc). Qed.
End Roots.

Section Solve.
  Context {F : Format} {P : Type} {PT : Point float P} {CP : CwPoint float P}.
  Variables (q : quad P) (v : float) (M : R) (k : nat).
  Hypotheses (HM : 1 <= M) (H8 : 200 * (M * M) <= fmax) (Hq : 10 * M <= uro * fmax).
  Hypotheses (Bs : bounded M (q_start q)) (Bc : bounded M (q_ctrl q)) (Be : bounded M (q_end q)).
  Hypotheses (Fv : fin v) (Bv : Rabs (val v) <= M) (Hk : (k < p_dim (P := P))%nat).
  Notation s := (val (cw (q_start q) k)).
  Notation c := (val (cw (q_ctrl q) k)).
  Notation e := (val (cw (q_end q) k)).

  (** every parameter returned has nearly the coordinate asked for, the better the
      further the coordinate is from linear *)
  Theorem C103_solve l t : quad_solve_t_for_axis q v k = Ret l -> In t l ->
    16 * (uro * M) <= Rabs (s - 2 * c + e) ->
    fin t /\ 0 < val t < 1 /\
    Rabs (bezier_poly [s; c; e] (val t) - val v) <= 18 * (uro * M) + 410 * uro * (M * M) / Rabs (s - 2 * c + e).
  Proof. exact (solve_sound q v M k HM H8 Hq Bs Bc Be Fv Bv Hk l t). Qed.
  (** or is exactly linear *)
  Theorem C103_solve_linear l t : quad_solve_t_for_axis q v k = Ret l -> In t l -> s - 2 * c + e = 0 ->
    fin t /\ 0 < val t < 1 /\ Rabs (bezier_poly [s; c; e] (val t) - val v) <= 18 * (uro * M).
  Proof. exact (solve_sound_linear q v M k HM H8 Hq Bs Bc Be Fv Bv Hk l t). Qed.

  (** Conversely, where the coordinate of the exact curve is the one asked for, and
      its slope 2 (s - 2 c + e) r + 2 (c - s) there is clear of zero, a parameter
      near is returned -- unless it is within the same distance of an end, or the
      curve is skipped as degenerate. *)
  Hypothesis Hp : quad_is_a_point q s_eps = false.
  Hypothesis Hl : s_ltb (p_sqlen (p_sub (q_start q) (q_end q))) s_eps = false \/
                  quad_are_points_colinear q (s_lit 0) = Ret false.
  Theorem C103_solve_complete r : 0 <= r <= 1 -> bezier_poly [s; c; e] r = val v ->
    let A := s - 2 * c + e in
    let w := Rabs (2 * A * r + 2 * (c - s)) in
    16 * (uro * M) <= Rabs A -> 400 * (uro * (M * M)) <= w * w ->
    let d := 800 * (uro * (M * M)) / (Rabs A * w) in
    d < r < 1 - d ->
    exists l t, quad_solve_t_for_axis q v k = Ret l /\ In t l /\ fin t /\ Rabs (val t - r) <= d.
  Proof. intros Hr Hv A w. exact (solve_complete q v M k HM H8 Hq Bs Bc Be Fv Bv Hk Hp Hl r Hr Hv). Qed.
  Theorem C103_solve_complete_linear r : 0 <= r <= 1 -> bezier_poly [s; c; e] r = val v ->
    s - 2 * c + e = 0 -> 8 * (uro * M) <= Rabs (2 * (c - s)) ->
    let d := 31 * (uro * M) / Rabs (2 * (c - s)) in
    d < r < 1 - d ->
    exists l t, quad_solve_t_for_axis q v k = Ret l /\ In t l /\ fin t /\ Rabs (val t - r) <= d.
  Proof. intros Hr Hv. exact (solve_complete_linear q v M k HM H8 Hq Bs Bc Be Fv Bv Hk Hp Hl r Hr Hv). Qed.
End Solve.

Section Concrete.
  Local Existing Instance Binary64.
  (** in between nothing can be said (f64): a crossing in the middle of the curve
      is not found, a parameter returned is off by a third of the curve *)
  Theorem C103_misses_refuted : exists (q : quad (PointN float 1)) (v : float) t,
    bounded 2 (q_start q) /\ bounded 2 (q_ctrl q) /\ bounded 2 (q_end q) /\ fin v /\ Rabs (val v) <= 2 /\
    quad_solve_t_for_axis q v 0 = Ret [] /\ / 5 < t < / 3 /\
    bezier_poly [val (cw (q_start q) 0); val (cw (q_ctrl q) 0); val (cw (q_end q) 0)] t = val v.
  Proof. exact solve_misses. Qed.
  Theorem C103_wrong_refuted : exists (q : quad (PointN float 1)) (v : float) t,
    bounded 2 (q_start q) /\ bounded 2 (q_ctrl q) /\ bounded 2 (q_end q) /\ fin v /\ Rabs (val v) <= 2 /\
    quad_solve_t_for_axis q v 0 = Ret [t] /\ fin t /\
    / 3 < Rabs (bezier_poly [val (cw (q_start q) 0); val (cw (q_ctrl q) 0); val (cw (q_end q) 0)] (val t) - val v).
  Proof. exact solve_wrong. Qed.

  Lemma fmax_64 : 9007199254740992 * 9007199254740992 <= fmax.
  Proof.
    unfold fmax. apply Rle_trans with (bpow radix2 200 - bpow radix2 100).
    - cbn. lra.
    - assert (bpow radix2 200 <= bpow radix2 1023) by (apply bpow_le; lia).
      assert (bpow radix2 femax = 2 * bpow radix2 1023) as -> by reflexivity.
      assert (bpow radix2 (femax - fprec) <= bpow radix2 1023) by (apply bpow_le; cbn; lia).
      assert (0 < bpow radix2 100) by apply bpow_gt_0. lra.
  Qed.
  Lemma uro_64 : uro = / 9007199254740992.
  Proof. reflexivity. Qed.
  Lemma int_ok z : (Z.abs z < 1000)%Z -> fin (flt z 0) /\ val (flt z 0) = IZR z.
  Proof.
    intros H. pose proof fmax_64. destruct (flt_ok z 0) as [A B]; [cbn; lia|cbn; lia| |].
    - cbn [bpow]. rewrite Rmult_1_r. rewrite <- abs_IZR. apply Rle_trans with 1000; [apply IZR_le; lia|lra].
    - split; [exact A|]. rewrite B. cbn [bpow]. ring.
  Qed.

  (** (x - 1) (x - 2) *)
  Example C103_case_two : exists t1 t2, quad_real_roots (flt 1 0) (flt (-3) 0) (flt 2 0) = Ret [t1; t2] /\
    Rabs (val t1 - 1) <= 80 * uro /\ Rabs (val t2 - 2) <= 80 * uro.
  Proof.
    pose proof fmax_64 as FM. pose proof uro_64 as U.
    destruct (int_ok 1) as [F1 V1]; [lia|]. destruct (int_ok (-3)) as [F2 V2]; [lia|]. destruct (int_ok 2) as [F3 V3]; [lia|].
    destruct theta as [T0 T1].
    assert (E1 : Rabs (1 * 2) = 2) by (rewrite Rabs_pos_eq; lra). assert (E2 : Rabs 1 = 1) by (apply Rabs_pos_eq; lra).
    assert (E3 : sqrt (-3 * -3 - 4 * (1 * 2)) = 1) by (replace (-3 * -3 - 4 * (1 * 2)) with 1 by ring; apply sqrt_1).
    destruct (C103_two (flt 1 0) (flt (-3) 0) (flt 2 0) 3) as (t1 & t2 & H & A & B); auto;
      rewrite ?V1, ?V2, ?V3, ?U, ?E1, ?E2, ?E3 in *; try lra; try (apply Rabs_le; lra).
    exists t1, t2. split; [exact H|].
    split; [replace 1 with ((- -3 - 1) / (2 * 1)) at 1 by field|replace 2 with ((- -3 + 1) / (2 * 1)) by field];
      (eapply Rle_trans; [eassumption|]); unfold Rdiv at 1; rewrite Rmult_1_r, Rinv_1; lra.
  Qed.

  (** the coordinate 2 t (1 - t) at height 3/8, crossed at 1/4 and 3/4 *)
  Definition arch : quad (PointN float 1) := Quad (fpt1 (flt 0 0)) (fpt1 (flt 1 0)) (fpt1 (flt 0 0)).
  Example C103_case_found : match quad_solve_t_for_axis arch (flt 3 (-3)) 0 with Ret [_; _] => true | _ => false end = true.
  Proof. vm_compute. reflexivity. Qed.
  Example C103_case_solve l t : quad_solve_t_for_axis arch (flt 3 (-3)) 0 = Ret l -> In t l ->
    Rabs (2 * val t * (1 - val t) - 3 / 8) <= 223 * uro.
  Proof.
    intros H Ht. pose proof fmax_64 as FM. pose proof uro_64 as U.
    destruct (int_ok 0) as [F0 V0]; [lia|]. destruct (int_ok 1) as [F1 V1]; [lia|].
    destruct (flt_ok 3 (-3)) as [F3 V3]; [cbn; lia|cbn; lia|cbn; rewrite Rabs_pos_eq; lra|].
    assert (E : bpow radix2 (-3) = / 8) by reflexivity. rewrite E in V3.
    assert (bnd : forall x, fin x -> Rabs (val x) <= 1 -> bounded 1 (fpt1 x)).
    { intros x Fx Hx i Hi. assert (i = 0)%nat as -> by (cbn in Hi; lia). split; [exact Fx|exact Hx]. }
    assert (B0 : bounded 1 (fpt1 (flt 0 0))) by (apply bnd; [exact F0|rewrite V0; apply Rabs_le; lra]).
    assert (B1 : bounded 1 (fpt1 (flt 1 0))) by (apply bnd; [exact F1|rewrite V1; apply Rabs_le; lra]).
    destruct (C103_solve arch (flt 3 (-3)) 1 0) with (l := l) (t := t) as (_ & _ & R); auto; try lra;
      change (cw (q_start arch) 0) with (flt 0 0) in *; change (cw (q_ctrl arch) 0) with (flt 1 0) in *;
      change (cw (q_end arch) 0) with (flt 0 0) in *; rewrite ?V0, ?V1, ?V3, ?poly2 in *.
    - rewrite U. lra.
    - apply Rabs_le; lra.
    - rewrite Rabs_left; lra.
    - replace (2 * val t * (1 - val t) - 3 / 8) with ((1 - val t) * (1 - val t) * 0 + 2 * val t * (1 - val t) * 1 + val t * val t * 0 - 3 * / 8) by field.
      eapply Rle_trans; [exact R|]. rewrite (Rabs_left (0 - 2 * 1 + 0)) by lra. replace (- (0 - 2 * 1 + 0)) with 2 by ring. lra.
  Qed.
  (** both crossings are found *)
  Example C103_case_complete r : r = / 4 \/ r = 3 / 4 ->
    exists l t, quad_solve_t_for_axis arch (flt 3 (-3)) 0 = Ret l /\ In t l /\ fin t /\ Rabs (val t - r) <= 400 * uro.
  Proof.
    intros Hr. pose proof fmax_64 as FM. pose proof uro_64 as U.
    destruct (int_ok 0) as [F0 V0]; [lia|]. destruct (int_ok 1) as [F1 V1]; [lia|].
    destruct (flt_ok 3 (-3)) as [F3 V3]; [cbn; lia|cbn; lia|cbn; rewrite Rabs_pos_eq; lra|].
    assert (E : bpow radix2 (-3) = / 8) by reflexivity. rewrite E in V3.
    assert (bnd : forall x, fin x -> Rabs (val x) <= 1 -> bounded 1 (fpt1 x)).
    { intros x Fx Hx i Hi. assert (i = 0)%nat as -> by (cbn in Hi; lia). split; [exact Fx|exact Hx]. }
    assert (B0 : bounded 1 (fpt1 (flt 0 0))) by (apply bnd; [exact F0|rewrite V0; apply Rabs_le; lra]).
    assert (B1 : bounded 1 (fpt1 (flt 1 0))) by (apply bnd; [exact F1|rewrite V1; apply Rabs_le; lra]).
    assert (W : Rabs (2 * (0 - 2 * 1 + 0) * r + 2 * (1 - 0)) = 1)
      by (destruct Hr as [-> | ->]; [rewrite Rabs_pos_eq; lra|rewrite Rabs_left; lra]).
    assert (A2 : Rabs (0 - 2 * 1 + 0) = 2) by (rewrite Rabs_left; lra).
    assert (D : 800 * (uro * (1 * 1)) / (2 * 1) = 400 * uro) by field.
    rewrite <- D.
    pose proof (C103_solve_complete arch (flt 3 (-3)) 1 0) as T. cbv zeta in T.
    change (cw (q_start arch) 0) with (flt 0 0) in T; change (cw (q_ctrl arch) 0) with (flt 1 0) in T;
      change (cw (q_end arch) 0) with (flt 0 0) in T.
    specialize (T ltac:(lra) ltac:(lra) ltac:(rewrite U; lra) B0 B1 B0 F3).
    rewrite V0, V1, V3 in T.
    assert (Hp : quad_is_a_point arch s_eps = false) by (vm_compute; reflexivity).
    assert (Hl : quad_are_points_colinear arch (s_lit 0) = Ret false) by (vm_compute; reflexivity).
    specialize (T ltac:(rewrite Rabs_pos_eq; lra) ltac:(cbn; lia) Hp (or_intror Hl) r). rewrite W, A2 in T.
    apply T; try (rewrite D); rewrite ?U; try (destruct Hr; lra).
    rewrite poly2. destruct Hr as [-> | ->]; field.
  Qed.
End Concrete.

Print Assumptions C103_residual.
Print Assumptions C103_two.
Print Assumptions C103_none.
Print Assumptions C103_linear.
Print Assumptions C103_solve.
Print Assumptions C103_solve_linear.
Print Assumptions C103_misses_refuted.
Print Assumptions C103_wrong_refuted.
Print Assumptions C103_solve_complete.
Print Assumptions C103_solve_complete_linear.
