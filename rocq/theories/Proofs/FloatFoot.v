(** The distance from a point to a segment in IEEE arithmetic: accuracy of the
    projection parameter. *)
From Coq Require Import Reals ZArith List Arith Lia Lra Psatz Bool.
From Flocq Require Import Core.Core IEEE754.BinarySingleNaN.
From Verif Require Import Base.Outcome Base.Scalar Model.Point Model.Line Model.Quadratic
  Model.Cubic Model.Bezier Inst.RealInst Inst.FloatInst Spec.Sums Spec.Lawful Spec.Bernstein
  Spec.Metric Spec.Rounding Spec.Componentwise Spec.FloatPoints Spec.FloatCurves
  Proofs.OutcomeFacts Proofs.PointFacts Proofs.Metric Proofs.FloatFacts Proofs.ExactEval Proofs.LineFacts
  Proofs.Linearity Proofs.FloatBound Proofs.FloatEval Proofs.FloatNear Proofs.FloatNorm Proofs.FloatLength
  Proofs.FloatCurve Proofs.FloatTrueLength Proofs.FloatFlat.
Import ListNotations.
Local Open Scope R_scope.

(** sums of products of slightly perturbed factors *)
Lemma perturb (v w v' w' : nat -> R) (u : R) n : 0 <= u ->
  (forall i, (i < n)%nat -> Rabs (v' i - v i) <= u * Rabs (v i)) ->
  (forall i, (i < n)%nat -> Rabs (w' i - w i) <= u * Rabs (w i)) ->
  let Q := Rsum (fun i => Rabs (v i * w i)) n in
  Rsum (fun i => Rabs (v' i * w' i)) n <= (1 + u) * (1 + u) * Q /\
  Rabs (Rsum (fun i => v' i * w' i) n - Rsum (fun i => v i * w i) n) <= (2 * u + u * u) * Q.
Proof.
  intros U. induction n as [|n IH]; intros Hv Hw Q.
  - cbn. rewrite Rminus_diag_eq, Rabs_R0 by reflexivity. unfold Q. simpl. lra.
  - unfold Q. clear Q. cbn [Rsum].
    destruct IH as [A B]; [intros; apply Hv; lia|intros; apply Hw; lia|].
    set (Q := Rsum (fun i => Rabs (v i * w i)) n) in *.
    specialize (Hv n ltac:(lia)). specialize (Hw n ltac:(lia)).
    set (x := v n) in *. set (y := w n) in *. set (x' := v' n) in *. set (y' := w' n) in *.
    assert (X : Rabs x' <= (1 + u) * Rabs x).
    { replace x' with ((x' - x) + x) by ring. eapply Rle_trans; [apply Rabs_triang|]. lra. }
    assert (Y : Rabs y' <= (1 + u) * Rabs y).
    { replace y' with ((y' - y) + y) by ring. eapply Rle_trans; [apply Rabs_triang|]. lra. }
    pose proof (Rabs_pos x). pose proof (Rabs_pos y).
    assert (XY : Rabs (x' * y') <= (1 + u) * (1 + u) * Rabs (x * y)).
    { rewrite !Rabs_mult. replace ((1 + u) * (1 + u) * (Rabs x * Rabs y)) with (((1 + u) * Rabs x) * ((1 + u) * Rabs y)) by ring.
      apply Rmult_le_compat; try apply Rabs_pos; assumption. }
    split; [lra|].
    set (S' := Rsum (fun i => v' i * w' i) n) in *. set (S := Rsum (fun i => v i * w i) n) in *.
    replace (S' + x' * y' - (S + x * y)) with ((S' - S) + ((x' - x) * y' + x * (y' - y))) by ring.
    eapply Rle_trans; [apply Rabs_triang|].
    assert (Rabs ((x' - x) * y' + x * (y' - y)) <= (2 * u + u * u) * Rabs (x * y)); [|lra].
    eapply Rle_trans; [apply Rabs_triang|]. rewrite !Rabs_mult.
    assert (Rabs (x' - x) * Rabs y' <= (u * Rabs x) * ((1 + u) * Rabs y))
      by (apply Rmult_le_compat; try apply Rabs_pos; assumption).
    assert (Rabs x * Rabs (y' - y) <= Rabs x * (u * Rabs y)) by (apply Rmult_le_compat_l; assumption).
    lra.
Qed.

Lemma abs_cauchy v w n : Rsum (fun i => Rabs (v i * w i)) n <= nrm v n * nrm w n.
Proof.
  pose proof (cauchy_schwarz (fun i => Rabs (v i)) (fun i => Rabs (w i)) n) as C.
  assert (N : forall f, nrm (fun i => Rabs (f i)) n = nrm f n).
  { intros f. unfold nrm, sq. f_equal. apply Rsum_ext. intros i _. rewrite <- Rabs_mult. apply Rabs_pos_eq, Rle_0_sqr. }
  rewrite !N in C. eapply Rle_trans; [|exact C].
  rewrite Rabs_pos_eq.
  - apply Req_le, Rsum_ext. intros i _. apply Rabs_mult.
  - apply Rsum_nonneg. intros. apply Rmult_le_pos; apply Rabs_pos.
Qed.

(** the error of a quotient of perturbed inner products *)
Lemma quotient_core (u h n L S d d' l' : R) : 0 < u <= / 2048 -> 0 <= h <= 2 * (u * u) -> 0 <= n -> n * u <= / 64 ->
  0 < L -> 3 * u <= L * L -> 0 <= S -> Rabs d <= S * L ->
  Rabs (d' - d) <= (2 * n + 5) * u * (S * L) + 2 * n * h ->
  Rabs (l' - L * L) <= (2 * n + 5) * u * (L * L) + 2 * n * h ->
  0.94 * (L * L) <= l' /\ L * Rabs (d' / l' - d / (L * L)) <= u * ((6 * n + 12) * S + 1.5 * n * L).
Proof.
  intros Hu Hh Hn Hnu HL HL3 HS Hd E1 E2.
  assert (LL : 0 < L * L) by nra.
  assert (H1 : 2 * n * h <= 4 / 3 * n * u * (L * L)).
  { apply Rle_trans with (2 * n * (2 * (u * u))); [apply Rmult_le_compat_l; lra|].
    assert (n * u * (3 * u) <= n * u * (L * L)) by (apply Rmult_le_compat_l; [apply Rmult_le_pos|]; lra). lra. }
  assert (F2 : Rabs (l' - L * L) <= (10 / 3 * n + 5) * u * (L * L)) by lra.
  assert (F3 : (10 / 3 * n + 5) * u * (L * L) <= 0.06 * (L * L)) by (apply Rmult_le_compat_r; lra).
  assert (LO : 0.94 * (L * L) <= l') by (apply Rabs_le_inv in F2; lra).
  split; [exact LO|].
  assert (F1 : Rabs (d' - d) <= u * L * ((2 * n + 5) * S + 4 / 3 * n * L)) by lra.
  assert (K : Rabs ((d' - d) - d * ((l' - L * L) / (L * L))) <= u * L * ((16 / 3 * n + 10) * S + 4 / 3 * n * L)).
  { unfold Rminus at 1. eapply Rle_trans; [apply Rabs_triang|]. rewrite Rabs_Ropp, Rabs_mult.
    assert (Q : Rabs ((l' - L * L) / (L * L)) <= (10 / 3 * n + 5) * u).
    { unfold Rdiv. rewrite Rabs_mult, (Rabs_pos_eq (/ (L * L))) by (apply Rlt_le, Rinv_0_lt_compat; exact LL).
      apply (Rmult_le_reg_r (L * L)); [exact LL|]. rewrite Rmult_assoc, Rinv_l by lra. lra. }
    assert (Rabs d * Rabs ((l' - L * L) / (L * L)) <= (S * L) * ((10 / 3 * n + 5) * u))
      by (apply Rmult_le_compat; try apply Rabs_pos; assumption).
    lra. }
  assert (L'0 : 0 < l') by lra.
  assert (Eq : d' / l' - d / (L * L) = ((d' - d) - d * ((l' - L * L) / (L * L))) / l') by (field; lra).
  rewrite Eq. unfold Rdiv at 1. rewrite Rabs_mult, (Rabs_pos_eq (/ l')) by (apply Rlt_le, Rinv_0_lt_compat; exact L'0).
  apply (Rmult_le_reg_r l'); [exact L'0|].
  replace (L * (Rabs (d' - d - d * ((l' - L * L) / (L * L))) * / l') * l')
    with (L * Rabs (d' - d - d * ((l' - L * L) / (L * L)))) by (field; lra).
  apply Rle_trans with (L * (u * L * ((16 / 3 * n + 10) * S + 4 / 3 * n * L))); [apply Rmult_le_compat_l; lra|].
  apply Rle_trans with (u * ((6 * n + 12) * S + 1.5 * n * L) * (0.94 * (L * L))).
  - assert (0 <= u * (L * L)) by nra.
    replace (L * (u * L * ((16 / 3 * n + 10) * S + 4 / 3 * n * L)))
      with ((u * (L * L)) * ((16 / 3 * n + 10) * S + 4 / 3 * n * L)) by ring.
    replace (u * ((6 * n + 12) * S + 1.5 * n * L) * (0.94 * (L * L)))
      with ((u * (L * L)) * (0.94 * ((6 * n + 12) * S + 1.5 * n * L))) by ring.
    apply Rmult_le_compat_l; [assumption|].
    assert (0 <= n * S) by (apply Rmult_le_pos; lra). assert (0 <= n * L) by (apply Rmult_le_pos; lra). lra.
  - apply Rmult_le_compat_l; [|exact LO]. apply Rmult_le_pos; [lra|].
    apply Rplus_le_le_0_compat; apply Rmult_le_pos; try lra. 
Qed.

Section Foot.
  Context {F : Format} {P : Type} {PT : Point float P} {CP : CwPoint float P}.
  Notation D := (p_dim (P := P)).
  Notation ex p := (fun i => val (cw p i)).
  Variable M : R.
  Hypothesis HM : 0 <= M.
  Hypothesis HD0 : (0 < D)%nat.
  Hypothesis HD : 64 * INR (D + 1) * uro <= 1.
  Hypothesis Big : 64 * INR (D + 1) * ((M + 1) * (M + 1)) <= fmax.

  Lemma sub_rel (x y : P) i : (i < D)%nat -> bounded M x -> bounded M y ->
    fin (cw (p_sub x y) i) /\ Rabs (val (cw (p_sub x y) i)) <= 5 / 2 * M /\
    Rabs (val (cw (p_sub x y) i) - (val (cw x i) - val (cw y i))) <= uro * Rabs (val (cw x i) - val (cw y i)).
  Proof.
    intros Hi Hx Hy. destruct (Hx i Hi) as [X1 X2]. destruct (Hy i Hi) as [Y1 Y2].
    pose proof uro_pos. pose proof uro_small. pose proof (fH4 M HM Big).
    rewrite cw_sub by exact Hi. set (a := val (cw x i)) in *. set (b := val (cw y i)) in *.
    assert (AB : Rabs (a - b) <= 2 * M).
    { unfold Rminus. eapply Rle_trans; [apply Rabs_triang|]. rewrite Rabs_Ropp. lra. }
    destruct (sub_ok (cw x i) (cw y i) X1 Y1) as [S1 S2]; [fold a b; lra|]. fold a b in S2.
    assert (Er : Rabs (rnd (a - b) - (a - b)) <= uro * Rabs (a - b)).
    { apply (rnd_sum_err a (- b)); [apply val_float|apply float_opp, val_float]. }
    split; [exact S1|]. rewrite S2. split; [|exact Er].
    replace (rnd (a - b)) with ((rnd (a - b) - (a - b)) + (a - b)) by ring.
    eapply Rle_trans; [apply Rabs_triang|]. pose proof (Rabs_pos (a - b)). nra.
  Qed.

  Lemma foot_over : 4 * INR D * (5 / 2 * M * (5 / 2 * M)) <= fmax.
  Proof.
    eapply Rle_trans; [|exact Big]. pose proof (pos_INR D). rewrite plus_INR. simpl (INR 1).
    assert (0 <= M * M <= (M + 1) * (M + 1)) by nra. nra.
  Qed.

  (** the inner product of two computed differences *)
  Lemma diff_dot (x y z w : P) : bounded M x -> bounded M y -> bounded M z -> bounded M w ->
    let s := fold_left (dot_step (p_sub x y) (p_sub z w)) (seq 0 D) (s_lit 0) in
    fin s /\
    Rabs (val s - Rsum (fun i => (val (cw x i) - val (cw y i)) * (val (cw z i) - val (cw w i))) D)
      <= (2 * INR D + 5) * uro * (gap (P := P) (ex x) (ex y) * gap (P := P) (ex z) (ex w)) + 2 * INR D * eta.
  Proof.
    intros Hx Hy Hz Hw s. pose proof uro_pos as U0. pose proof uro_small as U1.
    destruct (dot_err (p_sub x y) (p_sub z w) (5 / 2 * M) (fHD4 HD) foot_over) as [A B].
    { intros i Hi. destruct (sub_rel x y i Hi Hx Hy) as (X & Y & _). auto. }
    { intros i Hi. destruct (sub_rel z w i Hi Hz Hw) as (X & Y & _). auto. }
    fold s in A, B. split; [exact A|].
    destruct (perturb (fun i => val (cw x i) - val (cw y i)) (fun i => val (cw z i) - val (cw w i))
                (ex (p_sub x y)) (ex (p_sub z w)) uro D) as [C E]; [lra| | |].
    { intros i Hi. now destruct (sub_rel x y i Hi Hx Hy) as (_ & _ & X). }
    { intros i Hi. now destruct (sub_rel z w i Hi Hz Hw) as (_ & _ & X). }
    pose proof (abs_cauchy (fun i => val (cw x i) - val (cw y i)) (fun i => val (cw z i) - val (cw w i)) D) as Q1.
    change (nrm (fun i => val (cw x i) - val (cw y i)) D) with (gap (P := P) (ex x) (ex y)) in Q1.
    change (nrm (fun i => val (cw z i) - val (cw w i)) D) with (gap (P := P) (ex z) (ex w)) in Q1.
    set (Q := Rsum (fun i => Rabs ((val (cw x i) - val (cw y i)) * (val (cw z i) - val (cw w i)))) D) in *.
    assert (Q0 : 0 <= Q) by (apply Rsum_nonneg; intros; apply Rabs_pos).
    set (G := gap (P := P) (ex x) (ex y) * gap (P := P) (ex z) (ex w)) in *.
    cbv beta in B, C, E.
    set (S' := Rsum (fun i => val (cw (p_sub x y) i) * val (cw (p_sub z w) i)) D) in *.
    set (S := Rsum (fun i => (val (cw x i) - val (cw y i)) * (val (cw z i) - val (cw w i))) D) in *.
    replace (val s - S) with ((val s - S') + (S' - S)) by ring.
    eapply Rle_trans; [apply Rabs_triang|].
    assert (Du : INR D * uro <= / 64 /\ 0 <= INR D * uro).
    { rewrite plus_INR in HD. simpl (INR 1) in HD. pose proof (pos_INR D). split; nra. }
    set (A' := Rsum (fun i => Rabs (val (cw (p_sub x y) i) * val (cw (p_sub z w) i))) D) in *.
    rewrite plus_INR in B. simpl (INR 1) in B.
    assert (B' : 2 * (INR D + 1) * uro * A' <= (2 * INR D + 2.9) * uro * Q).
    { apply Rle_trans with (2 * (INR D + 1) * uro * ((1 + uro) * (1 + uro) * Q)).
      - apply Rmult_le_compat_l; [|exact C]. pose proof (pos_INR D). apply Rmult_le_pos; [|lra]. lra.
      - replace (2 * (INR D + 1) * uro * ((1 + uro) * (1 + uro) * Q))
          with (2 * (INR D + 1) * ((1 + uro) * (1 + uro)) * (uro * Q)) by ring.
        rewrite (Rmult_assoc (2 * INR D + 2.9)). apply Rmult_le_compat_r; [apply Rmult_le_pos; lra|].
        replace (2 * (INR D + 1) * ((1 + uro) * (1 + uro)))
          with (2 * INR D + 2 + 2 * (2 * (INR D * uro) + (INR D * uro) * uro) + 2 * (2 * uro + uro * uro)) by ring.
        nra. }
    assert ((2 * uro + uro * uro) * Q <= 2.1 * uro * Q) by (apply Rmult_le_compat_r; nra).
    assert ((2 * INR D + 5) * uro * Q <= (2 * INR D + 5) * uro * G).
    { apply Rmult_le_compat_l; [|exact Q1]. pose proof (pos_INR D). apply Rmult_le_pos; lra. }
    lra.
  Qed.

  (** how far the computed foot of the perpendicular can be from the exact one *)
  Definition foot_err : R := sqrt (INR D) * ((16 * INR D + 30) * uro * M).

  Lemma gap_bound (x y : P) : bounded M x -> bounded M y -> 0 <= gap (P := P) (ex x) (ex y) <= sqrt (INR D) * (2 * M).
  Proof.
    intros Hx Hy. split; [apply sqrt_pos|]. apply (nrm_const_bound (fun i => val (cw x i) - val (cw y i))); [lra|].
    intros i Hi. unfold Rminus. eapply Rle_trans; [apply Rabs_triang|]. rewrite Rabs_Ropp.
    destruct (Hx i Hi). destruct (Hy i Hi). lra.
  Qed.

  Lemma Du : 0 <= INR D /\ INR D * uro <= / 64.
  Proof. rewrite plus_INR in HD. simpl (INR 1) in HD. pose proof (pos_INR D). pose proof uro_pos. split; nra. Qed.

  Lemma ufmax : 1 <= uro * fmax.
  Proof.
    rewrite fmax_eq. pose proof uro_small as U1. pose proof uro_pos as U0.
    assert (H : 2 <= uro * bpow radix2 femax).
    { unfold uro. rewrite <- bpow_plus. change 2 with (bpow radix2 1). apply bpow_le. pose proof femax_gt. lia. }
    replace (uro * ((1 - uro) * bpow radix2 femax)) with ((1 - uro) * (uro * bpow radix2 femax)) by ring.
    nra.
  Qed.

  Section Segment.
    Variables a b p : P.
    Hypothesis Ha : bounded M a.
    Hypothesis Hb : bounded M b.
    Hypothesis Hp : bounded M p.
    Notation L := (gap (P := P) (ex b) (ex a)).
    Notation S := (gap (P := P) (ex p) (ex a)).
    Hypothesis Hlen : 3 * uro <= L * L.

    Lemma L_pos : 0 < L.
    Proof. pose proof (gap_bound b a Hb Ha) as [A _]. pose proof uro_pos. destruct A as [A|A]; [exact A|]. rewrite <- A in Hlen. lra. Qed.

    Lemma sq_gap (x y : P) : gap (P := P) (ex x) (ex y) * gap (P := P) (ex x) (ex y)
      = Rsum (fun i => (val (cw x i) - val (cw y i)) * (val (cw x i) - val (cw y i))) D.
    Proof. exact (nrm_sq (fun i => val (cw x i) - val (cw y i)) D). Qed.

    Lemma core : 0.94 * (L * L) <= val (p_sqlen (p_sub b a)) /\ fin (p_sqlen (p_sub b a)) /\
      fin (fold_left (dot_step (p_sub p a) (p_sub b a)) (seq 0 D) (s_lit 0)) /\
      L * Rabs (val (fold_left (dot_step (p_sub p a) (p_sub b a)) (seq 0 D) (s_lit 0)) / val (p_sqlen (p_sub b a))
                - along a b p / (L * L)) <= uro * ((6 * INR D + 12) * S + 1.5 * INR D * L).
    Proof.
      destruct (diff_dot p a b a Hp Ha Hb Ha) as [A B].
      destruct (diff_dot b a b a Hb Ha Hb Ha) as [C E]. rewrite <- sq_gap in E.
      change (Rsum (fun i => (val (cw p i) - val (cw a i)) * (val (cw b i) - val (cw a i))) D) with (along a b p) in B.
      assert (Sq : p_sqlen (p_sub b a) = fold_left (dot_step (p_sub b a) (p_sub b a)) (seq 0 D) (s_lit 0)) by apply cw_sqlen.
      rewrite Sq. pose proof uro_pos as U0. pose proof uro_small as U1. pose proof eta_pos as T0. pose proof eta_sq as T1.
      destruct Du as [D1 D2].
      destruct (quotient_core uro eta (INR D) L S (along a b p) _ _ (conj U0 U1) (conj (Rlt_le _ _ T0) T1) D1 D2 L_pos Hlen
                  (proj1 (gap_bound p a Hp Ha))
                  (cauchy_schwarz (fun i => val (cw p i) - val (cw a i)) (fun i => val (cw b i) - val (cw a i)) D) B E) as [X Y].
      auto.
    Qed.

    Lemma along_le : L * Rabs (along a b p / (L * L)) <= S.
    Proof.
      pose proof L_pos as LP.
      pose proof (cauchy_schwarz (fun i => val (cw p i) - val (cw a i)) (fun i => val (cw b i) - val (cw a i)) D) as C.
      change (Rabs (along a b p) <= S * L) in C.
      unfold Rdiv. rewrite Rabs_mult, (Rabs_pos_eq (/ (L * L))) by (apply Rlt_le, Rinv_0_lt_compat; nra).
      replace (L * (Rabs (along a b p) * / (L * L))) with (Rabs (along a b p) * / L) by (field; lra).
      apply (Rmult_le_reg_r L); [exact LP|]. rewrite Rmult_assoc, Rinv_l by lra. lra.
    Qed.

    Lemma quotient_ok : fin (quotient a b p) /\
      L * Rabs (val (quotient a b p) - along a b p / (L * L)) <= foot_err.
    Proof.
      destruct core as (A & B & C & E). unfold quotient.
      set (d' := fold_left (dot_step (p_sub p a) (p_sub b a)) (seq 0 D) (s_lit 0)) in *.
      set (l' := p_sqlen (p_sub b a)) in *. pose proof L_pos as LP.
      pose proof (gap_bound p a Hp Ha) as [S0 S1]. pose proof (gap_bound b a Hb Ha) as [_ L1].
      pose proof along_le as AL. set (tau := along a b p / (L * L)) in *.
      pose proof uro_pos as U0. pose proof uro_small as U1. destruct Du as [D1 D2].
      pose proof eta_pos as T0. pose proof eta_sq as T1. pose proof ufmax as UF. pose proof fmax_ge as FG.
      set (s := S) in *. set (l := L) in *.
      assert (Er : uro * ((6 * INR D + 12) * s + 1.5 * INR D * l) <= 0.1 * s + 0.03 * l).
      { replace (uro * ((6 * INR D + 12) * s + 1.5 * INR D * l))
          with ((6 * (INR D * uro) + 12 * uro) * s + 1.5 * (INR D * uro) * l) by ring.
        apply Rplus_le_compat; apply Rmult_le_compat_r; lra. }
      set (x := val d' / val l') in *.
      assert (X : l * Rabs x <= 1.1 * s + 0.03 * l).
      { replace x with ((x - tau) + tau) by ring.
        apply Rle_trans with (l * (Rabs (x - tau) + Rabs tau)); [apply Rmult_le_compat_l; [lra|apply Rabs_triang]|]. lra. }
      assert (ls : s * s <= fmax / 16 * (uro * fmax)).
      { set (sd := sqrt (INR D)) in *. assert (sd0 : 0 <= sd) by apply sqrt_pos.
        assert (sd2 : sd * sd = INR D) by (apply sqrt_sqrt; lra).
        apply Rle_trans with ((sd * (2 * M)) * (sd * (2 * M))); [apply Rmult_le_compat; lra|].
        replace ((sd * (2 * M)) * (sd * (2 * M))) with (4 * (sd * sd) * (M * M)) by ring. rewrite sd2.
        assert (64 * INR D * (M * M) <= fmax).
        { eapply Rle_trans; [|exact Big]. rewrite plus_INR. simpl (INR 1). nra. }
        assert (fmax / 16 * 1 <= fmax / 16 * (uro * fmax)) by (apply Rmult_le_compat_l; lra). lra. }
      assert (sl : s <= / 6 * (fmax * l)).
      { apply Rsqr_incr_0; [|exact S0|apply Rmult_le_pos; [lra|apply Rmult_le_pos; lra]]. unfold Rsqr.
        eapply Rle_trans; [exact ls|].
        replace (/ 6 * (fmax * l) * (/ 6 * (fmax * l))) with (fmax * fmax * / 36 * (l * l)) by field.
        replace (fmax / 16 * (uro * fmax)) with (fmax * fmax * / 48 * (3 * uro)) by field.
        assert (0 <= fmax * fmax) by nra.
        apply Rmult_le_compat; [| |lra|exact Hlen]; [apply Rmult_le_pos|]; lra. }
      assert (Ov : Rabs x <= fmax).
      { apply (Rmult_le_reg_l l); [exact LP|]. nra. }
      destruct (div_ok d' l' C) as [Q1 Q2]; [nra|exact Ov|].
      split; [exact Q1|]. rewrite Q2. fold x.
      pose proof (rnd_err x) as RE.
      apply Rle_trans with (l * (Rabs (rnd x - x) + Rabs (x - tau))).
      { apply Rmult_le_compat_l; [lra|]. replace (rnd x - tau) with ((rnd x - x) + (x - tau)) by ring. apply Rabs_triang. }
      assert (R1 : l * Rabs (rnd x - x) <= l * (uro * Rabs x + eta)) by (apply Rmult_le_compat_l; lra).
      assert (R2 : uro * (l * Rabs x) <= uro * (1.1 * s + 0.03 * l)) by (apply Rmult_le_compat_l; lra).
      assert (uu : uro * uro <= uro * / 2048) by (apply Rmult_le_compat_l; lra).
      assert (R3 : l * eta <= l * (uro * 0.01)) by (apply Rmult_le_compat_l; lra).
      assert (Tot : l * (Rabs (rnd x - x) + Rabs (x - tau)) <= uro * ((6 * INR D + 14) * s + (2 * INR D + 1) * l)).
      { assert (0 <= uro * (INR D * l)) by (repeat apply Rmult_le_pos; lra).
        assert (0 <= uro * s) by (apply Rmult_le_pos; lra). assert (0 <= uro * l) by (apply Rmult_le_pos; lra). lra. }
      eapply Rle_trans; [exact Tot|]. unfold foot_err. set (sd := sqrt (INR D)) in *.
      apply Rle_trans with (uro * ((6 * INR D + 14) * (sd * (2 * M)) + (2 * INR D + 1) * (sd * (2 * M)))).
      - apply Rmult_le_compat_l; [lra|]. apply Rplus_le_compat; apply Rmult_le_compat_l; lra.
      - apply Req_le. ring.
    Qed.

    Lemma long_branch : s_ltb (p_sqlen (p_sub b a)) s_eps = false.
    Proof.
      destruct core as (A & B & _). destruct eps_ok as [E1 E2]. rewrite ltb_val, E2 by assumption.
      apply Rlt_bool_false. pose proof uro_pos. nra.
    Qed.

    (** squared distance along the line *)
    Lemma gap_line u : gap (P := P) (ex p) (exact_at [a; b] u) * gap (P := P) (ex p) (exact_at [a; b] u)
      = S * S - 2 * u * along a b p + u * u * (L * L).
    Proof.
      rewrite !sq_gap. unfold along.
      change (gap (P := P) (ex p) (exact_at [a; b] u)) with (nrm (fun i => val (cw p i) - exact_at [a; b] u i) D).
      rewrite nrm_sq. unfold sq.
      rewrite (Rsum_ext _ (fun i => (val (cw p i) - val (cw a i)) * (val (cw p i) - val (cw a i))
        + ((- (2 * u)) * ((val (cw p i) - val (cw a i)) * (val (cw b i) - val (cw a i)))
           + (u * u) * ((val (cw b i) - val (cw a i)) * (val (cw b i) - val (cw a i)))))).
      - rewrite !Rsum_plus, !Rsum_scal. ring.
      - intros i Hi. unfold exact_at. cbn [map]. rewrite line_poly. ring.
    Qed.

    Lemma gap_pos (f g : nat -> R) : 0 <= gap (P := P) f g. Proof. apply sqrt_pos. Qed.

    Lemma foot_min u : 0 <= u <= 1 -> along a b p <= L * L ->
      gap (P := P) (ex p) (exact_at [a; b] (Rmax 0 (along a b p / (L * L)))) <= gap (P := P) (ex p) (exact_at [a; b] u).
    Proof.
      intros Hu Hd. apply Rsqr_incr_0; try apply gap_pos. unfold Rsqr. rewrite !gap_line.
      pose proof L_pos as LP. set (d := along a b p) in *. set (q := L * L) in *.
      assert (Q : 0 < q) by (unfold q; nra).
      unfold Rmax. destruct (Rle_dec 0 (d / q)) as [H|H].
      - set (t := d / q) in *. replace d with (t * q) by (unfold t; field; lra).
        assert (0 <= (u - t) * (u - t)) by apply Rle_0_sqr. nra.
      - assert (d < 0).
        { apply Rnot_le_lt. intros X. apply H. apply Rmult_le_pos; [exact X|]. apply Rlt_le, Rinv_0_lt_compat, Q. }
        nra.
    Qed.

    Lemma gap_move u v : gap (P := P) (ex p) (exact_at [a; b] u)
      <= gap (P := P) (ex p) (exact_at [a; b] v) + L * Rabs (u - v).
    Proof.
      pose proof (minkowski (fun i => val (cw p i) - exact_at [a; b] v i)
                    (fun i => (v - u) * (val (cw b i) - val (cw a i))) D) as K.
      rewrite nrm_scal in K. rewrite (Rabs_minus_sym v u) in K.
      change (nrm (fun i => val (cw b i) - val (cw a i)) D) with L in K.
      change (nrm (fun i => val (cw p i) - exact_at [a; b] v i) D) with (gap (P := P) (ex p) (exact_at [a; b] v)) in K.
      rewrite (nrm_ext _ (fun i => val (cw p i) - exact_at [a; b] u i)) in K.
      - change (nrm (fun i => val (cw p i) - exact_at [a; b] u i) D) with (gap (P := P) (ex p) (exact_at [a; b] u)) in K. lra.
      - intros i Hi. unfold exact_at. cbn [map]. rewrite !line_poly. ring.
    Qed.

    (** the foot falls clearly before the end: the result is the distance to the
        segment up to rounding *)
    Theorem distance_accurate : along a b p + foot_err * L < L * L ->
      exists d, line_distance_to_point (Line a b) p = Ret d /\ fin d /\
        (exists u, 0 <= u <= 1 /\ gap (P := P) (ex p) (exact_at [a; b] u) - flat_err (P := P) M <= val d) /\
        forall u, 0 <= u <= 1 -> val d <= gap (P := P) (ex p) (exact_at [a; b] u) + (flat_err (P := P) M + foot_err).
    Proof.
      intros Hf. rewrite distance_cases, long_branch. destruct quotient_ok as [Q1 Q2].
      pose proof L_pos as LP. set (q := quotient a b p) in *. set (tau := along a b p / (L * L)) in *.
      assert (Tq : tau * (L * L) = along a b p) by (unfold tau; field; lra).
      assert (Lq : val q < 1).
      { apply (Rmult_lt_reg_l L); [exact LP|]. apply (Rmult_lt_reg_l L); [exact LP|].
        assert (L * (val q - tau) <= foot_err).
        { eapply Rle_trans; [|exact Q2]. apply Rmult_le_compat_l; [lra|]. apply Rle_abs. }
        assert (L * (L * (val q - tau)) <= L * foot_err) by (apply Rmult_le_compat_l; lra). lra. }
      destruct (clamp_ok q) as [T1 T2]. pose proof (clamp_val q Q1 Lq) as T3.
      destruct (param_length M HM HD0 HD Big a b p _ Ha Hb Hp T1 T2) as (A & B & C). apply Rabs_le_inv in C.
      eexists. split; [reflexivity|]. split; [exact A|]. split.
      - exists (val (clamp q)). split; [exact T2|]. lra.
      - intros u Hu.
        assert (F0 : 0 <= foot_err).
        { eapply Rle_trans; [|exact Q2]. apply Rmult_le_pos; [lra|apply Rabs_pos]. }
        assert (FL : 0 <= foot_err * L) by (apply Rmult_le_pos; lra).
        pose proof (foot_min u Hu ltac:(lra)) as FM. fold tau in FM.
        pose proof (gap_move (val (clamp q)) (Rmax 0 tau)) as GM.
        assert (L * Rabs (val (clamp q) - Rmax 0 tau) <= foot_err); [|lra].
        eapply Rle_trans; [|exact Q2]. apply Rmult_le_compat_l; [lra|]. rewrite T3.
        unfold Rmax. destruct (Rle_dec 0 (val q)), (Rle_dec 0 tau); unfold Rabs; repeat destruct Rcase_abs; lra.
    Qed.

    (** the foot falls clearly beyond the end: the result is the distance to the
        start *)
    Theorem distance_beyond : L * L + foot_err * L <= along a b p ->
      exists d, line_distance_to_point (Line a b) p = Ret d /\ fin d /\
        Rabs (val d - gap (P := P) (ex p) (ex a)) <= flat_err (P := P) M.
    Proof.
      intros Hf. rewrite distance_cases, long_branch. destruct quotient_ok as [Q1 Q2].
      pose proof L_pos as LP. set (q := quotient a b p) in *. set (tau := along a b p / (L * L)) in *.
      assert (Tq : tau * (L * L) = along a b p) by (unfold tau; field; lra).
      assert (Lq : 1 <= val q).
      { apply (Rmult_le_reg_l L); [exact LP|]. apply (Rmult_le_reg_l L); [exact LP|].
        assert (L * (tau - val q) <= foot_err).
        { eapply Rle_trans; [|exact Q2]. apply Rmult_le_compat_l; [lra|]. rewrite Rabs_minus_sym. apply Rle_abs. }
        assert (L * (L * (tau - val q)) <= L * foot_err) by (apply Rmult_le_compat_l; lra). lra. }
      destruct (lit_small 0) as [Z1 Z2]; [lia|]. destruct (lit_small 1) as [O1 O2]; [lia|].
      assert (T3 : val (clamp q) = 0).
      { unfold clamp. rewrite (ltb_val q (s_lit 1)), O2, Rlt_bool_false by assumption.
        destruct (s_ltb (s_lit 0) (s_lit 0)); exact Z2. }
      destruct (clamp_ok q) as [T1 T2].
      destruct (param_length M HM HD0 HD Big a b p _ Ha Hb Hp T1 T2) as (A & B & C).
      eexists. split; [reflexivity|]. split; [exact A|]. rewrite T3 in C.
      rewrite (gap_ext (ex p) (ex p) (exact_at [a; b] 0) (ex a)) in C by (intros; (reflexivity || apply at_0)).
      exact C.
    Qed.
  End Segment.

  (** ** [is_linear] accepts flat curves *)
  Lemma long_branch_sym (a b : P) : bounded M a -> bounded M b ->
    3 * uro <= gap (P := P) (ex b) (ex a) * gap (P := P) (ex b) (ex a) -> s_ltb (p_sqlen (p_sub a b)) s_eps = false.
  Proof.
    intros Ha Hb H. rewrite (gap_sym (ex b)) in H. exact (long_branch b a b Hb Ha Ha H) || exact (long_branch b a b Hb Ha Hb H).
  Qed.

  Definition flat_at (a b c : P) (r : R) : Prop :=
    along a b c + foot_err * gap (P := P) (ex b) (ex a) < gap (P := P) (ex b) (ex a) * gap (P := P) (ex b) (ex a) /\
    exists u, 0 <= u <= 1 /\ gap (P := P) (ex c) (exact_at [a; b] u) <= r.

  Lemma flat_dist (a b c : P) (tol : float) : bounded M a -> bounded M b -> bounded M c -> fin tol ->
    3 * uro <= gap (P := P) (ex b) (ex a) * gap (P := P) (ex b) (ex a) ->
    flat_at a b c (val tol - (flat_err (P := P) M + foot_err)) ->
    exists d, line_distance_to_point (Line a b) c = Ret d /\ s_leb d tol = true.
  Proof.
    intros Ha Hb Hc Ft HL (Hf & u & Hu & Hg).
    destruct (distance_accurate a b c Ha Hb Hc HL Hf) as (d & E & Fd & _ & K).
    exists d. split; [exact E|]. rewrite leb_val by assumption. apply Rle_bool_true. specialize (K u Hu). lra.
  Qed.

  Theorem quad_flat_complete (q : quad P) (tol : float) : (forall p, In p (quad_control_points q) -> bounded M p) ->
    fin tol ->
    3 * uro <= gap (P := P) (ex (q_end q)) (ex (q_start q)) * gap (P := P) (ex (q_end q)) (ex (q_start q)) ->
    flat_at (q_start q) (q_end q) (q_ctrl q) (val tol - (flat_err (P := P) M + foot_err)) ->
    quad_is_linear q tol = Ret true.
  Proof.
    intros B Ft HL Hf. destruct q as [a c b]. cbn [q_start q_ctrl q_end] in *.
    assert (Ba : bounded M a) by (apply B; cbn; auto). assert (Bb : bounded M b) by (apply B; cbn; auto).
    assert (Bc : bounded M c) by (apply B; cbn; auto).
    unfold quad_is_linear. cbn [q_start q_end]. rewrite long_branch_sym by assumption.
    unfold quad_are_points_colinear, quad_baseline. cbn [q_start q_ctrl q_end].
    destruct (flat_dist a b c tol Ba Bb Bc Ft HL Hf) as (d & -> & H). cbn [bind]. now rewrite H.
  Qed.

  Theorem cubic_flat_complete (c : cubic P) (tol : float) : (forall p, In p (cubic_control_points c) -> bounded M p) ->
    fin tol ->
    3 * uro <= gap (P := P) (ex (c_end c)) (ex (c_start c)) * gap (P := P) (ex (c_end c)) (ex (c_start c)) ->
    flat_at (c_start c) (c_end c) (c_ctrl1 c) (val tol - (flat_err (P := P) M + foot_err)) ->
    flat_at (c_start c) (c_end c) (c_ctrl2 c) (val tol - (flat_err (P := P) M + foot_err)) ->
    cubic_is_linear c tol = Ret true.
  Proof.
    intros B Ft HL Hf Hf2. destruct c as [a c e b]. cbn [c_start c_ctrl1 c_ctrl2 c_end] in *.
    assert (Ba : bounded M a) by (apply B; cbn; auto). assert (Bb : bounded M b) by (apply B; cbn; auto).
    assert (Bc : bounded M c) by (apply B; cbn; auto). assert (Be : bounded M e) by (apply B; cbn; auto).
    unfold cubic_is_linear. cbn [c_start c_end]. rewrite long_branch_sym by assumption.
    unfold cubic_are_points_colinear, cubic_baseline. cbn [c_start c_ctrl1 c_ctrl2 c_end].
    destruct (flat_dist a b c tol Ba Bb Bc Ft HL Hf) as (d & -> & H). cbn [bind]. rewrite H.
    destruct (flat_dist a b e tol Ba Bb Be Ft HL Hf2) as (d2 & -> & H2). cbn [bind]. now rewrite H2.
  Qed.

  (** ** [is_a_point] *)
  Section Small.
    Variable tol : float.
    Hypothesis Ft : fin tol.
    Hypothesis Ht : val tol * val tol <= fmax.

    Lemma tol_sq : fin (s_mul tol tol) /\ Rabs (val (s_mul tol tol) - val tol * val tol) <= uro * (val tol * val tol) + eta.
    Proof.
      assert (T : 0 <= val tol * val tol) by apply Rle_0_sqr.
      destruct (mul_ok tol tol Ft Ft) as [A B]; [rewrite Rabs_pos_eq by exact T; exact Ht|].
      split; [exact A|]. rewrite B. eapply Rle_trans; [apply rnd_err|]. rewrite (Rabs_pos_eq (val tol * val tol)) by exact T. lra.
    Qed.

    Lemma small_sound (p q : P) : bounded M p -> bounded M q -> s_leb (p_sqlen (p_sub p q)) (s_mul tol tol) = true ->
      gap (P := P) (ex p) (ex q) <= (1 + 3 * uro) * Rabs (val tol) + 2 * sqrt eta + flat_err (P := P) M.
    Proof.
      intros Hp Hq. destruct (sub_length M HM HD0 HD Big p q Hp Hq) as (A & B & C & E & G).
      destruct tol_sq as [T1 T2]. rewrite leb_val by assumption.
      destruct (Rle_bool_spec (val (p_sqlen (p_sub p q))) (val (s_mul tol tol))) as [L|]; [|discriminate]. intros _.
      destruct (sqrt_ok _ A B) as [S1 S2]. rewrite S2 in G.
      set (s := val (p_sqlen (p_sub p q))) in *. set (x := Rabs (val tol)).
      assert (X : val tol * val tol = x * x) by (unfold x; rewrite <- Rabs_mult; symmetry; apply Rabs_pos_eq, Rle_0_sqr).
      rewrite X in T2. pose proof (Rabs_pos (val tol)) as X0. fold x in X0.
      pose proof uro_pos as U0. pose proof uro_small as U1. pose proof (@sqrt_eta F) as [E0 E1]. pose proof (@eta_root F) as ER.
      pose proof (@eta_u F) as EU. set (h := sqrt eta) in *.
      assert (Hs : sqrt s <= (1 + uro) * x + h).
      { assert (H0 : 0 <= (1 + uro) * x + h) by (apply Rplus_le_le_0_compat; [apply Rmult_le_pos|]; lra).
        rewrite <- (sqrt_square ((1 + uro) * x + h)) by exact H0. apply sqrt_le_1_alt.
        apply Rabs_le_inv in T2. 
        apply Rle_trans with ((1 + uro) * (x * x) + h * h); [lra|].
        assert (0 <= x * h) by (apply Rmult_le_pos; lra). assert (0 <= x * x) by nra.
        assert (0 <= uro * (x * x)) by (apply Rmult_le_pos; lra).
        assert (0 <= uro * (x * h)) by (apply Rmult_le_pos; lra).
        assert (0 <= uro * (uro * (x * x))) by (apply Rmult_le_pos; lra).
        replace (((1 + uro) * x + h) * ((1 + uro) * x + h))
          with (x * x + 2 * (uro * (x * x)) + uro * (uro * (x * x)) + 2 * (x * h) + 2 * (uro * (x * h)) + h * h) by ring.
        lra. }
      pose proof (rnd_err (sqrt s)) as RE. rewrite (Rabs_pos_eq (sqrt s)) in RE by apply sqrt_pos.
      apply Rabs_le_inv in RE, G.
      assert (uro * sqrt s <= uro * ((1 + uro) * x + h)) by (apply Rmult_le_compat_l; lra).
      assert (uro * (uro * x) <= / 2048 * (uro * x)) by (apply Rmult_le_compat_r; [apply Rmult_le_pos|]; lra).
      assert (uro * h <= / 2048 * h) by (apply Rmult_le_compat_r; lra).
      assert (0 <= uro * x) by (apply Rmult_le_pos; lra).
      lra.
    Qed.

    Lemma small_complete (p q : P) : bounded M p -> bounded M q ->
      gap (P := P) (ex p) (ex q) + flat_err (P := P) M + 3 * sqrt eta <= (1 - 2 * uro) * Rabs (val tol) ->
      s_leb (p_sqlen (p_sub p q)) (s_mul tol tol) = true.
    Proof.
      intros Hp Hq H. destruct (sub_length M HM HD0 HD Big p q Hp Hq) as (A & B & C & E & G).
      destruct tol_sq as [T1 T2]. rewrite leb_val by assumption. apply Rle_bool_true.
      destruct (sqrt_ok _ A B) as [S1 S2]. rewrite S2 in G.
      set (s := val (p_sqlen (p_sub p q))) in *. set (x := Rabs (val tol)) in *.
      assert (X : val tol * val tol = x * x) by (unfold x; rewrite <- Rabs_mult; symmetry; apply Rabs_pos_eq, Rle_0_sqr).
      rewrite X in T2. pose proof (Rabs_pos (val tol)) as X0. fold x in X0.
      pose proof uro_pos as U0. pose proof uro_small as U1. pose proof (@sqrt_eta F) as [E0 E1]. pose proof (@eta_root F) as ER.
      pose proof (@eta_u F) as EU. set (h := sqrt eta) in *.
      pose proof (rnd_err (sqrt s)) as RE. rewrite (Rabs_pos_eq (sqrt s)) in RE by apply sqrt_pos.
      apply Rabs_le_inv in RE, G. apply Rabs_le_inv in T2.
      set (y := sqrt s) in *. pose proof (sqrt_pos s) as Y0. fold y in Y0.
      assert (Sy : s = y * y) by (unfold y; symmetry; now apply sqrt_sqrt).
      assert (uro * h <= / 2048 * h) by (apply Rmult_le_compat_r; lra).
      assert (Y : (1 - uro) * y + 2 * h <= (1 - 2 * uro) * x) by lra.
      rewrite Sy. apply Rle_trans with ((1 - uro) * (x * x) - h * h); [|lra].
      assert (Y' : y + h <= (1 - uro) * x).
      { apply (Rmult_le_reg_l (1 - uro)); [lra|].
        assert (0 <= uro * (uro * x)) by (repeat apply Rmult_le_pos; lra).
        assert (0 <= uro * h) by (apply Rmult_le_pos; lra). lra. }
      assert (YY : (y + h) * (y + h) <= (1 - uro) * x * ((1 - uro) * x)) by (apply Rmult_le_compat; lra).
      assert (0 <= y * h) by (apply Rmult_le_pos; lra).
      assert (Q : (1 - uro) * x * ((1 - uro) * x) <= (1 - uro) * (x * x)).
      { replace ((1 - uro) * x * ((1 - uro) * x)) with ((1 - uro) * ((1 - uro) * (x * x))) by ring.
        apply Rmult_le_compat_l; [lra|]. assert (0 <= uro * (x * x)) by (apply Rmult_le_pos; [lra|apply Rle_0_sqr]). lra. }
      lra.
    Qed.

    #[local] Existing Instance Eps64.
    Notation X p := (exact_point p).
    Notation T := ((1 + 3 * uro) * Rabs (val tol) + 2 * sqrt eta + flat_err (P := P) M).

    Lemma T_pos : 0 <= T.
    Proof.
      pose proof (flat_err_pos (P := P) M HM). pose proof (@sqrt_eta F). pose proof uro_pos. pose proof (Rabs_pos (val tol)).
      assert (0 <= (1 + 3 * uro) * Rabs (val tol)) by (apply Rmult_le_pos; lra). lra.
    Qed.

    Lemma X_dist (p q : P) : dist (X p) (X q) = gap (P := P) (ex p) (ex q).
    Proof. apply dist_gap; intros i Hi; now apply coord_exact. Qed.

    Theorem quad_point_sound (q : quad P) : (forall p, In p (quad_control_points q) -> bounded M p) ->
      quad_is_a_point q tol = true -> forall t, 0 <= t <= 1 ->
      gap (P := P) (exact_at (quad_control_points q) t) (ex (q_start q)) <= T.
    Proof.
      intros B H t Ht1. destruct q as [a c b]. unfold quad_is_a_point in H. cbn [q_start q_ctrl q_end] in *.
      assert (Ba : bounded M a) by (apply B; cbn; auto). assert (Bb : bounded M b) by (apply B; cbn; auto).
      assert (Bc : bounded M c) by (apply B; cbn; auto).
      apply andb_true_iff in H. destruct H as [H1 H2].
      pose proof (small_sound a b Ba Bb H1) as G1. pose proof (small_sound a c Ba Bc H2) as G2.
      rewrite <- (dist_gap (exact_at (quad_control_points (Quad a c b)) t) (ex a)
                    (quad_eval (Quad (X a) (X c) (X b)) t) (X a)).
      - apply (hull_ball [X a; X c; X b]); [apply (quad_in_hull (Quad (X a) (X c) (X b)) t Ht1)|].
        intros p [<-|[<-|[<-|[]]]].
        + rewrite dist_refl. apply T_pos.
        + now rewrite X_dist, gap_sym.
        + now rewrite X_dist, gap_sym.
      - intros i Hi. exact (quad_X_coord (Quad a c b) t i Hi).
      - intros i Hi. now apply coord_exact.
    Qed.

    Theorem cubic_point_sound (c : cubic P) : (forall p, In p (cubic_control_points c) -> bounded M p) ->
      cubic_is_a_point c tol = true -> forall t, 0 <= t <= 1 ->
      gap (P := P) (exact_at (cubic_control_points c) t) (ex (c_start c)) <= 2 * T.
    Proof.
      intros B H t Ht1. destruct c as [a c e b]. unfold cubic_is_a_point in H. cbn [c_start c_ctrl1 c_ctrl2 c_end] in *.
      assert (Ba : bounded M a) by (apply B; cbn; auto). assert (Bb : bounded M b) by (apply B; cbn; auto).
      assert (Bc : bounded M c) by (apply B; cbn; auto). assert (Be : bounded M e) by (apply B; cbn; auto).
      apply andb_true_iff in H. destruct H as [H H3]. apply andb_true_iff in H. destruct H as [H1 H2].
      pose proof (small_sound a b Ba Bb H1) as G1. pose proof (small_sound a c Ba Bc H2) as G2.
      pose proof (small_sound b e Bb Be H3) as G3. pose proof T_pos as T0.
      rewrite <- (dist_gap (exact_at (cubic_control_points (Cubic a c e b)) t) (ex a)
                    (cubic_eval (Cubic (X a) (X c) (X e) (X b)) t) (X a)).
      - apply (hull_ball [X a; X c; X e; X b]); [apply (cubic_in_hull (Cubic (X a) (X c) (X e) (X b)) t Ht1)|].
        intros p [<-|[<-|[<-|[<-|[]]]]].
        + rewrite dist_refl. lra.
        + rewrite X_dist, gap_sym. lra.
        + eapply Rle_trans; [apply (dist_triangle _ (X b))|]. rewrite !X_dist, (gap_sym (ex e)), (gap_sym (ex b) (ex a)). lra.
        + rewrite X_dist, gap_sym. lra.
      - intros i Hi. exact (cubic_X_coord (Cubic a c e b) t i Hi).
      - intros i Hi. now apply coord_exact.
    Qed.

    Notation fits p q := (gap (P := P) (ex p) (ex q) + flat_err (P := P) M + 3 * sqrt eta <= (1 - 2 * uro) * Rabs (val tol)).

    Theorem quad_point_complete (q : quad P) : (forall p, In p (quad_control_points q) -> bounded M p) ->
      fits (q_start q) (q_end q) -> fits (q_start q) (q_ctrl q) -> quad_is_a_point q tol = true.
    Proof.
      intros B H1 H2. unfold quad_is_a_point. apply andb_true_iff. destruct q as [a c b]. cbn in *.
      split; apply small_complete; auto.
    Qed.
    Theorem cubic_point_complete (c : cubic P) : (forall p, In p (cubic_control_points c) -> bounded M p) ->
      fits (c_start c) (c_end c) -> fits (c_start c) (c_ctrl1 c) -> fits (c_end c) (c_ctrl2 c) ->
      cubic_is_a_point c tol = true.
    Proof.
      intros B H1 H2 H3. unfold cubic_is_a_point. rewrite !andb_true_iff. destruct c as [a c e b]. cbn in *.
      repeat split; apply small_complete; auto 6.
    Qed.
  End Small.
End Foot.
