(** C127: derivatives, arc lengths and solutions of exact coordinates over a rounded [NativeFloat]. *)
From Coq Require Import Reals ZArith List Arith Bool Lia Lra Psatz.
From Flocq Require Import Core.Core IEEE754.BinarySingleNaN.
From Verif Require Import Base.Outcome Base.Scalar Model.Point Model.Line Model.Quadratic Model.Cubic Model.Bezier
  Model.BSpline Model.Segment Model.TwoScalars Inst.RealInst Inst.FloatInst Inst.ExactOver Spec.Sums Spec.Lawful Spec.Metric
  Spec.Points Spec.Rounding Spec.Widening Spec.Basis
  Proofs.OutcomeFacts Proofs.PointFacts Proofs.RealTac Proofs.Metric Proofs.FloatFacts Proofs.FloatHalf Proofs.Interface
  Proofs.TwoScalars Proofs.BezierReal Proofs.ArclenFacts Proofs.BSplineGeneric Proofs.BSplineReal Proofs.BSplineEval
  Proofs.BSplineArclen Proofs.ExactEval Proofs.Narrowing.
Import ListNotations.

Section Solve.
  Context {T S P : Type} {NT : Scalar T} {SS : Scalar S} {MX : Mixed T S} {PT : Point S P} {PS : Scaled T P}.
  Hypothesis W : widening T S P.
  Notation SE := (with_eps SS (m_from (s_eps : T))).
  Lemma w_quad_solve (c : quad P) v i :
    quad_solve_t_for_axis2 (T := T) c v i = quad_solve_t_for_axis (ST := SE) c (m_from (m_into v : T)) i.
  Proof.
    unfold quad_solve_t_for_axis2, quad_solve_t_for_axis. unfold n_lit.
    rewrite !(w_lit W) by (cbn; lia). rewrite (w_quad_colinear W).
    apply bind_cong2; [reflexivity|intros []; [reflexivity|]].
    apply bind_cong2; [reflexivity|intros s]. apply bind_cong2; [reflexivity|intros k]. apply bind_cong2; [reflexivity|intros e].
    cbn zeta. rewrite !(wd_mul _ _ _ W), !(wd_sub _ _ _ W), !(w_lit W) by (cbn; lia).
    rewrite (w_quad_roots W). apply bind_cong2; [reflexivity|intros r]. now rewrite (w_filter W).
  Qed.
End Solve.

Local Open Scope R_scope.
Section More.
  Context {F : Format} {E : Eps} {P : Type} {PT : Point R P} {LP : LawfulPoint P}.

  (** the factor [D / (b - a)] of the derivative *)
  Lemma factor_close D g : (Z.of_nat D <= 2 ^ fprec)%Z -> 0 < g <= fmax -> eta <= uro * g -> 2 * INR D <= fmax * g ->
    Rabs (val (s_div (s_of_usize D) (narrow g)) - INR D / g) <= 8 * uro * (INR D / g) + eta.
  Proof.
    intros HD Hg He Hf. pose proof (@uro_pos F) as U0. pose proof (@uro_small F) as U1. pose proof (@eta_pos F) as E0.
    destruct (usize_ok D HD) as [FD VD].
    destruct (narrow_ok g) as [Fg Vg]; [rewrite Rabs_pos_eq; lra|].
    pose proof (rnd_err g) as Rg. rewrite (Rabs_pos_eq g) in Rg by lra. apply Rabs_le_inv in Rg.
    assert (G1 : g * (1 - 2 * uro) <= rnd g <= g * (1 + 2 * uro)) by lra.
    assert (U2 : uro <= / 16) by lra.
    assert (G2 : 7 / 8 * g <= rnd g) by nra.
    assert (ND : 0 <= INR D) by apply pos_INR.
    assert (Q : Rabs (INR D / rnd g - INR D / g) <= 3 * uro * (INR D / g)).
    { replace (INR D / rnd g - INR D / g) with (INR D / g * ((g - rnd g) / rnd g)) by (field; lra).
      assert (0 <= INR D / g) by (apply Rmult_le_pos; [lra|apply Rlt_le, Rinv_0_lt_compat; lra]).
      rewrite Rabs_mult, (Rabs_pos_eq (INR D / g)) by assumption. rewrite Rmult_comm. apply Rmult_le_compat_r; [assumption|].
      unfold Rdiv. rewrite Rabs_mult, (Rabs_pos_eq (/ rnd g)) by (apply Rlt_le, Rinv_0_lt_compat; lra).
      apply Rmult_le_reg_r with (rnd g); [lra|]. rewrite Rmult_assoc, Rinv_l, Rmult_1_r by lra.
      apply Rabs_le. split; nra. }
    assert (P0 : 0 <= INR D / g) by (apply Rmult_le_pos; [lra|apply Rlt_le, Rinv_0_lt_compat; lra]).
    assert (P1 : 0 <= INR D / rnd g) by (apply Rmult_le_pos; [lra|apply Rlt_le, Rinv_0_lt_compat; lra]).
    assert (P2 : INR D / g <= fmax / 2).
    { apply Rmult_le_reg_r with g; [lra|]. unfold Rdiv at 1. rewrite Rmult_assoc, Rinv_l by lra. lra. }
    apply Rabs_le_inv in Q.
    destruct (div_ok (s_of_usize D) (narrow g) FD) as [_ Vd]; rewrite ?VD, ?Vg in *.
    - lra.
    - rewrite Rabs_pos_eq by assumption. nra.
    - rewrite Vd. pose proof (rnd_err (INR D / rnd g)) as Rd. rewrite (Rabs_pos_eq (INR D / rnd g)) in Rd by assumption.
      apply Rabs_le_inv in Rd. apply Rabs_le. split; nra.
  Qed.

  Lemma derivative2_ok (s : bspline R P) : well_formed s -> (1 <= bs_degree s)%nat ->
    exists q, bspline_derivative2 (T := float) s = Ret (BSpline (bs_degree s - 1) (bs_knots s) (bs_kind s) q) /\
      length q = (length (bs_points s) - 1)%nat /\
      forall i, (i + 1 < length (bs_points s))%nat ->
        nth i q p_default = p_mul (p_sub (cpoint s (i + 1)) (cpoint s i))
          (val (s_div (s_of_usize (bs_degree s)) (narrow (knot s (i + bs_degree s + 1) - knot s (i + 1))))).
  Proof.
    intros [H1 H2] Hd. set (C := length (bs_points s)) in *.
    unfold bspline_derivative2. fold C. rewrite !usub_le by lia. cbn [bind].
    set (val' := fun i => p_mul (p_sub (cpoint s (i + 1)) (cpoint s i))
          (val (s_div (s_of_usize (bs_degree s)) (narrow (knot s (i + bs_degree s + 1) - knot s (i + 1)))))).
    set (body := fun i new_points => _).
    assert (G : forall n i (q : list P), (i + S n = C - 1)%nat -> length q = (C - 1)%nat ->
      (forall j, (j < i)%nat -> nth j q p_default = val' j) ->
      exists q', for_break (seq i (S (S n))) q body = Ret q' /\ length q' = (C - 1)%nat /\
        forall j, (j < C - 1)%nat -> nth j q' p_default = val' j).
    { induction n as [|n IH]; intros i q Hi Hq Hv;
        cbn [seq for_break]; unfold body at 1;
        rewrite !(idx_lt (bs_points s) _ p_default) by lia; cbn [bind];
        rewrite !knot_idx by lia; cbn [bind]; rewrite set_idx_lt by lia; cbn [bind fst snd].
      - destruct (Nat.eqb_spec i (C - 2)) as [_|Hne]; [|lia].
        eexists. split; [reflexivity|]. split; [now rewrite length_replace_nth|].
        intros j Hj. rewrite nth_replace_nth by lia. destruct (Nat.eqb_spec j i) as [->|]; [reflexivity|].
        apply Hv. lia.
      - destruct (Nat.eqb_spec i (C - 2)) as [He|Hne]; [lia|].
        apply (IH (S i)); [lia|now rewrite length_replace_nth|].
        intros j Hj. rewrite nth_replace_nth by lia. destruct (Nat.eqb_spec j i) as [->|]; [reflexivity|].
        apply Hv. lia. }
    destruct (G (C - 2)%nat 0%nat (repeat p_default (C - 1))) as (q & Eq & Hl & Hq).
    - lia.
    - apply repeat_length.
    - intros j Hj. lia.
    - exists q. split; [|split; auto].
      + unfold range. replace (C - 0)%nat with (S (S (C - 2))) by lia. rewrite Eq. reflexivity.
      + intros i Hi. apply Hq. lia.
  Qed.

  Theorem spline_derivative_narrow D ks (ps : list P) s : bspline_new D ks ps = Ret (Ok s) -> (1 <= D)%nat ->
    (Z.of_nat D <= 2 ^ fprec)%Z ->
    exists s2, bspline_derivative2 (T := float) s = Ret s2 /\ bs_degree s2 = (D - 1)%nat /\ bs_knots s2 = ks /\
      length (bs_points s2) = (length ps - 1)%nat /\
      forall j i, (j + 1 < length ps)%nat -> (i < p_dim (P := P))%nat ->
        let g := nth (j + D + 1) ks 0 - nth (j + 1) ks 0 in
        let d := coord (nth (j + 1) ps p_default) i - coord (nth j ps p_default) i in
        0 < g <= fmax -> eta <= uro * g -> 2 * INR D <= fmax * g ->
        Rabs (coord (nth j (bs_points s2) p_default) i - INR D * d / g) <= (8 * uro * (INR D / g) + eta) * Rabs d.
  Proof.
    intros Hn HD HDp. pose proof (new_wf D ks ps s Hn) as Hwf. destruct (new_fields D ks ps s Hn) as (ED & EK & EP).
    destruct (derivative2_ok s Hwf) as (q & Eq & Hl & Hq); [lia|].
    eexists. split; [exact Eq|]. cbn [bs_degree bs_knots bs_points]. split; [lia|]. split; [exact EK|]. split; [now rewrite Hl, EP|].
    intros j i Hj Hi. set (g := nth (j + D + 1) ks 0 - nth (j + 1) ks 0). set (d := coord (nth (j + 1) ps p_default) i - coord (nth j ps p_default) i).
    intros Hg He Hf. rewrite Hq by (rewrite EP; lia). rewrite lp_mul, lp_sub by assumption.
    unfold cpoint, knot. rewrite EP, EK, ED. fold g. fold d.
    pose proof (factor_close D g HDp Hg He Hf) as K.
    replace (d * val (s_div (s_of_usize D) (narrow g)) - INR D * d / g)
      with ((val (s_div (s_of_usize D) (narrow g)) - INR D / g) * d) by (unfold Rdiv; ring).
    rewrite Rabs_mult. apply Rmult_le_compat_r; [apply Rabs_pos|exact K].
  Qed.

  (** the parameters of the arc length *)
  Lemma fraction_close n i : (0 < n)%nat -> (i <= n)%nat -> (Z.of_nat n <= 2 ^ fprec)%Z ->
    Rabs (val (s_div (s_mul (s_of_usize i) (s_lit 1)) (s_of_usize n)) - INR i / INR n) <= uro * (INR i / INR n) + eta.
  Proof.
    intros Hn Hi Hp. destruct (usize_ok n Hp) as [Fn Vn]. destruct (usize_ok i (Z.le_trans _ _ _ (inj_le _ _ Hi) Hp)) as [Fi Vi].
    destruct (lit_small 1) as [F1 V1]; [cbn; lia|].
    assert (N0 : 0 < INR n) by now apply lt_0_INR. assert (I0 : 0 <= INR i) by apply pos_INR.
    assert (IN : INR i <= INR n) by now apply le_INR.
    destruct (mul_ok (s_of_usize i) (s_lit 1) Fi F1) as [Fm Vm].
    { rewrite Vi, V1, Rmult_1_r, <- Vi. apply val_le_fmax. }
    rewrite Vi, V1, Rmult_1_r, rnd_float in Vm by (rewrite <- Vi; apply val_float).
    assert (Q : 0 <= INR i / INR n <= 1).
    { split; [apply Rmult_le_pos; [lra|apply Rlt_le, Rinv_0_lt_compat; lra]|].
      apply Rmult_le_reg_r with (INR n); [lra|]. unfold Rdiv. rewrite Rmult_assoc, Rinv_l by lra. lra. }
    pose proof (@fmax_ge F) as Fx.
    destruct (div_ok (s_mul (s_of_usize i) (s_lit 1)) (s_of_usize n) Fm) as [_ Vd]; rewrite ?Vm, ?Vn in *.
    - lra.
    - rewrite Rabs_pos_eq by tauto. lra.
    - rewrite Vd. pose proof (rnd_err (INR i / INR n)) as R1. rewrite (Rabs_pos_eq (INR i / INR n)) in R1 by tauto. exact R1.
  Qed.
  Lemma step_close n : (0 < n)%nat -> (Z.of_nat n <= 2 ^ fprec)%Z ->
    Rabs (val (s_div (s_lit 1) (s_of_usize n)) - 1 / INR n) <= uro * (1 / INR n) + eta.
  Proof.
    intros Hn Hp. destruct (usize_ok n Hp) as [Fn Vn]. destruct (lit_small 1) as [F1 V1]; [cbn; lia|].
    assert (N1 : 1 <= INR n) by (change 1 with (INR 1); apply le_INR; lia).
    assert (Q : 0 <= 1 / INR n <= 1).
    { split; [apply Rmult_le_pos; [lra|apply Rlt_le, Rinv_0_lt_compat; lra]|].
      apply Rmult_le_reg_r with (INR n); [lra|]. unfold Rdiv. rewrite Rmult_assoc, Rinv_l by lra. lra. }
    pose proof (@fmax_ge F) as Fx.
    destruct (div_ok (s_lit 1) (s_of_usize n) F1) as [_ Vd]; rewrite ?V1, ?Vn in *.
    - lra.
    - rewrite Rabs_pos_eq by tauto. lra.
    - rewrite Vd. pose proof (rnd_err (1 / INR n)) as R1. rewrite (Rabs_pos_eq (1 / INR n)) in R1 by tauto. exact R1.
  Qed.

  (** chords from the second on, with given parameters *)
  Definition chords (f : R -> P) (t : nat -> R) (h : R) (n : nat) : R :=
    Rsum (fun i => dist (f (t (i + 1)%nat)) (f (t (i + 1)%nat + h))) (n - 1).
  Lemma chord_loop (f : R -> P) t h n body :
    (forall i a, body i a = Ret (a + sqrt (p_sqlen (p_sub (f (t i)) (f (t i + h)))))) ->
    for_in (range 1 n) 0 body = Ret (chords f t h n).
  Proof.
    intros Hb. rewrite (for_in_sum _ (fun i => dist (f (t i)) (f (t i + h)))).
    - rewrite Rplus_0_l. unfold range. rewrite fold_right_seq. unfold chords. f_equal. apply Rsum_ext. intros i _.
      now rewrite (Nat.add_comm 1 i).
    - intros i a _. rewrite Hb, sqrt_sqlen_sub. reflexivity.
  Qed.
  Lemma lit0 : val (s_lit 0 : float) = 0.
  Proof. exact (proj2 (lit_small 0 ltac:(cbn; lia))). Qed.
  Lemma lit1 : val (s_lit 1 : float) = 1.
  Proof. exact (proj2 (lit_small 1 ltac:(cbn; lia))). Qed.

  Theorem arclen_narrow (H13 : (13 <= femax)%Z) (q : quad P) (c : cubic P) (ps : list P) n :
    ps <> [] -> (0 < n)%nat -> (Z.of_nat n <= 2 ^ fprec)%Z ->
    exists t h f, (forall i, (i <= n)%nat -> Rabs (t i - INR i / INR n) <= uro * (INR i / INR n) + eta) /\
      Rabs (h - 1 / INR n) <= uro * (1 / INR n) + eta /\
      (forall x, bezier_eval (Bezier ps) x = Ret (f x)) /\
      quad_arclen2 (T := float) q n = Ret (chords (quad_eval q) t h n) /\
      cubic_arclen2 (T := float) c n = Ret (chords (cubic_eval c) (fun i => INR i / INR n) h n) /\
      bezier_arclen2 (T := float) (Bezier ps) n = Ret (chords f t h n).
  Proof.
    intros Hne Hn Hp. destruct (bezier_function ps Hne) as (f & Hf).
    set (t := fun i => val (s_div (s_mul (s_of_usize i) (s_lit 1)) (s_of_usize n))).
    set (h := val (s_div (s_lit 1) (s_of_usize n))).
    exists t, h, f. split; [intros i Hi; apply fraction_close; assumption|].
    split; [apply step_close; assumption|]. split; [exact Hf|].
    destruct (usize_ok n Hp) as [_ Vn].
    split; [|split].
    - unfold quad_arclen2, n_lit, n_of. cbn [m_from ExactMixed]. rewrite lit0.
      apply (chord_loop (quad_eval q) t h). intros i a. cbn zeta. rewrite !quad_casteljau_eval. reflexivity.
    - unfold cubic_arclen2, n_lit, n_of. cbn [m_from ExactMixed]. rewrite lit0.
      rewrite (for_in_ext _ _ _ (fun i a => Ret (a + sqrt (p_sqlen (p_sub (cubic_eval c (INR i / INR n)) (cubic_eval c (INR i / INR n + h))))))).
      + apply (chord_loop (cubic_eval c) (fun i => INR i / INR n) h). reflexivity.
      + intros i a Hi. apply in_range in Hi. assert (Hip : (Z.of_nat i <= 2 ^ fprec)%Z) by (eapply Z.le_trans; [|exact Hp]; lia). cbn zeta. rewrite !cubic_casteljau_eval. cbn [m_mul m_div m_add m_from ExactMixed].
        rewrite lit1, Vn, (proj2 (usize_ok i Hip)), Rmult_1_r. reflexivity.
    - unfold bezier_arclen2, n_lit, n_of. cbn [m_from ExactMixed]. rewrite lit0.
      apply (chord_loop f t h). intros i a. cbn zeta. rewrite !(w_bezier_eval (exact_widening H13)), !Hf. reflexivity.
  Qed.

  (** ... of a spline clamped at both ends *)
  Theorem spline_arclen_narrow D ks (ps : list P) s n : bspline_new D ks ps = Ret (Ok s) -> bs_kind s = Clamped ->
    (0 < n)%nat -> (Z.of_nat n <= 2 ^ fprec)%Z ->
    let lo := nth D ks 0 in let hi := nth (length ps) ks 0 in
    let x i := lo + INR i / INR n * (hi - lo) in
    exists e h, Rabs (h - 1 / INR n) <= uro * (1 / INR n) + eta /\
      (forall t, lo <= t <= hi -> bspline_eval2 (T := float) s t = Ret (Ok (e t))) /\
      (forall t, ~ (lo <= t <= hi) -> bspline_eval2 (T := float) s t = Ret (Err KnotDomainViolation) /\ e t = p_default) /\
      bspline_arclen2 (T := float) s n = Ret (Rsum (fun i => dist (e (x i)) (e (x i + h))) (n + 1)).
  Proof.
    intros Hnew Hk Hn Hp lo hi x. set (h := val (s_div (s_lit 1) (s_of_usize n))).
    set (e := fun t => match bspline_eval2 (T := float) s t with Ret (Ok p) => p | _ => p_default end).
    assert (Hd : knot_domain s = Ret (lo, hi)).
    { rewrite (domain_U D ks ps s Hnew), Hk. reflexivity. }
    assert (In_ : forall t, lo <= t <= hi -> bspline_eval2 (T := float) s t = Ret (Ok (e t))).
    { intros t Ht. unfold e.
      set (M := fold_right Rmax 0 (map (fun p => fold_right Rmax 0 (map (fun i => Rabs (coord p i)) (seq 0 (p_dim (P := P))))) ps)).
      destruct (spline_narrow D ks ps s M t Hnew) as (p & p2 & _ & -> & _); auto.
      - rewrite Hk. discriminate.
      - intros p i Hpi Hi. unfold M. clear - Hpi Hi.
        assert (A : Rabs (coord p i) <= fold_right Rmax 0 (map (fun i => Rabs (coord p i)) (seq 0 (p_dim (P := P))))).
        { assert (Hs : In i (seq 0 (p_dim (P := P)))) by (apply in_seq; lia). clear Hi.
          induction (seq 0 (p_dim (P := P))) as [|k l IH]; [destruct Hs|]. cbn [map fold_right].
          destruct Hs as [->|Hs]; [apply Rmax_l|]. eapply Rle_trans; [apply IH, Hs|apply Rmax_r]. }
        eapply Rle_trans; [exact A|]. clear A Hi. induction ps as [|k l IH]; [destruct Hpi|]. cbn [map fold_right].
        destruct Hpi as [->|Hs]; [apply Rmax_l|]. eapply Rle_trans; [apply IH, Hs|apply Rmax_r]. }
    assert (Out : forall t, ~ (lo <= t <= hi) -> bspline_eval2 (T := float) s t = Ret (Err KnotDomainViolation) /\ e t = p_default).
    { intros t Ht. assert (X : bspline_eval2 (T := float) s t = Ret (Err KnotDomainViolation)).
      { unfold bspline_eval2. rewrite Hd. cbn [bind fst snd]. rs.
        destruct (Rlt_dec t lo) as [a|a]; [now rewrite (Rltb_true t lo) by exact a|].
        destruct (Rlt_dec hi t) as [b|b]; [|lra]. rewrite (Rltb_true hi t) by exact b. now rewrite orb_true_r. }
      split; [exact X|]. unfold e. now rewrite X. }
    exists e, h. split; [apply step_close; assumption|]. split; [exact In_|]. split; [exact Out|].
    assert (He : forall t, eval_or_default2 (T := float) s t = Ret (e t)).
    { intros t. unfold eval_or_default2. destruct (Rle_dec lo t) as [a|a]; [destruct (Rle_dec t hi) as [b|b]|].
      - rewrite In_ by (split; assumption). reflexivity.
      - destruct (Out t) as [-> ->]; [tauto|]. reflexivity.
      - destruct (Out t) as [-> ->]; [tauto|]. reflexivity. }
    unfold bspline_arclen2. rewrite Hd. cbn [bind fst snd]. unfold n_lit, n_of. cbn [m_from ExactMixed]. rewrite lit0.
    rewrite (for_in_sum _ (fun i => dist (e (x i)) (e (x i + h)))).
    - rewrite Rplus_0_l. unfold range_incl. rewrite fold_right_seq. f_equal.
      replace (S n - 0)%nat with (n + 1)%nat by lia. reflexivity.
    - intros i a Hi. unfold range_incl in Hi. apply in_seq in Hi. assert (Hip : (Z.of_nat i <= 2 ^ fprec)%Z) by (eapply Z.le_trans; [|exact Hp]; lia). cbn zeta.
      rewrite (proj2 (usize_ok i Hip)), (proj2 (usize_ok n Hp)). rewrite !He. cbn [bind]. rs.
      rewrite sqrt_sqlen_sub. reflexivity.
  Qed.
End More.

(** one line over a span of length 3: the slope is 1/3 only up to rounding *)
Lemma derivative_misses {F : Format} {E : Eps} : exists s s1 s2 : bspline R P1,
  bspline_new 1 [0; 0; 3; 3] [pt1 0; pt1 1] = Ret (Ok s) /\
  bspline_derivative s = Ret s1 /\ bs_points s1 = [pt1 (1 / 3)] /\
  bspline_derivative2 (T := float) s = Ret s2 /\ bs_points s2 <> bs_points s1.
Proof.
  pose proof eps_pos as He0.
  destruct (proj2 (new_ok_iff 1 [0; 0; 3; 3] [pt1 0; pt1 1])) as (s & Hn).
  { split; [cbn; lia|]. split; [reflexivity|]. intros i Hi. cbn in Hi.
    destruct i as [|[|[|i]]]; [| | |lia]; cbn; rs; apply Rltb_false; lra. }
  pose proof (new_wf _ _ _ _ Hn) as Hwf. destruct (new_fields _ _ _ _ Hn) as (ED & EK & EP).
  destruct (derivative_ok s Hwf) as (q1 & E1 & L1 & V1); [lia|].
  destruct (derivative2_ok s Hwf) as (q2 & E2 & L2 & V2); [lia|].
  exists s. eexists. eexists. split; [exact Hn|]. split; [exact E1|]. cbn [bs_points].
  rewrite EP in L1, L2. cbn in L1, L2.
  destruct q1 as [|x1 [|]]; try discriminate L1. destruct q2 as [|x2 [|]]; try discriminate L2.
  specialize (V1 0%nat ltac:(rewrite EP; cbn; lia)). specialize (V2 0%nat ltac:(rewrite EP; cbn; lia)).
  unfold cpoint, knot in V1, V2. rewrite EP, EK, ED in V1, V2. cbn [nth Nat.add] in V1, V2.
  assert (A1 : x1 = pt1 (1 / 3)).
  { rewrite V1. apply lp_ext. intros [|i] Hi; [|cbn in Hi; lia]. cbn. field. }
  split; [now rewrite A1|]. split; [exact E2|]. cbn [bs_points]. rewrite A1. intros X. injection X as X.
  rewrite V2 in X. apply (f_equal (fun p => coord p 0%nat)) in X. cbn [p_dim] in X. rewrite lp_mul, lp_sub in X by (cbn; lia).
  change (coord (pt1 1) 0%nat) with 1 in X. change (coord (pt1 0) 0%nat) with 0 in X. change (coord (pt1 (1 / 3)) 0%nat) with (1 / 3) in X.
  apply (no_thirds (s_div (s_of_usize 1) (narrow (3 - 0))) 1); [discriminate|]. lra.
Qed.
