(** [arclen] and [distance_to_point] of the Bezier curves in IEEE arithmetic. *)
From Coq Require Import Reals ZArith List Arith Lia Lra Bool.
From Flocq Require Import Core.Core IEEE754.BinarySingleNaN.
From Verif Require Import Base.Outcome Base.Scalar Model.Point Model.Line Model.Quadratic
  Model.Cubic Model.Bezier Inst.FloatInst Spec.Sums Spec.Bernstein
  Spec.Rounding Spec.Componentwise Spec.FloatPoints Spec.FloatCurves
  Proofs.OutcomeFacts Proofs.Metric Proofs.FloatFacts Proofs.BezierGeneric
  Proofs.BezierReal Proofs.FloatBound Proofs.FloatNear Proofs.FloatSplit Proofs.FloatNorm Proofs.FloatLength
  Proofs.Search Proofs.FloatPoint.
Import ListNotations.
Local Open Scope R_scope.

Lemma poly_bound (l : list R) M s : l <> [] -> 0 <= s <= 1 ->
  (forall x, In x l -> Rabs x <= M) -> Rabs (bezier_poly l s) <= M.
Proof.
  intros Hl Hs H. assert (0 < length l)%nat by (destruct l; [contradiction|simpl; lia]).
  rewrite poly_dc by exact Hl. apply Rabs_le. apply dc_between; [exact Hs|].
  intros k Hk. apply Rabs_le_inv, H, nth_In. lia.
Qed.

Lemma poly_lip (l : list R) M x y : (2 <= length l)%nat -> 0 <= x <= 1 -> 0 <= y <= 1 ->
  (forall x, In x l -> Rabs x <= M) ->
  Rabs (bezier_poly l x - bezier_poly l y) <= 2 * INR (length l - 1) * M * Rabs (x - y).
Proof.
  intros Hl Hx Hy H.
  assert (Db : forall s, 0 <= s <= 1 -> Rabs (poly_deriv l s) <= 2 * INR (length l - 1) * M).
  { intros s Hs. unfold poly_deriv. rewrite Rabs_mult, (Rabs_pos_eq (INR _)) by apply pos_INR.
    replace (2 * INR (length l - 1) * M) with (INR (length l - 1) * (2 * M)) by ring.
    apply Rmult_le_compat_l; [apply pos_INR|]. apply poly_bound; [apply map_seq_ne; lia|exact Hs|].
    intros z Hz. apply in_map_iff in Hz. destruct Hz as (k & <- & Hk). apply in_seq in Hk.
    assert (A : Rabs (nth (k + 1) l 0) <= M) by (apply H, nth_In; lia).
    assert (B : Rabs (nth k l 0) <= M) by (apply H, nth_In; lia).
    unfold Rminus. eapply Rle_trans; [apply Rabs_triang|]. rewrite Rabs_Ropp. lra. }
  assert (G : forall a b, 0 <= a -> b <= 1 -> a < b ->
    Rabs (bezier_poly l b - bezier_poly l a) <= 2 * INR (length l - 1) * M * (b - a)).
  { intros a b Ha Hb Hab.
    destruct (MVT_cor2 (bezier_poly l) (poly_deriv l) a b Hab) as (s & E & Hs).
    - intros s _. now apply poly_deriv_ok.
    - rewrite E, Rabs_mult, (Rabs_pos_eq (b - a)) by lra.
      apply Rmult_le_compat_r; [lra|]. apply Db. lra. }
  destruct (Rtotal_order x y) as [L|[->|L]].
  - rewrite Rabs_minus_sym, (Rabs_minus_sym x), (Rabs_pos_eq (y - x)) by lra. apply G; lra.
  - unfold Rminus. rewrite !Rplus_opp_r, Rabs_R0. lra.
  - rewrite (Rabs_pos_eq (x - y)) by lra. apply G; lra.
Qed.

Section Curve.
  Context {F : Format} {P : Type} {PT : Point float P} {CP : CwPoint float P}.
  Notation D := (p_dim (P := P)).
  Variables (ps : list P) (M : R).
  Notation G := (INR (length ps - 1)).
  Hypothesis Hl : (2 <= length ps)%nat.
  Hypothesis HM : 0 <= M.
  Hypothesis HB : forall p, In p ps -> bounded M p.
  Hypothesis HG : 6 * G * uro <= 1.
  Hypothesis HD0 : (0 < D)%nat.
  Hypothesis HD : 64 * INR (D + 1) * uro <= 1.
  Hypothesis Big : (12 * (INR D + G) * (M + 1)) * (12 * (INR D + G) * (M + 1)) <= fmax.

  Definition cE : R := 13 * G * uro * M + 5 * G * eta.
  Definition cK : R := 2 * G * M.
  Definition cErr : R := sqrt (INR D) * ((44 * G + 6 * INR D + 14) * uro * M + 6 * sqrt eta).

  Lemma G_ge : 1 <= G.
  Proof. change 1 with (INR 1). apply le_INR. lia. Qed.
  Lemma D_ge : 0 <= INR D.
  Proof. apply pos_INR. Qed.

  Lemma sqrt_eta : 0 < sqrt eta <= 3 / 2 * uro.
  Proof.
    pose proof eta_pos. pose proof uro_pos. pose proof eta_sq. split; [now apply sqrt_lt_R0|].
    rewrite <- (sqrt_square (3 / 2 * uro)) by lra. apply sqrt_le_1_alt. nra.
  Qed.
  Lemma eta_root : eta = sqrt eta * sqrt eta.
  Proof. rewrite sqrt_sqrt; [reflexivity|]. pose proof eta_pos. lra. Qed.
  Lemma eta_u : eta <= 3 / 2 * (uro * sqrt eta).
  Proof. rewrite eta_root at 1. pose proof sqrt_eta. nra. Qed.

  Lemma Gu : G * uro <= / 6. Proof. lra. Qed.
  Lemma GuM : 0 <= G * uro * M <= / 6 * M.
  Proof. pose proof G_ge. pose proof uro_pos. pose proof Gu. split; [repeat apply Rmult_le_pos; lra|]. apply Rmult_le_compat_r; lra. Qed.
  Lemma Geta : 0 <= G * eta <= / 4 * sqrt eta.
  Proof.
    pose proof G_ge. pose proof eta_pos. pose proof eta_u. pose proof sqrt_eta as [S0 _]. pose proof Gu.
    split; [apply Rmult_le_pos; lra|].
    apply Rle_trans with (G * (3 / 2 * (uro * sqrt eta))); [apply Rmult_le_compat_l; lra|].
    replace (G * (3 / 2 * (uro * sqrt eta))) with (3 / 2 * (G * uro) * sqrt eta) by ring.
    apply Rmult_le_compat_r; lra.
  Qed.
  Lemma root_small : sqrt eta <= / 1024.
  Proof. pose proof sqrt_eta. pose proof uro_small. lra. Qed.

  Lemma cE_pos : 0 <= cE.
  Proof. unfold cE. pose proof GuM. pose proof Geta. lra. Qed.
  Lemma ME : 0 <= M + cE <= 13 / 4 * (M + 1).
  Proof. unfold cE. pose proof GuM. pose proof Geta. pose proof root_small. lra. Qed.

  Lemma big_4 : 576 * INR D * ((M + 1) * (M + 1)) <= fmax.
  Proof.
    eapply Rle_trans; [|exact Big]. pose proof G_ge. pose proof D_ge.
    set (d := INR D) in *. set (g := G) in *.
    replace (12 * (d + g) * (M + 1) * (12 * (d + g) * (M + 1))) with (144 * ((d + g) * (d + g)) * ((M + 1) * (M + 1))) by ring.
    apply Rmult_le_compat_r; [apply Rmult_le_pos; lra|].
    assert (4 * (d * g) <= (d + g) * (d + g)) by (pose proof (Rle_0_sqr (d - g)) as Q; unfold Rsqr in Q; lra).
    assert (d * 1 <= d * g) by (apply Rmult_le_compat_l; lra). lra.
  Qed.

  Lemma big_1 c : 0 <= c <= 144 -> c * (INR D + G) * (M + 1) <= fmax.
  Proof.
    intros Hc. eapply Rle_trans; [|exact Big]. pose proof G_ge. pose proof D_ge.
    set (d := INR D) in *. set (g := G) in *.
    set (x := (d + g) * (M + 1)).
    replace (12 * (d + g) * (M + 1) * (12 * (d + g) * (M + 1))) with (144 * (x * x)) by (unfold x; ring).
    replace (c * (d + g) * (M + 1)) with (c * x) by (unfold x; ring).
    assert (1 <= x).
    { unfold x. apply Rle_trans with (1 * 1); [lra|]. apply Rmult_le_compat; lra. }
    assert (x <= x * x) by nra. nra.
  Qed.

  Lemma big_2 : INR D * (36 * (INR D + G) * (M + 1)) <= fmax.
  Proof.
    eapply Rle_trans; [|exact Big]. pose proof G_ge. pose proof D_ge.
    set (d := INR D) in *. set (g := G) in *.
    set (x := (d + g) * (M + 1)).
    replace (12 * (d + g) * (M + 1) * (12 * (d + g) * (M + 1))) with (x * (144 * x)) by (unfold x; ring).
    replace (d * (36 * (d + g) * (M + 1))) with (x * (36 * d)) by (unfold x; ring).
    assert (X0 : 0 <= x) by (unfold x; apply Rmult_le_pos; lra).
    apply Rmult_le_compat_l; [exact X0|].
    assert (d * 1 <= d * (M + 1)) by (apply Rmult_le_compat_l; lra).
    assert (0 <= g * (M + 1)) by (apply Rmult_le_pos; lra). unfold x. lra.
  Qed.

  Lemma H4M : 4 * M <= fmax.
  Proof.
    eapply Rle_trans; [|apply (big_1 4); lra]. pose proof G_ge. pose proof D_ge.
    replace (4 * (INR D + G) * (M + 1)) with (4 * M + 4 + 4 * (INR D + G - 1) * (M + 1)) by ring.
    assert (0 <= 4 * (INR D + G - 1) * (M + 1)) by (repeat apply Rmult_le_pos; lra). lra.
  Qed.
  Lemma HW : 36 * INR D * ((M + cE) * (M + cE)) <= fmax.
  Proof.
    eapply Rle_trans; [|exact big_4]. pose proof ME. pose proof D_ge.
    apply Rle_trans with (36 * INR D * (13 / 4 * (M + 1) * (13 / 4 * (M + 1)))).
    - apply Rmult_le_compat_l; [lra|]. apply Rmult_le_compat; lra.
    - replace (36 * INR D * (13 / 4 * (M + 1) * (13 / 4 * (M + 1)))) with (INR D * ((M + 1) * (M + 1)) * (1521 / 4)) by field.
      replace (576 * INR D * ((M + 1) * (M + 1))) with (INR D * ((M + 1) * (M + 1)) * 576) by ring.
      apply Rmult_le_compat_l; [|lra]. repeat apply Rmult_le_pos; lra.
  Qed.
  Lemma HW2 : 3 * (M + cE) <= fmax.
  Proof.
    eapply Rle_trans; [|apply (big_1 10); lra]. pose proof ME. pose proof D_ge. pose proof G_ge.
    replace (10 * (INR D + G) * (M + 1)) with (10 * (M + 1) + 10 * (INR D + G - 1) * (M + 1)) by ring.
    assert (0 <= 10 * (INR D + G - 1) * (M + 1)) by (repeat apply Rmult_le_pos; lra). lra.
  Qed.
  Lemma HD4 : 4 * INR (D + 1) * uro <= 1.
  Proof. pose proof (pos_INR (D + 1)). pose proof uro_pos. nra. Qed.

  Lemma cK_pos : 0 <= cK.
  Proof. unfold cK. pose proof G_ge. apply Rmult_le_pos; lra. Qed.

  Lemma one_chord : chord_err (P := P) M cE cK + uro * (sqrt (INR D) * cK) <= cErr.
  Proof.
    unfold chord_err, cErr. set (sd := sqrt (INR D)).
    assert (Sd : 0 <= sd) by apply sqrt_pos.
    pose proof GuM as B1. pose proof Geta as B2. pose proof root_small as B3. pose proof sqrt_eta as [S0 S1].
    pose proof uro_pos as U0. pose proof uro_small as U1. pose proof D_ge as D0. pose proof G_ge as G1.
    pose proof cE_pos as C0. pose proof eta_u as EU. pose proof eta_pos as T0.
    assert (Sd1 : 1 <= sd).
    { unfold sd. rewrite <- sqrt_1. apply sqrt_le_1_alt. change 1 with (INR 1). apply le_INR. lia. }
    assert (X1 : (6 * INR D + 14) * uro * cE <= / 4 * cE).
    { apply Rmult_le_compat_r; [exact C0|]. rewrite plus_INR in HD. simpl (INR 1) in HD. nra. }
    assert (X2 : 2 * sqrt (2 * INR D * eta) <= sd * (2.9 * sqrt eta)).
    { rewrite (Rmult_comm 2 (INR D)), Rmult_assoc, sqrt_mult by (assumption || lra). fold sd.
      rewrite sqrt_mult by lra.
      assert (sqrt 2 <= 1.45).
      { rewrite <- (sqrt_square 1.45) by lra. apply sqrt_le_1_alt. lra. }
      replace (2 * (sd * (sqrt 2 * sqrt eta))) with (sd * (2 * sqrt 2 * sqrt eta)) by ring.
      apply Rmult_le_compat_l; [exact Sd|]. apply Rmult_le_compat_r; lra. }
    assert (EtaS : eta <= / 100 * sqrt eta).
    { eapply Rle_trans; [exact EU|]. nra. }
    assert (Main : 2 * cE + 6 * uro * cK + (6 * INR D + 14) * uro * (M + cE) + uro * cK
                   <= (44 * G + 6 * INR D + 14) * uro * M + 2.9 * sqrt eta).
    { unfold cK. unfold cE in *. 
      replace ((6 * INR D + 14) * uro * (M + (13 * G * uro * M + 5 * G * eta)))
        with ((6 * INR D + 14) * uro * M + (6 * INR D + 14) * uro * (13 * G * uro * M + 5 * G * eta)) by ring.
      replace ((44 * G + 6 * INR D + 14) * uro * M) with (44 * (G * uro * M) + (6 * INR D + 14) * uro * M) by ring.
      lra. }
    assert (Y1 : sd * (2 * cE + 6 * uro * cK + (6 * INR D + 14) * uro * (M + cE) + uro * cK)
                   <= sd * ((44 * G + 6 * INR D + 14) * uro * M + 2.9 * sqrt eta))
        by (apply Rmult_le_compat_l; assumption).
    assert (Y2 : 1 * (/ 100 * sqrt eta) <= sd * (/ 100 * sqrt eta)) by (apply Rmult_le_compat_r; lra).
    lra.
  Qed.

  Lemma coords_in i x : (i < D)%nat -> In x (map (fun q => val (cw q i)) ps) -> Rabs x <= M.
  Proof. intros Hi Hx. apply in_map_iff in Hx. destruct Hx as (q & <- & Hq). now apply HB. Qed.
  Lemma coords_ne i : map (fun q => val (cw q i)) ps <> [].
  Proof. destruct ps; [simpl in Hl; lia|discriminate]. Qed.

  Lemma at_bound i x : (i < D)%nat -> 0 <= x <= 1 -> Rabs (exact_at ps x i) <= M.
  Proof.
    intros Hi Hx. apply poly_bound; [apply coords_ne|exact Hx|]. intros y. now apply coords_in.
  Qed.
  Lemma at_lip i x y : (i < D)%nat -> 0 <= x <= 1 -> 0 <= y <= 1 ->
    Rabs (exact_at ps x i - exact_at ps y i) <= cK * Rabs (x - y).
  Proof.
    intros Hi Hx Hy. unfold exact_at, cK.
    pose proof (poly_lip (map (fun q => val (cw q i)) ps) M x y) as H. rewrite map_length in H.
    apply H; auto. intros z. now apply coords_in.
  Qed.

  Section Eval.
    Variable pf : float -> P.
    Hypothesis Hpf : forall t, fin t -> 0 <= val t <= 1 -> forall i, (i < D)%nat ->
      fin (cw (pf t) i) /\ Rabs (val (cw (pf t) i) - exact_at ps (val t) i) <= cE.

    Lemma curve_arclen n : (0 < n)%nat -> 4 * INR n * uro <= 1 -> exists a,
      for_in (range 1 n) (s_lit 0) (fun i arclen => Ret (s_add arclen (fchord pf n i))) = Ret a /\
      fin a /\ 0 <= val a /\ Rabs (val a - tail_length ps n) <= 2 * INR n * cErr.
    Proof.
      intros Hn0 Hn.
      assert (Tot : total_err (P := P) M cE cK n <= 2 * INR n * cErr).
      { unfold total_err. apply Rmult_le_compat_l; [pose proof (pos_INR n); lra|apply one_chord]. }
      destruct (arclen_loop_err pf (fun i x => exact_at ps x i) M cE cK cE_pos HM cK_pos Hpf
                  at_bound at_lip HD4 HW HW2 n Hn0 Hn) as (a & Ea & A1 & A2 & A3).
      - eapply Rle_trans; [apply Rplus_le_compat_l; exact Tot|].
        eapply Rle_trans; [|apply big_2].
        unfold cErr, cK. set (sd := sqrt (INR D)).
        assert (Sd : 0 <= sd) by apply sqrt_pos.
        pose proof D_ge as D0. pose proof G_ge as G1. pose proof uro_pos as U0. pose proof sqrt_eta as [S0 S1].
        assert (N0 : 1 <= INR n) by (change 1 with (INR 1); apply le_INR; lia).
        assert (D1 : 1 <= INR D) by (change 1 with (INR 1); apply le_INR; lia).
        assert (SdD : sd <= INR D).
        { unfold sd. rewrite <- (sqrt_square (INR D)) at 2 by lra. apply sqrt_le_1_alt. nra. }
        set (d := INR D) in *. set (g := G) in *. set (N := INR n) in *.
        assert (nM : 0 <= N * uro * M <= / 4 * M).
        { split; [repeat apply Rmult_le_pos; lra|]. apply Rmult_le_compat_r; lra. }
        assert (nS : N * sqrt eta <= 3 / 8).
        { apply Rle_trans with (N * (3 / 2 * uro)); [apply Rmult_le_compat_l|]; lra. }
        assert (Q : (44 * g + 6 * d + 14) * (N * uro * M) <= (44 * g + 6 * d + 14) * (/ 4 * M))
          by (apply Rmult_le_compat_l; lra).
        replace (sd * (2 * g * M) + 2 * N * (sd * ((44 * g + 6 * d + 14) * uro * M + 6 * sqrt eta)))
          with (sd * (2 * g * M + 2 * ((44 * g + 6 * d + 14) * (N * uro * M)) + 12 * (N * sqrt eta))) by ring.
        apply Rle_trans with (sd * ((31 * g + 3 * d) * M + 5)).
        + apply Rmult_le_compat_l; [exact Sd|].
          assert (1 * M <= g * M) by (apply Rmult_le_compat_r; lra). lra.
        + apply Rle_trans with (sd * (36 * (d + g) * (M + 1))).
          * apply Rmult_le_compat_l; [exact Sd|].
            assert (0 <= d * M) by (apply Rmult_le_pos; lra). assert (0 <= g * M) by (apply Rmult_le_pos; lra). lra.
          * apply Rmult_le_compat_r; [|exact SdD]. repeat apply Rmult_le_pos; lra.
      - exists a. split; [exact Ea|]. split; [exact A1|]. split; [exact A2|].
        eapply Rle_trans; [exact A3|exact Tot].
    Qed.

    Lemma curve_distance (ev : float -> outcome P) (first p : P) :
      (forall t, ev t = Ret (pf t)) -> bounded M first -> bounded M p ->
      exists d, search_distance ev first p = Ret d /\ fin d /\ 0 <= val d /\
        forall x, 0 <= x <= 1 ->
          val d <= gap (P := P) (exact_at ps x) (fun i => val (cw p i)) + sqrt (INR D) * (2 * G * M) / 64 + cErr.
    Proof.
      intros Hev Hf Hp.
      destruct (search_err pf (fun i x => exact_at ps x i) M cE cK cE_pos HM cK_pos Hpf
                  at_bound at_lip HD4 HW HW2 ev first p Hev Hf Hp) as (d & Ed & D1 & D2 & D3).
      exists d. split; [exact Ed|]. split; [exact D1|]. split; [exact D2|]. intros x Hx.
      destruct (floor_sample x Hx) as (i & Hi & Hxi). specialize (D3 i Hi).
      assert (I0 : 0 <= INR i / 64) by (pose proof (pos_INR i); lra).
      assert (C1 : chord_err (P := P) M cE cK <= cErr).
      { eapply Rle_trans; [|exact one_chord]. pose proof uro_pos. pose proof cK_pos.
        assert (0 <= uro * (sqrt (INR D) * cK)).
        { apply Rmult_le_pos; [lra|]. apply Rmult_le_pos; [apply sqrt_pos|lra]. }
        lra. }
      assert (C2 : nrm (fun k => exact_at ps (INR i / 64) k - val (cw p k)) D
                   <= gap (P := P) (exact_at ps x) (fun i => val (cw p i)) + sqrt (INR D) * (2 * G * M) / 64).
      { pose proof (nrm_diff (fun k => exact_at ps (INR i / 64) k - val (cw p k))
                      (fun k => exact_at ps x k - val (cw p k)) D) as N.
        assert (N2 : nrm (fun k => exact_at ps (INR i / 64) k - val (cw p k) - (exact_at ps x k - val (cw p k))) D
                     <= sqrt (INR D) * (cK / 64)).
        { apply nrm_const_bound; [pose proof cK_pos; lra|]. intros k Hk.
          replace (exact_at ps (INR i / 64) k - val (cw p k) - (exact_at ps x k - val (cw p k)))
            with (exact_at ps (INR i / 64) k - exact_at ps x k) by ring.
          eapply Rle_trans; [apply at_lip; [exact Hk| |exact Hx]|].
          - split; [lra|]. lra.
          - apply Rmult_le_compat_l; [apply cK_pos|].
            rewrite Rabs_minus_sym, Rabs_pos_eq by lra. lra. }
        apply Rabs_le_inv in N.
        change (gap (P := P) (exact_at ps x) (fun i => val (cw p i)))
          with (nrm (fun k => exact_at ps x k - val (cw p k)) D).
        unfold cK in N2. lra. }
      lra.
    Qed.
  End Eval.
End Curve.

Section Curves.
  Context {F : Format} {P : Type} {PT : Point float P} {CP : CwPoint float P}.
  Notation D := (p_dim (P := P)).
  Variable M : R.
  Hypothesis HM : 0 <= M.
  Hypothesis HD0 : (0 < D)%nat.
  Hypothesis HD : 64 * INR (D + 1) * uro <= 1.

  (** no overflow for a curve of degree g *)
  Definition no_over (g : R) : Prop := (12 * (INR D + g) * (M + 1)) * (12 * (INR D + g) * (M + 1)) <= fmax.

  Lemma deg_small (k : nat) : (k <= 20)%nat -> 6 * INR k * uro <= 1.
  Proof.
    intros Hk. apply le_INR in Hk. replace (INR 20) with 20 in Hk by (rewrite INR_IZR_INZ; reflexivity).
    pose proof uro_small. pose proof uro_pos. pose proof (pos_INR k). nra.
  Qed.

  Lemma weaken_err (a b g : R) (r : R) : r <= a * uro * M + b * eta -> a <= 13 * g -> b <= 5 * g ->
    r <= 13 * g * uro * M + 5 * g * eta.
  Proof.
    intros H Ha Hb. pose proof uro_pos. pose proof eta_pos.
    assert (0 <= uro * M) by (apply Rmult_le_pos; lra).
    assert (a * (uro * M) <= 13 * g * (uro * M)) by (apply Rmult_le_compat_r; lra).
    assert (b * eta <= 5 * g * eta) by (apply Rmult_le_compat_r; lra). lra.
  Qed.

  Section Quad.
    Variable q : quad P.
    Hypothesis B : forall p, In p (quad_control_points q) -> bounded M p.
    Hypothesis NO : no_over 2.

    Lemma quad_4M : 4 * M <= fmax.
    Proof. apply (H4M (quad_control_points q) M); [cbn; lia|exact HM|exact HD0|exact NO]. Qed.

    Theorem quad_arclen_err n : (0 < n)%nat -> 4 * INR n * uro <= 1 ->
      exists a, quad_arclen q n = Ret a /\ fin a /\ 0 <= val a /\
        Rabs (val a - tail_length (quad_control_points q) n)
          <= 2 * INR n * (sqrt (INR D) * ((6 * INR D + 102) * uro * M + 6 * sqrt eta)).
    Proof.
      intros Hn0 Hn.
      destruct (curve_arclen (quad_control_points q) M ltac:(cbn; lia) HM B (deg_small 2 ltac:(lia)) HD0 HD NO
                  (quad_eval_casteljau q)) with (n := n) as (a & Ea & A1 & A2 & A3); auto.
      - intros t Ht Hr i Hi.
        destruct (quad_casteljau_err M HM quad_4M q t i Hi Ht Hr) as [E1 E2]; try (apply B; cbn; tauto); auto.
        split; [exact E1|]. apply (weaken_err 11 3 (INR 2)); [exact E2| |]; simpl; lra.
      - exists a. split; [exact Ea|]. split; [exact A1|]. split; [exact A2|].
        eapply Rle_trans; [exact A3|]. unfold cErr.
        replace (INR (length (quad_control_points q) - 1)) with 2 by (simpl; ring).
        right. ring.
    Qed.

    Theorem quad_distance_err p : bounded M p ->
      exists d, quad_distance_to_point q p = Ret d /\ fin d /\ 0 <= val d /\
        forall x, 0 <= x <= 1 ->
          val d <= gap (P := P) (exact_at (quad_control_points q) x) (fun i => val (cw p i))
                   + sqrt (INR D) * (M / 16 + (6 * INR D + 102) * uro * M + 6 * sqrt eta).
    Proof.
      intros Hp.
      destruct (curve_distance (quad_control_points q) M ltac:(cbn; lia) HM B (deg_small 2 ltac:(lia)) HD0 HD NO
                  (quad_eval q)) with (ev := fun t => Ret (quad_eval q t)) (first := q_start q) (p := p)
        as (d & Ed & D1 & D2 & D3); auto.
      - intros t Ht Hr i Hi.
        destruct (quad_eval_err M HM quad_4M q t i Hi Ht Hr) as [E1 E2]; try (apply B; cbn; tauto); auto.
        split; [exact E1|]. apply (weaken_err 17 5 (INR 2)); [exact E2| |]; simpl; lra.
      - apply B. cbn. tauto.
      - exists d. split; [exact Ed|]. split; [exact D1|]. split; [exact D2|]. intros x Hx.
        eapply Rle_trans; [apply D3; exact Hx|]. unfold cErr.
        replace (INR (length (quad_control_points q) - 1)) with 2 by (simpl; ring).
        right. field.
    Qed.
  End Quad.

  Section Cubic.
    Variable c : cubic P.
    Hypothesis B : forall p, In p (cubic_control_points c) -> bounded M p.
    Hypothesis NO : no_over 3.

    Lemma INR_3 : INR (length (cubic_control_points c) - 1) = 3.
    Proof. simpl. ring. Qed.
    Lemma NO3 : no_over (INR (length (cubic_control_points c) - 1)).
    Proof. rewrite INR_3. exact NO. Qed.

    Lemma cubic_4M : 4 * M <= fmax.
    Proof. apply (H4M (cubic_control_points c) M); [cbn; lia|exact HM|exact HD0|exact NO3]. Qed.

    Theorem cubic_arclen_err n : (0 < n)%nat -> 4 * INR n * uro <= 1 ->
      exists a, cubic_arclen c n = Ret a /\ fin a /\ 0 <= val a /\
        Rabs (val a - tail_length (cubic_control_points c) n)
          <= 2 * INR n * (sqrt (INR D) * ((6 * INR D + 146) * uro * M + 6 * sqrt eta)).
    Proof.
      intros Hn0 Hn.
      destruct (curve_arclen (cubic_control_points c) M ltac:(cbn; lia) HM B (deg_small 3 ltac:(lia)) HD0 HD NO3
                  (cubic_eval_casteljau c)) with (n := n) as (a & Ea & A1 & A2 & A3); auto.
      - intros t Ht Hr i Hi.
        destruct (cubic_casteljau_err M HM cubic_4M c t i Hi Ht Hr) as [E1 E2]; try (apply B; cbn; tauto); auto.
        split; [exact E1|]. apply (weaken_err 16 4 (INR 3)); [exact E2| |]; simpl; lra.
      - exists a. split; [exact Ea|]. split; [exact A1|]. split; [exact A2|].
        eapply Rle_trans; [exact A3|]. unfold cErr. rewrite INR_3. right. ring.
    Qed.

    Theorem cubic_distance_err p : bounded M p ->
      exists d, cubic_distance_to_point c p = Ret d /\ fin d /\ 0 <= val d /\
        forall x, 0 <= x <= 1 ->
          val d <= gap (P := P) (exact_at (cubic_control_points c) x) (fun i => val (cw p i))
                   + sqrt (INR D) * (3 * M / 32 + (6 * INR D + 146) * uro * M + 6 * sqrt eta).
    Proof.
      intros Hp.
      destruct (curve_distance (cubic_control_points c) M ltac:(cbn; lia) HM B (deg_small 3 ltac:(lia)) HD0 HD NO3
                  (cubic_eval c)) with (ev := fun t => Ret (cubic_eval c t)) (first := c_start c) (p := p)
        as (d & Ed & D1 & D2 & D3); auto.
      - intros t Ht Hr i Hi.
        destruct (cubic_eval_err M HM cubic_4M c t i Hi Ht Hr) as [E1 E2]; try (apply B; cbn; tauto); auto.
        split; [exact E1|]. apply (weaken_err 39 5 (INR 3)); [exact E2| |]; simpl; lra.
      - apply B. cbn. tauto.
      - exists d. split; [exact Ed|]. split; [exact D1|]. split; [exact D2|]. intros x Hx.
        eapply Rle_trans; [apply D3; exact Hx|]. unfold cErr. rewrite INR_3. right. field.
    Qed.
  End Cubic.

  Section Generic.
    Variable ps : list P.
    Notation G := (INR (length ps - 1)).
    Hypothesis Hl : (2 <= length ps)%nat.
    Hypothesis B : forall p, In p ps -> bounded M p.
    Hypothesis HG : 6 * G * uro <= 1.
    Hypothesis NO : no_over G.

    Lemma bezier_fun : exists pf : float -> P, (forall t, bezier_eval (Bezier ps) t = Ret (pf t)) /\
      forall t, fin t -> 0 <= val t <= 1 -> forall i, (i < D)%nat ->
      fin (cw (pf t) i) /\ Rabs (val (cw (pf t) i) - exact_at ps (val t) i) <= cE ps M.
    Proof.
      assert (Hne : ps <> []) by (destruct ps; [simpl in Hl; lia|discriminate]).
      set (d := p_default (P := P)).
      eexists. split; [intros t; apply (bezier_eval_closed ps t d Hne)|]. intros t Ht Hr i Hi.
      destruct (bezier_eval_err_lin ps t M Hne HG (H4M ps M Hl HM HD0 NO) Ht Hr) as (p & Ep & H).
      { intros p k Hp. now apply B. }
      rewrite (bezier_eval_closed ps t d Hne) in Ep. injection Ep as Ep. rewrite Ep.
      destruct (H i Hi) as [A1 A2]. split; [exact A1|].
      pose proof (pos_INR (length ps - 1)).
      apply (weaken_err (6 * G) (5 * G) G); [exact A2|lra|lra].
    Qed.

    Theorem bezier_arclen_err n : (0 < n)%nat -> 4 * INR n * uro <= 1 ->
      exists a, bezier_arclen (Bezier ps) n = Ret a /\ fin a /\ 0 <= val a /\
        Rabs (val a - tail_length ps n)
          <= 2 * INR n * (sqrt (INR D) * ((6 * INR D + 44 * G + 14) * uro * M + 6 * sqrt eta)).
    Proof.
      intros Hn0 Hn. destruct bezier_fun as (pf & Hev & Hpf).
      destruct (curve_arclen ps M Hl HM B HG HD0 HD NO pf Hpf n Hn0 Hn) as (a & Ea & A1 & A2 & A3).
      exists a. split; [|split; [exact A1|split; [exact A2|]]].
      - rewrite <- Ea. unfold bezier_arclen. apply for_in_ext. intros i x _. rewrite !Hev. reflexivity.
      - eapply Rle_trans; [exact A3|]. unfold cErr. right. ring.
    Qed.

    Theorem bezier_distance_err p : bounded M p ->
      exists d, bezier_distance_to_point (Bezier ps) p = Ret d /\ fin d /\ 0 <= val d /\
        forall x, 0 <= x <= 1 ->
          val d <= gap (P := P) (exact_at ps x) (fun i => val (cw p i))
                   + sqrt (INR D) * (G * M / 32 + (6 * INR D + 44 * G + 14) * uro * M + 6 * sqrt eta).
    Proof.
      intros Hp. destruct bezier_fun as (pf & Hev & Hpf).
      assert (L : (0 < length ps)%nat) by lia.
      set (d0 := p_default (P := P)).
      destruct (curve_distance ps M Hl HM B HG HD0 HD NO pf Hpf (bezier_eval (Bezier ps)) (nth 0 ps d0) p Hev)
        as (d & Ed & D1 & D2 & D3); auto.
      - apply B, nth_In. exact L.
      - exists d. split; [|split; [exact D1|split; [exact D2|]]].
        + unfold bezier_distance_to_point. cbn [bz_points]. rewrite (idx_lt _ _ d0 L). exact Ed.
        + intros x Hx. eapply Rle_trans; [apply D3; exact Hx|]. unfold cErr. right. field.
    Qed.
  End Generic.
End Curves.

(** points with small integer coordinates, for examples *)
Lemma bounded_int2 {F : Format} (a b : Z) (M : R) : (Z.abs a <= 2048)%Z -> (Z.abs b <= 2048)%Z ->
  Rabs (IZR a) <= M -> Rabs (IZR b) <= M -> bounded M (fpt2 (flt a 0) (flt b 0)).
Proof.
  intros Ha Hb Ma Mb.
  destruct (lit_small a Ha) as [A1 A2]. destruct (lit_small b Hb) as [B1 B2].
  intros [|[|i]] Hi; [| |cbn in Hi; lia].
  - split; [exact A1|]. change (Rabs (val (s_lit (T := float) a)) <= M). now rewrite A2.
  - split; [exact B1|]. change (Rabs (val (s_lit (T := float) b)) <= M). now rewrite B2.
Qed.

Lemma uro_64 : @uro Binary64 <= / 9007199254740992.
Proof.
  unfold uro. change (@fprec Binary64) with 53%Z. right. 
  change (-(53))%Z with (- (53))%Z. rewrite bpow_opp. f_equal. 
Qed.
Lemma fmax_64 : 9007199254740992 <= @fmax Binary64.
Proof. pose proof (@bpow_prec_le_fmax Binary64) as H. exact H. Qed.
