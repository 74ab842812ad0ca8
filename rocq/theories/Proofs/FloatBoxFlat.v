(** Bounding boxes of cubics in floating point where the computed leading coefficient of the
    derivative is below EPSILON. *)
From Coq Require Import Reals ZArith List Arith Lia Lra Psatz Bool.
From Flocq Require Import Core.Core IEEE754.BinarySingleNaN.
From Verif Require Import Base.Outcome Base.Scalar Model.Point Model.Line Model.Quadratic Model.Cubic Proofs.OutcomeFacts
  Inst.FloatInst Spec.Bernstein Spec.Rounding Spec.Componentwise Spec.FloatPoints Spec.FloatBoxes
  Proofs.FloatFacts Proofs.FloatEval Proofs.FloatBound Proofs.FloatNorm Proofs.FloatNear Proofs.FloatEnds Proofs.ExactEval Proofs.BoxGeneric
  Proofs.FloatBox Proofs.FloatBoxQuad Proofs.FloatBoxCubic Spec.Scaling Spec.Exact Proofs.FloatScale Proofs.FloatExact.
Import ListNotations.
Local Open Scope R_scope.

Lemma cube_gap t : 0 <= t <= 1 -> 0 <= t * t * (1 - t) <= 3 / 20.
Proof.
  intros Ht. split; [repeat apply Rmult_le_pos; lra|].
  assert (Q : 0 <= (t - 2 / 3) * (t - 2 / 3) * (t + 1 / 3)) by (apply Rmult_le_pos; [apply Rle_0_sqr|lra]).
  replace ((t - 2 / 3) * (t - 2 / 3) * (t + 1 / 3)) with (4 / 27 - t * t * (1 - t)) in Q by field. lra.
Qed.

Section Flat.
  Context {F : Format}.
  Variable M : R.
  Hypotheses (HM : 0 < M) (HM1 : 1 <= M) (HO : 2048 * (M * M) <= fmax) (HU : eta <= uro * (M * M)) (HB : 4 * M <= uro * fmax).
  Let w := uro * M.
  Variables s k1 k2 e : float.
  Hypotheses (Fs : fin s) (F1 : fin k1) (F2 : fin k2) (Fe : fin e).
  Hypotheses (Bs : Rabs (val s) <= M) (B1 : Rabs (val k1) <= M) (B2 : Rabs (val k2) <= M) (Be : Rabs (val e) <= M).
  Let d0 := s_mul (s_sub k1 s) (s_lit 3).
  Let d1 := s_mul (s_sub k2 k1) (s_lit 3).
  Let d2 := s_mul (s_sub e k2) (s_lit 3).
  Let fa := s_add (s_add d0 (s_mul d1 (s_lit (-2)))) d2.
  Let fb := s_add (s_mul d0 (s_lit (-2))) (s_mul d1 (s_lit 2)).
  Let a := 3 * (val e - 3 * val k2 + 3 * val k1 - val s).
  Let b := 6 * (val k2 - 2 * val k1 + val s).
  Let c := 3 * (val k1 - val s).
  Let X t := val s + c * t + b / 2 * (t * t) + a / 3 * (t * t * t).
  (** the parabola with the same ends and the same start tangent *)
  Let k' := val s + c / 2.
  Let Y t := (1 - t) * (1 - t) * val s + 2 * t * (1 - t) * k' + t * t * val e.
  Let A := 2 * (val s - 2 * k' + val e).

  Lemma A_eq : A = b + 2 / 3 * a.
  Proof. unfold A, k', a, b, c. field. Qed.
  Lemma XY t : X t = Y t - a / 3 * (t * t * (1 - t)).
  Proof. unfold X, Y, k', a, b, c. field. Qed.

  Hypothesis Hsmall : Rabs (val fa) < 2 * uro.

  Lemma flat_axis_box (l : list float) : quad_real_roots fa fb d0 = Ret l ->
    (forall t, fin t -> 0 <= val t <= 1 -> fin (cubic_at s k1 k2 e t) /\
       Rabs (val (cubic_at s k1 k2 e t) - bezier_poly [val s; val k1; val k2; val e] (val t)) <= 16 * uro * M + 4 * eta) ->
    exists lo hi, box_of (map (cubic_at s k1 k2 e) (filter in_unit l) ++ [s; e]) = Ret (lo, hi) /\
      holds_axis lo hi (bezier_poly [val s; val k1; val k2; val e]) (2 * uro + 249 * uro * M + 4 * eta) /\
      tight_axis lo hi (bezier_poly [val s; val k1; val k2; val e]) (16 * uro * M + 4 * eta).
  Proof.
    intros Hl Hev. pose proof uro_pos as U0. pose proof uro_small as U1. pose proof eta_pos as T0. pose proof eta_uro as T1.
    destruct (sizes3 M HM HO HU) as (H32 & H4 & Hw & Hw2 & _ & W0 & _). fold w in Hw, Hw2, W0.
    destruct (coeffs M HM HO HU s k1 k2 e Fs F1 F2 Fe Bs B1 B2 Be) as ([Ffa Ea] & [Ffb Eb] & [Fc Ec]).
    destruct (coeff_sizes M HM HO HU s k1 k2 e Fs F1 F2 Fe Bs B1 B2 Be) as (_ & _ & _ & _ & Bfb & Bfc).
    fold d0 d1 d2 in Ffa, Ea, Ffb, Eb, Fc, Ec, Bfb, Bfc. fold fa in Ffa, Ea. fold fb in Ffb, Eb, Bfb. fold w in Ea, Eb, Ec.
    fold a in Ea. fold b in Eb. fold c in Ec.
    assert (Wu : uro <= w) by (unfold w; rewrite <- (Rmult_1_r uro) at 1; apply Rmult_le_compat_l; lra).
    assert (Ha : - (2 * uro + 112 * w) <= a <= 2 * uro + 112 * w) by (apply Rabs_le_inv in Ea; apply Rabs_def2 in Hsmall; lra).
    apply Rabs_le_inv in Eb. apply Rabs_le_inv in Ec.
    set (EA := 182 * w + 4 / 3 * uro).
    assert (HEA : - EA <= val fb - A <= EA) by (rewrite A_eq; unfold EA; lra).
    assert (Hgap : forall t, 0 <= t <= 1 -> - (uro / 10 + 6 * w) <= X t - Y t <= uro / 10 + 6 * w).
    { intros t Ht. rewrite XY. pose proof (cube_gap t Ht) as G. set (g := t * t * (1 - t)) in *.
      assert (- ((2 * uro + 112 * w) * (3 / 20)) <= a * g <= (2 * uro + 112 * w) * (3 / 20)) by (split; nra). lra. }
    assert (Xp : forall t, bezier_poly [val s; val k1; val k2; val e] t = X t).
    { intros t. rewrite poly3. unfold X, a, b, c. field. }
    set (dd := 16 * uro * M + 4 * eta) in *.
    assert (Dw : dd = 16 * w + 4 * eta) by (unfold dd, w; ring).
    assert (Out : 2 * uro + 249 * uro * M + 4 * eta = 2 * uro + 249 * w + 4 * eta) by (unfold w; ring).
    rewrite Out. clear Out.
    assert (Fl : forall z, In z (map (cubic_at s k1 k2 e) (filter in_unit l) ++ [s; e]) -> fin z).
    { intros z Hz. apply in_app_or in Hz as [Hz|Hz].
      - apply in_map_iff in Hz as (t & <- & Ht). apply filter_In in Ht as [_ Ht].
        destruct (in_unit_fin t Ht) as [Ft Vt]. apply Hev; [exact Ft|lra].
      - destruct Hz as [<-|[<-|[]]]; assumption. }
    destruct (box_fin _ (tail_len (cubic_at s k1 k2 e) (filter in_unit l) s e) Fl) as (lo & hi & Eb' & Ilo & Ihi & Hin).
    exists lo, hi. split; [exact Eb'|].
    assert (Is : val lo <= val s <= val hi) by (apply Hin, in_or_app; right; left; reflexivity).
    assert (Ie : val lo <= val e <= val hi) by (apply Hin, in_or_app; right; right; left; reflexivity).
    split.
    - split; [auto|]. split; [auto|]. intros t Ht. rewrite Xp. pose proof (Hgap t Ht) as Hg.
      assert (FL : Rabs A <= 2 * uro + EA -> val lo - (2 * uro + 249 * w + 4 * eta) <= X t <= val hi + (2 * uro + 249 * w + 4 * eta)).
      { intros HA. pose proof (flat_in (val s) k' (val e) (val lo) (val hi) Is Ie _ t Ht HA) as Q.
        change (val lo - (2 * uro + EA) / 8 <= Y t <= val hi + (2 * uro + EA) / 8) in Q. unfold EA in Q. lra. }
      unfold quad_real_roots in Hl. rewrite ltb_val in Hl; [|now apply abs_fin|apply eps_ok].
      rewrite abs_val, (proj2 eps_ok), Rlt_bool_true in Hl by exact Hsmall.
      rewrite ltb_val in Hl; [|now apply abs_fin|apply eps_ok]. rewrite abs_val, (proj2 eps_ok) in Hl.
      destruct (Rlt_bool_spec (Rabs (val fb)) (2 * uro)) as [Hb|Hb].
      { apply FL. apply Rabs_def2 in Hb. apply Rabs_le. lra. }
      set (a' := val fb) in *. set (b' := val d0) in *.
      assert (N : a' <> 0) by (intros Z; rewrite Z, Rabs_R0 in Hb; lra).
      assert (Q : Rabs (- b' / a') <= fmax).
      { unfold Rdiv. rewrite Rabs_mult, Rabs_Ropp, Rabs_inv.
        assert (I : / Rabs a' <= / (2 * uro)) by (apply Rinv_le_contravar; lra).
        apply Rle_trans with ((601 / 100 * M) * / (2 * uro)).
        - apply Rmult_le_compat; try lra; [apply Rabs_pos|]. left. apply Rinv_0_lt_compat, Rabs_pos_lt, N.
        - apply Rmult_le_reg_r with (2 * uro); [lra|]. rewrite Rmult_assoc, Rinv_l, Rmult_1_r by lra. lra. }
      rewrite av_push_lt in Hl by (cbn; lia). cbn [app] in Hl. injection Hl as <-.
      destruct (div_ok (s_neg d0) fb) as [Fr Er].
      { now apply neg_fin. }
      { exact N. }
      { rewrite neg_val. exact Q. }
      rewrite neg_val in Er. fold b' a' in Er. set (ft := s_div (s_neg d0) fb) in *. set (r := val ft) in *.
      pose proof (rnd_err (- b' / a')) as RE. rewrite <- Er in RE. set (q := - b' / a') in *.
      assert (Eq : a' * q = - b') by (unfold q; field; exact N).
      assert (Pa : 0 < Rabs a') by (apply Rabs_pos_lt, N).
      assert (UA : uro * Rabs a' <= 2406 / 100 * w).
      { apply Rle_trans with (uro * (2406 / 100 * M)); [apply Rmult_le_compat_l; lra|]. unfold w. lra. }
      assert (TA : eta * Rabs a' <= 25 / 1000 * w).
      { apply Rle_trans with (/ 1024 * uro * Rabs a'); [apply Rmult_le_compat_r; lra|lra]. }
      assert (UB : uro * Rabs b' <= 601 / 100 * w).
      { apply Rle_trans with (uro * (601 / 100 * M)); [apply Rmult_le_compat_l; lra|]. unfold w. lra. }
      destruct (Rle_or_lt (A * a') 0) as [Hs|Hs].
      { apply FL. apply Rle_trans with (Rabs (a' - A)); [now apply sign_far|]. apply Rabs_le. lra. }
      set (rho := 221 * w + 4 / 3 * uro).
      assert (Rho : 0 <= rho) by (unfold rho; lra).
      assert (Sg : 0 < A /\ 0 < a' \/ A < 0 /\ a' < 0) by now apply same_sign.
      assert (Rs : Rabs (b' + a' * r) <= uro * Rabs b' + eta * Rabs a').
      { replace (b' + a' * r) with (a' * (r - q)) by (rewrite Rmult_minus_distr_l, Eq; ring).
        rewrite Rabs_mult. apply Rle_trans with (Rabs a' * (uro * Rabs q + eta)); [apply Rmult_le_compat_l; lra|].
        replace (Rabs a' * (uro * Rabs q + eta)) with (uro * (Rabs a' * Rabs q) + eta * Rabs a') by ring.
        rewrite <- Rabs_mult, Eq, Rabs_Ropp. lra. }
      assert (Cb : 2 * (k' - val s) = c) by (unfold k'; field).
      apply Rabs_le_inv in RE. unfold EA in HEA.
      destruct (Rle_or_lt r 0) as [R0|R0]; [|destruct (Rle_or_lt 1 r) as [R1|R1]].
      + assert (Q2 : q <= 2 * eta).
        { destruct (Rle_or_lt q 0); [lra|]. rewrite (Rabs_pos_eq q) in RE by lra.
          assert (uro * q <= / 2048 * q) by (apply Rmult_le_compat_r; lra). lra. }
        assert (H : val lo - rho <= Y t <= val hi + rho).
        { apply left_in; try assumption; fold A; rewrite Cb; intros A0.
          - assert (A' : 0 < a') by (destruct Sg; lra). rewrite (Rabs_pos_eq a') in * by lra.
            assert (a' * q <= a' * (2 * eta)) by (apply Rmult_le_compat_l; lra). unfold rho. lra.
          - assert (A' : a' < 0) by (destruct Sg; lra). rewrite (Rabs_left a') in * by lra.
            assert (- a' * q <= - a' * (2 * eta)) by (apply Rmult_le_compat_l; lra). unfold rho. lra. }
        unfold rho in H. lra.
      + assert (Q2 : 1 - uro - eta <= q).
        { assert (0 < q). { apply Rnot_le_lt. intros C. rewrite Rabs_left1 in RE by exact C.
            assert (uro * - q <= 1 * - q) by (apply Rmult_le_compat_r; lra). lra. }
          rewrite (Rabs_pos_eq q) in RE by lra. destruct (Rle_or_lt 1 q); [lra|].
          assert (uro * q <= uro * 1) by (apply Rmult_le_compat_l; lra). lra. }
        assert (H : val lo - rho <= Y t <= val hi + rho).
        { apply right_in; try assumption; fold A; rewrite Cb; intros A0.
          - assert (A' : 0 < a') by (destruct Sg; lra). rewrite (Rabs_pos_eq a') in * by lra.
            assert (a' * (1 - uro - eta) <= a' * q) by (apply Rmult_le_compat_l; lra). unfold rho. lra.
          - assert (A' : a' < 0) by (destruct Sg; lra). rewrite (Rabs_left a') in * by lra.
            assert (- a' * (1 - uro - eta) <= - a' * q) by (apply Rmult_le_compat_l; lra). unfold rho. lra. }
        unfold rho in H. lra.
      + assert (I : in_unit ft = true).
        { unfold in_unit. destruct (lit_small 0) as [A0 B0]; [lia|]. destruct (lit_small 1) as [A1 B1']; [lia|].
          rewrite !ltb_val by assumption. rewrite B0, B1'. fold r. rewrite !Rlt_bool_true by assumption. reflexivity. }
        assert (Ii : In ft (filter in_unit [ft])) by (apply filter_In; split; [left; reflexivity|exact I]).
        assert (V : val lo <= val (cubic_at s k1 k2 e ft) <= val hi) by (apply Hin, in_or_app; left; now apply in_map).
        destruct (Hev ft Fr) as [_ Ev]; [fold r; lra|]. fold r in Ev. rewrite Xp in Ev. apply Rabs_le_inv in Ev.
        assert (Hr : 0 <= r <= 1) by lra. pose proof (Hgap r Hr) as Hgr.
        assert (Vx : Rabs (2 * (k' - val s) + A * r) <= rho).
        { apply Rabs_le_inv in Rs. rewrite Cb. apply Rabs_le. unfold rho.
          pose proof (mul_unit (a' - A) r (182 * w + 4 / 3 * uro) HEA Hr) as MU. lra. }
        set (d := dd + (uro / 10 + 6 * w)).
        assert (Hd : 0 <= d) by (unfold d; lra).
        assert (Hy : val lo - d <= Y r <= val hi + d) by (unfold d; lra).
        pose proof (vertex_in (val s) k' (val e) (val lo) (val hi) Is Ie r rho d t Ht Hr Rho Hd Vx Hy) as H.
        change (val lo - (d + rho) <= Y t <= val hi + (d + rho)) in H. unfold rho, d in H. lra.
    - assert (G : forall v, In v (map (cubic_at s k1 k2 e) (filter in_unit l) ++ [s; e]) ->
        exists t, 0 <= t <= 1 /\ Rabs (val v - bezier_poly [val s; val k1; val k2; val e] t) <= dd).
      { intros v Hv. apply in_app_or in Hv as [Hv|Hv].
        - apply in_map_iff in Hv as (t & <- & Ht). apply filter_In in Ht as [_ Ht].
          destruct (in_unit_fin t Ht) as [Ft Vt]. exists (val t). split; [lra|]. apply Hev; [exact Ft|lra].
        - assert (0 <= dd) by lra.
          destruct Hv as [<-|[<-|[]]]; [exists 0|exists 1]; (split; [lra|]); rewrite Xp; unfold X.
          + replace (val s - _) with 0 by ring. rewrite Rabs_R0. lra.
          + replace (val e - _) with 0 by (unfold a, b, c; field). rewrite Rabs_R0. lra. }
      split; apply G; assumption.
  Qed.
End Flat.

Section FlatBox.
  Context {F : Format} {P : Type} {PT : Point float P} {CP : CwPoint float P}.

  (** the leading coefficient of the derivative on axis i, as computed *)
  Definition flead (q : cubic P) (i : nat) : float :=
    let d := cubic_derivative q in
    cw (p_add (p_add (q_start d) (p_mul (q_ctrl d) (s_lit (-2)))) (q_end d)) i.
  Lemma flead_eq q i : (i < p_dim (P := P))%nat -> flead q i =
    s_add (s_add (s_mul (s_sub (cw (c_ctrl1 q) i) (cw (c_start q) i)) (s_lit 3))
             (s_mul (s_mul (s_sub (cw (c_ctrl2 q) i) (cw (c_ctrl1 q) i)) (s_lit 3)) (s_lit (-2))))
          (s_mul (s_sub (cw (c_end q) i) (cw (c_ctrl2 q) i)) (s_lit 3)).
  Proof.
    intros Hi. unfold flead, cubic_derivative. cbn [q_start q_ctrl q_end].
    now rewrite !cw_add, !cw_mul, !cw_sub by exact Hi.
  Qed.

  Theorem cubic_box_cases (q : cubic P) M lam : 1 <= M -> 2048 * (M * M) <= fmax -> 4 * M <= uro * fmax -> 0 <= lam -> 2048 * lam * uro <= 1 ->
    bounded M (c_start q) -> bounded M (c_ctrl1 q) -> bounded M (c_ctrl2 q) -> bounded M (c_end q) ->
    (forall i, (i < p_dim (P := P))%nat -> Rabs (val (flead q i)) < 2 * uro \/
       M <= lam * Rabs (val (cw (c_end q) i) - 3 * val (cw (c_ctrl2 q) i) + 3 * val (cw (c_ctrl1 q) i) - val (cw (c_start q) i))) ->
    exists bounds, cubic_bounding_box q = Ret bounds /\ length bounds = p_dim (P := P) /\
      encloses (p_dim (P := P)) bounds (fun i =>
        bezier_poly [val (cw (c_start q) i); val (cw (c_ctrl1 q) i); val (cw (c_ctrl2 q) i); val (cw (c_end q) i)])
        (251 * uro * M + 4 * eta + 65536 * (lam * lam) * (uro * sqrt uro) * M) (16 * uro * M + 4 * eta).
  Proof.
    intros HM HO HB HL0 Hlu Bs B1 B2 Be Hl.
    pose proof uro_pos as U0. pose proof eta_uro as TU. pose proof eta_pos.
    assert (M1 : 1 * 1 <= M * M) by (apply Rmult_le_compat; lra).
    assert (M2 : M * 1 <= M * M) by (apply Rmult_le_compat_l; lra).
    assert (HU : eta <= uro * (M * M)).
    { assert (uro * 1 <= uro * (M * M)) by (apply Rmult_le_compat_l; lra). lra. }
    assert (H4 : 4 * M <= fmax) by lra.
    assert (UM : uro * 1 <= uro * M) by (apply Rmult_le_compat_l; lra).
    assert (S0 : 0 <= 65536 * (lam * lam) * (uro * sqrt uro) * M).
    { pose proof (sqrt_pos uro). repeat apply Rmult_le_pos; lra. }
    assert (A : forall i, (i < p_dim (P := P))%nat -> exists lo hi, cubic_bbox_axis q i = Ret (lo, hi) /\
      holds_axis lo hi (bezier_poly [val (cw (c_start q) i); val (cw (c_ctrl1 q) i); val (cw (c_ctrl2 q) i); val (cw (c_end q) i)])
        (251 * uro * M + 4 * eta + 65536 * (lam * lam) * (uro * sqrt uro) * M) /\
      tight_axis lo hi (bezier_poly [val (cw (c_start q) i); val (cw (c_ctrl1 q) i); val (cw (c_ctrl2 q) i); val (cw (c_end q) i)])
        (16 * uro * M + 4 * eta)).
    { intros i Hi. destruct (cubic_bbox_axis_roots q i Hi) as (l & El & ->).
      destruct (Bs i Hi) as [Fs Vs], (B1 i Hi) as [F1 V1], (B2 i Hi) as [F2 V2], (Be i Hi) as [Fe Ve].
      assert (Hev : forall t, fin t -> 0 <= val t <= 1 ->
        fin (cubic_at (cw (c_start q) i) (cw (c_ctrl1 q) i) (cw (c_ctrl2 q) i) (cw (c_end q) i) t) /\
        Rabs (val (cubic_at (cw (c_start q) i) (cw (c_ctrl1 q) i) (cw (c_ctrl2 q) i) (cw (c_end q) i) t) -
          bezier_poly [val (cw (c_start q) i); val (cw (c_ctrl1 q) i); val (cw (c_ctrl2 q) i); val (cw (c_end q) i)] (val t)) <= 16 * uro * M + 4 * eta).
      { intros t Ft Ht. assert (HM0 : 0 <= M) by lra.
        pose proof (cubic_casteljau_err M HM0 H4 q t i Hi Ft Ht (Bs i Hi) (B1 i Hi) (B2 i Hi) (Be i Hi)) as Q.
        unfold cubic_eval_casteljau in Q. rewrite !cw_mixg in Q by exact Hi. exact Q. }
      assert (HMp : 0 < M) by lra.
      destruct (Hl i Hi) as [Sm|Lm].
      - rewrite flead_eq in Sm by exact Hi.
        destruct (flat_axis_box M HMp HM HO HU HB _ _ _ _ Fs F1 F2 Fe Vs V1 V2 Ve Sm l El Hev) as (lo & hi & Eb & (H1 & H2 & H3) & T).
        exists lo, hi. split; [exact Eb|]. split; [|exact T]. split; [exact H1|]. split; [exact H2|]. intros t Ht.
        specialize (H3 t Ht). lra.
      - assert (Lm' : 3 * M <= lam * Rabs (3 * (val (cw (c_end q) i) - 3 * val (cw (c_ctrl2 q) i) + 3 * val (cw (c_ctrl1 q) i) - val (cw (c_start q) i)))).
        { rewrite Rabs_mult, (Rabs_pos_eq 3) by lra. lra. }
        destruct (cubic_axis_box M HMp HO HU _ _ _ _ Fs F1 F2 Fe Vs V1 V2 Ve lam Lm' Hlu HM l El Hev) as (lo & hi & Eb & (H1 & H2 & H3) & T).
        exists lo, hi. split; [exact Eb|]. split; [|exact T]. split; [exact H1|]. split; [exact H2|]. intros t Ht.
        specialize (H3 t Ht). lra. }
    destruct (fill_ret (cubic_bbox_axis q) (repeat (s_lit 0, s_lit 0) (p_dim (P := P))) (p_dim (P := P)))
      as (bs & E & L & N).
    - apply len_init.
    - intros i Hi. destruct (A i Hi) as (lo & hi & -> & _). eauto.
    - exists bs. rewrite cubic_box_fill. split; [exact E|]. rewrite repeat_length in L. split; [exact L|].
      intros i Hi. destruct (A i Hi) as (lo & hi & E1 & H1 & T). destruct (N i Hi) as (z & E2 & E3).
      rewrite E1 in E2. injection E2 as <-. exists lo, hi. auto.
  Qed.

  (** coarse data: the leading coefficient is computed exactly *)
  Lemma flead_exact (q : cubic P) g M i : (i < p_dim (P := P))%nat -> 0 <= M -> room g (24 * M) ->
    (forall p, In p (cubic_control_points q) -> coarse_point g M p) ->
    val (flead q i) = 3 * (val (cw (c_end q) i) - 3 * val (cw (c_ctrl2 q) i) + 3 * val (cw (c_ctrl1 q) i) - val (cw (c_start q) i)).
  Proof.
    intros Hi HM Rm Hp. rewrite flead_eq by exact Hi.
    assert (K : forall p, In p (cubic_control_points q) -> ex g M (cw p i) (val (cw p i)) /\ Rabs (val (cw p i)) <= M).
    { intros p Hin. destruct (Hp p Hin i Hi) as (X1 & X2 & X3). split; [|exact X3]. split; [exact X1|]. split; [reflexivity|]. split; [exact X2|exact X3]. }
    destruct (K (c_start q)) as [Ks Bs]; [cbn; auto|]. destruct (K (c_ctrl1 q)) as [K1 B1]; [cbn; auto|].
    destruct (K (c_ctrl2 q)) as [K2 B2]; [cbn; auto|]. destruct (K (c_end q)) as [Ke Be]; [cbn; auto|]. clear K.
    set (s := cw (c_start q) i) in *. set (k1 := cw (c_ctrl1 q) i) in *. set (k2 := cw (c_ctrl2 q) i) in *. set (e := cw (c_end q) i) in *.
    apply Rabs_le_inv in Bs, B1, B2, Be.
    assert (R1 : forall B, B <= 24 * M -> room g B) by (intros B HB; apply (room_lower g g B (24 * M)); [exact Rm|lia|exact HB]).
    assert (D3 : forall x y, ex g M x (val x) -> ex g M y (val y) -> - M <= val x <= M -> - M <= val y <= M ->
      ex g (6 * M) (s_mul (s_sub x y) (s_lit 3)) ((val x - val y) * 3)).
    { intros x y Ex Ey Bx By. apply ex_mul' with (g := g) (h := 0%Z) (B1 := 2 * M) (B2 := Rabs 3); [lia|apply R1; lra| |apply (ex_lit 3); lia|apply Rabs_le; lra].
      apply ex_sub with (B1 := M) (B2 := M); try assumption; [apply R1; lra|apply Rabs_le; lra]. }
    pose proof (D3 k1 s K1 Ks B1 Bs) as E0. pose proof (D3 k2 k1 K2 K1 B2 B1) as E1. pose proof (D3 e k2 Ke K2 Be B2) as E2. clear D3.
    assert (E3 : ex g (12 * M) (s_mul (s_mul (s_sub k2 k1) (s_lit 3)) (s_lit (-2))) ((val k2 - val k1) * 3 * -2)).
    { apply ex_mul' with (g := g) (h := 0%Z) (B1 := 6 * M) (B2 := Rabs (-2)); [lia|apply R1; lra|exact E1|apply (ex_lit (-2)); lia|apply Rabs_le; lra]. }
    assert (E4 : ex g (18 * M) (s_add (s_mul (s_sub k1 s) (s_lit 3)) (s_mul (s_mul (s_sub k2 k1) (s_lit 3)) (s_lit (-2))))
      ((val k1 - val s) * 3 + (val k2 - val k1) * 3 * -2)).
    { apply ex_add with (B1 := 6 * M) (B2 := 12 * M); try assumption; [apply R1; lra|apply Rabs_le; lra]. }
    assert (E5 : ex g (24 * M) (s_add (s_add (s_mul (s_sub k1 s) (s_lit 3)) (s_mul (s_mul (s_sub k2 k1) (s_lit 3)) (s_lit (-2)))) (s_mul (s_sub e k2) (s_lit 3)))
      ((val k1 - val s) * 3 + (val k2 - val k1) * 3 * -2 + (val e - val k2) * 3)).
    { apply ex_add with (B1 := 18 * M) (B2 := 6 * M); try assumption. apply Rabs_le; lra. }
    destruct E5 as (_ & E5 & _). rewrite E5. ring.
  Qed.
  Lemma multiple_far g r : multiple g r -> r <> 0 -> bpow radix2 g <= Rabs r.
  Proof.
    intros (z & ->) N. rewrite Rabs_mult, (Rabs_pos_eq (bpow radix2 g)) by apply bpow_ge_0.
    assert (Z : z <> 0%Z) by (intros ->; apply N; ring).
    assert (L : 1 <= Rabs (IZR z)) by (rewrite <- abs_IZR; apply IZR_le; lia).
    pose proof (bpow_gt_0 radix2 g). nra.
  Qed.
  Theorem cubic_box_coarse (q : cubic P) g M : 1 <= M -> 2048 * (M * M) <= fmax -> 4 * M <= uro * fmax ->
    room g (24 * M) -> 2048 * M * uro <= bpow radix2 g ->
    (forall p, In p (cubic_control_points q) -> coarse_point g M p) ->
    exists bounds, cubic_bounding_box q = Ret bounds /\ length bounds = p_dim (P := P) /\
      encloses (p_dim (P := P)) bounds (fun i =>
        bezier_poly [val (cw (c_start q) i); val (cw (c_ctrl1 q) i); val (cw (c_ctrl2 q) i); val (cw (c_end q) i)])
        (251 * uro * M + 4 * eta + 65536 * (M / bpow radix2 g * (M / bpow radix2 g)) * (uro * sqrt uro) * M) (16 * uro * M + 4 * eta).
  Proof.
    intros HM HO HB Rm Hg Hp. pose proof (bpow_gt_0 radix2 g) as G0. pose proof uro_pos as U0.
    assert (Bd : forall p, In p (cubic_control_points q) -> bounded M p).
    { intros p Hin i Hi. destruct (Hp p Hin i Hi) as (X1 & _ & X3). split; assumption. }
    apply cubic_box_cases; try assumption; try (apply Bd; cbn; auto).
    - apply Rmult_le_pos; [lra|]. left. now apply Rinv_0_lt_compat.
    - apply Rmult_le_reg_r with (bpow radix2 g); [exact G0|]. unfold Rdiv.
      replace (2048 * (M * / bpow radix2 g) * uro * bpow radix2 g) with (2048 * M * uro * (/ bpow radix2 g * bpow radix2 g)) by ring.
      rewrite Rinv_l by lra. lra.
    - intros i Hi.
      assert (Gr : forall p, In p (cubic_control_points q) -> multiple g (val (cw p i))).
      { intros p Hin. exact (proj1 (proj2 (Hp p Hin i Hi))). }
      set (T := val (cw (c_end q) i) - 3 * val (cw (c_ctrl2 q) i) + 3 * val (cw (c_ctrl1 q) i) - val (cw (c_start q) i)).
      assert (MT : multiple g T).
      { destruct (Gr (c_start q)) as [z0 E0]; [cbn; auto|]. destruct (Gr (c_ctrl1 q)) as [z1 E1]; [cbn; auto|].
        destruct (Gr (c_ctrl2 q)) as [z2 E2]; [cbn; auto|]. destruct (Gr (c_end q)) as [z3 E3]; [cbn; auto|].
        exists (z3 - 3 * z2 + 3 * z1 - z0)%Z. unfold T. rewrite E0, E1, E2, E3, !minus_IZR, plus_IZR, minus_IZR, !mult_IZR. ring. }
      destruct (Req_dec T 0) as [Z|N].
      + left. assert (HM0 : 0 <= M) by lra. rewrite (flead_exact q g M i Hi HM0 Rm Hp). fold T. rewrite Z, Rmult_0_r, Rabs_R0. lra.
      + right. pose proof (multiple_far g T MT N) as L. apply Rmult_le_reg_r with (bpow radix2 g); [exact G0|].
        replace (M / bpow radix2 g * Rabs T * bpow radix2 g) with (M * Rabs T) by (field; lra).
        apply Rmult_le_compat_l; lra.
  Qed.
End FlatBox.
