(** The containment test of the unit tests, [axis >= lo - e && axis <= hi + e], for
    points computed on a curve and the box computed for it, in IEEE arithmetic. *)
From Coq Require Import Reals ZArith List Arith Lia Lra Bool.
From Flocq Require Import Core.Core IEEE754.BinarySingleNaN.
From Verif Require Import Base.Outcome Base.Scalar Model.Point Model.Line Model.Quadratic
  Model.Cubic Inst.FloatInst Spec.Bernstein Spec.Rounding Spec.Componentwise Spec.FloatPoints
  Spec.FloatCurves Spec.FloatBoxes
  Proofs.FloatFacts Proofs.BezierReal Proofs.FloatBound Proofs.FloatNear Proofs.FloatSplit Proofs.FloatBoxQuad Proofs.FloatBoxCubic.
Import ListNotations.
Local Open Scope R_scope.

Section BoxTest.
  Context {F : Format} {P : Type} {PT : Point float P} {CP : CwPoint float P}.

  Lemma box_test (lo hi p e : float) B S : fin lo -> fin hi -> fin p -> fin e ->
    Rabs (val lo) <= B -> Rabs (val hi) <= B -> 0 <= val e -> B + val e <= fmax ->
    val lo - S <= val p <= val hi + S -> S + uro * (B + val e) <= val e ->
    s_leb (s_sub lo e) p = true /\ s_leb p (s_add hi e) = true.
  Proof.
    intros Fl Fh Fp Fe Bl Bh He Hf Hp HS.
    assert (Al : Rabs (val lo - val e) <= B + val e).
    { eapply Rle_trans; [apply Rabs_triang|]. rewrite Rabs_Ropp, (Rabs_pos_eq (val e)) by exact He. lra. }
    assert (Ah : Rabs (val hi + val e) <= B + val e).
    { eapply Rle_trans; [apply Rabs_triang|]. rewrite (Rabs_pos_eq (val e)) by exact He. lra. }
    destruct (sub_ok lo e Fl Fe ltac:(lra)) as [S1 S2]. destruct (add_ok hi e Fh Fe ltac:(lra)) as [A1 A2].
    pose proof uro_pos as U.
    pose proof (rnd_sum_err (val lo) (- val e) (val_float lo) (float_opp _ (val_float e))) as El.
    change (val lo + - val e) with (val lo - val e) in El.
    pose proof (rnd_sum_err (val hi) (val e) (val_float hi) (val_float e)) as Eh.
    assert (uro * Rabs (val lo - val e) <= uro * (B + val e)) by (apply Rmult_le_compat_l; lra).
    assert (uro * Rabs (val hi + val e) <= uro * (B + val e)) by (apply Rmult_le_compat_l; lra).
    apply Rabs_le_inv in El. apply Rabs_le_inv in Eh.
    rewrite !leb_val by assumption. rewrite S2, A2.
    split; apply Rle_bool_true; lra.
  Qed.

  Lemma tight_bound lo hi (f : R -> R) slack M : tight_axis lo hi f slack ->
    (forall t, 0 <= t <= 1 -> Rabs (f t) <= M) -> Rabs (val lo) <= M + slack /\ Rabs (val hi) <= M + slack.
  Proof.
    intros [(t & Ht & A) (u & Hu & B)] H. specialize (H t Ht) as C. specialize (H u Hu) as E.
    split.
    - replace (val lo) with (f t + (val lo - f t)) by ring. eapply Rle_trans; [apply Rabs_triang|lra].
    - replace (val hi) with (f u + (val hi - f u)) by ring. eapply Rle_trans; [apply Rabs_triang|lra].
  Qed.

  Lemma poly_bound (b : list R) M t : b <> [] -> 0 <= t <= 1 -> (forall x, In x b -> Rabs x <= M) ->
    Rabs (bezier_poly b t) <= M.
  Proof.
    intros Hne Ht H. rewrite poly_dc by exact Hne. apply Rabs_le. apply dc_between; [exact Ht|].
    intros k Hk. apply Rabs_le_inv, H, nth_In. destruct b; [contradiction|cbn [length] in *; lia].
  Qed.

  Section Curves.
    Variables (M : R) (t e : float).
    Hypotheses (HM : 1 <= M) (Ht : fin t) (Hr : 0 <= val t <= 1) (Fe : fin e) (He : val e <= fmax / 2).

    Lemma inner_small a b : 0 <= a <= 20 -> 0 <= b <= 20 -> a * uro * M + b * eta <= / 50 * M.
    Proof.
      intros Ha Hb. pose proof uro_small as U1. pose proof uro_pos as U0. pose proof eta_uro as E. pose proof eta_pos as E0.
      assert (UM : uro * M <= / 2048 * M) by (apply Rmult_le_compat_r; lra).
      assert (U : uro * 1 <= uro * M) by (apply Rmult_le_compat_l; lra).
      assert (a * (uro * M) <= 20 * (uro * M)) by (apply Rmult_le_compat_r; lra).
      assert (b * eta <= 20 * eta) by (apply Rmult_le_compat_r; lra).
      lra.
    Qed.

    Theorem quad_box_test (q : quad P) : 4 * M <= uro * fmax -> 70 * uro * M <= val e ->
      (forall p, In p (quad_control_points q) -> bounded M p) ->
      exists bounds, quad_bounding_box q = Ret bounds /\
        forall i, (i < p_dim (P := P))%nat -> exists x lo hi, nth_error bounds i = Some (lo, hi) /\
          p_axis (quad_eval_casteljau q t) i = Ret x /\
          s_leb (s_sub lo e) x = true /\ s_leb x (s_add hi e) = true.
    Proof.
      intros HB Hl B.
      assert (B1 : bounded M (q_start q)) by (apply B; cbn; auto).
      assert (B2 : bounded M (q_ctrl q)) by (apply B; cbn; auto).
      assert (B3 : bounded M (q_end q)) by (apply B; cbn; auto).
      destruct (quad_box_float M ltac:(lra) HB q B1 B2 B3) as (bs & E & _ & Enc).
      exists bs. split; [exact E|]. intros i Hi.
      destruct (Enc i Hi) as (lo & hi & En & (Fl & Fh & Hh) & Tt).
      exists (cw (quad_eval_casteljau q t) i), lo, hi. split; [exact En|].
      split; [rewrite cw_axis; destruct (Nat.ltb_spec i (p_dim (P := P))); [reflexivity|lia]|].
      pose proof uro_small as U1. pose proof uro_pos as U0. pose proof eta_uro as E1. pose proof eta_pos as E0.
      pose proof fmax_ge as FG.
      assert (HF : uro * fmax <= / 2048 * fmax) by (apply Rmult_le_compat_r; lra).
      destruct (quad_casteljau_err M ltac:(lra) ltac:(lra) q t i Hi Ht Hr (B1 i Hi) (B2 i Hi) (B3 i Hi)) as [Fp Ep].
      specialize (Hh (val t) Hr). apply Rabs_le_inv in Ep.
      destruct (tight_bound _ _ _ _ M Tt) as [Bl Bh].
      { intros u Hu. apply poly_bound; [discriminate|exact Hu|].
        intros x [<-|[<-|[<-|[]]]]; [apply (B1 i Hi)|apply (B2 i Hi)|apply (B3 i Hi)]. }
      pose proof (inner_small 11 3 ltac:(lra) ltac:(lra)) as IS.
      assert (U : uro * 1 <= uro * M) by (apply Rmult_le_compat_l; lra).
      assert (UM : uro * M <= / 2048 * M) by (apply Rmult_le_compat_r; lra).
      assert (UE : uro * val e <= / 2048 * val e) by (apply Rmult_le_compat_r; lra).
      apply (box_test lo hi _ e (51 / 50 * M) (uro / 4 + 65 * (uro * M) + 12 * eta)); try assumption; try lra.
    Qed.

    Theorem cubic_box_test (c : cubic P) lam : 2048 * (M * M) <= fmax -> 2048 * lam * uro <= 1 ->
      (36 * uro + 66000 * (lam * lam) * (uro * sqrt uro)) * M <= val e ->
      (forall p, In p (cubic_control_points c) -> bounded M p) ->
      (forall i, (i < p_dim (P := P))%nat ->
         M <= lam * Rabs (val (cw (c_end c) i) - 3 * val (cw (c_ctrl2 c) i)
                          + 3 * val (cw (c_ctrl1 c) i) - val (cw (c_start c) i))) ->
      exists bounds, cubic_bounding_box c = Ret bounds /\
        forall i, (i < p_dim (P := P))%nat -> exists x lo hi, nth_error bounds i = Some (lo, hi) /\
          p_axis (cubic_eval_casteljau c t) i = Ret x /\
          s_leb (s_sub lo e) x = true /\ s_leb x (s_add hi e) = true.
    Proof.
      intros HB HL Hl B HA.
      assert (B1 : bounded M (c_start c)) by (apply B; cbn; auto).
      assert (B2 : bounded M (c_ctrl1 c)) by (apply B; cbn; auto).
      assert (B3 : bounded M (c_ctrl2 c)) by (apply B; cbn; auto).
      assert (B4 : bounded M (c_end c)) by (apply B; cbn; auto).
      destruct (cubic_box_float c M lam HM HB HL B1 B2 B3 B4 HA) as (bs & E & _ & Enc).
      exists bs. split; [exact E|]. intros i Hi.
      destruct (Enc i Hi) as (lo & hi & En & (Fl & Fh & Hh) & Tt).
      exists (cw (cubic_eval_casteljau c t) i), lo, hi. split; [exact En|].
      split; [rewrite cw_axis; destruct (Nat.ltb_spec i (p_dim (P := P))); [reflexivity|lia]|].
      pose proof uro_small as U1. pose proof uro_pos as U0. pose proof eta_uro as E1. pose proof eta_pos as E0.
      pose proof fmax_ge as FG.
      assert (MM : M * 1 <= M * M) by (apply Rmult_le_compat_l; lra).
      destruct (cubic_casteljau_err M ltac:(lra) ltac:(lra) c t i Hi Ht Hr (B1 i Hi) (B2 i Hi) (B3 i Hi) (B4 i Hi)) as [Fp Ep].
      specialize (Hh (val t) Hr). apply Rabs_le_inv in Ep.
      destruct (tight_bound _ _ _ _ M Tt) as [Bl Bh].
      { intros u Hu. apply poly_bound; [discriminate|exact Hu|].
        intros x [<-|[<-|[<-|[<-|[]]]]]; [apply (B1 i Hi)|apply (B2 i Hi)|apply (B3 i Hi)|apply (B4 i Hi)]. }
      pose proof (inner_small 16 4 ltac:(lra) ltac:(lra)) as IS.
      assert (U : uro * 1 <= uro * M) by (apply Rmult_le_compat_l; lra).
      assert (UM : uro * M <= / 2048 * M) by (apply Rmult_le_compat_r; lra).
      set (Q := lam * lam * (uro * sqrt uro) * M) in *.
      assert (Q0 : 0 <= Q).
      { unfold Q. apply Rmult_le_pos; [|lra]. apply Rmult_le_pos; [apply Rle_0_sqr|].
        apply Rmult_le_pos; [lra|apply sqrt_pos]. }
      assert (Eq : (36 * uro + 66000 * (lam * lam) * (uro * sqrt uro)) * M = 36 * (uro * M) + 66000 * Q) by (unfold Q; ring).
      assert (Eo : 65536 * (lam * lam) * (uro * sqrt uro) * M = 65536 * Q) by (unfold Q; ring).
      rewrite Eq in Hl. rewrite Eo in Hh.
      assert (UE : uro * val e <= / 2048 * val e) by (apply Rmult_le_compat_r; lra).
      apply (box_test lo hi _ e (51 / 50 * M) (32 * (uro * M) + 8 * eta + 65536 * Q)); try assumption; try lra.
    Qed.
  End Curves.
End BoxTest.
