(** The left end of a clamped B-spline in IEEE arithmetic. *)
From Coq Require Import Reals ZArith List Arith Lia Lra Bool.
From Flocq Require Import Core.Core IEEE754.BinarySingleNaN.
From Verif Require Import Base.Outcome Base.Scalar Model.Point Model.BSpline Inst.FloatInst
  Spec.Points Spec.Rounding Spec.Componentwise Spec.FloatPoints Spec.FloatSplines
  Proofs.FloatFacts Proofs.FloatPoint Proofs.FloatEval Proofs.FloatNear Proofs.FloatEnds
  Proofs.BSplineGeneric Proofs.FloatSpline Proofs.FloatSplineEval.
Import ListNotations.
Local Open Scope R_scope.

Section First.
  Context {F : Format} {P : Type} {PT : Point float P} {CP : CwPoint float P}.

  Lemma front_close D ks (ps : list P) s : bspline_new D ks ps = Ret (Ok s) ->
    (bs_kind s = Clamped \/ bs_kind s = ClampedStart) -> moderate ks ->
    rnd (fknot ks D - fknot ks 0) < 2 * uro.
  Proof.
    intros H Hk Hm.
    destruct (new_cases D ks ps) as [(H1 & E)|[(H1 & H2 & E)|[(H1 & H2 & E)|[(H1 & H2 & H3 & E)|(H1 & H2 & H3 & E)]]]];
      rewrite E in H; try discriminate. 
    match type of H with Ret (Ok ?x) = _ => assert (Es : s = x) by congruence end. subst s. cbn [bs_kind] in Hk. clear E H.
    destruct (all_close (nth 0 ks (s_lit 0)) (firstn (D + 1) ks)) eqn:Ea.
    2:{ exfalso. revert Hk. rewrite ?Ea. generalize (all_close (nth (length ks - 1) ks (s_lit 0)) (skipn (length ks - D - 1) ks)).
        intros [] [Hk|Hk]; discriminate Hk. }
    unfold all_close in Ea. rewrite forallb_forall in Ea.
    assert (I : In (nth D ks (s_lit 0)) (firstn (D + 1) ks)).
    { rewrite <- (firstn_skipn (D + 1) ks) at 1. rewrite app_nth1 by (rewrite firstn_length; lia).
      apply nth_In. rewrite firstn_length. lia. }
    specialize (Ea _ I). cbv beta in Ea.
    assert (M : forall m, (m < length ks)%nat -> fin (nth m ks (s_lit 0)) /\ Rabs (val (nth m ks (s_lit 0))) <= fmax / 2)
      by (intros m Hl; apply Hm, nth_In, Hl).
    destruct (M D ltac:(lia)) as [A1 A2]. destruct (M 0%nat ltac:(lia)) as [B1 B2].
    destruct (sub_err _ _ A1 B1 A2 B2) as (S1 & S2 & _). destruct eps_ok as [E1 E2].
    rewrite ltb_val in Ea by (auto; now apply abs_fin). rewrite abs_val, S2, E2 in Ea.
    destruct (Rlt_bool_spec (Rabs (rnd (val (nth D ks (s_lit 0)) - val (nth 0 ks (s_lit 0))))) (2 * uro)) as [L|L];
      [|discriminate].
    unfold fknot. eapply Rle_lt_trans; [apply Rle_abs|exact L].
  Qed.

  (** the left end of the domain of a curve clamped there: the first control point *)
  Theorem eval_first_float D ks (ps : list P) s t : bspline_new D ks ps = Ret (Ok s) ->
    (bs_kind s = Clamped \/ bs_kind s = ClampedStart) -> (1 <= D)%nat -> moderate ks ->
    fin t -> val t = fknot ks D -> fknot ks D < fknot ks (D + 1) -> (forall p, In p ps -> fin_point p) ->
    exists p, bspline_eval s t = Ret (Ok p) /\ same_point p (nth 0 ps p_default).
  Proof.
    intros H Hk HD Hm Ht Et Hlt Hp.
    assert (Hu : bs_kind s <> Unclamped) by (destruct Hk as [-> | ->]; discriminate).
    pose proof (front_close D ks ps s H Hk Hm) as Hc.
    assert (Hf : forall x, In x ks -> fin x) by (intros x Hx; apply Hm, Hx).
    pose proof (new_fsorted D ks ps s H Hf) as Hs. destruct (new_wf D ks ps s H) as [W1 W2].
    destruct (new_fields D ks ps s H) as (E1 & E2 & E3). rewrite E1, E3 in W1. rewrite E1, E2, E3 in W2.
    assert (HC : fknot ks (D + 1) <= fknot ks (length ps)) by (apply Hs; lia).
    destruct (eval_entry D ks ps s t H Hu Hm Ht ltac:(lra)) as (k & Kb & [K1 K2] & Ee).
    assert (k = D).
    { destruct (Nat.lt_total k D) as [L|[L|L]]; [lia|exact L|].
      pose proof (Hs (D + 1)%nat k ltac:(lia)). lra. }
    subst k. eexists. split; [exact Ee|]. intros i Hi.
    assert (Hw : forall r j, (1 <= r <= j)%nat -> (j <= D)%nat -> weight s t D r j = s_lit 0).
    { intros r j Hr Hj. unfold weight. rewrite E1. replace (j + D - D)%nat with j by lia.
      assert (B : forall m, (m < length ks)%nat -> fin (nth m ks (s_lit 0)) /\ Rabs (val (nth m ks (s_lit 0))) <= fmax / 2)
        by (intros m Hl; apply Hm, nth_In, Hl).
      destruct (B D ltac:(lia)) as [A1 A2]. destruct (B j ltac:(lia)) as [B1 B2].
      assert (Bt : Rabs (val t) <= fmax / 2) by (rewrite Et; exact A2).
      destruct (sub_err t (nth j ks (s_lit 0)) Ht B1 Bt B2) as (S1 & S2 & _).
      unfold knot. rewrite E2. rewrite ltb_val by (auto; apply eps_ok). rewrite S2, (proj2 eps_ok).
      rewrite Rlt_bool_true; [reflexivity|]. eapply Rle_lt_trans; [|exact Hc].
      apply rnd_le. rewrite Et. pose proof (Hs 0%nat j ltac:(lia)). unfold fknot in *. lra. }
    assert (H0 : forall j, (j <= D)%nat -> fin (cw (entry s t D 0 j) i)).
    { intros j Hj. cbn [entry]. rewrite E1. destruct (Nat.ltb_spec j D).
      - apply Hp; [|exact Hi]. unfold cpoint. rewrite E3. apply nth_In. lia.
      - rewrite cw_default by exact Hi. apply (lit_small 0). lia. }
    assert (He : forall r, (r <= D)%nat -> forall j, (r <= j <= D)%nat ->
      is (cw (entry s t D r j) i) (val (cw (entry s t D 0 (j - r)) i))).
    { induction r as [|r IH]; intros Hr j Hj.
      - rewrite Nat.sub_0_r. split; [|reflexivity]. apply H0. lia.
      - change (is (cw (p_add (p_mul (entry s t D r (j - 1)) (s_sub (s_lit 1) (weight s t D (S r) j)))
                              (p_mul (entry s t D r j) (weight s t D (S r) j))) i)
                   (val (cw (entry s t D 0 (j - S r)) i))).
        rewrite (Hw (S r) j) by lia. rewrite cw_add, !cw_mul by exact Hi.
        assert (Z : is (s_lit 0 : float) 0) by (apply (lit_small 0); lia).
        assert (O : is (s_sub (s_lit 1) (s_lit 0) : float) 1).
        { destruct (lit_small 1 ltac:(lia)) as [O1 O2]. destruct (lit_small 0 ltac:(lia)) as [Z1 Z2].
          destruct (sub_ok (s_lit 1) (s_lit 0) O1 Z1) as [Q1 Q2].
          - rewrite O2, Z2. rewrite Rminus_0_r, Rabs_R1. pose proof fmax_ge. lra.
          - split; [exact Q1|]. rewrite Q2, O2, Z2, Rminus_0_r. apply rnd_float, float_1. }
        apply is_add_0.
        + apply is_mul_1; [|exact O]. replace (j - S r)%nat with (j - 1 - r)%nat by lia. apply IH; lia.
        + eapply is_mul_0; [apply IH; lia|exact Z]. }
    pose proof (He D (le_n _) D ltac:(lia)) as R. rewrite Nat.sub_diag in R.
    cbn [entry] in R. rewrite E1 in R. destruct (Nat.ltb_spec 0 D); [|lia].
    unfold cpoint in R. rewrite E3 in R. replace (0 + D - D)%nat with 0%nat in R by lia. exact R.
  Qed.
End First.
