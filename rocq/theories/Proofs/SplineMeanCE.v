(** C134 does not hold for the evaluation of the code: the line from 0 to 1. *)
From Coq Require Import Reals QArith Qreals List Arith Lia Lra.
From Coquelicot Require Import Coquelicot.
From Verif Require Import Base.Outcome Base.Scalar Model.Point Model.BSpline Inst.RealInst Inst.RatInst
  Spec.Sums Spec.Lawful Spec.Basis Spec.Limits Spec.Points Spec.Metric Spec.Maps Proofs.OutcomeFacts
  Proofs.PointFacts Proofs.RealTac Proofs.BoxSpec Proofs.Transfer Proofs.BSplineCE Proofs.BSplineRange Proofs.BSplineJump Proofs.SplineMean Proofs.Stability.
Import ListNotations.
Local Open Scope R_scope.

Section Line.
  Local Existing Instance QEps64.
  Local Existing Instance Eps64.
  Local Notation ks := [0;0;1;1].
  Local Notation ps := [pt1 0; pt1 1].
  Lemma line_values s e t : bspline_new 1 ks ps = Ret (Ok s) -> bs_kind s = Clamped -> bspline_eval s t = Ret (Ok e) ->
    (eps <= t < 1 -> coord e 0 = 0) /\ Rabs (coord e 0) <= 1.
  Proof.
    intros Hnew Hk He. split.
    - intros Ht. destruct (eval_in_span 1 ks ps s Hnew t 1 ltac:(congruence) ltac:(cbn; lia) ltac:(cbn [nth Nat.add]; lra)) as (p & Ep & V).
      rewrite He in Ep. injection Ep as <-. rewrite (V 0%nat ltac:(cbn; lia)). unfold spline_coord. set (V0 := fun m => nth m ks 0). cbn [length Rsum nth]. rewrite !coord_pt1.
      rewrite (basis_last V0 1 1); [lra| |unfold V0; cbn [nth Nat.add]; pose proof eps_pos; lra].
      intros a b Ha Hb. unfold V0. cbn in Hb. do 4 (destruct b as [|b]; [do 4 (destruct a as [|a]; [first [lia|cbn; lra]|]); lia|]). lia.
    - pose proof (eval_norm 1 ks ps s Hnew t e 1 ltac:(lra)) as N.
      assert (Hd : p_default = pt1 0) by (apply pn_eq; reflexivity).
      assert (W : dist e p_default <= 1).
      { apply N; [|exact He|intros (O & _); congruence].
        intros q [<-|[<-|[]]]; rewrite Hd, dist_pt1; [rewrite Rminus_diag_eq, Rabs_R0 by reflexivity|rewrite Rabs_pos_eq]; lra. }
      assert (B : Rabs (coord e 0 - coord (pt1 0) 0) <= dist e (pt1 0)) by (apply coord_dist; cbn; lia). rewrite Hd in W.
      change (coord (pt1 0) 0) with 0 in B.
      rewrite Rminus_0_r in B. lra.
  Qed.

  Lemma line_clamped : exists s : bspline R P1, bspline_new 1 ks ps = Ret (Ok s) /\ bs_kind s = Clamped.
  Proof.
    let s := eval vm_compute in (bspline_new 1 (qk [0;0;1;1]%Z) (qp [0;1]%Z)) in
    match s with Ret (Ok ?sQ) =>
      assert (HQ : bspline_new 1 (qk [0;0;1;1]%Z) (qp [0;1]%Z) = Ret (Ok sQ)) by (vm_compute; reflexivity);
      pose proof (new_transfer 1 [0;0;1;1]%Z [0;1]%Z sQ HQ) as HR
    end.
    eexists. split; [exact HR|reflexivity].
  Qed.
  Lemma line_mean_ce : exists s : bspline R P1, bspline_new 1 ks ps = Ret (Ok s) /\ knot_domain s = Ret (0, 1) /\
    (Rsum (fun j => (nth (j + 1 + 1) ks 0 - nth j ks 0) / INR 2 * coord (nth j ps p_default) 0) 2 = / 2) /\
    forall e, (forall t, 0 <= t <= 1 -> bspline_eval s t = Ret (Ok (e t))) -> ~ is_RInt (fun t => coord (e t) 0) 0 1 (/ 2).
  Proof.
    let s := eval vm_compute in (bspline_new 1 (qk [0;0;1;1]%Z) (qp [0;1]%Z)) in
    match s with Ret (Ok ?sQ) =>
      assert (HQ : bspline_new 1 (qk [0;0;1;1]%Z) (qp [0;1]%Z) = Ret (Ok sQ)) by (vm_compute; reflexivity);
      pose proof (new_transfer 1 [0;0;1;1]%Z [0;1]%Z sQ HQ) as HR
    end.
    eexists. split; [exact HR|]. split; [unfold P1; rewrite (knot_domain_hom Q2R pq2r); vm_compute knot_domain; cbn [omap]; unfold h2; cbn [fst snd];
      unfold Q2R; cbn [Qnum Qden]; do 2 f_equal; lra|]. split; [cbn; field|].
    intros e He Hi.
    match goal with H : forall t, _ -> bspline_eval ?s t = _ |- _ =>
      assert (V : forall t, 0 <= t <= 1 -> (eps <= t < 1 -> coord (e t) 0 = 0) /\ Rabs (coord (e t) 0) <= 1)
        by (intros t Ht; apply (line_values s (e t) t HR eq_refl (H t Ht))) end.
    assert (L : eps < / 2).
    { change (/ 2 ^ 52 < / 2). apply Rinv_lt_contravar; [apply Rmult_lt_0_compat; [lra|apply pow_lt; lra]|].
      replace 2 with (2 ^ 1) at 1 by ring. apply Rlt_pow; [lra|lia]. }
    pose proof eps_pos as Hp.
    assert (X : ex_RInt (fun t => coord (e t) 0) 0 eps) by (apply (ex_RInt_Chasles_1 (V := R_CompleteNormedModule)) with 1; [lra|eexists; exact Hi]).
    destruct X as (l & Hl).
    assert (Z : is_RInt (fun t => coord (e t) 0) eps 1 0).
    { apply zero_RInt. intros x Hx. rewrite Rmin_left, Rmax_right in Hx by lra. apply V; lra. }
    pose proof (is_RInt_Chasles (V := R_NormedModule) _ _ _ _ _ _ Hl Z) as S. unfold plus in S. cbn in S.
    pose proof (is_RInt_unique (V := R_CompleteNormedModule) _ _ _ _ S) as A.
    pose proof (is_RInt_unique (V := R_CompleteNormedModule) _ _ _ _ Hi) as B.
    assert (Lb : l <= (eps - 0) * 1).
    { apply (is_RInt_le (fun t => coord (e t) 0) (fun _ => 1) 0 eps); [lra|exact Hl| |].
      - apply (is_RInt_const (V := R_NormedModule)).
      - intros x Hx. destruct (V x ltac:(lra)) as [_ W]. apply Rabs_le_between in W. lra. }
    assert (l + 0 = / 2) by (rewrite <- A, <- B; reflexivity). lra.
  Qed.
End Line.
