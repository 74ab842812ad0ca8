(** Splines whose results change with the length of the knot interval or the direction. *)
From Coq Require Import Reals QArith Qreals List Arith Lia Lra.
From Verif Require Import Base.Outcome Base.Scalar Model.Point Model.BSpline
  Inst.RealInst Inst.RatInst Spec.Sums Spec.Lawful Spec.Points Spec.Maps
  Proofs.OutcomeFacts Proofs.PointFacts Proofs.RealTac Proofs.Metric Proofs.BoxSpec Proofs.BezierReal Proofs.BSplineArclen
  Proofs.BSplineCE Proofs.Transfer Proofs.Reparam.
Import ListNotations.
Local Open Scope R_scope.

Section CE.
  Local Existing Instance QEps64.
  Local Existing Instance Eps64.

  Ltac spline kz pz D :=
    let s := eval vm_compute in (bspline_new D (qk kz) (qp pz)) in
    match s with Ret (Ok ?sQ) =>
      assert (HQ : bspline_new D (qk kz) (qp pz) = Ret (Ok sQ)) by (vm_compute; reflexivity);
      pose proof (new_transfer D kz pz sQ HQ) as HR
    end.
  Ltac dom := unfold P1; rewrite (knot_domain_hom Q2R pq2r); vm_compute knot_domain; cbn [omap]; unfold h2; cbn [fst snd];
      unfold Q2R; cbn [Qnum Qden]; do 2 f_equal; lra.
  Ltac ev q := unfold P1; match goal with |- bspline_eval _ ?t = _ => replace t with (Q2R q) by (unfold Q2R; cbn [Qnum Qden]; lra) end;
      rewrite (bspline_eval_hom Q2R pq2r); vm_compute bspline_eval; cbn [omap rmap].
  Ltac pnt := do 2 f_equal; apply pn_eq; cbn; f_equal; unfold Q2R; cbn [Qnum Qden]; lra.

  Lemma reverse_ce : exists s s' : bspline R P1,
    bspline_new 1 [0;0;1;1] [pt1 1; pt1 3] = Ret (Ok s) /\ bspline_new 1 [0;0;1;1] [pt1 3; pt1 1] = Ret (Ok s') /\
    bspline_eval s (1 / 2) = Ret (Ok (pt1 (1 / 2))) /\ bspline_eval s' (1 - 1 / 2) = Ret (Ok (pt1 (3 / 2))).
  Proof.
    spline [0;0;1;1]%Z [1;3]%Z 1%nat. clear HQ. rename HR into HR1. spline [0;0;1;1]%Z [3;1]%Z 1%nat.
    eexists. eexists. split; [exact HR1|]. split; [exact HR|]. split; [ev (1 # 2)|ev (1 # 2)]; pnt.
  Qed.

  Lemma stretch_ce : exists s s' : bspline R P1,
    bspline_new 1 [0;0;1;1] [pt1 1; pt1 1] = Ret (Ok s) /\ bspline_new 1 [0;0;2;2] [pt1 1; pt1 1] = Ret (Ok s') /\
    bspline_arclen s 1 = Ret 1 /\ bspline_arclen s' 1 = Ret (3 / 2).
  Proof.
    destruct arclen_ce as (s & Hs & Ha). spline [0;0;2;2]%Z [1;1]%Z 1%nat.
    exists s. eexists. split; [exact Hs|]. split; [exact HR|]. split; [exact Ha|].
    match goal with |- bspline_arclen ?x _ = _ => set (s' := x : bspline R P1) end.
    assert (Hd : knot_domain (P := P1) s' = Ret (0, 2)) by (unfold s'; dom).
    assert (E0 : bspline_eval (P := P1) s' 0 = Ret (Ok (pt1 1))) by (unfold s'; ev (0 # 1); pnt).
    assert (E1 : bspline_eval (P := P1) s' 1 = Ret (Ok (pt1 (1 / 2)))) by (unfold s'; ev (1 # 1); pnt).
    assert (E2 : bspline_eval (P := P1) s' 2 = Ret (Ok (pt1 1))) by (unfold s'; ev (2 # 1); pnt).
    assert (E3 : bspline_eval (P := P1) s' 3 = Ret (Err KnotDomainViolation)) by (unfold s'; ev (3 # 1); reflexivity).
    unfold bspline_arclen. rewrite Hd. cbn [bind fst snd].
    change (range_incl 0 1) with [0; 1]%nat. cbn [for_in].
    rs. simpl (INR 0). simpl (INR 1).
    replace (0 + 0 / 1 * (2 - 0)) with 0 by field. replace (0 + 1 / 1) with 1 by field.
    replace (0 + 1 / 1 * (2 - 0)) with 2 by field. replace (2 + 1 / 1) with 3 by field.
    unfold eval_or_default. rewrite E0, E1, E2, E3. cbn [bind]. f_equal.
    rewrite !sqrt_sqlen_sub. rewrite dist_pt1.
    replace (p_default : P1) with (pt1 0) by (apply pn_eq; reflexivity). rewrite dist_pt1.
    replace (1 - 1 / 2) with (1 / 2) by lra. rewrite !Rabs_pos_eq by lra. lra.
  Qed.
End CE.

Lemma shrink_ce {E : Eps} : exists s s' : bspline R P1,
  bspline_new 1 [0; eps; 2 * eps; 3 * eps] [pt1 1; pt1 1] = Ret (Ok s) /\ bs_kind s = Unclamped /\
  bspline_new 1 [1 / 4 * 0; 1 / 4 * eps; 1 / 4 * (2 * eps); 1 / 4 * (3 * eps)] [pt1 1; pt1 1] = Ret (Ok s') /\ bs_kind s' = Clamped.
Proof.
  pose proof eps_pos as He.
  exists (BSpline 1 [0; eps; 2 * eps; 3 * eps] Unclamped [pt1 1; pt1 1]).
  exists (BSpline 1 [1 / 4 * 0; 1 / 4 * eps; 1 / 4 * (2 * eps); 1 / 4 * (3 * eps)] Clamped [pt1 1; pt1 1]).
  unfold bspline_new, all_close. cbn [length Nat.leb Nat.ltb Nat.add any_decreasing idx nth_error bind usub Nat.sub firstn skipn forallb].
  rs. split; [|split; [reflexivity|split; [|reflexivity]]].
  - rewrite !(Rltb_false _ _) by lra. cbn [orb andb].
    rewrite (Rltb_false (Rabs (eps - 0)) eps) by (rewrite Rabs_pos_eq by lra; lra).
    rewrite (Rltb_false (Rabs (2 * eps - 3 * eps)) eps) by (rewrite Rabs_left by lra; lra).
    rewrite !andb_false_r. cbn [andb]. reflexivity.
  - rewrite (Rltb_false (1 / 4 * eps) (1 / 4 * 0)), (Rltb_false (1 / 4 * (2 * eps)) (1 / 4 * eps)),
      (Rltb_false (1 / 4 * (3 * eps)) (1 / 4 * (2 * eps))) by lra. cbn [orb].
    rewrite !(fun x y => Rltb_true (Rabs x) y) by (apply Rabs_def1; lra). reflexivity.
Qed.
