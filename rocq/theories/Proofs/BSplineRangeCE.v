(** A spline clamped at its start only, evaluated at its last knot. *)
From Coq Require Import Reals QArith Qreals List Arith Lia Lra.
From Verif Require Import Base.Outcome Base.Scalar Model.Point Model.BSpline
  Inst.RealInst Inst.RatInst Spec.Sums Spec.Lawful Spec.Points Spec.Hull Spec.Maps
  Proofs.OutcomeFacts Proofs.PointFacts Proofs.RealTac Proofs.BezierReal Proofs.BSplineCE Proofs.Transfer.
Import ListNotations.
Local Open Scope R_scope.

Section CE.
  Local Existing Instance QEps64.
  Local Existing Instance Eps64.

  Lemma overshoot_ce : exists s : bspline R P1,
    bspline_new 1 [0;0;1;3] [pt1 1; pt1 1] = Ret (Ok s) /\ bs_kind s = ClampedStart /\
    knot_domain s = Ret (0, 3) /\ bspline_eval s 3 = Ret (Ok (pt1 (-2))) /\
    ~ in_hull [pt1 1; pt1 1; p_default] (pt1 (-2)).
  Proof.
    let s := eval vm_compute in (bspline_new 1 (qk [0;0;1;3]%Z) (qp [1;1]%Z)) in
    match s with Ret (Ok ?sQ) =>
      assert (HQ : bspline_new 1 (qk [0;0;1;3]%Z) (qp [1;1]%Z) = Ret (Ok sQ)) by (vm_compute; reflexivity);
      pose proof (new_transfer 1 [0;0;1;3]%Z [1;1]%Z sQ HQ) as HR
    end.
    eexists. split; [exact HR|]. split; [reflexivity|]. split; [|split].
    - unfold P1; rewrite (knot_domain_hom Q2R pq2r); vm_compute knot_domain; cbn [omap]; unfold h2; cbn [fst snd];
      unfold Q2R; cbn [Qnum Qden]; do 2 f_equal; lra.
    - unfold P1. match goal with |- bspline_eval _ ?t = _ => replace t with (Q2R (3 # 1)) by (unfold Q2R; cbn [Qnum Qden]; lra) end.
      rewrite (bspline_eval_hom Q2R pq2r); vm_compute bspline_eval; cbn [omap rmap].
      do 2 f_equal. apply pn_eq. cbn. f_equal. unfold Q2R; cbn [Qnum Qden]; lra.
    - intros H. assert (Hd : (0 < p_dim (P := P1))%nat) by (cbn; lia).
      pose proof (hull_box _ _ 0 0 1 Hd H) as Hb.
      assert (X : 0 <= coord (pt1 (-2)) 0 <= 1).
      { apply Hb. intros p [<-|[<-|[<-|[]]]]; cbn; lra. }
      cbn in X. lra.
  Qed.
End CE.
