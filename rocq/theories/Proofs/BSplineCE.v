(** Concrete B-splines on which the code goes wrong, computed with rational
    numbers and carried over to the reals. *)
From Coq Require Import Reals QArith Qreals List Arith Lia Lra.
From Verif Require Import Base.Outcome Base.Scalar Model.Point Model.BSpline
  Inst.RealInst Inst.RatInst Spec.Sums Spec.Lawful Spec.Points Spec.Basis Spec.Length
  Proofs.OutcomeFacts Proofs.PointFacts Proofs.RealTac Proofs.Metric Proofs.BoxSpec Proofs.BSplineReal Proofs.BSplineEval
  Proofs.BasisCalc Proofs.BSplineArclen Spec.Maps Proofs.Transfer.
Import ListNotations.
Local Open Scope R_scope.

Section CE.
  Local Existing Instance QEps64.
  Local Existing Instance Eps64.

  Definition qpt1 (x : Q) : PointN Q 1 := pt [x].
  Definition rk (zs : list Z) : list R := map IZR zs.
  Definition qk (zs : list Z) : list Q := map inject_Z zs.
  Definition rp (zs : list Z) : list P1 := map (fun z => pt1 (IZR z)) zs.
  Definition qp (zs : list Z) : list (PointN Q 1) := map (fun z => qpt1 (inject_Z z)) zs.

  Lemma qk_map zs : map Q2R (qk zs) = rk zs.
  Proof. unfold qk, rk. rewrite map_map. apply map_ext. apply Q2R_Z. Qed.
  Lemma pq2r_qpt1 x : pq2r (qpt1 x) = pt1 (Q2R x).
  Proof. apply pn_eq. reflexivity. Qed.
  Lemma qp_map zs : map pq2r (qp zs) = rp zs.
  Proof. unfold qp, rp. rewrite map_map. apply map_ext. intros z. now rewrite pq2r_qpt1, Q2R_Z. Qed.

  Lemma new_transfer D kz pz sQ : bspline_new D (qk kz) (qp pz) = Ret (Ok sQ) ->
    bspline_new D (rk kz) (rp pz) = Ret (Ok (smap Q2R pq2r sQ)).
  Proof.
    intros H. pose proof (bspline_new_hom Q2R pq2r D (qk kz) (qp pz)) as T.
    rewrite H, qk_map, qp_map in T. exact T.
  Qed.

  Ltac spline kz pz D :=
    let s := eval vm_compute in (bspline_new D (qk kz) (qp pz)) in
    match s with Ret (Ok ?sQ) =>
      assert (HQ : bspline_new D (qk kz) (qp pz) = Ret (Ok sQ)) by (vm_compute; reflexivity);
      pose proof (new_transfer D kz pz sQ HQ) as HR
    end.

  Ltac dom := unfold P1; rewrite (knot_domain_hom Q2R pq2r); vm_compute knot_domain; cbn [omap]; unfold h2; cbn [fst snd];
      unfold Q2R; cbn [Qnum Qden]; do 2 f_equal; lra.
  Ltac ev q := unfold P1; match goal with |- bspline_eval _ ?t = _ => replace t with (Q2R q) by (unfold Q2R; cbn [Qnum Qden]; lra) end;
      rewrite (bspline_eval_hom Q2R pq2r); vm_compute bspline_eval; cbn [omap rmap].

  (** C43: panics inside the reported domain *)
  Lemma unclamped_panic : exists s : bspline R P1,
    bspline_new 3 [0;1;2;3;4;5;6;7;8;9;10;11;12;13] (repeat (pt1 1) 10) = Ret (Ok s) /\
    bs_kind s = Unclamped /\ knot_domain s = Ret (3, 10) /\ bspline_eval s (17/2) = Panic.
  Proof.
    spline [0;1;2;3;4;5;6;7;8;9;10;11;12;13]%Z [1;1;1;1;1;1;1;1;1;1]%Z 3%nat.
    eexists. split; [exact HR|]. split; [reflexivity|]. split; [dom|]. ev (17 # 2). reflexivity.
  Qed.
  Lemma clamped_start_panic : exists s : bspline R P1,
    bspline_new 2 [0;0;0;1;2;3] (repeat (pt1 1) 3) = Ret (Ok s) /\
    bs_kind s = ClampedStart /\ knot_domain s = Ret (0, 3) /\ bspline_eval s (5/2) = Panic.
  Proof.
    spline [0;0;0;1;2;3]%Z [1;1;1]%Z 2%nat.
    eexists. split; [exact HR|]. split; [reflexivity|]. split; [dom|]. ev (5 # 2). reflexivity.
  Qed.
  Lemma clamped_end_panic : exists s : bspline R P1,
    bspline_new 1 [0;1;2;2] (repeat (pt1 1) 2) = Ret (Ok s) /\
    bs_kind s = ClampedEnd /\ knot_domain s = Ret (0, 2) /\ bspline_eval s (1/2) = Panic.
  Proof.
    spline [0;1;2;2]%Z [1;1]%Z 1%nat.
    eexists. split; [exact HR|]. split; [reflexivity|]. split; [dom|]. ev (1 # 2). reflexivity.
  Qed.

  (** C44: all control points equal 1, but the curve leaves 1 (clamped); a uniform
      polyline never leaves its last vertex (unclamped) *)
  Lemma constant_not_constant : exists s : bspline R P1,
    bspline_new 1 [0;0;1;1] [pt1 1; pt1 1] = Ret (Ok s) /\ bs_kind s = Clamped /\
    spline_coord 1 [0;0;1;1] [pt1 1; pt1 1] (1/2) 0 = 1 /\
    bspline_eval s (1/2) = Ret (Ok (pt1 (1/2))).
  Proof.
    spline [0;0;1;1]%Z [1;1]%Z 1%nat.
    eexists. split; [exact HR|]. split; [reflexivity|]. split.
    - apply spline_constant.
      + exact (ks_sorted _ _ _ _ HR).
      + reflexivity.
      + cbn [nth length]. lra.
      + intros p [<-|[<-|[]]]; reflexivity.
    - ev (1 # 2). do 2 f_equal. apply pn_eq. cbn [pq2r pn_arr map pt1 pt]. unfold Q2R. cbn [Qnum Qden]; f_equal; lra.
  Qed.
  Lemma zero_stays_zero : exists s : bspline R P1,
    bspline_new 1 [0;0;1;1] [pt1 0; pt1 0] = Ret (Ok s) /\ bspline_eval s (1/2) = Ret (Ok (pt1 0)).
  Proof.
    spline [0;0;1;1]%Z [0;0]%Z 1%nat. eexists. split; [exact HR|].
    ev (1 # 2). do 2 f_equal. apply pn_eq. cbn [pq2r pn_arr map pt1 pt]. unfold Q2R. cbn [Qnum Qden]; f_equal; lra.
  Qed.
  Lemma uniform_wrong : exists s : bspline R P1,
    bspline_new 1 [0;1;2;3] [pt1 0; pt1 2] = Ret (Ok s) /\ bs_kind s = Unclamped /\
    knot_domain s = Ret (1, 2) /\
    spline_coord 1 [0;1;2;3] [pt1 0; pt1 2] (3/2) 0 = 1 /\
    bspline_eval s (3/2) = Ret (Ok (pt1 2)).
  Proof.
    spline [0;1;2;3]%Z [0;2]%Z 1%nat.
    eexists. split; [exact HR|]. split; [reflexivity|]. split; [dom|]. split.
    - unfold spline_coord. cbn [length Rsum nth Nat.add basis]. 
      repeat match goal with
      | |- context [Rle_dec ?a ?b] => first [destruct (Rle_dec a b); [|exfalso; lra] | destruct (Rle_dec a b); [exfalso; lra|]]
      | |- context [Rlt_dec ?a ?b] => first [destruct (Rlt_dec a b); [|exfalso; lra] | destruct (Rlt_dec a b); [exfalso; lra|]]
      end.
      rewrite !quot_nz by lra. cbn. lra.
    - ev (3 # 2). do 2 f_equal. apply pn_eq. cbn [pq2r pn_arr map pt1 pt]. unfold Q2R. cbn [Qnum Qden]; f_equal; lra.
  Qed.

  (** C45: degree 0 starts at the origin *)
  Lemma degree0_origin : exists s : bspline R P1,
    bspline_new 0 [0;1] [pt1 1] = Ret (Ok s) /\ bs_kind s = Clamped /\
    knot_domain s = Ret (0, 1) /\ bspline_eval s 0 = Ret (Ok (pt1 0)).
  Proof.
    spline [0;1]%Z [1]%Z 0%nat.
    eexists. split; [exact HR|]. split; [reflexivity|]. split; [dom|]. ev 0%Q.
    do 2 f_equal. apply pn_eq. cbn [pq2r pn_arr map pt1 pt]. unfold Q2R. cbn [Qnum Qden]; f_equal; lra.
  Qed.

  (** C49: the wrong span *)
  Lemma unclamped_wrong_span : exists s : bspline R P1,
    bspline_new 3 [0;1;2;3;4;5;6;7] (repeat (pt1 1) 4) = Ret (Ok s) /\
    knot_span_start_for_t s (7/2) = Ret (Some 4%nat).
  Proof.
    spline [0;1;2;3;4;5;6;7]%Z [1;1;1;1]%Z 3%nat.
    eexists. split; [exact HR|].
    replace (7/2) with (Q2R (7 # 2)) by (unfold Q2R; cbn [Qnum Qden]; lra).
    unfold P1. rewrite (knot_span_hom Q2R pq2r). vm_compute. reflexivity.
  Qed.

  (** C47: the derivative of the line from 0 to 1 cannot be evaluated in the
      middle of its domain; its knot vector is too long for its degree *)
  Lemma derivative_ce : exists s s' : bspline R P1,
    bspline_new 1 [0;0;1;1] [pt1 0; pt1 1] = Ret (Ok s) /\ bspline_derivative s = Ret s' /\
    bs_points s' = [pt1 1] /\ bs_degree s' = 0%nat /\ length (bs_knots s') = 4%nat /\
    knot_domain s' = Ret (0, 1) /\ bspline_eval s' (1/2) = Ret (Err KnotDomainViolation).
  Proof.
    spline [0;0;1;1]%Z [0;1]%Z 1%nat.
    eexists. eexists. split; [exact HR|]. split.
    { unfold P1. rewrite (bspline_derivative_hom Q2R pq2r). vm_compute bspline_derivative. cbn [omap]. reflexivity. }
    split; [|split; [reflexivity|split; [reflexivity|split]]].
    - cbn [smap bs_points map]. f_equal. apply pn_eq. cbn [pq2r pn_arr map pt1 pt]. unfold Q2R. cbn [Qnum Qden]; f_equal; lra.
    - dom.
    - ev (1 # 2). reflexivity.
  Qed.

  (** C47: a quadratic moving with velocity 2; its derivative is evaluated to 1,
      and not at all on the last span *)
  Lemma constant_velocity : exists s s' : bspline R P1,
    bspline_new 2 [0;0;0;1;2;2;2] [pt1 0; pt1 1; pt1 3; pt1 4] = Ret (Ok s) /\ bs_kind s = Clamped /\
    bspline_derivative s = Ret s' /\ bs_points s' = [pt1 2; pt1 2; pt1 2] /\
    bspline_eval s' (1/2) = Ret (Ok (pt1 1)) /\ bspline_eval s' (3/2) = Ret (Err KnotDomainViolation).
  Proof.
    spline [0;0;0;1;2;2;2]%Z [0;1;3;4]%Z 2%nat.
    eexists. eexists. split; [exact HR|]. split; [reflexivity|]. split.
    { unfold P1. rewrite (bspline_derivative_hom Q2R pq2r). vm_compute bspline_derivative. cbn [omap]. reflexivity. }
    split; [|split].
    - cbn [smap bs_points map]. repeat f_equal; apply pn_eq; cbn [pq2r pn_arr map pt1 pt]; unfold Q2R; cbn [Qnum Qden]; f_equal; lra.
    - ev (1 # 2). do 2 f_equal. apply pn_eq; cbn [pq2r pn_arr map pt1 pt]; unfold Q2R; cbn [Qnum Qden]; f_equal; lra.
    - ev (3 # 2). reflexivity.
  Qed.

  (** C48: a constant curve with positive reported length *)
  Lemma arclen_ce : exists s : bspline R P1,
    bspline_new 1 [0;0;1;1] [pt1 1; pt1 1] = Ret (Ok s) /\ bspline_arclen s 1 = Ret 1.
  Proof.
    spline [0;0;1;1]%Z [1;1]%Z 1%nat.
    eexists. split; [exact HR|].
    destruct (arclen_unit 1 [0;0;1;1] [pt1 1; pt1 1] _ 1 HR eq_refl eq_refl eq_refl) as (e & He & ->); [lia|].
    assert (E0 : e 0 = pt1 1).
    { assert (H : bspline_eval (smap Q2R pq2r (BSpline 1 (qk [0;0;1;1]%Z) Clamped (qp [1;1]%Z))) 0 = Ret (Ok (e 0))) by (apply He; lra).
      rewrite <- Q2R_0 in H at 1. unfold P1 in H. rewrite (bspline_eval_hom Q2R pq2r) in H. vm_compute bspline_eval in H. cbn [omap rmap] in H.
      injection H as <-. apply pn_eq. cbn [pq2r pn_arr map pt1 pt]. unfold Q2R. cbn [Qnum Qden]; f_equal; lra. }
    assert (E1 : e 1 = pt1 1).
    { assert (H : bspline_eval (smap Q2R pq2r (BSpline 1 (qk [0;0;1;1]%Z) Clamped (qp [1;1]%Z))) 1 = Ret (Ok (e 1))) by (apply He; lra).
      replace 1 with (Q2R 1) in H at 1 by (unfold Q2R; cbn; lra).
      unfold P1 in H. rewrite (bspline_eval_hom Q2R pq2r) in H. vm_compute bspline_eval in H. cbn [omap rmap] in H.
      injection H as <-. apply pn_eq. cbn [pq2r pn_arr map pt1 pt]. unfold Q2R. cbn [Qnum Qden]; f_equal; lra. }
    f_equal. unfold Length.polyline. cbn [Rsum INR Nat.add]. replace (0/1) with 0 by lra. replace (1/1) with 1 by lra.
    rewrite E0, E1, Metric.dist_refl. cbn [length Nat.sub nth].
    assert (Hd : p_default = pt1 0) by (apply pn_eq; reflexivity). rewrite Hd, dist_pt1.
    rewrite Rabs_pos_eq by lra. lra.
  Qed.
End CE.
