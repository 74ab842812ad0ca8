(** Order and length for the repaired B-spline evaluation; the code's violation. *)
From Coq Require Import Reals List Arith Lia Lra.
From Verif Require Import Base.Outcome Base.Scalar Model.Point Model.BSpline Model.Repairs Inst.RealInst
  Spec.Sums Spec.Lawful Spec.Basis Spec.Metric Spec.Length Spec.Crossings Spec.SplinePoints Spec.Points
  Proofs.PointFacts Proofs.BoxSpec Proofs.Metric Proofs.BSplineReal Proofs.BSplineEval Proofs.BSplineCE Proofs.RepairSpline
  Proofs.LengthMore Proofs.SplineOrder.
Import ListNotations.
Local Open Scope R_scope.

Section Repaired.
  Context {E : Eps} {P : Type} {PT : Point R P} {LP : LawfulPoint P}.
  Variables (D : nat) (ks : list R) (ps : list P) (s : bspline R P).
  Hypothesis Hnew : bspline_new D ks ps = Ret (Ok s).
  Local Notation C := (length ps).
  Local Notation U i := (nth i ks 0).
  Hypotheses (Hend : U C = U (C + D)) (Hlast : U (C - 1) < U C).

  Lemma fixed_point t p : U D <= t <= U C -> fixed_eval s t = Ret (Ok p) -> curve_point D ks ps t p.
  Proof.
    intros Ht Ep. destruct (Rlt_le_dec t (U C)) as [L|L].
    - left. split; [lra|]. destruct (new_fixed_value D ks ps s Hnew t) as (q & Eq & Hq); [lra|].
      rewrite Ep in Eq. injection Eq as <-. exact Hq.
    - right. assert (t = U C) by lra. subst t. split; [reflexivity|].
      rewrite (new_fixed_last D ks ps s Hnew Hend Hlast) in Ep. now injection Ep as <-.
  Qed.
  Theorem fixed_order w t u p q : (forall k, (S k < C)%nat -> level w (nth k ps p_default) <= level w (nth (S k) ps p_default)) ->
    U D <= t -> t <= u -> u <= U C -> fixed_eval s t = Ret (Ok p) -> fixed_eval s u = Ret (Ok q) ->
    level w p <= level w q.
  Proof.
    intros Hw H1 H2 H3 Ep Eq. destruct (sizes D ks ps s Hnew) as [HDC HK]. pose proof (ks_sorted D ks ps s Hnew) as Hs.
    apply (curve_order D ks ps Hs ltac:(lia) HDC w t u); [exact Hw|exact H2|apply fixed_point; [lra|exact Ep]|apply fixed_point; [lra|exact Eq]].
  Qed.
  Theorem fixed_length n a : (0 < n)%nat -> fixed_bspline_arclen s n = Ret a -> a <= polygon_length ps.
  Proof.
    intros Hn Ea. destruct (sizes D ks ps s Hnew) as [HDC HK]. pose proof (ks_sorted D ks ps s Hnew) as Hs.
    destruct (new_fixed_arclen D ks ps s Hnew n Hn) as (e & He & E'). rewrite E' in Ea. injection Ea as <-.
    assert (HN : 0 < INR n) by (apply lt_0_INR; lia).
    set (T := fun i => U D + INR i / INR n * (U C - U D)).
    assert (Hd : U D <= U C) by (apply Hs; lia).
    assert (TM : forall i j, (i <= j)%nat -> T i <= T j).
    { intros i j Hij. unfold T. apply Rplus_le_compat_l, Rmult_le_compat_r; [lra|].
      apply Rmult_le_compat_r; [apply Rlt_le, Rinv_0_lt_compat; exact HN|apply le_INR; exact Hij]. }
    assert (T0 : T 0%nat = U D) by (unfold T; cbn [INR]; field; lra).
    assert (T1 : T n = U C) by (unfold T; field; lra).
    set (ts := map T (seq 0 (S n))). set (qs := map (fun i => e (T i)) (seq 0 (S n))).
    assert (Lt : length ts = S n) by (unfold ts; now rewrite map_length, seq_length).
    assert (Nt : forall i, (i < S n)%nat -> nth i ts 0 = T i).
    { intros i Hi. unfold ts. rewrite (nth_indep _ 0 (T 0%nat)) by (rewrite map_length, seq_length; exact Hi).
      rewrite (map_nth T), seq_nth by exact Hi. reflexivity. }
    assert (Lq : length qs = S n) by (unfold qs; now rewrite map_length, seq_length).
    assert (Nq : forall i, (i < S n)%nat -> nth i qs p_default = e (T i)).
    { intros i Hi. unfold qs. rewrite (nth_indep _ p_default (e (T 0%nat))) by (rewrite map_length, seq_length; exact Hi).
      rewrite (map_nth (fun i => e (T i))), seq_nth by exact Hi. reflexivity. }
    replace (polyline (fun u => e (U D + u * (U C - U D))) n) with (polygon_length qs).
    - apply (curve_length D ks ps Hs ltac:(lia) HDC ts).
      + apply Forall2_nth_intro with (da := 0) (db := p_default); [lia|]. intros i Hi. rewrite Nt, Nq by lia.
        assert (R' : U D <= T i <= U C) by (rewrite <- T0, <- T1; split; apply TM; lia).
        apply fixed_point; [exact R'|]. apply He. exact R'.
      + intros i j Hij. rewrite !Nt by lia. apply TM. lia.
    - rewrite polygon_sum, Lq. replace (S n - 1)%nat with n by lia. unfold polyline. apply Rsum_ext. intros i Hi.
      unfold leg_length. rewrite !Nq by lia. reflexivity.
  Qed.
End Repaired.

Local Existing Instance Eps64.
(** the code turns back: points 1, 1 give the values 1, 1/2, 1 at 0, 1/2, 1 *)
Lemma order_violated : exists s : bspline R P1,
  bspline_new 1 [0;0;1;1] [pt1 1; pt1 1] = Ret (Ok s) /\ bs_kind s = Clamped /\
  bspline_eval s 0 = Ret (Ok (pt1 1)) /\ bspline_eval s (1/2) = Ret (Ok (pt1 (1/2))) /\
  bspline_eval s 1 = Ret (Ok (pt1 1)) /\
  polygon_length [pt1 1; pt1 1] = 0 /\ polygon_length [pt1 1; pt1 (1/2); pt1 1] = 1.
Proof.
  destruct constant_not_constant as (s & Hnew & Hk & _ & Ev). exists s. split; [exact Hnew|]. split; [exact Hk|].
  split; [|split; [exact Ev|split]].
  - pose proof (eval_first 1 [0;0;1;1] [pt1 1; pt1 1] s Hnew (le_n 1) (or_introl Hk)) as H. cbn [nth Nat.add] in H. apply H. lra.
  - pose proof (eval_last 1 [0;0;1;1] [pt1 1; pt1 1] s Hnew) as H. cbn [nth length Nat.sub] in H. exact H.
  - cbn [polygon_length]. rewrite !dist_pt1. split.
    + replace (1 - 1) with 0 by lra. rewrite Rabs_R0. lra.
    + rewrite (Rabs_right (1 - 1/2)), (Rabs_left (1/2 - 1)) by lra. lra.
Qed.
