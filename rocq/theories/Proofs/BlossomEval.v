(** Reproduction of polynomials by the repaired evaluation and by the code. *)
From Coq Require Import Reals List Arith Lia Lra.
From Verif Require Import Base.Outcome Base.Scalar Model.Point Model.BSpline Model.Repairs Inst.RealInst
  Spec.Sums Spec.Lawful Spec.Points Spec.Basis Spec.SplinePoints Spec.Blossom
  Proofs.PointFacts Proofs.RealTac Proofs.BSplineGeneric Proofs.BSplineReal Proofs.BSplineEval
  Proofs.BasisCalc Proofs.RepairSpline Proofs.SplineOrder Proofs.BoxSpec Proofs.BSplineCE Proofs.RepairLoad Proofs.BlossomFacts.
Import ListNotations.
Local Open Scope R_scope.

Lemma map_same (x : R) n : forall m, map (fun _ => x) (seq m n) = repeat x n.
Proof. induction n as [|n IH]; intros m; cbn; [reflexivity|]. now rewrite IH. Qed.

Section Eval.
  Context {E : Eps} {P : Type} {PT : Point R P} {LP : LawfulPoint P}.
  Variables (D : nat) (ks : list R) (ps : list P) (s : bspline R P).
  Hypothesis Hnew : bspline_new D ks ps = Ret (Ok s).
  Local Notation C := (length ps).
  Local Notation U i := (nth i ks 0).
  Local Notation V := (fun m => nth m ks 0).
  Variable F : nat -> list R -> R.
  Hypothesis HF : forall i, (i < p_dim (P := P))%nat -> blossom (F i).
  Hypothesis Hps : forall j i, (j < C)%nat -> (i < p_dim (P := P))%nat -> coord (nth j ps p_default) i = F i (after V j D).

  Lemma reproduce_coord t i : U D <= t < U C -> (i < p_dim (P := P))%nat -> spline_coord D ks ps t i = F i (repeat t D).
  Proof.
    intros Ht Hi. destruct (sizes D ks ps s Hnew) as [HDC HK].
    rewrite <- (blossom_curve (F i) (HF i Hi) D ks C (ks_sorted D ks ps s Hnew) HK t Ht).
    apply Rsum_ext. intros j Hj. now rewrite Hps.
  Qed.

  Lemma reproduce_fixed t : U D <= t <= U C -> U (C - 1) < U C ->
    exists p, fixed_eval s t = Ret (Ok p) /\ forall i, (i < p_dim (P := P))%nat -> coord p i = F i (repeat t D).
  Proof.
    intros Ht Hlt. destruct (sizes D ks ps s Hnew) as [HDC HK]. pose proof (ks_sorted D ks ps s Hnew) as Hs.
    destruct (Req_dec t (U C)) as [->|Hne].
    2:{ destruct (new_fixed_value D ks ps s Hnew t ltac:(lra)) as (p & Ep & Vp). exists p. split; [exact Ep|].
        intros i Hi. rewrite (Vp i Hi). apply reproduce_coord; [lra|exact Hi]. }
    exists (tri s (U C) (C - 1) D D). destruct (fields D ks ps s Hnew) as (F1 & F2 & F3). split.
    { pose proof (fixed_eval_last s (wf D ks ps s Hnew) (ssrt D ks ps s Hnew)) as H. rewrite F1, F3 in H. unfold knot in H. rewrite F2 in H.
      exact H. }
    intros i Hi.
    assert (G : forall r j, (r <= j <= D)%nat ->
      coord (tri s (U C) (C - 1) r j) i = F i (repeat (U C) r ++ after V (j + (C - 1) - D) (D - r))).
    { induction r as [|r IH]; intros j Hj.
      - cbn [tri repeat app]. rewrite Nat.sub_0_r. unfold cpoint. rewrite F1, F3. apply Hps; [lia|exact Hi].
      - rewrite tri_coord by exact Hi. rewrite !IH by lia. unfold ratio, knot. rewrite F1, F2.
        pose proof (blossom_entry (F i) (HF i Hi) V D (C - 1) (U C) (S r) j ltac:(lia) ltac:(lia) ltac:(lia)) as H.
        replace (S r - 1)%nat with r in H by lia. symmetry. apply H.
        pose proof (Hs (j + (C - 1) - D)%nat (C - 1)%nat ltac:(lia)).
        pose proof (Hs C (j + 1 + (C - 1) - S r)%nat ltac:(lia)). lra. }
    rewrite G by lia. rewrite Nat.sub_diag. unfold after. cbn [seq map]. now rewrite app_nil_r.
  Qed.

  (** the code: the term of the last control point of the span is missing *)
  Lemma reproduce_code t : bs_kind s <> Unclamped -> U D <= t < U C ->
    (forall i, (i < C + D)%nat -> U i < t -> eps <= t - U i) ->
    exists k p, (D <= k < C)%nat /\ U k <= t < U (k + 1) /\ bspline_eval s t = Ret (Ok p) /\
      forall i, (i < p_dim (P := P))%nat -> coord p i = F i (repeat t D) - basis V D k t * F i (after V k D).
  Proof.
    intros Hk Ht Hsep. destruct (eval_value D ks ps s Hnew t (good_clamped D ks ps s t Hk Ht) Hsep) as (k & p & Hkk & Hb & Ee & Hv).
    exists k, p. split; [exact Hkk|]. split; [exact Hb|]. split; [exact Ee|]. intros i Hi.
    rewrite (Hv i Hi), (reproduce_coord t i Ht Hi), Hps by (exact Hi || lia). reflexivity.
  Qed.
  Lemma reproduce_knot k : (1 <= D)%nat -> bs_kind s <> Unclamped ->
    (forall i j, (i < j < length ks)%nat -> U i < U j -> eps <= U j - U i) ->
    (D <= k <= C)%nat -> U k < U C \/ U (C + D - 1) = U C ->
    exists p, bspline_eval s (U k) = Ret (Ok p) /\ forall i, (i < p_dim (P := P))%nat -> coord p i = F i (repeat (U k) D).
  Proof.
    intros HD Hkind Hsep Hk He. destruct (sizes D ks ps s Hnew) as [HDC HK]. pose proof (ks_sorted D ks ps s Hnew) as Hs.
    destruct (knot_eval D ks ps s Hnew HD Hkind Hsep k Hk) as (p & Ep & Hp). exists p. split; [exact Ep|]. intros i Hi.
    destruct Hp as [[Ht Hp]|[Hz Hp]].
    - rewrite (Hp i Hi). apply reproduce_coord; [exact Ht|exact Hi].
    - rewrite Hp, Hps by (exact Hi || lia). f_equal. rewrite Hz. unfold after.
      replace (C - 1 + 1)%nat with C by lia.
      assert (Hc : U (C + D - 1) = U C) by (destruct He; lra).
      transitivity (map (fun _ => U C) (seq C D)).
      + apply map_ext_in. intros m Hm. apply in_seq in Hm.
        pose proof (Hs C m ltac:(lia)). pose proof (Hs m (C + D - 1)%nat ltac:(lia)). lra.
      + apply map_same.
  Qed.
End Eval.

(** the blossoms of the line [t -> a + t b] *)
Lemma line_blossom n a b : blossom (fun l => a + total l / INR n * b).
Proof.
  split.
  - intros l l' H. do 3 f_equal. clear a b. induction H; unfold total in *; cbn [fold_right]; try lra.
  - intros c x y l. unfold total. cbn [fold_right]. unfold Rdiv. ring.
Qed.

Lemma greville_curve D ks C : sorted ks -> length ks = (C + D + 1)%nat -> forall t, (1 <= D)%nat ->
  nth D ks 0 <= t < nth C ks 0 ->
  Rsum (fun j => basis (fun m => nth m ks 0) D j t * greville (fun m => nth m ks 0) D j) C = t.
Proof.
  intros Hs HK t HD Ht.
  pose proof (blossom_curve _ (line_blossom D 0 1) D ks C Hs HK t Ht) as H. cbn beta in H.
  rewrite (average_repeat D t HD) in H. rewrite Rplus_0_l, Rmult_1_r in H. etransitivity; [|exact H].
  apply Rsum_ext. intros j _. unfold greville. ring.
Qed.

(** the code on the line from 0 to 1 *)
Section Unit.
  Local Existing Instance Eps64.
  Lemma unit_line : exists s : bspline R P1,
    bspline_new 1 [0;0;1;1] [pt1 0; pt1 1] = Ret (Ok s) /\ bs_kind s = Clamped /\
    bspline_eval s (1/2) = Ret (Ok (pt1 0)).
  Proof.
    destruct loaded_near as (s & Hnew & K & _). exists s. split; [exact Hnew|]. split; [exact K|].
    assert (He : eps <= 1/2).
    { change eps with (/ 2 ^ 52). replace (1/2) with (/ 2) by lra. apply Rinv_le_contravar; [lra|].
      rewrite <- (pow_1 2) at 1. apply Rle_pow; [lra|lia]. }
    destruct (eval_value _ _ _ _ Hnew (1/2)) as (k & p & Hk & Hb & Ee & Hv).
    - apply good_clamped; [congruence|cbn; lra].
    - intros i Hi. cbn [length Nat.add] in Hi. do 3 (destruct i as [|i]; [cbn [nth]; lra|]). lia.
    - rewrite Ee. do 2 f_equal. apply lp_ext. intros i Hi. rewrite (Hv i Hi).
      assert (k = 1%nat) by (cbn [length] in Hk; lia). subst k. destruct i as [|i]; [|cbn in Hi; lia].
      rewrite unit_curve by lra. cbn [nth]. rewrite !coord_pt1. cbn [basis nth Nat.add].
      repeat match goal with |- context [Rle_dec ?a ?b] => destruct (Rle_dec a b); try lra end;
      repeat match goal with |- context [Rlt_dec ?a ?b] => destruct (Rlt_dec a b); try lra end.
      unfold quot.
      repeat match goal with |- context [Req_EM_T ?a ?b] => destruct (Req_EM_T a b); try lra end.
  Qed.
End Unit.
