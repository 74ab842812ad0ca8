(** [BSpline::arclen] in exact arithmetic. *)
From Coq Require Import Reals List Arith Bool Lia Lra Psatz.
From Verif Require Import Base.Outcome Base.Scalar Model.Point Model.BSpline Inst.RealInst
  Spec.Sums Spec.Lawful Spec.Metric Spec.Length Spec.Basis
  Proofs.OutcomeFacts Proofs.PointFacts Proofs.RealTac Proofs.Metric
  Proofs.BSplineGeneric Proofs.BSplineReal Proofs.BSplineEval.
Import ListNotations.
Local Open Scope R_scope.

Section Arclen.
  Context {E : Eps} {P : Type} {PT : Point R P} {LP : LawfulPoint P}.

  Lemma for_in_sum (l : list nat) (f : nat -> R) (a : R) body :
    (forall i a, In i l -> body i a = Ret (a + f i)) ->
    for_in l a body = Ret (a + fold_right Rplus 0 (map f l)).
  Proof.
    revert a. induction l as [|i l IH]; intros a H; cbn [for_in map fold_right].
    - f_equal. ring.
    - rewrite H by now left. cbn [bind]. rewrite IH by (intros; apply H; now right). f_equal. ring.
  Qed.
  Lemma fold_right_seq f a n : fold_right Rplus 0 (map f (seq a n)) = Rsum (fun i => f (a + i)%nat) n.
  Proof.
    revert a. induction n as [|n IH]; intros a; [reflexivity|].
    cbn [seq map fold_right]. rewrite IH, Rsum_shift. rewrite Nat.add_0_r. f_equal.
    apply Rsum_ext. intros i _. f_equal. lia.
  Qed.

  (** chords from t_i to t_i + 1/n, with errors replaced by the origin *)
  Lemma arclen_chords s n (e : R -> P) lo hi : knot_domain s = Ret (lo, hi) ->
    (forall t, eval_or_default s t = Ret (e t)) ->
    bspline_arclen s n = Ret (Rsum (fun i =>
      dist (e (lo + INR i / INR n * (hi - lo))) (e (lo + INR i / INR n * (hi - lo) + 1 / INR n))) (n + 1)).
  Proof.
    intros Hd He. unfold bspline_arclen. rewrite Hd. cbn [bind fst snd].
    rewrite (for_in_sum _ (fun i => dist (e (lo + INR i / INR n * (hi - lo))) (e (lo + INR i / INR n * (hi - lo) + 1 / INR n)))).
    - rs. rewrite Rplus_0_l. unfold range_incl. rewrite fold_right_seq. f_equal.
      replace (S n - 0)%nat with (n + 1)%nat by lia. reflexivity.
    - intros i a _. rewrite !He. cbn [bind]. rs. rewrite sqrt_sqlen_sub. reflexivity.
  Qed.

  (** a clamped spline over [0,1]: the polyline through the sampled values, plus
      the distance from the last control point to the origin *)
  Lemma arclen_unit D ks (ps : list P) s n : bspline_new D ks ps = Ret (Ok s) -> bs_kind s = Clamped ->
    nth D ks 0 = 0 -> nth (length ps) ks 0 = 1 -> (0 < n)%nat ->
    exists e, (forall t, 0 <= t <= 1 -> bspline_eval s t = Ret (Ok (e t))) /\
      bspline_arclen s n = Ret (polyline e n + dist (nth (length ps - 1) ps p_default) p_default).
  Proof.
    intros Hnew Hk H0 H1 Hn.
    set (e := fun t => match bspline_eval s t with Ret (Ok p) => p | _ => p_default end).
    assert (Hd : knot_domain s = Ret (0, 1)).
    { rewrite (domain_U D ks ps s Hnew), Hk, H0, H1. reflexivity. }
    assert (He : forall t, eval_or_default s t = Ret (e t)).
    { intros t. unfold eval_or_default, e.
      destruct (clamped_eval_total s t (wf D ks ps s Hnew) Hk) as (r & ->). now destruct r. }
    exists e. split.
    - intros t Ht. unfold e. destruct (Req_EM_T t 1) as [->|Hne].
      + rewrite <- H1, (eval_last D ks ps s Hnew). reflexivity.
      + destruct (eval_good D ks ps s Hnew t) as (k & _ & _ & Ee).
        * unfold good_parameter. rewrite Hk, H0, H1. lra.
        * rewrite Ee. reflexivity.
    - assert (Hi : 0 < INR n) by (apply lt_0_INR; lia).
      rewrite (arclen_chords s n e 0 1 Hd He). f_equal. replace (n + 1)%nat with (S n) by lia. cbn [Rsum].
      f_equal.
      + unfold polyline. apply Rsum_ext. intros i _. f_equal; f_equal.
        * field. lra.
        * rewrite plus_INR. cbn [INR]. field. lra.
      + replace (0 + INR n / INR n * (1 - 0)) with 1 by (field; lra). f_equal.
        * unfold e. rewrite <- H1 at 1. rewrite (eval_last D ks ps s Hnew). reflexivity.
        * unfold e. assert (H : bspline_eval s (1 + 1 / INR n) = Ret (Err KnotDomainViolation)).
          { apply (eval_domain_iff D ks ps s Hnew _ 0 1 Hd).
            assert (0 < 1 / INR n) by (apply Rdiv_lt_0_compat; lra). lra. }
          now rewrite H.
  Qed.

  (** any clamped domain: [n + 1] chords that advance the parameter by [1/n], whatever
      the width of the domain, with the origin for every point past its end *)
  Lemma arclen_domain D ks (ps : list P) s n : bspline_new D ks ps = Ret (Ok s) -> bs_kind s = Clamped ->
    let a := nth D ks 0 in let b := nth (length ps) ks 0 in
    exists e, (forall t, a <= t <= b -> bspline_eval s t = Ret (Ok (e t))) /\
      (forall t, b < t -> e t = p_default) /\
      bspline_arclen s n = Ret (Rsum (fun i =>
        dist (e (a + INR i / INR n * (b - a))) (e (a + INR i / INR n * (b - a) + 1 / INR n))) (n + 1)).
  Proof.
    intros Hnew Hk a b.
    set (e := fun t => match bspline_eval s t with Ret (Ok p) => p | _ => p_default end).
    assert (Hd : knot_domain s = Ret (a, b)).
    { rewrite (domain_U D ks ps s Hnew), Hk. reflexivity. }
    assert (He : forall t, eval_or_default s t = Ret (e t)).
    { intros t. unfold eval_or_default, e.
      destruct (clamped_eval_total s t (wf D ks ps s Hnew) Hk) as (r & ->). now destruct r. }
    exists e. split; [|split].
    - intros t Ht. unfold e. destruct (Req_EM_T t b) as [->|Hne].
      + unfold b. rewrite (eval_last D ks ps s Hnew). reflexivity.
      + destruct (eval_good D ks ps s Hnew t) as (k & _ & _ & Ee).
        * unfold good_parameter. rewrite Hk. fold a b. lra.
        * rewrite Ee. reflexivity.
    - intros t Ht. unfold e.
      assert (H : bspline_eval s t = Ret (Err KnotDomainViolation)).
      { apply (eval_domain_iff D ks ps s Hnew _ a b Hd). lra. }
      now rewrite H.
    - exact (arclen_chords s n e a b Hd He).
  Qed.
End Arclen.
