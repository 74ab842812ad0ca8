(** The basis functions of one span are linearly independent on every piece of it. *)
From Coq Require Import Reals List Arith Lia Lra Psatz.
From Verif Require Import Base.Outcome Base.Scalar Model.Point Model.BSpline Model.Repairs Inst.RealInst
  Spec.Sums Spec.Lawful Spec.Basis
  Proofs.OutcomeFacts Proofs.PointFacts Proofs.RealTac Proofs.BSplineGeneric Proofs.BSplineReal
  Proofs.BSplineEval Proofs.BasisCalc Proofs.BSplineDeriv Proofs.RepairSpline.
Import ListNotations.
Local Open Scope R_scope.

Section Span.
  Variables (U : nat -> R) (k : nat) (a b : R).
  Hypothesis Hab : a < b.
  Hypothesis Ha : U k <= a.
  Hypothesis Hb : b <= U (k + 1)%nat.

  Lemma independent p : forall c, (p <= k)%nat ->
    (forall m n, (k - p <= m <= n)%nat -> (n <= k + p + 1)%nat -> U m <= U n) ->
    (forall t, a < t < b -> Rsum (fun j => basis U p (k - p + j) t * c j) (S p) = 0) ->
    forall j, (j <= p)%nat -> c j = 0.
  Proof.
    induction p as [|p IH]; intros c Hp Hm H0 j Hj.
    - replace j with 0%nat by lia. specialize (H0 ((a + b) / 2) ltac:(lra)). cbn [Rsum] in H0.
      replace (k - 0 + 0)%nat with k in H0 by lia. cbn [basis] in H0.
      destruct (Rle_dec (U k) ((a + b) / 2)); [|lra]. destruct (Rlt_dec ((a + b) / 2) (U (k + 1)%nat)); lra.
    - set (i0 := (k - S p)%nat) in *.
      assert (In : forall t m, a < t < b -> (i0 <= m <= k + S p + 1)%nat -> U m <> t).
      { intros t m Ht Hmm. destruct (le_lt_dec m k) as [Hl|Hl].
        - pose proof (Hm m k ltac:(lia) ltac:(lia)). lra.
        - pose proof (Hm (k + 1)%nat m ltac:(lia) ltac:(lia)). lra. }
      set (q := fun j => INR (S p) * quot 1 (U (i0 + j + S p)%nat - U (i0 + j)%nat)).
      assert (Hc : forall j, (j <= p)%nat -> q (j + 1)%nat * (c (j + 1)%nat - c j) = 0).
      { apply (IH (fun j => q (j + 1)%nat * (c (j + 1)%nat - c j))).
        - lia.
        - intros m n Hmn Hn. apply Hm; lia.
        - intros t Ht.
          pose proof (Rsum_derivative (fun j y => basis U (S p) (i0 + j) y * c j)
            (fun j => dbasis U (S p) (i0 + j) t * c j) t (S (S p))) as Hd.
          assert (Dv : derivable_pt_lim (fun y => Rsum (fun j => basis U (S p) (i0 + j) y * c j) (S (S p))) t
            (Rsum (fun j => dbasis U (S p) (i0 + j) t * c j) (S (S p)))).
          { apply Hd. intros m Hmm.
            replace (dbasis U (S p) (i0 + m) t * c m)
              with (dbasis U (S p) (i0 + m) t * c m + basis U (S p) (i0 + m) t * 0) by ring.
            apply (derivable_pt_lim_mult (basis U (S p) (i0 + m)) (fun _ => c m)); [|apply derivable_pt_lim_const].
            apply basis_derivative.
            - intros x y Hxy Hy. apply Hm; lia.
            - intros x Hx. apply In; [exact Ht|lia]. }
          assert (Z : derivable_pt_lim (fun y => Rsum (fun j => basis U (S p) (i0 + j) y * c j) (S (S p))) t 0).
          { apply (derivable_local (fun _ => 0) _ t 0 (Rmin (t - a) (b - t))); [apply Rmin_pos; lra| |apply derivable_pt_lim_const].
            intros y Hy. symmetry. apply H0.
            pose proof (Rmin_l (t - a) (b - t)). pose proof (Rmin_r (t - a) (b - t)).
            apply Rabs_def2 in Hy. lra. }
          pose proof (uniqueness_limite _ _ _ _ Dv Z) as Eq. clear Hd Dv Z.
          rewrite (Rsum_ext _ (fun j => (q j * basis U p (i0 + j) t - q (j + 1)%nat * basis U p (i0 + (j + 1)) t) * c j)) in Eq.
          2:{ intros m Hmm. unfold q, dbasis. replace (i0 + (m + 1))%nat with (i0 + m + 1)%nat by lia.
              replace (i0 + m + 1 + S p)%nat with (i0 + m + S p + 1)%nat by lia. ring. }
          rewrite (Rsum_abel q (fun j => basis U p (i0 + j) t) c (S p)) in Eq.
          rewrite (basis_right U t p (i0 + 0)) in Eq.
          2:{ intros x y Hxy Hy. apply Hm; lia. }
          2:{ replace (i0 + 0 + p + 1)%nat with k by lia. lra. }
          rewrite (basis_left U t p (i0 + (S p + 1))) in Eq.
          2:{ intros x y Hxy Hy. apply Hm; lia. }
          2:{ replace (i0 + (S p + 1))%nat with (k + 1)%nat by lia. lra. }
          transitivity (Rsum (fun j0 => q (j0 + 1)%nat * basis U p (i0 + (j0 + 1)) t * (c (j0 + 1)%nat - c j0)) (S p)); [|lra].
          apply Rsum_ext. intros m Hmm. replace (i0 + (m + 1))%nat with (k - p + m)%nat by lia. ring. }
      assert (Hstep : forall j, (j <= p)%nat -> c (j + 1)%nat = c j).
      { intros m Hmm. specialize (Hc m Hmm). apply Rmult_integral in Hc. destruct Hc as [Hc|Hc]; [exfalso|lra].
        unfold q in Hc. pose proof (pos_INR p). rewrite S_INR in Hc.
        pose proof (Hm (i0 + (m + 1))%nat k ltac:(lia) ltac:(lia)).
        pose proof (Hm (k + 1)%nat (i0 + (m + 1) + S p)%nat ltac:(lia) ltac:(lia)).
        assert (Hq : quot 1 (U (i0 + (m + 1) + S p)%nat - U (i0 + (m + 1))%nat) <> 0).
        { intros Hz. pose proof (quot_inv (U (i0 + (m + 1) + S p)%nat - U (i0 + (m + 1))%nat) ltac:(lra)). nra. }
        apply Rmult_integral in Hc. destruct Hc; [lra|contradiction]. }
      assert (Hall : forall j, (j <= S p)%nat -> c j = c 0%nat).
      { induction j0 as [|m IHm]; intros Hmm; [reflexivity|]. rewrite <- IHm by lia. rewrite <- (Hstep m) by lia. f_equal. lia. }
      rewrite (Hall j Hj).
      specialize (H0 ((a + b) / 2) ltac:(lra)). set (t := (a + b) / 2) in *.
      assert (Ht : a < t < b) by (unfold t; lra). clearbody t.
      rewrite (Rsum_ext _ (fun j => c 0%nat * basis U (S p) (i0 + j) t)) in H0 by (intros m Hmm; rewrite (Hall m) by lia; ring).
      rewrite Rsum_scal in H0. apply Rmult_integral in H0. destruct H0 as [H0|H0]; [exact H0|exfalso].
      cbn [Rsum] in H0. change (Rsum (fun j0 => basis U (S p) (i0 + j0) t) p + basis U (S p) (i0 + p) t)
        with (Rsum (fun j0 => basis U (S p) (i0 + j0) t) (S p)) in H0.
      assert (N : 0 <= Rsum (fun j0 => basis U (S p) (i0 + j0) t) (S p)).
      { apply Rsum_nonneg. intros m Hmm. apply basis_nonneg. intros x y Hxy Hy. apply Hm; lia. }
      assert (Q : 0 < basis U (S p) (i0 + S p) t).
      { replace (i0 + S p)%nat with k by lia. apply basis_pos; [|lra]. intros x y Hxy Hy. apply Hm; lia. }
      lra.
  Qed.
End Span.

Section Curve.
  Context {P : Type} {PT : Point R P} {LP : LawfulPoint P}.
  Variables (D : nat) (ks : list R) (C : nat).
  Hypothesis Hs : sorted ks.
  Hypothesis HK : length ks = (C + D + 1)%nat.
  Local Notation U i := (nth i ks 0).

  (** the terms of one span *)
  Lemma span_terms (c : nat -> R) k t : (D <= k < C)%nat -> U k <= t < U (k + 1) ->
    Rsum (fun j => basis (fun m => U m) D j t * c j) C
    = Rsum (fun j => basis (fun m => U m) D (k - D + j) t * c (k - D + j)%nat) (S D).
  Proof.
    intros Hk Ht. replace C with ((k - D) + (S D + (C - k - 1)))%nat at 1 by lia. rewrite !Rsum_split.
    rewrite (Rsum_ext (fun j => basis (fun m => U m) D j t * c j) (fun _ => 0)), Rsum_0.
    2:{ intros j Hj. rewrite (basis_above (fun m => U m) D j k t); [ring| |apply Ht|lia].
        intros x y Hxy. apply Hs. lia. }
    rewrite (Rsum_ext (fun i0 => basis _ D (k - D + (S D + i0)) t * _) (fun _ => 0)), Rsum_0.
    2:{ intros j Hj. rewrite basis_left; [ring| |].
        - intros x y Hxy Hy. apply Hs. lia.
        - apply Rlt_le_trans with (U (k + 1)); [apply Ht|]. apply Hs. lia. }
    rewrite Rplus_0_l, Rplus_0_r. reflexivity.
  Qed.

  (** a piece of one span determines its D+1 coefficients *)
  Lemma piece_determines (c c' : nat -> R) k a b : (D <= k < C)%nat -> a < b -> U k <= a -> b <= U (k + 1) ->
    (forall t, a < t < b -> Rsum (fun j => basis (fun m => U m) D j t * c j) C
                          = Rsum (fun j => basis (fun m => U m) D j t * c' j) C) ->
    forall j, (k - D <= j <= k)%nat -> c j = c' j.
  Proof.
    intros Hk Hab Ha Hb H j Hj.
    assert (G : c (k - D + (j - (k - D)))%nat - c' (k - D + (j - (k - D)))%nat = 0).
    { apply (independent (fun m => U m) k a b Hab Ha Hb D (fun j => c (k - D + j)%nat - c' (k - D + j)%nat)).
      - lia.
      - intros x y Hxy Hy. apply Hs. lia.
      - intros t Ht. specialize (H t Ht). rewrite !(span_terms _ k t) in H by (auto; lra).
        rewrite (Rsum_ext _ (fun j => basis (fun m => U m) D (k - D + j) t * c (k - D + j)%nat
          - basis (fun m => U m) D (k - D + j) t * c' (k - D + j)%nat)) by (intros; ring).
        rewrite Rsum_minus. lra.
      - lia. }
    replace (k - D + (j - (k - D)))%nat with j in G by lia. lra.
  Qed.

  (** a control point counts exactly when its support meets the domain *)
  Lemma wide_span lo hi : (lo <= hi < length ks)%nat -> U lo < U hi -> exists k, (lo <= k < hi)%nat /\ U k < U (k + 1).
  Proof.
    intros Hl Hlt. destruct (span_exists ks (U lo) lo hi Hl ltac:(lra)) as (k & Hk & Hb).
    exists k. split; [exact Hk|lra].
  Qed.

  Theorem curve_determines (ps qs : list P) j : length ps = C -> length qs = C -> (j < C)%nat -> (D < C)%nat ->
    (forall t i, U D <= t < U C -> (i < p_dim (P := P))%nat -> spline_coord D ks ps t i = spline_coord D ks qs t i) ->
    U (Nat.max j D) < U (Nat.min (j + D + 1) C) -> nth j ps p_default = nth j qs p_default.
  Proof.
    intros Lp Lq Hj HD He Hw. destruct (wide_span (Nat.max j D) (Nat.min (j + D + 1) C)) as (k & Hk & Hb); [lia|exact Hw|].
    apply lp_ext. intros i Hi.
    apply (piece_determines (fun j => coord (nth j ps p_default) i) (fun j => coord (nth j qs p_default) i) k (U k) (U (k + 1)));
      auto; try lra; try lia.
    intros t Ht. pose proof (Hs D k ltac:(lia)). pose proof (Hs (k + 1)%nat C ltac:(lia)).
    specialize (He t i ltac:(lra) Hi). unfold spline_coord in He. rewrite Lp, Lq in He. exact He.
  Qed.

  Theorem curve_ignores (ps qs : list P) j t i : length ps = C -> length qs = C -> (j < C)%nat ->
    (forall m, (m < C)%nat -> m <> j -> nth m ps p_default = nth m qs p_default) ->
    U (Nat.min (j + D + 1) C) <= U (Nat.max j D) -> U D <= t < U C -> (i < p_dim (P := P))%nat ->
    spline_coord D ks ps t i = spline_coord D ks qs t i.
  Proof.
    intros Lp Lq Hj He Hw Ht Hi. unfold spline_coord. rewrite Lp, Lq. apply Rsum_ext. intros m Hm.
    destruct (Nat.eq_dec m j) as [->|Hne]; [|now rewrite He].
    assert (Z : basis (fun m => U m) D j t = 0); [|rewrite Z; ring].
    destruct (Rlt_dec t (U j)) as [Hl|Hl].
    { apply basis_left; [|exact Hl]. intros x y Hxy Hy. apply Hs. lia. }
    apply basis_right; [intros x y Hxy Hy; apply Hs; lia|].
    assert (U (Nat.max j D) <= t) by (destruct (Nat.max_spec j D) as [[_ ->]|[_ ->]]; lra).
    destruct (Nat.min_spec (j + D + 1) C) as [[Hc E]|[Hc E]]; rewrite E in Hw; lra.
  Qed.
End Curve.
