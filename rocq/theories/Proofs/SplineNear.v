(** C44: the value of [eval] less than EPSILON after a knot. *)
From Coq Require Import Reals List Arith Bool Lia Lra Psatz.
From Verif Require Import Base.Outcome Base.Scalar Model.Point Model.BSpline Inst.RealInst
  Spec.Sums Spec.Lawful Spec.Basis Proofs.OutcomeFacts Proofs.PointFacts Proofs.RealTac
  Proofs.BSplineGeneric Proofs.BSplineReal Proofs.BSplineEval Proofs.RepairSpline Proofs.SplineBezier.
Import ListNotations.
Local Open Scope R_scope.

Lemma mix_range a x y lo hi : 0 <= a <= 1 -> lo <= x <= hi -> lo <= y <= hi -> lo <= x * (1 - a) + y * a <= hi.
Proof. intros Ha Hx Hy. split; nra. Qed.

Section Near.
  Context {E : Eps} {P : Type} {PT : Point R P} {LP : LawfulPoint P}.
  Variables (s : bspline R P) (t : R) (k : nat).
  Hypothesis Hwf : well_formed s.
  Hypothesis Hs : srt s.
  Hypothesis Hk : (bs_degree s <= k < length (bs_points s))%nat.
  Hypothesis Ht : knot s k <= t < knot s (k + 1).
  Hypothesis Hn : t - knot s k < eps.
  Local Notation D := (bs_degree s).
  Local Notation g := (knot s (k + 1) - knot s k).

  Lemma near_weight r j : (1 <= r <= j)%nat -> (j <= D)%nat ->
    0 <= ratio s t k r j <= 1 /\
    (weight s t k r j = 0 /\ ratio s t k r j <= eps / g \/ weight s t k r j = ratio s t k r j).
  Proof.
    intros Hr Hj. pose proof Hwf as [W1 W2]. split.
    - apply (ratio_01 s k Hwf Hs Hk); [lra|lia|lia|lra].
    - unfold weight, ratio. rs. pose proof eps_pos as He.
      assert (A : knot s (j + k - D) <= knot s k) by (apply knot_le; auto; lia).
      assert (B : knot s (k + 1) <= knot s (j + 1 + k - r)) by (apply knot_le; auto; lia).
      set (x := knot s (j + k - D)) in *. set (y := knot s (j + 1 + k - r)) in *.
      destruct (Rltb_spec (t - x) eps) as [H1|H1].
      + left. split; [reflexivity|]. apply Rle_trans with (eps / (y - x)).
        * apply Rmult_le_compat_r; [left; apply Rinv_0_lt_compat; lra|lra].
        * apply Rmult_le_compat_l; [lra|]. apply Rinv_le_contravar; lra.
      + right. rewrite Rltb_false; [reflexivity|]. rewrite Rabs_pos_eq; lra.
  Qed.
  Lemma near_last r : (1 <= r <= D)%nat -> weight s t k r D = 0.
  Proof.
    intros Hr. unfold weight. rs. replace (D + k - D)%nat with k by lia. now rewrite Rltb_true by lra.
  Qed.

  Section Bound.
    Variables (i : nat) (lo hi : R).
    Hypothesis Hi : (i < p_dim (P := P))%nat.
    Hypothesis Hp : forall m, (k - D <= m <= k)%nat -> lo <= coord (cpoint s m) i <= hi.

    Lemma tri_range r : forall j, (r <= j <= D)%nat -> lo <= coord (tri s t k r j) i <= hi.
    Proof.
      induction r as [|r IH]; intros j Hj; [cbn [tri]; apply Hp; lia|].
      rewrite tri_coord by exact Hi. apply mix_range; [apply near_weight; lia|apply IH; lia|apply IH; lia].
    Qed.

    Lemma near_entry r : forall j, (r <= j <= D)%nat -> (j < D \/ 1 <= r)%nat ->
      Rabs (coord (entry s t k r j) i - coord (tri s t k r j) i) <= INR r * (eps / g) * (hi - lo).
    Proof.
      assert (Hh : 0 <= hi - lo) by (specialize (Hp k ltac:(lia)); lra).
      pose proof eps_pos as He.
      assert (Hg : 0 < eps / g) by (apply Rdiv_lt_0_compat; lra).
      induction r as [|r IH]; intros j Hj Hc.
      - cbn [entry tri INR]. destruct (Nat.ltb_spec j D); [|lia]. rewrite Rminus_eq_0, Rabs_R0. lra.
      - rewrite tri_coord by exact Hi. rewrite entry_coord by (auto; lia). replace (S r - 1)%nat with r by lia.
        destruct (near_weight (S r) j ltac:(lia) ltac:(lia)) as [Hr01 Hw].
        pose proof (IH (j - 1)%nat ltac:(lia) ltac:(lia)) as I1.
        pose proof (tri_range r (j - 1)%nat ltac:(lia)) as T1. pose proof (tri_range r j ltac:(lia)) as T2.
        set (a := ratio s t k (S r) j) in *. set (x := coord (tri s t k r (j - 1)) i) in *. set (y := coord (tri s t k r j) i) in *.
        set (x' := coord (entry s t k r (j - 1)) i) in *. rewrite S_INR.
        assert (Z : a <= eps / g -> Rabs (x' - (x * (1 - a) + y * a)) <= (INR r + 1) * (eps / g) * (hi - lo)).
        { intros Ha. replace (x' - (x * (1 - a) + y * a)) with ((x' - x) + a * (x - y)) by ring.
          eapply Rle_trans; [apply Rabs_triang|]. rewrite Rabs_mult, (Rabs_pos_eq a) by lra.
          assert (Rabs (x - y) <= hi - lo) by (apply Rabs_le; lra).
          assert (a * Rabs (x - y) <= (eps / g) * (hi - lo)).
          { apply Rmult_le_compat; [lra|apply Rabs_pos|exact Ha|assumption]. }
          lra. }
        destruct (Nat.eq_dec j D) as [->|Nj].
        + destruct Hw as [[W Ha]|W]; rewrite near_last by lia; rewrite Rminus_0_r, Rmult_1_r, Rmult_0_r, Rplus_0_r; apply Z; [exact Ha|].
          rewrite near_last in W by lia. lra.
        + destruct Hw as [[W Ha]|W]; rewrite W.
          * rewrite Rminus_0_r, Rmult_1_r, Rmult_0_r, Rplus_0_r. now apply Z.
          * pose proof (IH j ltac:(lia) ltac:(lia)) as I2. fold y in I2. set (y' := coord (entry s t k r j) i) in *.
            replace (x' * (1 - a) + y' * a - (x * (1 - a) + y * a)) with ((x' - x) * (1 - a) + (y' - y) * a) by ring.
            eapply Rle_trans; [apply Rabs_triang|]. rewrite !Rabs_mult, (Rabs_pos_eq a), (Rabs_pos_eq (1 - a)) by lra.
            set (b := INR r * (eps / g) * (hi - lo)) in *.
            assert (0 <= eps / g * (hi - lo)) by (apply Rmult_le_pos; lra).
            replace ((INR r + 1) * (eps / g) * (hi - lo)) with (b + eps / g * (hi - lo)) by (unfold b; ring).
            assert (Rabs (x' - x) * (1 - a) <= b * (1 - a)) by (apply Rmult_le_compat_r; lra).
            assert (Rabs (y' - y) * a <= b * a) by (apply Rmult_le_compat_r; lra).
            apply Rle_trans with (b * (1 - a) + b * a); [now apply Rplus_le_compat|]. replace (b * (1 - a) + b * a) with b by ring. lra.
    Qed.
  End Bound.
End Near.

Section Value.
  Context {E : Eps} {P : Type} {PT : Point R P} {LP : LawfulPoint P}.
  Variables (D : nat) (ks : list R) (ps : list P) (s : bspline R P).
  Hypothesis Hnew : bspline_new D ks ps = Ret (Ok s).
  Local Notation C := (length ps).
  Local Notation U i := (nth i ks 0).

  Lemma eval_near_knot t k : (1 <= D)%nat -> good_parameter D ks ps s t -> (D <= k < C)%nat -> U k <= t < U (k + 1) -> t - U k < eps ->
    exists p, bspline_eval s t = Ret (Ok p) /\ forall i lo hi, (i < p_dim (P := P))%nat ->
      (forall m, (k - D <= m <= k)%nat -> lo <= coord (nth m ps p_default) i <= hi) ->
      Rabs (coord p i - spline_coord D ks ps t i) <= INR D * (eps / (U (k + 1) - U k)) * (hi - lo).
  Proof.
    intros H1 Hg Hk Hb Hn. destruct (sizes D ks ps s Hnew) as [HD HK]. pose proof (fields D ks ps s Hnew) as (F1 & F2 & F3).
    destruct (eval_good D ks ps s Hnew t Hg) as (k' & Hk' & Hb' & Ee).
    assert (k' = k) by (apply (span_unique ks k' k t (ks_sorted D ks ps s Hnew)); split; auto; lia). subst k'.
    exists (entry s t k D D). split; [exact Ee|]. intros i lo hi Hi Hp.
    pose proof (wf D ks ps s Hnew) as Hwf. pose proof (ssrt D ks ps s Hnew) as Hs.
    pose proof (near_entry s t k Hwf Hs) as N. pose proof (tri_value s t k Hwf) as V.
    rewrite F1, F3 in N, V. rewrite !(knot_U D ks ps s Hnew) in N. rewrite F2 in V. unfold cpoint in N. rewrite F3 in N.
    rewrite <- (V Hk Hs ltac:(split; [lia|exact Hb]) i Hi). apply (N Hk Hb Hn i lo hi Hi Hp D); lia.
  Qed.

  (** every parameter of the true domain *)
  Lemma eval_everywhere t : (1 <= D)%nat -> bs_kind s <> Unclamped -> U D <= t < U C ->
    exists k p, (D <= k < C)%nat /\ U k <= t < U (k + 1) /\ bspline_eval s t = Ret (Ok p) /\
      (eps <= t - U k -> forall i, (i < p_dim (P := P))%nat ->
         coord p i = spline_coord D ks ps t i - basis (fun m => U m) D k t * coord (nth k ps p_default) i) /\
      (t - U k < eps -> forall i lo hi, (i < p_dim (P := P))%nat ->
         (forall m, (k - D <= m <= k)%nat -> lo <= coord (nth m ps p_default) i <= hi) ->
         Rabs (coord p i - spline_coord D ks ps t i) <= INR D * (eps / (U (k + 1) - U k)) * (hi - lo)).
  Proof.
    intros H1 Hc Ht. destruct (sizes D ks ps s Hnew) as [HD HK]. pose proof (good_clamped D ks ps s t Hc Ht) as Hg.
    destruct (eval_good D ks ps s Hnew t Hg) as (k & Hk & Hb & Ee).
    exists k, (entry s t k D D). split; [exact Hk|]. split; [exact Hb|]. split; [exact Ee|]. split.
    - intros He. destruct (eval_value D ks ps s Hnew t Hg) as (k' & p & Hk' & Hb' & Ep & V).
      + intros i Hi Hlt. destruct (le_lt_dec i k) as [L|L]; [pose proof (U_le D ks ps s Hnew i k ltac:(lia)); lra|].
        pose proof (U_le D ks ps s Hnew (k + 1) i ltac:(lia)). lra.
      + assert (k' = k) by (apply (span_unique ks k' k t (ks_sorted D ks ps s Hnew)); split; auto; lia). subst k'.
        rewrite Ee in Ep. injection Ep as <-. exact V.
    - intros Hn. destruct (eval_near_knot t k H1 Hg Hk Hb Hn) as (p & Ep & V). rewrite Ee in Ep. injection Ep as <-. exact V.
  Qed.

  Lemma unclamped_near_knot t (k := ((C + D + 1) / 2)%nat) : (1 <= D)%nat -> bs_kind s = Unclamped -> (k < C)%nat ->
    U k <= t < U (k + 1) -> t - U k < eps ->
    exists p, bspline_eval s t = Ret (Ok p) /\ forall i lo hi, (i < p_dim (P := P))%nat ->
      (forall m, (k - D <= m <= k)%nat -> lo <= coord (nth m ps p_default) i <= hi) ->
      Rabs (coord p i - spline_coord D ks ps t i) <= INR D * (eps / (U (k + 1) - U k)) * (hi - lo).
  Proof.
    intros H1 Hu Hk Hb Hn. destruct (sizes D ks ps s Hnew) as [HD HK].
    assert (Hd : (D <= k)%nat) by (apply Nat.div_le_lower_bound; lia).
    apply eval_near_knot; [exact H1| |lia|exact Hb|exact Hn]. apply good_unclamped; [exact Hu|exact Hb|].
    pose proof (U_le D ks ps s Hnew (k + 1) C ltac:(lia)). lra.
  Qed.
End Value.
