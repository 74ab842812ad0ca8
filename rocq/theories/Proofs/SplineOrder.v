(** Order and length of B-spline curves: the tails of the basis, sum over j >= i of N_j, do not decrease. *)
From Coq Require Import Reals List Arith Lia Lra Psatz.
From Verif Require Import Base.Outcome Base.Scalar Model.Point Model.BSpline Inst.RealInst
  Spec.Sums Spec.Lawful Spec.Basis Spec.Metric Spec.Length Spec.Crossings Spec.SplinePoints
  Proofs.PointFacts Proofs.Metric Proofs.BSplineReal Proofs.BSplineEval Proofs.BasisCalc Proofs.LengthMore.
Import ListNotations.
Local Open Scope R_scope.

Section Tails.
  Variables (U : nat -> R) (C : nat).
  Definition tail (p i : nat) (t : R) : R := Rsum (fun j => basis U p (i + j) t) (C - i).

  Lemma tail_out p i t : (C <= i)%nat -> tail p i t = 0.
  Proof. intros H. unfold tail. replace (C - i)%nat with 0%nat by lia. reflexivity. Qed.
  Lemma tail_S p i t : (i < C)%nat -> tail p i t = basis U p i t + tail p (i + 1) t.
  Proof.
    intros H. unfold tail. replace (C - i)%nat with (S (C - (i + 1))) by lia. rewrite Rsum_shift.
    rewrite Nat.add_0_r. f_equal. apply Rsum_ext. intros j _. f_equal. lia.
  Qed.

  (** degree 0 *)
  Lemma step_sum i t n : (forall a b, (i <= a <= b)%nat -> (b <= i + n)%nat -> U a <= U b) ->
    Rsum (fun j => basis U 0 (i + j) t) n = if Rle_dec (U i) t then if Rlt_dec t (U (i + n)%nat) then 1 else 0 else 0.
  Proof.
    induction n as [|n IH]; intros Hm; cbn [Rsum].
    - rewrite Nat.add_0_r. destruct (Rle_dec (U i) t); [|reflexivity]. destruct (Rlt_dec t (U i)); [lra|reflexivity].
    - rewrite IH by (intros; apply Hm; lia). cbn [basis]. replace (i + n + 1)%nat with (i + S n)%nat by lia.
      pose proof (Hm i (i + n)%nat ltac:(lia) ltac:(lia)). pose proof (Hm (i + n)%nat (i + S n)%nat ltac:(lia) ltac:(lia)).
      destruct (Rle_dec (U i) t), (Rlt_dec t (U (i + n)%nat)), (Rle_dec (U (i + n)%nat) t), (Rlt_dec t (U (i + S n)%nat)); lra.
  Qed.

  (** the recursion, summed *)
  Lemma rec_sum p i t n : (forall a b, (i <= a <= b)%nat -> (b <= i + n + p + 2)%nat -> U a <= U b) ->
    Rsum (fun j => basis U (S p) (i + j) t) (S n) =
    quot (t - U i) (U (i + S p)%nat - U i) * basis U p i t + Rsum (fun j => basis U p (i + 1 + j) t) n
    + quot (U (i + n + S p + 1)%nat - t) (U (i + n + S p + 1)%nat - U (i + n + 1)%nat) * basis U p (i + n + 1) t.
  Proof.
    induction n as [|n IH]; intros Hm.
    - cbn [Rsum]. rewrite !Nat.add_0_r. cbn [basis]. rewrite Rplus_0_l. lra.
    - change (Rsum (fun j => basis U (S p) (i + j) t) (S (S n)))
        with (Rsum (fun j => basis U (S p) (i + j) t) (S n) + basis U (S p) (i + S n) t).
      rewrite IH by (intros; apply Hm; lia). cbn [Rsum basis].
      replace (i + 1 + n)%nat with (i + n + 1)%nat by lia. replace (i + S n)%nat with (i + n + 1)%nat by lia.
      replace (i + n + 1 + S p + 1)%nat with (i + n + 1 + S p + 1)%nat by lia.
      replace (i + n + S p + 1)%nat with (i + n + 1 + S p)%nat by lia.
      set (m := (i + n + 1)%nat).
      assert (K : quot (U (m + S p)%nat - t) (U (m + S p)%nat - U m) * basis U p m t
        + quot (t - U m) (U (m + S p)%nat - U m) * basis U p m t = basis U p m t).
      { destruct (Req_EM_T (U (m + S p)%nat - U m) 0) as [Z|Z].
        - rewrite basis_empty; [ring|intros; apply Hm; unfold m in *; lia|]. replace (m + p + 1)%nat with (m + S p)%nat by lia. lra.
        - rewrite !quot_nz by exact Z. field. exact Z. }
      lra.
  Qed.

  Definition unit_clamp x := Rmax 0 (Rmin 1 x).
  Lemma unit_clamp_range x : 0 <= unit_clamp x <= 1.
  Proof. unfold unit_clamp, Rmax, Rmin. destruct (Rle_dec 1 x); destruct (Rle_dec 0 _); lra. Qed.
  Lemma unit_clamp_id x : 0 <= x <= 1 -> unit_clamp x = x.
  Proof. intros H. unfold unit_clamp, Rmax, Rmin. destruct (Rle_dec 1 x); destruct (Rle_dec 0 _); lra. Qed.
  Lemma unit_clamp_mono x y : x <= y -> unit_clamp x <= unit_clamp y.
  Proof. intros H. unfold unit_clamp, Rmax, Rmin. destruct (Rle_dec 1 x), (Rle_dec 1 y); repeat destruct (Rle_dec 0 _); lra. Qed.

  Section Mono.
    Variable p : nat.
    Hypothesis Hm : forall a b, (a <= b <= C + p + 1)%nat -> U a <= U b.

    Lemma tail_step i t : (i < C)%nat -> t < U C ->
      let w := unit_clamp (quot (t - U i) (U (i + S p)%nat - U i)) in
      tail (S p) i t = w * tail p i t + (1 - w) * tail p (i + 1) t.
    Proof.
      intros Hi Ht w. rewrite (tail_S p i t Hi). unfold tail at 1. replace (C - i)%nat with (S (C - i - 1)) by lia.
      rewrite rec_sum by (intros; apply Hm; lia).
      replace (i + (C - i - 1) + 1)%nat with C by lia.
      rewrite (basis_left U t p C) by (try exact Ht; intros; apply Hm; lia). rewrite Rmult_0_r, Rplus_0_r.
      unfold tail at 1 2. replace (C - (i + 1))%nat with (C - i - 1)%nat by lia.
      assert (K : quot (t - U i) (U (i + S p)%nat - U i) * basis U p i t = w * basis U p i t).
      { destruct (Rlt_le_dec t (U i)) as [H|H].
        - rewrite basis_left; [ring|intros; apply Hm; lia|exact H].
        - destruct (Rle_lt_dec (U (i + p + 1)%nat) t) as [H'|H'].
          + rewrite basis_right; [ring|intros; apply Hm; lia|exact H'].
          + unfold w. rewrite unit_clamp_id; [reflexivity|]. replace (i + S p)%nat with (i + p + 1)%nat by lia.
            assert (Z : 0 < U (i + p + 1)%nat - U i) by lra. rewrite quot_nz by lra.
            split; [apply Rmult_le_pos; [lra|left; now apply Rinv_0_lt_compat]|].
            apply Rmult_le_reg_r with (U (i + p + 1)%nat - U i); [exact Z|]. unfold Rdiv. rewrite Rmult_assoc, Rinv_l by lra. lra. }
      rewrite K. ring.
    Qed.
    Lemma weight_mono i s t : (i < C)%nat -> s <= t ->
      unit_clamp (quot (s - U i) (U (i + S p)%nat - U i)) <= unit_clamp (quot (t - U i) (U (i + S p)%nat - U i)).
    Proof.
      intros Hi H. apply unit_clamp_mono. unfold quot. pose proof (Hm i (i + S p)%nat ltac:(lia)).
      destruct (Req_EM_T _ 0); [lra|]. apply Rmult_le_compat_r; [left; apply Rinv_0_lt_compat; lra|lra].
    Qed.
  End Mono.

  Lemma tail_mono p : (forall a b, (a <= b <= C + p)%nat -> U a <= U b) ->
    forall i s t, s <= t -> t < U C -> tail p i s <= tail p i t.
  Proof.
    induction p as [|p IH]; intros Hm i s t Hst Ht; (destruct (le_lt_dec C i) as [Hi|Hi]; [rewrite !tail_out by exact Hi; lra|]).
    - unfold tail. rewrite !step_sum by (intros; apply Hm; lia). replace (i + (C - i))%nat with C by lia.
      destruct (Rle_dec (U i) s), (Rle_dec (U i) t), (Rlt_dec s (U C)), (Rlt_dec t (U C)); lra.
    - assert (Hm' : forall a b, (a <= b <= C + p + 1)%nat -> U a <= U b) by (intros; apply Hm; lia).
      rewrite !(tail_step p) by (try assumption; lra). cbv zeta.
      pose proof (weight_mono p Hm' i s t Hi Hst) as W.
      set (ws := unit_clamp (quot (s - U i) _)) in *. set (wt := unit_clamp (quot (t - U i) _)) in *.
      assert (Rs : 0 <= ws <= 1) by apply unit_clamp_range. assert (Rt : 0 <= wt <= 1) by apply unit_clamp_range.
      assert (H1 := IH ltac:(intros; apply Hm; lia) i s t Hst Ht).
      assert (H2 := IH ltac:(intros; apply Hm; lia) (i + 1)%nat s t Hst Ht).
      assert (H3 : tail p (i + 1) t <= tail p i t).
      { rewrite (tail_S p i t Hi). pose proof (basis_nonneg U t p i ltac:(intros; apply Hm; lia)). lra. }
      apply Rle_trans with (ws * tail p i t + (1 - ws) * tail p (i + 1) t).
      + apply Rplus_le_compat; apply Rmult_le_compat_l; lra.
      + assert (0 <= (wt - ws) * (tail p i t - tail p (i + 1) t)) by (apply Rmult_le_pos; lra). lra.
  Qed.

  (** summation by parts *)
  Lemma abel_tails (N x : nat -> R) n : Rsum (fun j => N j * x j) (S n) =
    x 0%nat * Rsum N (S n) + Rsum (fun i => (x (i + 1)%nat - x i) * Rsum (fun j => N (i + 1 + j)%nat) (n - i)) n.
  Proof.
    induction n as [|n IH]; [cbn [Rsum]; ring|].
    change (Rsum (fun j => N j * x j) (S (S n))) with (Rsum (fun j => N j * x j) (S n) + N (S n) * x (S n)). rewrite IH.
    change (Rsum N (S (S n))) with (Rsum N (S n) + N (S n)).
    assert (T : Rsum (fun i => (x (i + 1)%nat - x i) * Rsum (fun j => N (i + 1 + j)%nat) (S n - i)) n
      = Rsum (fun i => (x (i + 1)%nat - x i) * Rsum (fun j => N (i + 1 + j)%nat) (n - i)) n + N (S n) * Rsum (fun i => x (i + 1)%nat - x i) n).
    { rewrite <- Rsum_scal, <- Rsum_plus. apply Rsum_ext. intros i Hi. replace (S n - i)%nat with (S (n - i)) by lia. cbn [Rsum].
      replace (i + 1 + (n - i))%nat with (S n) by lia. ring. }
    assert (G : forall m, Rsum (fun i => x (i + 1)%nat - x i) m = x m - x 0%nat).
    { induction m as [|m IHm]; cbn [Rsum]; [ring|]. rewrite IHm. replace (m + 1)%nat with (S m) by lia. ring. }
    change (Rsum (fun i => (x (i + 1)%nat - x i) * Rsum (fun j => N (i + 1 + j)%nat) (S n - i)) (S n))
      with (Rsum (fun i => (x (i + 1)%nat - x i) * Rsum (fun j => N (i + 1 + j)%nat) (S n - i)) n
        + (x (n + 1)%nat - x n) * Rsum (fun j => N (n + 1 + j)%nat) (S n - n)).
    rewrite T, G. replace (S n - n)%nat with 1%nat by lia. cbn [Rsum]. replace (n + 1 + 0)%nat with (S n) by lia. replace (n + 1)%nat with (S n) by lia. ring.
  Qed.
End Tails.

Lemma Rsum_swap (f : nat -> nat -> R) m n : Rsum (fun i => Rsum (fun j => f i j) n) m = Rsum (fun j => Rsum (fun i => f i j) m) n.
Proof.
  induction m as [|m IH]; cbn [Rsum]; [symmetry; apply Rsum_0|]. rewrite IH, <- Rsum_plus. reflexivity.
Qed.
Lemma nth_last_ (l : list R) d : nth (length l - 1) l d = last l d.
Proof.
  induction l as [|x [|y l] IH]; try reflexivity. change (last (x :: y :: l) d) with (last (y :: l) d). rewrite <- IH.
  cbn [length nth Nat.sub]. now rewrite Nat.sub_0_r.
Qed.

Section Curve.
  Context {P : Type} {PT : Point R P} {LP : LawfulPoint P}.
  Variables (D : nat) (ks : list R) (ps : list P).
  Local Notation C := (length ps).
  Local Notation U := (fun m => nth m ks 0).
  Hypotheses (Hs : sorted ks) (HK : (C + D + 1 <= length ks)%nat) (HD : (D < C)%nat).

  (** the tail at a parameter of [curve_point] *)
  Definition etail i t := if Rlt_dec t (nth C ks 0) then tail U C D i t else 1.

  Lemma knots_mono a b : (a <= b <= C + D)%nat -> nth a ks 0 <= nth b ks 0.
  Proof. intros H. apply Hs. lia. Qed.
  Lemma tail_one t : nth D ks 0 <= t < nth C ks 0 -> tail U C D 0 t = 1.
  Proof.
    intros Ht. unfold tail. rewrite Nat.sub_0_r. rewrite <- (partition_of_unity D C ks t Hs HK Ht). apply Rsum_ext. reflexivity.
  Qed.
  Lemma tail_le i t : tail U C D (i + 1) t <= tail U C D i t.
  Proof.
    destruct (le_lt_dec C i) as [H|H]; [rewrite !tail_out by lia; lra|].
    rewrite (tail_S U C D i t H). pose proof (basis_nonneg U t D i ltac:(intros; apply knots_mono; lia)). lra.
  Qed.
  Lemma tail_range i t : nth D ks 0 <= t < nth C ks 0 -> 0 <= tail U C D i t <= 1.
  Proof.
    intros Ht. split.
    - unfold tail. apply Rsum_nonneg. intros j Hj. apply basis_nonneg. intros; apply knots_mono; lia.
    - induction i as [|i IH]; [rewrite tail_one by exact Ht; lra|]. pose proof (tail_le i t). rewrite Nat.add_1_r in *. lra.
  Qed.
  Lemma etail_range i t : nth D ks 0 <= t -> 0 <= etail i t <= 1.
  Proof. intros Ht. unfold etail. destruct (Rlt_dec _ _); [apply tail_range; lra|lra]. Qed.
  Lemma etail_mono i s t : nth D ks 0 <= s <= t -> etail i s <= etail i t.
  Proof.
    intros H. unfold etail. destruct (Rlt_dec t (nth C ks 0)) as [Ht|Ht].
    - destruct (Rlt_dec s (nth C ks 0)); [|lra]. apply tail_mono; [intros; apply knots_mono; lia|lra|exact Ht].
    - destruct (Rlt_dec s (nth C ks 0)); [apply tail_range; lra|lra].
  Qed.

  (** the curve in terms of the tails *)
  Lemma values_tails (x : nat -> R) t : nth D ks 0 <= t < nth C ks 0 ->
    Rsum (fun j => basis U D j t * x j) C = x 0%nat + Rsum (fun i => (x (i + 1)%nat - x i) * etail (i + 1) t) (C - 1).
  Proof.
    intros Ht. replace C with (S (C - 1)) at 1 by lia. rewrite (abel_tails (fun j => basis U D j t)).
    replace (S (C - 1)) with C by lia. rewrite partition_of_unity by assumption. rewrite Rmult_1_r. f_equal.
    apply Rsum_ext. intros i Hi. f_equal. unfold etail. destruct (Rlt_dec t (nth C ks 0)); [|lra].
    unfold tail. replace (C - (i + 1))%nat with (C - 1 - i)%nat by lia. reflexivity.
  Qed.
  Lemma telescope (x : nat -> R) m : x m = x 0%nat + Rsum (fun i => x (i + 1)%nat - x i) m.
  Proof. induction m as [|m IH]; cbn [Rsum]; [ring|]. replace (m + 1)%nat with (S m) by lia. lra. Qed.
  Lemma point_tails t p i : curve_point D ks ps t p -> (i < p_dim (P := P))%nat ->
    coord p i = coord (nth 0 ps p_default) i
      + Rsum (fun j => (coord (nth (j + 1) ps p_default) i - coord (nth j ps p_default) i) * etail (j + 1) t) (C - 1).
  Proof.
    intros [[Ht Hp]|[-> ->]] Hi.
    - rewrite (Hp i Hi). apply (values_tails (fun j => coord (nth j ps p_default) i) t Ht).
    - rewrite (telescope (fun j => coord (nth j ps p_default) i) (C - 1)) at 1. f_equal. apply Rsum_ext. intros j Hj.
      unfold etail. destruct (Rlt_dec _ _); lra.
  Qed.

  Lemma curve_domain t p : curve_point D ks ps t p -> nth D ks 0 <= t.
  Proof. intros [[H _]|[-> _]]; [lra|]. apply Hs. lia. Qed.

  (** values in order *)
  Theorem curve_order w s t p q : (forall k, (S k < C)%nat -> level w (nth k ps p_default) <= level w (nth (S k) ps p_default)) ->
    s <= t -> curve_point D ks ps s p -> curve_point D ks ps t q -> level w p <= level w q.
  Proof.
    intros Hw Hst Hp Hq.
    assert (L : forall t p, curve_point D ks ps t p -> level w p = level w (nth 0 ps p_default)
      + Rsum (fun j => (level w (nth (j + 1) ps p_default) - level w (nth j ps p_default)) * etail (j + 1) t) (C - 1)).
    { intros t' p' H. unfold level at 1.
      rewrite (Rsum_ext _ (fun i => w i * coord (nth 0 ps p_default) i
        + w i * Rsum (fun j => (coord (nth (j + 1) ps p_default) i - coord (nth j ps p_default) i) * etail (j + 1) t') (C - 1)))
        by (intros i Hi; rewrite (point_tails t' p' i H Hi); ring).
      rewrite Rsum_plus. fold (level w (nth 0 ps p_default)). f_equal.
      rewrite (Rsum_ext _ (fun i => Rsum (fun j => w i * ((coord (nth (j + 1) ps p_default) i - coord (nth j ps p_default) i) * etail (j + 1) t')) (C - 1)))
        by (intros; now rewrite Rsum_scal).
      rewrite Rsum_swap. apply Rsum_ext. intros j Hj. unfold level.
      rewrite <- Rsum_minus, Rmult_comm, <- Rsum_scal. apply Rsum_ext. intros i Hi. ring. }
    rewrite (L s p Hp), (L t q Hq). apply Rplus_le_compat_l. apply Rsum_le. intros j Hj.
    apply Rmult_le_compat_l; [|apply etail_mono; split; [now apply curve_domain with p|exact Hst]].
    pose proof (Hw j ltac:(lia)). rewrite Nat.add_1_r. lra.
  Qed.

  (** and lengths *)
  Lemma curve_step s t p q : s <= t -> curve_point D ks ps s p -> curve_point D ks ps t q ->
    dist p q <= Rsum (fun j => (etail (j + 1) t - etail (j + 1) s) * leg_length ps j) (C - 1).
  Proof.
    intros Hst Hp Hq. pose proof (curve_domain s p Hp) as Hd. rewrite dist_nrm.
    rewrite (nrm_ext _ (fun i => Rsum (fun j => (etail (j + 1) t - etail (j + 1) s)
      * (coord (nth j ps p_default) i - coord (nth (j + 1) ps p_default) i)) (C - 1))).
    - eapply Rle_trans; [apply (nrm_combination (fun j => etail (j + 1) t - etail (j + 1) s)
        (fun j i => coord (nth j ps p_default) i - coord (nth (j + 1) ps p_default) i))|].
      apply Rsum_le. intros j Hj. unfold leg_length. rewrite dist_nrm. apply Rmult_le_compat_r; [apply sqrt_pos|].
      pose proof (etail_mono (j + 1) s t ltac:(lra)). rewrite Rabs_pos_eq; lra.
    - intros i Hi. rewrite (point_tails s p i Hp Hi), (point_tails t q i Hq Hi).
      match goal with |- ?a + ?b - (?a + ?c) = _ => replace (a + b - (a + c)) with (b - c) by ring end.
      rewrite <- Rsum_minus. apply Rsum_ext. intros; ring.
  Qed.
  Fixpoint rising (ts : list R) : Prop :=
    match ts with t :: ((u :: _) as rest) => t <= u /\ rising rest | _ => True end.
  Lemma curve_walk ts qs : curve_points D ks ps ts qs -> rising ts ->
    forall t0 tn, hd_error ts = Some t0 -> last ts 0 = tn ->
    polygon_length qs <= Rsum (fun j => (etail (j + 1) tn - etail (j + 1) t0) * leg_length ps j) (C - 1).
  Proof.
    intros H. induction H as [|t q ts qs Hq H IH]; intros Hr t0 tn H0 Hn; [discriminate|].
    injection H0 as <-. destruct H as [|u r ts qs Hu H].
    - cbn in Hn. subst tn. cbn [polygon_length]. rewrite (Rsum_ext _ (fun _ => 0)); [rewrite Rsum_0; lra|]. intros; ring.
    - destruct Hr as [Htu Hr]. specialize (IH Hr u tn eq_refl Hn).
      change (polygon_length (q :: r :: qs)) with (dist q r + polygon_length (r :: qs)).
      pose proof (curve_step t u q r Htu Hq Hu) as S.
      eapply Rle_trans; [apply Rplus_le_compat; [exact S|exact IH]|]. rewrite <- Rsum_plus. right. apply Rsum_ext. intros; ring.
  Qed.
  Theorem curve_length ts qs : curve_points D ks ps ts qs -> (forall i j, (i <= j < length ts)%nat -> nth i ts 0 <= nth j ts 0) ->
    polygon_length qs <= polygon_length ps.
  Proof.
    intros H Hr. rewrite (polygon_sum ps).
    assert (R' : rising ts).
    { clear H. induction ts as [|t [|u ts] IH]; cbn; auto. split; [apply (Hr 0%nat 1%nat); cbn; lia|].
      apply IH. intros i j Hij. apply (Hr (S i) (S j)). cbn in *. lia. }
    destruct ts as [|t0 ts].
    - inversion H; subst. cbn. apply Rsum_nonneg. intros; apply dist_nonneg.
    - pose proof (curve_walk _ _ H R' t0 _ eq_refl eq_refl) as W. apply Rle_trans with (1 := W). apply Rsum_le. intros j Hj.
      assert (D0 : nth D ks 0 <= t0) by (inversion H; subst; eapply curve_domain; eassumption).
      assert (Dn : nth D ks 0 <= last (t0 :: ts) 0).
      { apply Rle_trans with (1 := D0). rewrite <- nth_last_. apply (Hr 0%nat (length (t0 :: ts) - 1)%nat). cbn; lia. }
      pose proof (etail_range (j + 1) t0 D0). pose proof (etail_range (j + 1) _ Dn).
      rewrite <- (Rmult_1_l (leg_length ps j)) at 2. apply Rmult_le_compat_r; [apply dist_nonneg|lra].
  Qed.
End Curve.

(** ** The points the code returns at the knots *)
Lemma Forall2_nth_intro {A B} (Rel : A -> B -> Prop) (da : A) (db : B) : forall l m, length l = length m ->
  (forall i, (i < length l)%nat -> Rel (nth i l da) (nth i m db)) -> Forall2 Rel l m.
Proof.
  induction l as [|a l IH]; intros [|b m] Hl H; try discriminate Hl; constructor.
  - exact (H 0%nat ltac:(cbn; lia)).
  - apply IH; [now injection Hl|]. intros i Hi. exact (H (S i) ltac:(cbn; lia)).
Qed.
Section Knots.
  Context {E : Eps} {P : Type} {PT : Point R P} {LP : LawfulPoint P}.
  Variables (D : nat) (ks : list R) (ps : list P) (s : bspline R P).
  Hypothesis Hnew : bspline_new D ks ps = Ret (Ok s).
  Local Notation C := (length ps).
  Local Notation U i := (nth i ks 0).
  Hypotheses (HD : (1 <= D)%nat) (Hkind : bs_kind s <> Unclamped)
    (Hsep : forall i j, (i < j < length ks)%nat -> U i < U j -> eps <= U j - U i).

  Lemma knot_eval k : (D <= k <= C)%nat -> exists p, bspline_eval s (U k) = Ret (Ok p) /\ curve_point D ks ps (U k) p.
  Proof.
    intros Hk. destruct (sizes D ks ps s Hnew) as [HDC HK]. pose proof (ks_sorted D ks ps s Hnew) as Hs.
    destruct (Rle_lt_dec (U C) (U k)) as [He|Hlt].
    - assert (Z : U k = U C) by (apply Rle_antisym; [apply Hs; lia|exact He]).
      eexists. rewrite Z. split; [apply (eval_last D ks ps s Hnew)|]. right. auto.
    - assert (H0 : U D <= U k) by (apply Hs; lia).
      destruct (span_exists ks (U k) k C) as (m & Hm & Hb); [lia|lra|].
      assert (Z : U k = U m) by (apply Rle_antisym; [apply Hs; lia|apply Hb]).
      destruct (eval_at_knot D ks ps s Hnew m HD) as (q & Eq & Hq); [lia| | | |].
      + apply (good_clamped D ks ps s); [exact Hkind|lra].
      + lra.
      + intros i Hi Hlt'. apply Hsep; [|exact Hlt']. split; [|lia].
        destruct (le_lt_dec m i) as [L|L]; [|exact L]. pose proof (Hs m i ltac:(lia)). lra.
      + rewrite <- Z in Eq. exists q. split; [exact Eq|]. left. split; [lra|]. rewrite Z. exact Hq.
  Qed.
  Lemma knot_point k p : (D <= k <= C)%nat -> bspline_eval s (U k) = Ret (Ok p) -> curve_point D ks ps (U k) p.
  Proof. intros Hk Ep. destruct (knot_eval k Hk) as (q & Eq & Hq). rewrite Ep in Eq. injection Eq as <-. exact Hq. Qed.
  Theorem knots_order w j k p q : (forall k, (S k < C)%nat -> level w (nth k ps p_default) <= level w (nth (S k) ps p_default)) ->
    (D <= j <= k)%nat -> (k <= C)%nat -> bspline_eval s (U j) = Ret (Ok p) -> bspline_eval s (U k) = Ret (Ok q) ->
    level w p <= level w q.
  Proof.
    intros Hw Hj Hk Ep Eq. destruct (sizes D ks ps s Hnew) as [HDC HK]. pose proof (ks_sorted D ks ps s Hnew) as Hs.
    apply (curve_order D ks ps Hs ltac:(lia) HDC w (U j) (U k)); [exact Hw|apply Hs; lia|apply knot_point; [lia|exact Ep]|apply knot_point; [lia|exact Eq]].
  Qed.
  Theorem knots_length (qs : list P) : length qs = (C - D + 1)%nat ->
    (forall i, (i < length qs)%nat -> bspline_eval s (U (D + i)) = Ret (Ok (nth i qs p_default))) ->
    polygon_length qs <= polygon_length ps.
  Proof.
    intros Hl Hq. destruct (sizes D ks ps s Hnew) as [HDC HK]. pose proof (ks_sorted D ks ps s Hnew) as Hs.
    set (ts := map (fun i => U (D + i)) (seq 0 (length qs))).
    assert (Lt : length ts = length qs) by (unfold ts; now rewrite map_length, seq_length).
    assert (Nt : forall i, (i < length qs)%nat -> nth i ts 0 = U (D + i)).
    { intros i Hi. unfold ts. rewrite (nth_indep _ 0 (U (D + 0))) by (rewrite map_length, seq_length; exact Hi).
      rewrite (map_nth (fun i => U (D + i))), seq_nth by exact Hi. reflexivity. }
    apply (curve_length D ks ps Hs ltac:(lia) HDC ts).
    - unfold curve_points, ts. apply Forall2_nth_intro with (da := 0) (db := p_default); [exact Lt|].
      intros i Hi. fold ts in Hi |- *. rewrite Nt by lia. apply knot_point; [lia|]. apply Hq. lia.
    - intros i j Hij. rewrite !Nt by lia. apply Hs. lia.
  Qed.
End Knots.
