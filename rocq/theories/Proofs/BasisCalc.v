(** Basis functions: partition of unity, sign, derivative, derivative of a spline. *)
From Coq Require Import Reals List Arith Bool Lia Lra Psatz.
From Verif Require Import Base.Outcome Base.Scalar Model.Point Model.BSpline Inst.RealInst
  Spec.Sums Spec.Lawful Spec.Basis
  Proofs.OutcomeFacts Proofs.PointFacts Proofs.RealTac Proofs.BSplineGeneric Proofs.BSplineReal Proofs.BSplineEval.
Import ListNotations.
Local Open Scope R_scope.

Lemma basis_ext (U V : nat -> R) t p : forall i,
  (forall m, (i <= m <= i + p + 1)%nat -> U m = V m) -> basis U p i t = basis V p i t.
Proof.
  induction p as [|p IH]; intros i H; cbn [basis].
  - rewrite !H by lia. reflexivity.
  - rewrite !H by lia. rewrite (IH i), (IH (i + 1)%nat); [reflexivity| |]; intros; apply H; lia.
Qed.
Lemma basis_shift (U : nat -> R) t p : forall i, basis (fun m => U (m + 1)%nat) p i t = basis U p (i + 1) t.
Proof.
  induction p as [|p IH]; intros i; cbn [basis]; [reflexivity|].
  rewrite !IH. replace (i + S p + 1)%nat with (i + 1 + S p)%nat by lia. reflexivity.
Qed.

(** empty support *)
Lemma basis_empty (U : nat -> R) t p : forall i,
  (forall a b, (i <= a <= b)%nat -> (b <= i + p + 1)%nat -> U a <= U b) ->
  U i = U (i + p + 1)%nat -> basis U p i t = 0.
Proof.
  induction p as [|p IH]; intros i Hm He; cbn [basis].
  - replace (i + 0 + 1)%nat with (i + 1)%nat in He by lia.
    destruct (Rle_dec (U i) t); [|reflexivity]. destruct (Rlt_dec t (U (i + 1)%nat)); [lra|reflexivity].
  - assert (H1 : U i <= U (i + 1)%nat) by (apply Hm; lia).
    assert (H2 : U (i + 1)%nat <= U (i + S p + 1)%nat) by (apply Hm; lia).
    assert (H3 : U i <= U (i + p + 1)%nat) by (apply Hm; lia).
    assert (H4 : U (i + p + 1)%nat <= U (i + S p + 1)%nat) by (apply Hm; lia).
    rewrite (IH i), (IH (i + 1)%nat); [ring| | | |].
    + intros a b Ha Hb. apply Hm; lia.
    + replace (i + 1 + p + 1)%nat with (i + S p + 1)%nat by lia. lra.
    + intros a b Ha Hb. apply Hm; lia.
    + lra.
Qed.

Definition dbasis (U : nat -> R) (p i : nat) (t : R) : R :=
  match p with
  | O => 0
  | S q => INR p * (quot 1 (U (i + p)%nat - U i) * basis U q i t
                    - quot 1 (U (i + p + 1)%nat - U (i + 1)%nat) * basis U q (i + 1) t)
  end.

Lemma quot_1 a b : quot a b = quot 1 b * a.
Proof. unfold quot. destruct (Req_EM_T b 0); [ring|]. unfold Rdiv. ring. Qed.
Lemma quot_inv b : b <> 0 -> quot 1 b * b = 1.
Proof. intros H. unfold quot. destruct (Req_EM_T b 0); [contradiction|]. field. exact H. Qed.
Lemma quot_0 : quot 1 0 = 0.
Proof. unfold quot. destruct (Req_EM_T 0 0); [reflexivity|contradiction]. Qed.

Lemma derivable_local f g x l d : 0 < d -> (forall y, Rabs (y - x) < d -> f y = g y) ->
  derivable_pt_lim f x l -> derivable_pt_lim g x l.
Proof.
  intros Hd Hfg Hf e He. destruct (Hf e He) as [d' H]. 
  assert (Hm : 0 < Rmin d d') by (apply Rmin_pos; [exact Hd|apply cond_pos]).
  exists (mkposreal _ Hm). intros h Hh Hl. cbn [pos] in Hl.
  rewrite <- !Hfg.
  - apply H; [exact Hh|]. eapply Rlt_le_trans; [exact Hl|apply Rmin_r].
  - replace (x - x) with 0 by ring. rewrite Rabs_R0. exact Hd.
  - replace (x + h - x) with h by ring. eapply Rlt_le_trans; [exact Hl|apply Rmin_l].
Qed.

Lemma basis_derivative (U : nat -> R) t p : forall i,
  (forall a b, (i <= a <= b)%nat -> (b <= i + p + 1)%nat -> U a <= U b) ->
  (forall a, (i <= a <= i + p + 1)%nat -> U a <> t) ->
  derivable_pt_lim (basis U p i) t (dbasis U p i t).
Proof.
  induction p as [|p IH]; intros i Hm Hne.
  - cbn [dbasis]. pose proof (Hne i ltac:(lia)) as N1. pose proof (Hne (i + 1)%nat ltac:(lia)) as N2.
    set (d := Rmin (Rabs (t - U i)) (Rabs (t - U (i + 1)%nat))).
    assert (Hd : 0 < d) by (apply Rmin_pos; apply Rabs_pos_lt; lra).
    apply (derivable_local (fct_cte (basis U 0 i t)) _ t 0 d Hd); [|apply derivable_pt_lim_const].
    intros y Hy. unfold fct_cte. cbn [basis].
    assert (Y1 : Rabs (y - t) < Rabs (t - U i)) by (eapply Rlt_le_trans; [exact Hy|apply Rmin_l]).
    assert (Y2 : Rabs (y - t) < Rabs (t - U (i + 1)%nat)) by (eapply Rlt_le_trans; [exact Hy|apply Rmin_r]).
    revert Y1 Y2. unfold Rabs.
    destruct (Rcase_abs (y - t)), (Rcase_abs (t - U i)), (Rcase_abs (t - U (i + 1)%nat)); intros;
      destruct (Rle_dec (U i) t), (Rle_dec (U i) y); try lra; auto;
      destruct (Rlt_dec t (U (i + 1)%nat)), (Rlt_dec y (U (i + 1)%nat)); try lra; auto.
  - set (a := quot 1 (U (i + S p)%nat - U i)).
    set (b := quot 1 (U (i + S p + 1)%nat - U (i + 1)%nat)).
    assert (D1 : derivable_pt_lim (basis U p i) t (dbasis U p i t)).
    { apply IH; intros; [apply Hm|apply Hne]; lia. }
    assert (D2 : derivable_pt_lim (basis U p (i + 1)) t (dbasis U p (i + 1) t)).
    { apply IH; intros; [apply Hm|apply Hne]; lia. }
    assert (G : derivable_pt_lim (fun y => a * (y - U i) * basis U p i y
        + b * (U (i + S p + 1)%nat - y) * basis U p (i + 1) y) t
      ((a * (1 - 0)) * basis U p i t + (a * (t - U i)) * dbasis U p i t
       + ((b * (0 - 1)) * basis U p (i + 1) t + (b * (U (i + S p + 1)%nat - t)) * dbasis U p (i + 1) t))).
    { apply derivable_pt_lim_plus.
      - apply (derivable_pt_lim_mult (fun y => a * (y - U i)) (basis U p i)); [|exact D1].
        apply (derivable_pt_lim_scal (fun y => y - U i)).
        apply derivable_pt_lim_minus; [apply derivable_pt_lim_id|apply derivable_pt_lim_const].
      - apply (derivable_pt_lim_mult (fun y => b * (U (i + S p + 1)%nat - y)) (basis U p (i + 1))); [|exact D2].
        apply (derivable_pt_lim_scal (fun y => U (i + S p + 1)%nat - y)).
        apply derivable_pt_lim_minus; [apply derivable_pt_lim_const|apply derivable_pt_lim_id]. }
    match type of G with derivable_pt_lim _ _ ?l => replace (dbasis U (S p) i t) with l end.
    + apply (derivable_local _ _ t _ 1 Rlt_0_1) with (2 := G). intros y _. cbn [basis].
      rewrite (quot_1 (y - U i)), (quot_1 (U (i + S p + 1)%nat - y)). reflexivity.
    + clear G D1 D2 IH. cbn [dbasis]. fold a b. destruct p as [|p].
      * cbn [dbasis basis INR]. ring.
      * rewrite (S_INR (S p)).
        assert (K : a * (t - U i) * dbasis U (S p) i t + b * (U (i + S (S p) + 1)%nat - t) * dbasis U (S p) (i + 1) t
          = INR (S p) * (a * basis U (S p) i t - b * basis U (S p) (i + 1) t)).
        { cbn [dbasis basis].
          rewrite (quot_1 (t - U i)), (quot_1 (U (i + S p + 1)%nat - t)),
            (quot_1 (t - U (i + 1)%nat)), (quot_1 (U (i + 1 + S p + 1)%nat - t)).
          replace (i + 1 + S p)%nat with (i + S p + 1)%nat by lia.
          replace (i + S p + 1 + 1)%nat with (i + S (S p) + 1)%nat by lia.
          set (c0 := quot 1 (U (i + S p)%nat - U i)).
          set (c1 := quot 1 (U (i + S p + 1)%nat - U (i + 1)%nat)).
          set (c2 := quot 1 (U (i + S (S p) + 1)%nat - U (i + 1 + 1)%nat)).
          assert (Z : c1 * (a * (U (i + S p + 1)%nat - U i) - b * (U (i + S (S p) + 1)%nat - U (i + 1)%nat)) = 0).
          { assert (M1 : U i <= U (i + 1)%nat) by (apply Hm; lia).
            assert (M2 : U (i + 1)%nat <= U (i + S p + 1)%nat) by (apply Hm; lia).
            assert (M3 : U (i + S p + 1)%nat <= U (i + S (S p) + 1)%nat) by (apply Hm; lia).
            destruct (Req_EM_T (U (i + S p + 1)%nat - U (i + 1)%nat) 0) as [E|E].
            - unfold c1. rewrite E, quot_0. ring.
            - unfold a, b. replace (i + S (S p))%nat with (i + S p + 1)%nat by lia.
              rewrite quot_inv by lra. replace (i + S (S p) + 1)%nat with (i + S p + 1 + 1)%nat in * by lia.
              rewrite quot_inv by lra. ring. }
          set (N0 := basis U p i t). set (N1 := basis U p (i + 1) t). set (N2 := basis U p (i + 1 + 1) t).
          match goal with |- ?L = ?R =>
            assert (X : R - L = INR (S p) * N1 * (c1 * (a * (U (i + S p + 1)%nat - U i) - b * (U (i + S (S p) + 1)%nat - U (i + 1)%nat)))) by ring;
            rewrite Z in X; rewrite Rmult_0_r in X; lra end. }
        match goal with |- ?L = ?R =>
          replace L with (a * basis U (S p) i t - b * basis U (S p) (i + 1) t
            + (a * (t - U i) * dbasis U (S p) i t + b * (U (i + S (S p) + 1)%nat - t) * dbasis U (S p) (i + 1) t)) by ring end.
        rewrite K. ring.
Qed.

Lemma Rsum_derivative (f : nat -> R -> R) (d : nat -> R) t n :
  (forall j, (j < n)%nat -> derivable_pt_lim (f j) t (d j)) ->
  derivable_pt_lim (fun y => Rsum (fun j => f j y) n) t (Rsum d n).
Proof.
  induction n as [|n IH]; intros H; cbn [Rsum].
  - apply derivable_pt_lim_const.
  - apply (derivable_pt_lim_plus (fun y => Rsum (fun j => f j y) n) (f n)); [apply IH; intros; apply H; lia|apply H; lia].
Qed.

Lemma Rsum_abel (q N x : nat -> R) n :
  Rsum (fun j => (q j * N j - q (j + 1)%nat * N (j + 1)%nat) * x j) (S n)
  = q 0%nat * N 0%nat * x 0%nat - q (n + 1)%nat * N (n + 1)%nat * x n
    + Rsum (fun j => q (j + 1)%nat * N (j + 1)%nat * (x (j + 1)%nat - x j)) n.
Proof.
  induction n as [|n IH]; [cbn [Rsum Nat.add]; ring|].
  change (Rsum (fun j => (q j * N j - q (j + 1)%nat * N (j + 1)%nat) * x j) (S (S n)))
    with (Rsum (fun j => (q j * N j - q (j + 1)%nat * N (j + 1)%nat) * x j) (S n)
          + (q (S n) * N (S n) - q (S n + 1)%nat * N (S n + 1)%nat) * x (S n)).
  rewrite IH. cbn [Rsum]. replace (n + 1)%nat with (S n) by lia. ring.
Qed.

(** support, in the form used with finite knot vectors *)
Lemma basis_left (U : nat -> R) t p : forall i,
  (forall a b, (i <= a <= b)%nat -> (b <= i + p + 1)%nat -> U a <= U b) -> t < U i -> basis U p i t = 0.
Proof.
  induction p as [|p IH]; intros i Hm Ht; cbn [basis].
  - destruct (Rle_dec (U i) t); [lra|reflexivity].
  - rewrite (IH i), (IH (i + 1)%nat); [ring| | | |]; auto; try (intros; apply Hm; lia).
    apply Rlt_le_trans with (U i); [exact Ht|apply Hm; lia].
Qed.
Lemma basis_right (U : nat -> R) t p : forall i,
  (forall a b, (i <= a <= b)%nat -> (b <= i + p + 1)%nat -> U a <= U b) -> U (i + p + 1)%nat <= t -> basis U p i t = 0.
Proof.
  induction p as [|p IH]; intros i Hm Ht; cbn [basis].
  - replace (i + 0 + 1)%nat with (i + 1)%nat in Ht by lia.
    destruct (Rle_dec (U i) t); [|reflexivity]. destruct (Rlt_dec t (U (i + 1)%nat)); [lra|reflexivity].
  - rewrite (IH i), (IH (i + 1)%nat); [ring| | | |]; auto; try (intros; apply Hm; lia).
    + replace (i + 1 + p + 1)%nat with (i + S p + 1)%nat by lia. exact Ht.
    + apply Rle_trans with (U (i + S p + 1)%nat); [apply Hm; lia|exact Ht].
Qed.

(** partition of unity and sign: the specification itself is sane *)
Lemma basis_nonneg (U : nat -> R) t p : forall i,
  (forall a b, (i <= a <= b)%nat -> (b <= i + p + 1)%nat -> U a <= U b) -> 0 <= basis U p i t.
Proof.
  assert (Q : forall a b, 0 <= a -> 0 <= b -> 0 <= quot a b).
  { intros a b Ha Hb. unfold quot. destruct (Req_EM_T b 0); [lra|].
    apply Rmult_le_pos; [exact Ha|]. apply Rlt_le, Rinv_0_lt_compat. lra. }
  induction p as [|p IH]; intros i Hm; cbn [basis].
  - destruct (Rle_dec _ _); [|lra]. destruct (Rlt_dec _ _); lra.
  - apply Rplus_le_le_0_compat.
    + destruct (Rlt_le_dec t (U i)) as [H|H].
      * rewrite basis_left; [lra| |exact H]. intros; apply Hm; lia.
      * apply Rmult_le_pos; [|apply IH; intros; apply Hm; lia].
        apply Q; [lra|]. assert (U i <= U (i + S p)%nat) by (apply Hm; lia). lra.
    + destruct (Rle_lt_dec (U (i + S p + 1)%nat) t) as [H|H].
      * rewrite (basis_right U t p (i + 1)); [lra| |].
        -- intros; apply Hm; lia.
        -- replace (i + 1 + p + 1)%nat with (i + S p + 1)%nat by lia. exact H.
      * apply Rmult_le_pos; [|apply IH; intros; apply Hm; lia].
        apply Q; [lra|]. assert (U (i + 1)%nat <= U (i + S p + 1)%nat) by (apply Hm; lia). lra.
Qed.

Section DSpline.
  Context {E : Eps} {P : Type} {PT : Point R P} {LP : LawfulPoint P}.

  Lemma nth_inner ks m : (m + 2 < length ks)%nat -> nth m (inner_knots ks) 0 = nth (m + 1) ks 0.
  Proof.
    intros H. unfold inner_knots. rewrite removelast_firstn_len.
    destruct ks as [|x ks]; [simpl in H; lia|]. cbn [tl].
    replace (m + 1)%nat with (S m) by lia. cbn [nth].
    pose proof (nth_window ks 0 (pred (length ks)) m 0) as W. cbn [skipn Nat.add] in W. apply W. simpl in H. lia.
  Qed.

  Lemma spline_derivative D ks (ps : list P) s t : bspline_new D ks ps = Ret (Ok s) -> (1 <= D)%nat ->
    nth D ks 0 < t < nth (length ps) ks 0 -> (forall i, (i < length ks)%nat -> nth i ks 0 <> t) ->
    exists s', bspline_derivative s = Ret s' /\ bs_degree s' = (D - 1)%nat /\
      length (bs_points s') = (length ps - 1)%nat /\
      forall i, (i < p_dim (P := P))%nat ->
        derivable_pt_lim (fun y => spline_coord D ks ps y i) t
          (spline_coord (D - 1) (inner_knots ks) (bs_points s') t i).
  Proof.
    intros Hnew HD Ht Hne. destruct (sizes D ks ps s Hnew) as [HC HK].
    destruct (fields D ks ps s Hnew) as (F1 & F2 & F3).
    destruct (derivative_ok s (wf D ks ps s Hnew)) as (q & Eq & Hl & Hq); [lia|].
    eexists. split; [exact Eq|]. cbn [bs_degree bs_points]. rewrite F1, F3 in *. split; [reflexivity|].
    split; [exact Hl|]. intros i Hi. set (U := fun m => nth m ks 0). set (C := length ps) in *.
    assert (Hm : forall a b, (a <= b < C + D + 1)%nat -> U a <= U b).
    { intros a b H. apply (ks_sorted D ks ps s Hnew). lia. }
    set (x := fun j => coord (nth j ps p_default) i).
    assert (G : derivable_pt_lim (fun y => spline_coord D ks ps y i) t (Rsum (fun j => dbasis U D j t * x j) C)).
    { unfold spline_coord. fold C.
      apply (Rsum_derivative (fun j y => basis (fun m => nth m ks 0) D j y * coord (nth j ps p_default) i)).
      intros j Hj. fold U. 
      assert (B : derivable_pt_lim (basis U D j) t (dbasis U D j t)).
      { apply basis_derivative; intros; [apply Hm; lia|apply Hne; lia]. }
      pose proof (derivable_pt_lim_mult (basis U D j) (fct_cte (x j)) t _ 0 B (derivable_pt_lim_const (x j) t)) as M.
      unfold fct_cte in M. rewrite Rmult_0_r, Rplus_0_r in M. exact M. }
    match goal with |- derivable_pt_lim _ _ ?l => replace l with (Rsum (fun j => dbasis U D j t * x j) C) end; [exact G|].
    clear G. destruct D as [|D]; [lia|]. replace (S D - 1)%nat with D by lia.
    cbn [dbasis]. set (qq := fun j => quot 1 (U (j + S D)%nat - U j)). set (N := fun j => basis U D j t).
    rewrite (Rsum_ext _ (fun j => INR (S D) * ((qq j * N j - qq (j + 1)%nat * N (j + 1)%nat) * x j))).
    2:{ intros j Hj. unfold qq, N. replace (j + S D + 1)%nat with (j + 1 + S D)%nat by lia. ring. }
    rewrite Rsum_scal. replace C with (S (C - 1)) at 1 by lia. rewrite Rsum_abel.
    assert (N0 : N 0%nat = 0).
    { unfold N. apply basis_right; [intros; apply Hm; lia|]. replace (0 + D + 1)%nat with (S D) by lia. unfold U. lra. }
    assert (NC : N (C - 1 + 1)%nat = 0).
    { unfold N. replace (C - 1 + 1)%nat with C by lia. apply basis_left; [intros; apply Hm; lia|]. unfold U. lra. }
    rewrite N0, NC. rewrite !Rmult_0_r, !Rmult_0_l, Rminus_0_r, Rplus_0_l, <- Rsum_scal.
    unfold spline_coord. rewrite Hl. apply Rsum_ext. intros j Hj.
    rewrite (Hq j) by lia. rewrite lp_mul, lp_sub by assumption. unfold cpoint. rewrite F3. fold (x (j + 1)%nat) (x j).
    rewrite !(knot_U (S D) ks ps s Hnew).
    rewrite (basis_ext (fun m => nth m (inner_knots ks) 0) (fun m => U (m + 1)%nat)).
    2:{ intros m Hm'. apply nth_inner. lia. }
    rewrite basis_shift. fold (N (j + 1)%nat). rs. rewrite <- INR_IZR_INZ || idtac.
    unfold qq. replace (j + 1 + S D)%nat with (j + S D + 1)%nat by lia. fold (U (j + S D + 1)%nat) (U (j + 1)%nat).
    destruct (Req_EM_T (U (j + S D + 1)%nat - U (j + 1)%nat) 0) as [Z|Z].
    - assert (NZ : N (j + 1)%nat = 0).
      { unfold N. apply basis_empty; [intros; apply Hm; lia|]. replace (j + 1 + D + 1)%nat with (j + S D + 1)%nat by lia. lra. }
      rewrite NZ. ring.
    - rewrite quot_nz by exact Z. unfold Rdiv. ring.
  Qed.
End DSpline.

(** The basis functions sum to one on the domain. *)
Lemma span_exists ks t : forall lo hi, (lo <= hi < length ks)%nat -> nth lo ks 0 <= t < nth hi ks 0 ->
  exists k, (lo <= k < hi)%nat /\ nth k ks 0 <= t < nth (k + 1) ks 0.
Proof.
  intros lo hi. induction hi as [|hi IH]; intros Hl Ht.
  - replace lo with 0%nat in Ht by lia. lra.
  - destruct (Nat.eq_dec lo (S hi)) as [->|Hne]; [lra|].
    destruct (Rlt_le_dec t (nth hi ks 0)) as [H|H].
    + destruct IH as (k & Hk & Hb); [lia|lra|]. exists k. split; [lia|exact Hb].
    + exists hi. split; [lia|]. rewrite Nat.add_1_r. lra.
Qed.

Lemma partition_of_unity D C ks t : sorted ks -> (C + D + 1 <= length ks)%nat ->
  nth D ks 0 <= t < nth C ks 0 -> Rsum (fun j => basis (fun m => nth m ks 0) D j t) C = 1.
Proof.
  intros Hs HK Ht. set (U := fun m => nth m ks 0).
  assert (HDC : (D <= C)%nat).
  { destruct (le_lt_dec D C) as [H|H]; [exact H|]. pose proof (Hs C D ltac:(lia)). lra. }
  destruct (span_exists ks t D C ltac:(lia) Ht) as (k & Hk & Hb).
  assert (Hm : forall a b, (a <= b < C + D + 1)%nat -> U a <= U b) by (intros a b H; apply Hs; lia).
  pose proof (de_boor_sum U D k t (fun _ _ => 1)) as S.
  replace C with ((k - D) + ((D + 1) + (C - k - 1)))%nat at 1 by lia.
  rewrite (Rsum_split _ (k - D)), (Rsum_split _ (D + 1)).
  rewrite (Rsum_ext (fun j => basis U D j t) (fun _ => 0)), Rsum_0.
  2:{ intros j Hj. apply basis_right; [intros; apply Hm; lia|].
      apply Rle_trans with (U k); [apply Hm; lia|apply Hb]. }
  rewrite (Rsum_ext (fun i => basis U D (k - D + (D + 1 + i)) t) (fun _ => 0)), Rsum_0.
  2:{ intros j Hj. apply basis_left; [intros; apply Hm; lia|].
      apply Rlt_le_trans with (U (k + 1)%nat); [apply Hb|apply Hm; lia]. }
  rewrite Rplus_0_l, Rplus_0_r. rewrite S.
  - apply Rsum_ext. intros j Hj. rewrite Rmult_1_l. f_equal. lia.
  - lia.
  - intros a b Hab Hbk. apply Hm. lia.
  - exact Hb.
  - intros r j Hr Hj. cbn zeta. ring.
Qed.

Lemma spline_constant {P : Type} {PT : Point R P} {LP : LawfulPoint P} D ks (ps : list P) t i c :
  sorted ks -> (length ps + D + 1 <= length ks)%nat -> nth D ks 0 <= t < nth (length ps) ks 0 ->
  (forall p, In p ps -> coord p i = c) -> spline_coord D ks ps t i = c.
Proof.
  intros Hs HK Ht Hc. unfold spline_coord.
  rewrite (Rsum_ext _ (fun j => c * basis (fun m => nth m ks 0) D j t)).
  - rewrite Rsum_scal, partition_of_unity by assumption. ring.
  - intros j Hj. rewrite (Hc (nth j ps p_default)); [ring|]. now apply nth_In.
Qed.
