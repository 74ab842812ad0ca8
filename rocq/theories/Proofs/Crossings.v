(** Variation diminishing: Descartes' rule of signs in Bernstein form. *)
From Coq Require Import Reals List ZArith Arith Lia Lra Psatz.
From Verif Require Import Base.Outcome Base.Scalar Model.Point Model.Line Model.Quadratic
  Model.Cubic Model.Bezier Inst.RealInst Spec.Sums Spec.Lawful Spec.Bernstein Spec.Crossings
  Proofs.OutcomeFacts Proofs.PointFacts Proofs.RealTac Proofs.ExactEval Proofs.BezierGeneric
  Proofs.BezierReal Proofs.BBoxFacts Proofs.Elevation.
Import ListNotations.
Local Open Scope R_scope.

(** ** Sequences *)
Lemma bounded_dec (A : nat -> Prop) (D : forall k, A k \/ ~ A k) lo n :
  (exists k, (lo < k < lo + n)%nat /\ A k) \/ (forall k, (lo < k < lo + n)%nat -> ~ A k).
Proof.
  induction n as [|n IH]; [right; lia|]. destruct IH as [(k & Hk & HA)|IH]; [left; exists k; split; [lia|exact HA]|].
  destruct (Nat.eq_dec n 0) as [->|Hn]; [right; lia|].
  destruct (D (lo + n)%nat) as [HA|HA]; [left; exists (lo + n)%nat; split; [lia|exact HA]|].
  right. intros k Hk. destruct (Nat.eq_dec k (lo + n)) as [->|]; [exact HA|]. apply IH. lia.
Qed.

(** a sign change has an innermost sign change *)
Lemma tight_change (a : nat -> R) d : forall i, a i * a (i + d)%nat < 0 ->
  exists p q, (i <= p < q)%nat /\ (q <= i + d)%nat /\ a p * a q < 0 /\ forall k, (p < k < q)%nat -> a k = 0.
Proof.
  induction d as [d IH] using lt_wf_ind. intros i H.
  assert (Hd : (0 < d)%nat).
  { destruct d; [|lia]. rewrite Nat.add_0_r in H. pose proof (Rle_0_sqr (a i)) as Q. unfold Rsqr in Q. lra. }
  destruct (bounded_dec (fun k => a k <> 0) ltac:(intros k; destruct (Req_dec (a k) 0); tauto) i d) as [(k & Hk & Hn)|Hz].
  - destruct (Rlt_dec (a i * a k) 0) as [L|L].
    + destruct (IH (k - i)%nat ltac:(lia) i) as (p & q & A & B & C & D).
      { now replace (i + (k - i))%nat with k by lia. }
      exists p, q. split; [lia|]. split; [lia|]. now split.
    + destruct (IH (i + d - k)%nat ltac:(lia) k) as (p & q & A & B & C & D).
      { replace (k + (i + d - k))%nat with (i + d)%nat by lia.
        assert (0 < a i * a k).
        { destruct (Rtotal_order (a i * a k) 0) as [T|[T|T]]; [lra| |lra].
          apply Rmult_integral in T. destruct T as [T|T]; [rewrite T, Rmult_0_l in H; lra|lra]. }
        destruct (Rlt_le_dec 0 (a i)) as [Pi|Pi].
        - assert (0 < a k) by nra. assert (a (i + d)%nat < 0) by nra. nra.
        - assert (a i < 0) by nra. assert (a k < 0) by nra. assert (0 < a (i + d)%nat) by nra. nra. }
      exists p, q. split; [lia|]. split; [lia|]. now split.
  - exists i, (i + d)%nat. split; [lia|]. split; [lia|]. split; [exact H|].
    intros k Hk. destruct (Req_dec (a k) 0) as [Z|Z]; [exact Z|]. exfalso. exact (Hz k Hk Z).
Qed.

(** m + 1 indices with alternating signs *)
Definition alternating (a : nat -> R) (n m : nat) : Prop :=
  exists idx : nat -> nat,
    (forall j, (j < m)%nat -> (idx j < idx (S j))%nat) /\ (forall j, (j <= m)%nat -> (idx j <= n)%nat /\ a (idx j) <> 0) /\
    (forall j, (j < m)%nat -> a (idx j) * a (idx (S j)) < 0).

Lemma increasing_lt (idx : nat -> nat) m : (forall j, (j < m)%nat -> (idx j < idx (S j))%nat) ->
  forall i j, (i < j <= m)%nat -> (idx i < idx j)%nat.
Proof.
  intros H i j. induction j as [|j IH]; intros Hj; [lia|].
  specialize (H j ltac:(lia)). destruct (Nat.eq_dec i j) as [->|]; [exact H|]. specialize (IH ltac:(lia)). lia.
Qed.

(** how many of the indices are at most p *)
Lemma cut_index (idx : nat -> nat) m p : (forall j, (j < m)%nat -> (idx j < idx (S j))%nat) ->
  exists r, (r <= S m)%nat /\ (forall j, (j < r)%nat -> (idx j <= p)%nat) /\
    (forall j, (r <= j <= m)%nat -> (p < idx j)%nat).
Proof.
  induction m as [|m IH]; intros H.
  - destruct (le_lt_dec (idx 0%nat) p) as [L|L].
    + exists 1%nat. split; [lia|]. split; intros j Hj; [now replace j with 0%nat by lia|lia].
    + exists 0%nat. split; [lia|]. split; intros j Hj; [lia|now replace j with 0%nat by lia].
  - destruct IH as (r & R1 & R2 & R3); [intros; apply H; lia|].
    destruct (le_lt_dec (idx (S m)) p) as [L|L].
    + exists (S (S m)). split; [lia|]. split; [|lia]. intros j Hj.
      destruct (Nat.eq_dec j (S m)) as [->|]; [exact L|].
      pose proof (increasing_lt idx (S m) H j (S m) ltac:(lia)). lia.
    + exists r. split; [lia|]. split; [exact R2|]. intros j Hj.
      destruct (Nat.eq_dec j (S m)) as [->|]; [exact L|apply R3; lia].
Qed.

Lemma same_sign_opp x y z : x * y < 0 -> z <> 0 -> 0 < z * x \/ 0 < z * y.
Proof.
  intros H Hz. assert (x <> 0) by (intros ->; lra). assert (y <> 0) by (intros ->; lra).
  destruct (Rtotal_order z 0) as [Z|[Z|Z]]; [|contradiction|]; destruct (Rtotal_order x 0) as [X|[X|X]]; try contradiction;
    [left; nra|right; assert (y < 0) by nra; nra|right; assert (0 < y) by nra; nra|left; nra].
Qed.

Definition wgt (p : nat) (a : nat -> R) (i : nat) : R := (INR i - (INR p + / 2)) * a i.

Lemma wgt_hi p a i : (p < i)%nat -> exists k, 0 < k /\ wgt p a i = k * a i.
Proof.
  intros H. exists (INR i - (INR p + / 2)). split; [|reflexivity].
  apply le_INR in H. rewrite S_INR in H. lra.
Qed.
Lemma wgt_lo p a i : (i <= p)%nat -> exists k, 0 < k /\ wgt p a i = - k * a i.
Proof.
  intros H. exists ((INR p + / 2) - INR i). split; [|unfold wgt; ring]. apply le_INR in H. lra.
Qed.

(** reweighting removes exactly one sign change *)
Lemma alternating_insert (a : nat -> R) n m p q : (p < q <= n)%nat -> a p * a q < 0 ->
  (forall k, (p < k < q)%nat -> a k = 0) -> alternating (wgt p a) n m -> alternating a n (S m).
Proof.
  intros Hpq Hs Hz (idx & I1 & I2 & I3).
  destruct (cut_index idx m p I1) as (r & R1 & R2 & R3).
  assert (Hnz : forall j, (j <= m)%nat -> a (idx j) <> 0).
  { intros j Hj Hj0. apply (proj2 (I2 j Hj)). unfold wgt. rewrite Hj0. ring. }
  assert (Hge : forall j, (r <= j <= m)%nat -> (q <= idx j)%nat).
  { intros j Hj. specialize (R3 j Hj). destruct (le_lt_dec q (idx j)) as [L|L]; [exact L|].
    exfalso. apply (Hnz j ltac:(lia)). apply Hz. lia. }
  assert (Hlow : forall j, (S j < r)%nat -> a (idx j) * a (idx (S j)) < 0).
  { intros j Hj. specialize (I3 j ltac:(lia)).
    destruct (wgt_lo p a (idx j) (R2 j ltac:(lia))) as (k1 & K1 & E1).
    destruct (wgt_lo p a (idx (S j)) (R2 (S j) ltac:(lia))) as (k2 & K2 & E2).
    rewrite E1, E2 in I3. pose proof (Rmult_lt_0_compat _ _ K1 K2) as K.
    replace (- k1 * a (idx j) * (- k2 * a (idx (S j)))) with (k1 * k2 * (a (idx j) * a (idx (S j)))) in I3 by ring.
    destruct (Rlt_le_dec (a (idx j) * a (idx (S j))) 0) as [L|L]; [exact L|].
    pose proof (Rmult_le_pos _ _ (Rlt_le _ _ K) L). lra. }
  assert (Hhigh : forall j, (r <= j < m)%nat -> a (idx j) * a (idx (S j)) < 0).
  { intros j Hj. specialize (I3 j ltac:(lia)).
    destruct (wgt_hi p a (idx j) (R3 j ltac:(lia))) as (k1 & K1 & E1).
    destruct (wgt_hi p a (idx (S j)) (R3 (S j) ltac:(lia))) as (k2 & K2 & E2).
    rewrite E1, E2 in I3. pose proof (Rmult_lt_0_compat _ _ K1 K2) as K.
    replace (k1 * a (idx j) * (k2 * a (idx (S j)))) with (k1 * k2 * (a (idx j) * a (idx (S j)))) in I3 by ring.
    destruct (Rlt_le_dec (a (idx j) * a (idx (S j))) 0) as [L|L]; [exact L|].
    pose proof (Rmult_le_pos _ _ (Rlt_le _ _ K) L). lra. }
  assert (Hmid : (0 < r <= m)%nat -> 0 < a (idx (r - 1)%nat) * a (idx r)).
  { intros Hr. specialize (I3 (r - 1)%nat ltac:(lia)). replace (S (r - 1)) with r in I3 by lia.
    destruct (wgt_lo p a (idx (r - 1)%nat) (R2 (r - 1)%nat ltac:(lia))) as (k1 & K1 & E1).
    destruct (wgt_hi p a (idx r) (R3 r ltac:(lia))) as (k2 & K2 & E2).
    rewrite E1, E2 in I3. pose proof (Rmult_lt_0_compat _ _ K1 K2) as K.
    replace (- k1 * a (idx (r - 1)%nat) * (k2 * a (idx r))) with (- (k1 * k2 * (a (idx (r - 1)%nat) * a (idx r)))) in I3 by ring.
    destruct (Rlt_le_dec 0 (a (idx (r - 1)%nat) * a (idx r))) as [L|L]; [exact L|].
    assert (k1 * k2 * (a (idx (r - 1)%nat) * a (idx r)) <= 0) by nra. lra. }
  (* the neighbours of the gap have one sign, the new index the other *)
  assert (Hx : exists x, (p <= x <= q)%nat /\ a x <> 0 /\
    ((0 < r)%nat -> (idx (r - 1)%nat < x)%nat /\ a (idx (r - 1)%nat) * a x < 0) /\
    ((r <= m)%nat -> (x < idx r)%nat /\ a x * a (idx r) < 0)).
  { set (z := if (r =? 0)%nat then a (idx r) else a (idx (r - 1)%nat)).
    assert (Hz0 : z <> 0).
    { unfold z. destruct (Nat.eqb_spec r 0); apply Hnz; lia. }
    assert (Hzl : (0 < r)%nat -> a (idx (r - 1)%nat) = z).
    { intros Hr. unfold z. destruct (Nat.eqb_spec r 0); [lia|reflexivity]. }
    assert (Hzr : (r <= m)%nat -> 0 < z * a (idx r)).
    { intros Hr. unfold z. destruct (Nat.eqb_spec r 0) as [E0|E0]; [|apply Hmid; lia].
      pose proof (Hnz r Hr). nra. }
    assert (Hpick : exists x, (x = p \/ x = q) /\ z * a x < 0).
    { destruct (same_sign_opp (a p) (a q) (- z)) as [L|L]; [exact Hs|lra| |].
      - exists p. split; [now left|lra].
      - exists q. split; [now right|lra]. }
    destruct Hpick as (x & Hxc & Hxs).
    exists x. split; [destruct Hxc; subst; lia|]. split; [intros E0; rewrite E0, Rmult_0_r in Hxs; lra|]. split.
    - intros Hr. specialize (Hzl Hr). split; [|now rewrite Hzl].
      pose proof (R2 (r - 1)%nat ltac:(lia)). destruct Hxc as [->| ->]; [|lia].
      assert (idx (r - 1)%nat <> p); [|lia]. intros E0. rewrite <- Hzl, E0 in Hxs. nra.
    - intros Hr. specialize (Hzr Hr). split.
      + pose proof (Hge r ltac:(lia)). destruct Hxc as [->| ->]; [lia|].
        assert (idx r <> q); [|lia]. intros E0. rewrite E0 in Hzr. lra.
      + destruct (Rlt_le_dec 0 z); nra. }
  destruct Hx as (x & X1 & X2 & X3 & X4).
  exists (fun j => if (j <? r)%nat then idx j else if (j =? r)%nat then x else idx (j - 1)%nat).
  split; [|split].
  - intros j Hj. destruct (Nat.ltb_spec j r); destruct (Nat.ltb_spec (S j) r); try lia.
    + apply I1. lia.
    + destruct (Nat.eqb_spec (S j) r); [|lia]. destruct X3 as [A _]; [lia|]. now replace (r - 1)%nat with j in A by lia.
    + destruct (Nat.eqb_spec j r); destruct (Nat.eqb_spec (S j) r); try lia.
      * subst j. replace (S r - 1)%nat with r by lia. apply X4. lia.
      * replace (S j - 1)%nat with (S (j - 1)) by lia. apply I1. lia.
  - intros j Hj. destruct (Nat.ltb_spec j r).
    + split; [apply I2; lia|apply Hnz; lia].
    + destruct (Nat.eqb_spec j r); [split; [lia|exact X2]|]. split; [apply I2; lia|apply Hnz; lia].
  - intros j Hj. destruct (Nat.ltb_spec j r); destruct (Nat.ltb_spec (S j) r); try lia.
    + apply Hlow. lia.
    + destruct (Nat.eqb_spec (S j) r); [|lia]. destruct X3 as [_ A]; [lia|]. now replace (r - 1)%nat with j in A by lia.
    + destruct (Nat.eqb_spec j r); destruct (Nat.eqb_spec (S j) r); try lia.
      * subst j. replace (S r - 1)%nat with r by lia. apply X4. lia.
      * replace (S j - 1)%nat with (S (j - 1)) by lia. apply Hhigh. lia.
Qed.

(** ** Descartes' rule of signs for sums a_i y^(2i), y > 0 *)
Definition even_sum (n : nat) (a : nat -> R) (y : R) : R := Rsum (fun i => a i * y ^ (2 * i)) (S n).

Lemma Rsum_derivable (f df : nat -> R -> R) y n :
  (forall i, derivable_pt_lim (f i) y (df i y)) ->
  derivable_pt_lim (fun y => Rsum (fun i => f i y) n) y (Rsum (fun i => df i y) n).
Proof.
  intros H. induction n as [|n IH]; cbn [Rsum]; [apply derivable_pt_lim_const|].
  exact (derivable_pt_lim_plus _ _ _ _ _ IH (H n)).
Qed.

(** between two zeros of the sum there is one of the reweighted sum *)
Lemma even_sum_rolle n a p y z : 0 < y < z -> even_sum n a y = 0 -> even_sum n a z = 0 ->
  exists c, y < c < z /\ even_sum n (wgt p a) c = 0.
Proof.
  intros Hyz Hy Hz. set (N := (2 * p + 1)%nat).
  set (dS := fun y => Rsum (fun i => a i * (INR (2 * i) * y ^ Nat.pred (2 * i))) (S n)).
  assert (HS : forall y, derivable_pt_lim (even_sum n a) y (dS y)).
  { intros x. apply (Rsum_derivable (fun i y => a i * y ^ (2 * i)) (fun i y => a i * (INR (2 * i) * y ^ Nat.pred (2 * i)))).
    intros i. apply (derivable_pt_lim_scal (fun y => y ^ (2 * i))). apply derivable_pt_lim_pow. }
  set (h := (even_sum n a / (fun y => y ^ N))%F).
  destruct (MVT_cor2 h (fun y => (dS y * y ^ N - INR N * y ^ Nat.pred N * even_sum n a y) / Rsqr (y ^ N)) y z) as (c & Hc & Hin);
    [lra| |].
  { intros c Hc. apply (derivable_pt_lim_div (even_sum n a) (fun y => y ^ N)); [apply HS|apply derivable_pt_lim_pow|].
    apply pow_nonzero. lra. }
  exists c. split; [exact Hin|].
  assert (Hh : h z - h y = 0) by (unfold h, div_fct; rewrite Hy, Hz; unfold Rdiv; ring).
  rewrite Hh in Hc. symmetry in Hc. apply Rmult_integral in Hc. destruct Hc as [Hc|Hc]; [|lra].
  assert (Pc : 0 < c ^ N) by (apply pow_lt; lra).
  assert (Hc' : dS c * c ^ N - INR N * c ^ Nat.pred N * even_sum n a c = 0).
  { apply (Rmult_eq_reg_r (/ Rsqr (c ^ N))); [rewrite Rmult_0_l; exact Hc|].
    apply Rinv_neq_0_compat. unfold Rsqr. nra. }
  assert (EN : c ^ N = c * c ^ Nat.pred N) by (unfold N; rewrite Nat.add_1_r; reflexivity).
  rewrite EN in Hc'. assert (Pc' : 0 < c ^ Nat.pred N) by (apply pow_lt; lra).
  assert (HE : c * dS c - INR N * even_sum n a c = 0) by (apply (Rmult_eq_reg_r (c ^ Nat.pred N)); lra).
  assert (H2 : 2 * even_sum n (wgt p a) c = c * dS c - INR N * even_sum n a c).
  { unfold dS, even_sum. rewrite <- !Rsum_scal, <- Rsum_minus. apply Rsum_ext. intros i _. unfold wgt, N.
    rewrite plus_INR, !mult_INR. change (INR 2) with 2. change (INR 1) with 1.
    destruct i as [|i].
    - cbn [Nat.mul pow INR]. field.
    - assert (EP : c ^ (2 * S i) = c * c ^ Nat.pred (2 * S i))
        by (replace (2 * S i)%nat with (S (S (2 * i))) by lia; reflexivity).
      rewrite EP. generalize (c ^ Nat.pred (2 * S i)), (INR (S i)), (INR p). intros u v w. field. }
  lra.
Qed.

Lemma even_sum_no_change n a y : 0 < y -> (exists k, (k <= n)%nat /\ a k <> 0) -> even_sum n a y = 0 ->
  exists i j, (i < j <= n)%nat /\ a i * a j < 0.
Proof.
  intros Hy (k & Hk & Hn) Hz.
  destruct (bounded_dec (fun i => (1 <= i)%nat /\ a k * a (i - 1)%nat < 0)
    ltac:(intros i; destruct (Rlt_dec (a k * a (i - 1)%nat) 0); destruct (le_dec 1 i); tauto) 0 (n + 2))
    as [(i & Hi & _ & HA)|Hno].
  - assert (i - 1 <> k)%nat by (intros E0; rewrite E0 in HA; nra).
    destruct (lt_dec (i - 1) k) as [L|L].
    + exists (i - 1)%nat, k. split; [lia|]. lra.
    + exists k, (i - 1)%nat. split; [lia|exact HA].
  - exfalso.
    assert (Hpos : forall i, (i <= n)%nat -> 0 <= a k * a i).
    { intros i Hi. destruct (Rlt_le_dec (a k * a i) 0) as [L|L]; [|exact L]. exfalso.
      apply (Hno (i + 1)%nat); [lia|]. split; [lia|]. now replace (i + 1 - 1)%nat with i by lia. }
    assert (Hs : a k * even_sum n a y = Rsum (fun i => (a k * a i) * y ^ (2 * i)) (S n)).
    { unfold even_sum. rewrite <- Rsum_scal. apply Rsum_ext. intros; ring. }
    rewrite Hz, Rmult_0_r in Hs.
    assert (Hk2 : 0 < a k * a k * y ^ (2 * k)).
    { apply Rmult_lt_0_compat; [nra|apply pow_lt; lra]. }
    assert (Hle : Rsum (fun i => if (i =? k)%nat then a k * a k * y ^ (2 * k) else 0) (S n)
                  <= Rsum (fun i => (a k * a i) * y ^ (2 * i)) (S n)).
    { apply Rsum_le. intros i Hi. destruct (Nat.eqb_spec i k) as [->|]; [lra|].
      apply Rmult_le_pos; [apply Hpos; lia|]. left. apply pow_lt. lra. }
    rewrite (Rsum_single _ (S n) k) in Hle; [|lia|intros i _ Hi; destruct (Nat.eqb_spec i k); [contradiction|reflexivity]].
    rewrite Nat.eqb_refl in Hle. lra.
Qed.

Theorem descartes n m : forall a y, (exists k, (k <= n)%nat /\ a k <> 0) ->
  (forall i, (i < m)%nat -> 0 < y i /\ even_sum n a (y i) = 0) ->
  (forall i, (S i < m)%nat -> y i < y (S i)) -> alternating a n m.
Proof.
  induction m as [|m IH]; intros a y Hk Hy Hinc.
  - destruct Hk as (k & Hk & Hn). exists (fun _ => k). split; [lia|]. split; [now intros|lia].
  - destruct (Hy 0%nat ltac:(lia)) as [P0 Z0].
    destruct (even_sum_no_change n a (y 0%nat) P0 Hk Z0) as (i & j & Hij & Hs).
    destruct (tight_change a (j - i) i) as (p & q & A & B & C & D).
    { now replace (i + (j - i))%nat with j by lia. }
    apply (alternating_insert a n m p q); [lia|exact C|exact D|].
    destruct m as [|m].
    + (* one zero: only a nonzero entry is needed *)
      exists (fun _ => p). split; [lia|]. split; [|lia]. intros _ _. split; [lia|].
      destruct (wgt_lo p a p ltac:(lia)) as (k & K & ->). intros E0.
      apply Rmult_integral in E0. destruct E0 as [E0|E0]; [lra|]. rewrite E0, Rmult_0_l in C. lra.
    + destruct (finite_choice (fun i c => y i < c < y (S i) /\ even_sum n (wgt p a) c = 0) m) as (z & Hz).
      { intros k Hkm. destruct (Hy k ltac:(lia)) as [Pk Zk]. destruct (Hy (S k) ltac:(lia)) as [Pk' Zk'].
        apply (even_sum_rolle n a p (y k) (y (S k))); [|exact Zk|exact Zk']. split; [exact Pk|apply Hinc; lia]. }
      apply (IH (wgt p a) z).
      * exists p. split; [lia|]. destruct (wgt_lo p a p ltac:(lia)) as (k & K & ->). intros E0.
        apply Rmult_integral in E0. destruct E0 as [E0|E0]; [lra|]. rewrite E0, Rmult_0_l in C. lra.
      * intros k Hkm. destruct (Hz k ltac:(lia)) as [A1 A2]. split; [|exact A2].
        destruct (Hy k ltac:(lia)). lra.
      * intros k Hkm. destruct (Hz k ltac:(lia)) as [A1 _]. destruct (Hz (S k) ltac:(lia)) as [A2 _]. lra.
Qed.

(** ** Bernstein form *)
Lemma binom_pos n : forall k, (k <= n)%nat -> (0 < binom n k)%nat.
Proof.
  induction n as [|n IH]; intros [|k] Hk; try (rewrite ?binom_0; lia).
  change (binom (S n) (S k)) with (binom n k + binom n (S k))%nat. pose proof (IH k ltac:(lia)). lia.
Qed.

Definition odds (t : R) : R := sqrt (t / (1 - t)).
Lemma odds_pos t : 0 < t < 1 -> 0 < odds t.
Proof. intros H. apply sqrt_lt_R0. apply Rdiv_lt_0_compat; lra. Qed.
Lemma odds_lt s t : 0 < s -> s < t -> t < 1 -> odds s < odds t.
Proof.
  intros H1 H2 H3. apply sqrt_lt_1; [apply Rlt_le, Rdiv_lt_0_compat; lra|apply Rlt_le, Rdiv_lt_0_compat; lra|].
  apply (Rmult_lt_reg_r ((1 - s) * (1 - t))); [apply Rmult_lt_0_compat; lra|].
  replace (s / (1 - s) * ((1 - s) * (1 - t))) with (s * (1 - t)) by (field; lra).
  replace (t / (1 - t) * ((1 - s) * (1 - t))) with (t * (1 - s)) by (field; lra). nra.
Qed.
Lemma odds_even t i : 0 < t < 1 -> odds t ^ (2 * i) = t ^ i / (1 - t) ^ i.
Proof.
  intros H. rewrite pow_mult. replace (odds t ^ 2) with (t / (1 - t)).
  - unfold Rdiv. rewrite Rpow_mult_distr, pow_inv. reflexivity.
  - unfold odds. rewrite pow2_sqrt; [reflexivity|]. apply Rlt_le, Rdiv_lt_0_compat; lra.
Qed.

Lemma dc_even n f t : 0 < t < 1 ->
  dc t n f 0 = (1 - t) ^ n * even_sum n (fun i => INR (binom n i) * f i) (odds t).
Proof.
  intros H. rewrite dc_bernstein. unfold even_sum. rewrite <- Rsum_scal. apply Rsum_ext. intros i Hi.
  cbn [Nat.add]. rewrite odds_even by exact H. unfold bernstein.
  replace ((1 - t) ^ n) with ((1 - t) ^ (n - i) * (1 - t) ^ i) by (rewrite <- pow_add; f_equal; lia).
  field. apply pow_nonzero. lra.
Qed.

Theorem dc_crossings {E : Eps} n (f : nat -> R) c (ts : list R) : NoDup ts ->
  (forall t, In t ts -> 0 < t < 1 /\ dc t n f 0 = c) -> (exists k, (k <= n)%nat /\ f k <> c) ->
  alternating (fun k => f k - c) n (length ts).
Proof.
  intros Hd Ht (k & Hk & Hf). destruct (distinct_increasing ts Hd) as [Hx Hin].
  set (x := fun i => nth i (s_isort ts) 0) in *.
  assert (HA : alternating (fun i => INR (binom n i) * (f i - c)) n (length ts)).
  { apply (descartes n (length ts) _ (fun i => odds (x i))).
    - exists k. split; [exact Hk|]. apply Rmult_integral_contrapositive_currified; [|lra].
      pose proof (lt_0_INR _ (binom_pos n k Hk)). lra.
    - intros i Hi. destruct (Ht (x i) (Hin i Hi)) as [H01 HE]. split; [now apply odds_pos|].
      pose proof (dc_even n (fun i => f i - c) (x i) H01) as H2. cbn beta in H2.
      rewrite (dc_ext _ _ (fun i => f i - c) (fun i => 1 * f i + (- (1)) * c)) in H2 by (intros; ring).
      rewrite (dc_lin (x i) n 1 (- (1)) f (fun _ => c)), dc_const, HE in H2.
      assert (Z : (1 - x i) ^ n * even_sum n (fun i => INR (binom n i) * (f i - c)) (odds (x i)) = 0) by lra.
      apply Rmult_integral in Z. destruct Z as [Z|Z]; [|exact Z].
      exfalso. revert Z. apply pow_nonzero. lra.
    - intros i Hi. destruct (Ht (x i) (Hin i ltac:(lia))) as [H01 _].
      destruct (Ht (x (S i)) (Hin (S i) ltac:(lia))) as [H02 _]. specialize (Hx i ltac:(lia)).
      rewrite Nat.add_1_r in Hx. change (odds (x i) < odds (x (S i))).
      apply odds_lt; [apply H01|exact Hx|apply H02]. }
  destruct HA as (idx & I1 & I2 & I3). exists idx. split; [exact I1|].
  assert (HB : forall j, (j <= length ts)%nat -> 0 < INR (binom n (idx j))).
  { intros j Hj. apply lt_0_INR, binom_pos. apply I2. exact Hj. }
  split.
  - intros j Hj. destruct (I2 j Hj) as [A B]. split; [exact A|]. intros Z. apply B. cbn beta. rewrite Z. ring.
  - intros j Hj. specialize (I3 j Hj). cbn beta in I3.
    pose proof (Rmult_lt_0_compat _ _ (HB j ltac:(lia)) (HB (S j) ltac:(lia))) as K.
    set (u := INR (binom n (idx j))) in *. set (v := INR (binom n (idx (S j)))) in *.
    replace (u * (f (idx j) - c) * (v * (f (idx (S j)) - c))) with (u * v * ((f (idx j) - c) * (f (idx (S j)) - c))) in I3 by ring.
    destruct (Rlt_le_dec ((f (idx j) - c) * (f (idx (S j)) - c)) 0) as [L|L]; [exact L|].
    pose proof (Rmult_le_pos _ _ (Rlt_le _ _ K) L). lra.
Qed.

(** ** Monotone coefficients *)
Lemma dc_monotone n f s t : (forall k, (k < n)%nat -> f k <= f (S k)) -> 0 <= s <= t -> t <= 1 ->
  dc s n f 0 <= dc t n f 0.
Proof.
  intros H Hst Ht. destruct Hst as [Hs [Hlt|Heq]]; [|rewrite Heq; lra].
  destruct (MVT_cor2 (fun t => dc t n f 0) (fun t => INR n * dc t (n - 1) (fun i => f (i + 1)%nat - f i) 0) s t Hlt)
    as (c & Hc & Hin).
  { intros c _. apply dc_derivative. }
  destruct n as [|n]; [cbn; lra|].
  assert (0 <= dc c (S n - 1) (fun i => f (i + 1)%nat - f i) 0).
  { assert (HB : exists hi, forall k, (k <= n)%nat -> f (k + 1)%nat - f k <= hi).
    { clear. induction n as [|n (hi & IH)].
      - exists (f 1%nat - f 0%nat). intros k Hk. replace k with 0%nat by lia. apply Rle_refl.
      - exists (Rmax hi (f (S n + 1)%nat - f (S n))). intros k Hk. destruct (Nat.eq_dec k (S n)) as [->|].
        + apply Rmax_r.
        + eapply Rle_trans; [apply IH; lia|apply Rmax_l]. }
    destruct HB as (hi & HB).
    refine (proj1 (dc_between c (S n - 1) _ 0 0 hi _ _)); [lra|].
    intros k Hk. specialize (H k ltac:(lia)). specialize (HB k ltac:(lia)). rewrite Nat.add_1_r in *. lra. }
  pose proof (pos_INR (S n)). assert (0 <= INR (S n) * dc c (S n - 1) (fun i => f (i + 1)%nat - f i) 0) by nra. nra.
Qed.

Section Points.
  Context {E : Eps} {P : Type} {PT : Point R P} {LP : LawfulPoint P}.

  Lemma dc_sum t n (F : nat -> nat -> R) (w : nat -> R) m j :
    dc t n (fun k => Rsum (fun i => w i * F i k) m) j = Rsum (fun i => w i * dc t n (F i) j) m.
  Proof.
    induction m as [|m IH]; cbn [Rsum].
    - apply dc_const.
    - rewrite <- IH. rewrite (dc_ext t n _ (fun k => 1 * Rsum (fun i => w i * F i k) m + w m * F m k)) by (intros; ring).
      rewrite dc_lin. ring.
  Qed.

  Lemma level_dc (ps : list P) t x w : bezier_eval (Bezier ps) t = Ret x ->
    level w x = dc t (length ps - 1) (fun k => level w (nth k ps p_default)) 0.
  Proof.
    intros H. assert (Hp : ps <> []) by (intros ->; discriminate).
    destruct (bezier_eval_ret ps t Hp) as (y & Hy & Hc). rewrite H in Hy. assert (x = y) by congruence. subst y.
    unfold level. rewrite (dc_sum t (length ps - 1) (fun i k => coord (nth k ps p_default) i) w).
    apply Rsum_ext. intros i Hi. now rewrite (Hc i Hi).
  Qed.

  Theorem bezier_crossings (ps : list P) w c (ts : list R) : NoDup ts ->
    (forall t, In t ts -> 0 < t < 1 /\ exists x, bezier_eval (Bezier ps) t = Ret x /\ level w x = c) ->
    (exists p, In p ps /\ level w p <> c) -> polygon_crosses w c ps (length ts).
  Proof.
    intros Hd Ht (p & Hp & Hn). destruct (In_nth ps p p_default Hp) as (k & Hk & Ek).
    destruct (dc_crossings (length ps - 1) (fun k => level w (nth k ps p_default)) c ts Hd) as (idx & I1 & I2 & I3).
    - intros t Hin. destruct (Ht t Hin) as [H01 (x & Hx & Hl)]. split; [exact H01|].
      now rewrite <- (level_dc ps t x w Hx).
    - exists k. split; [lia|]. now rewrite Ek.
    - exists idx. split; [exact I1|]. split; [|exact I3]. intros j Hj. destruct (I2 j Hj). lia.
  Qed.

  (** a hyperplane meets a curve with n + 1 control points n times at most, at any
      parameters, unless it contains all of it *)
  Theorem bezier_meets (ps : list P) w c (ts : list R) : NoDup ts -> (length ps <= length ts)%nat ->
    (forall t, In t ts -> exists x, bezier_eval (Bezier ps) t = Ret x /\ level w x = c) ->
    forall p, In p ps -> level w p = c.
  Proof.
    intros Hd Hl Ht p Hp. destruct (In_nth ps p p_default Hp) as (k & Hk & <-).
    apply (dc_determined (length ps - 1) (fun k => level w (nth k ps p_default)) (fun _ => c) ts Hd); [lia| |lia].
    intros t Hin. destruct (Ht t Hin) as (x & Hx & Hc). rewrite <- (level_dc ps t x w Hx), dc_const. exact Hc.
  Qed.

  (** C86 *)
  Theorem bezier_monotone (ps : list P) w s t x y :
    (forall k, (S k < length ps)%nat -> level w (nth k ps p_default) <= level w (nth (S k) ps p_default)) ->
    0 <= s <= t -> t <= 1 -> bezier_eval (Bezier ps) s = Ret x -> bezier_eval (Bezier ps) t = Ret y ->
    level w x <= level w y.
  Proof.
    intros H Hst Ht Hx Hy. rewrite (level_dc ps s x w Hx), (level_dc ps t y w Hy).
    apply dc_monotone; [|exact Hst|exact Ht]. intros k Hk. apply H. lia.
  Qed.

  (** [level] with weight 1 on one axis is that coordinate *)
  Lemma level_axis (p : P) i : (i < p_dim (P := P))%nat ->
    level (fun k => if (k =? i)%nat then 1 else 0) p = coord p i.
  Proof.
    intros Hi. unfold level. rewrite (Rsum_single _ _ i Hi).
    - rewrite Nat.eqb_refl. ring.
    - intros k _ Hk. destruct (Nat.eqb_spec k i); [contradiction|ring].
  Qed.
End Points.
