(** Boehm's knot insertion. *)
From Coq Require Import Reals List Arith Lia Lra.
From Verif Require Import Model.Point Spec.Sums Spec.Lawful Spec.Basis Spec.Insertion
  Proofs.PointFacts Proofs.BSplineReal Proofs.BasisCalc.
Import ListNotations.
Local Open Scope R_scope.

(** knots as functions *)
Definition ins (k : nat) (x : R) (U : nat -> R) (m : nat) : R :=
  if (m <=? k)%nat then U m else if (m =? S k)%nat then x else U (m - 1)%nat.

Section Insert.
  Variables (U : nat -> R) (k : nat) (x : R).
  Hypotheses (Hm : forall a b, (a <= b)%nat -> U a <= U b) (Hx : U k <= x < U (k + 1)%nat).
  Local Notation V := (ins k x U).

  Lemma ins_lo m : (m <= k)%nat -> V m = U m.
  Proof. intros H. unfold ins. apply Nat.leb_le in H. now rewrite H. Qed.
  Lemma ins_at : V (S k) = x.
  Proof. unfold ins. rewrite (proj2 (Nat.leb_gt _ _)), Nat.eqb_refl by lia. reflexivity. Qed.
  Lemma ins_hi m : (k < m)%nat -> V (S m) = U m.
  Proof.
    intros H. unfold ins. rewrite (proj2 (Nat.leb_gt _ _)), (proj2 (Nat.eqb_neq _ _)) by lia. f_equal. lia.
  Qed.
  Lemma ins_cases m : V m = U m /\ (m <= k)%nat \/ V m = x /\ m = S k \/ V m = U (m - 1)%nat /\ (S k < m)%nat.
  Proof.
    destruct (le_lt_dec m k) as [H|H]; [left; split; [apply ins_lo|]; exact H|right].
    destruct (Nat.eq_dec m (S k)) as [->|H']; [left; split; [apply ins_at|reflexivity]|right].
    split; [|lia]. replace m with (S (m - 1)) at 1 by lia. apply ins_hi. lia.
  Qed.
  Lemma ins_mono a b : (a <= b)%nat -> V a <= V b.
  Proof.
    intros H. destruct (ins_cases a) as [[-> A]|[[-> A]|[-> A]]], (ins_cases b) as [[-> B]|[[-> B]|[-> B]]]; try lia.
    - apply Hm; lia.
    - pose proof (Hm a k A). lra.
    - pose proof (Hm a (b - 1)%nat ltac:(lia)). lra.
    - lra.
    - pose proof (Hm (k + 1)%nat (b - 1)%nat ltac:(lia)). lra.
    - apply Hm; lia.
  Qed.

  (** N over the width of its support *)
  Definition nb (W : nat -> R) (p i : nat) (t : R) : R := quot 1 (W (i + p + 1)%nat - W i) * basis W p i t.
  Lemma nb_step W p i t : basis W (S p) i t = (t - W i) * nb W p i t + (W (i + p + 2)%nat - t) * nb W p (i + 1) t.
  Proof.
    cbn [basis]. unfold nb. rewrite (quot_1 (t - _)), (quot_1 (_ - t)).
    replace (i + S p)%nat with (i + p + 1)%nat by lia. replace (i + p + 1 + 1)%nat with (i + p + 2)%nat by lia.
    replace (i + 1 + p + 1)%nat with (i + p + 2)%nat by lia. ring.
  Qed.
  Lemma basis_before p i t : (i + p + 1 <= k)%nat -> basis V p i t = basis U p i t.
  Proof. intros H. apply basis_ext. intros m Hb. apply ins_lo. lia. Qed.
  Lemma basis_behind p i t : (k < i)%nat -> basis V p (i + 1) t = basis U p i t.
  Proof.
    intros H. rewrite <- basis_shift. apply basis_ext. intros m Hb. rewrite Nat.add_1_r. apply ins_hi. lia.
  Qed.

  Lemma nb_S W p i t : nb W (S p) i t =
    quot 1 (W (i + p + 2)%nat - W i) * ((t - W i) * nb W p i t + (W (i + p + 2)%nat - t) * nb W p (i + 1) t).
  Proof. unfold nb at 1. rewrite nb_step. replace (i + S p + 1)%nat with (i + p + 2)%nat by lia. reflexivity. Qed.
  Lemma nb_before p i t : (i + p + 1 <= k)%nat -> nb U p i t = nb V p i t.
  Proof. intros H. unfold nb. rewrite basis_before, !ins_lo by lia. reflexivity. Qed.
  Lemma nb_behind p i t : (k < i)%nat -> nb U p i t = nb V p (i + 1) t.
  Proof.
    intros H. unfold nb. rewrite basis_behind by exact H. replace (i + 1 + p + 1)%nat with (S (i + p + 1)) by lia.
    replace (i + 1)%nat with (S i) by lia. rewrite !ins_hi by lia. reflexivity.
  Qed.

  (** the basis functions whose support contains x *)
  Lemma boehm t p : forall i, (k <= i + p)%nat -> (i <= k)%nat ->
    basis U p i t = (x - U i) * nb V p i t + (U (i + p + 1)%nat - x) * nb V p (i + 1) t.
  Proof.
    assert (NB : forall p i, (forall i, (k <= i + p)%nat -> (i <= k)%nat ->
      basis U p i t = (x - U i) * nb V p i t + (U (i + p + 1)%nat - x) * nb V p (i + 1) t) ->
      (k <= i + p)%nat -> (i <= k)%nat ->
      nb U p i t = ((x - U i) * nb V p i t + (U (i + p + 1)%nat - x) * nb V p (i + 1) t) / (U (i + p + 1)%nat - U i)).
    { intros q i IH H1 H2. unfold nb at 1. rewrite IH, quot_nz by (try assumption; pose proof (Hm i k H2);
        pose proof (Hm (k + 1) (i + q + 1) ltac:(lia))%nat; lra). unfold Rdiv. ring. }
    induction p as [|p IH]; intros i H1 H2.
    - replace i with k by lia. clear i H1 H2. unfold nb. cbn [basis].
      assert (E1 : V (k + 1)%nat = x) by (rewrite Nat.add_1_r; apply ins_at).
      assert (E2 : V (k + 1 + 1)%nat = U (k + 1)%nat) by (rewrite (Nat.add_1_r (k + 1)); apply ins_hi; lia).
      rewrite !Nat.add_0_r, E1, E2, (ins_lo k) by lia.
      assert (Q : quot 1 (U (k + 1)%nat - x) * (U (k + 1)%nat - x) = 1) by (apply quot_inv; lra).
      destruct (Req_EM_T (x - U k) 0) as [Z|Z].
      + rewrite Z, quot_0.
        destruct (Rle_dec (U k) t), (Rlt_dec t (U (k + 1)%nat)), (Rle_dec x t), (Rlt_dec t x); try lra.
      + apply quot_inv in Z.
        destruct (Rle_dec (U k) t), (Rlt_dec t (U (k + 1)%nat)), (Rle_dec x t), (Rlt_dec t x); lra.
    - rewrite (nb_step U), (nb_S V), (nb_S V).
      assert (Ea : V i = U i) by (apply ins_lo; lia).
      assert (Ed : V (i + 1 + p + 2)%nat = U (i + p + 2)%nat)
        by (replace (i + 1 + p + 2)%nat with (S (i + p + 2)) by lia; apply ins_hi; lia).
      replace (i + S p + 1)%nat with (i + p + 2)%nat by lia. rewrite Ea, Ed.
      pose proof (Hm i k H2) as Ha. pose proof (Hm (k + 1) (i + p + 2) ltac:(lia))%nat as Hd.
      destruct (Nat.eq_dec i k) as [->|Nk].
      + rewrite (NB p k IH), (nb_behind p (k + 1)) by lia.
        assert (Eb : V (k + 1)%nat = x) by (rewrite Nat.add_1_r; apply ins_at).
        assert (Ec : V (k + p + 2)%nat = U (k + p + 1)%nat)
          by (replace (k + p + 2)%nat with (S (k + p + 1)) by lia; apply ins_hi; lia).
        rewrite Eb, Ec. pose proof (Hm (k + 1) (k + p + 1) ltac:(lia))%nat as Hc.
        rewrite !quot_nz by lra. field. lra.
      + assert (Eb : V (i + 1)%nat = U (i + 1)%nat) by (apply ins_lo; lia). rewrite Eb.
        pose proof (Hm (i + 1) k ltac:(lia))%nat as Hb.
        rewrite (NB p (i + 1)%nat IH) by lia. replace (i + 1 + p + 1)%nat with (i + p + 2)%nat by lia.
        destruct (Nat.eq_dec (i + p + 1) k) as [Ek|Nk'].
        * assert (Ec : V (i + p + 2)%nat = x) by (replace (i + p + 2)%nat with (S k) by lia; apply ins_at).
          rewrite (nb_before p i), Ec by lia. rewrite (quot_nz _ (_ - U (i + 1)%nat)) by lra.
          destruct (Req_EM_T (x - U i) 0) as [Z|Z].
          -- assert (Z0 : nb V p i t = 0).
             { unfold nb. rewrite Ea, ins_lo by lia. rewrite Ek. replace (U k - U i) with 0 by lra. rewrite quot_0. ring. }
             assert (Z1 : nb V p (i + 1) t = 0).
             { unfold nb. replace (i + 1 + p + 1)%nat with (i + p + 2)%nat by lia. rewrite Ec, Eb.
               pose proof (Hm i (i + 1) ltac:(lia))%nat. replace (x - U (i + 1)%nat) with 0 by lra. rewrite quot_0. ring. }
             rewrite Z0, Z1. field. lra.
          -- rewrite quot_nz by exact Z. field. lra.
        * rewrite (NB p i IH) by lia.
          assert (Ec : V (i + p + 2)%nat = U (i + p + 1)%nat)
            by (replace (i + p + 2)%nat with (S (i + p + 1)) by lia; apply ins_hi; lia).
          pose proof (Hm (k + 1) (i + p + 1) ltac:(lia))%nat as Hc.
          rewrite Ec, !quot_nz by lra. field. lra.
  Qed.

  (** weight of the old control point j in the new one *)
  Variable D : nat.
  Definition share (j : nat) : R :=
    if (j <=? k - D)%nat then 1 else if (j <=? k)%nat then (x - U j) / (U (j + D)%nat - U j) else 0.
  Lemma share_lo j : (j <= k - D)%nat -> share j = 1.
  Proof. intros H. unfold share. now rewrite (proj2 (Nat.leb_le _ _) H). Qed.
  Lemma share_hi j : (k < j)%nat -> share j = 0.
  Proof. intros H. unfold share. now rewrite !(proj2 (Nat.leb_gt _ _)) by lia. Qed.
  Lemma share_mid j : (k - D < j <= k)%nat -> share j = (x - U j) / (U (j + D)%nat - U j).
  Proof. intros H. unfold share. now rewrite (proj2 (Nat.leb_gt _ _)), (proj2 (Nat.leb_le _ _)) by lia. Qed.
  Lemma share_wide j : (k - D < j <= k)%nat -> U j <= x < U (j + D)%nat.
  Proof. intros H. pose proof (Hm j k ltac:(lia)). pose proof (Hm (k + 1) (j + D) ltac:(lia))%nat. lra. Qed.
  Lemma share_unit j : 0 <= share j <= 1.
  Proof.
    destruct (le_lt_dec j (k - D)) as [H|H]; [rewrite share_lo by exact H; lra|].
    destruct (le_lt_dec j k) as [H'|H']; [|rewrite share_hi by exact H'; lra].
    rewrite share_mid by lia. pose proof (share_wide j ltac:(lia)) as Hw.
    assert (Hi : 0 < / (U (j + D)%nat - U j)) by (apply Rinv_0_lt_compat; lra). unfold Rdiv. split.
    - apply Rmult_le_pos; lra.
    - apply Rmult_le_reg_r with (U (j + D)%nat - U j); [lra|]. rewrite Rmult_assoc, Rinv_l by lra. lra.
  Qed.
  Lemma two_terms t j : (D <= k)%nat ->
    basis U D j t = share j * basis V D j t + (1 - share (j + 1)) * basis V D (j + 1) t.
  Proof.
    intros HD. destruct (le_lt_dec (j + D + 1) k) as [H|H].
    { rewrite !share_lo by lia. rewrite basis_before by exact H. ring. }
    destruct (le_lt_dec j k) as [H'|H'].
    2:{ rewrite !share_hi by lia. rewrite basis_behind by exact H'. ring. }
    rewrite (boehm t D j) by lia. f_equal.
    - unfold nb. rewrite (ins_lo j) by exact H'. destruct (Nat.eq_dec (j + D) k) as [E|N].
      + rewrite share_lo by lia. assert (Ex : V (j + D + 1)%nat = x) by (replace (j + D + 1)%nat with (S k) by lia; apply ins_at).
        rewrite Ex. destruct (Req_EM_T (x - U j) 0) as [Z|Z].
        * rewrite (basis_empty V t D j); [ring| |].
          -- intros; apply ins_mono; lia.
          -- rewrite Ex, ins_lo by exact H'. lra.
        * rewrite <- Rmult_assoc, (Rmult_comm (x - U j)), quot_inv by exact Z. reflexivity.
      + rewrite share_mid by lia. pose proof (share_wide j ltac:(lia)).
        replace (j + D + 1)%nat with (S (j + D)) by lia. rewrite ins_hi, quot_nz by lra || lia. field. lra.
    - unfold nb. replace (j + 1 + D + 1)%nat with (S (j + D + 1)) by lia. rewrite ins_hi by lia.
      pose proof (Hm (k + 1) (j + D + 1) ltac:(lia))%nat.
      destruct (Nat.eq_dec j k) as [->|N].
      + rewrite share_hi by lia. replace (V (k + 1)%nat) with x by (rewrite Nat.add_1_r; symmetry; apply ins_at).
        rewrite quot_nz by lra. field. lra.
      + rewrite share_mid by lia. pose proof (share_wide (j + 1)%nat ltac:(lia)) as Hw.
        replace (j + 1 + D)%nat with (j + D + 1)%nat in * by lia. rewrite ins_lo, quot_nz by lra || lia. field. lra.
  Qed.

  (** the new control values *)
  Definition cins (c : nat -> R) (j : nat) : R := share j * c j + (1 - share j) * c (j - 1)%nat.
  Theorem insertion t c C : (D <= k < C)%nat ->
    Rsum (fun j => basis U D j t * c j) C = Rsum (fun j => basis V D j t * cins c j) (S C).
  Proof.
    intros HD. set (N := fun j => basis V D j t).
    rewrite (Rsum_ext _ (fun j => share j * (N j * c j) + (1 - share (j + 1)) * (N (j + 1)%nat * c j))).
    2:{ intros j _. rewrite two_terms by lia. unfold N. ring. }
    rewrite (Rsum_ext (fun j => basis V D j t * cins c j)
      (fun j => share j * (N j * c j) + (1 - share j) * (N j * c (j - 1)%nat))).
    2:{ intros j _. unfold cins, N. ring. }
    rewrite !Rsum_plus. f_equal.
    - cbn [Rsum]. rewrite (share_hi C) by lia. ring.
    - rewrite (Rsum_shift _ C), (share_lo 0) by lia. rewrite Rminus_diag_eq, Rmult_0_l, Rplus_0_l by reflexivity.
      apply Rsum_ext. intros j _. replace (j + 1)%nat with (S j) by lia. replace (S j - 1)%nat with j by lia. reflexivity.
  Qed.
End Insert.

(** a knot of multiplicity D: the curve passes through a control point *)
Lemma basis_at_multiple (U : nat -> R) k D t p : (p <= D)%nat -> (D <= k)%nat -> U k <= t < U (k + 1)%nat ->
  (forall a b, (a <= b)%nat -> U a <= U b) -> (forall i, (k - D < i <= k)%nat -> U i = t) ->
  forall j, basis U p j t = if (j =? k - p)%nat then 1 else 0.
Proof.
  intros Hp HD Ht Hm He. induction p as [|p IH]; intros j.
  - cbn [basis]. replace (k - 0)%nat with k by lia. destruct (Nat.eqb_spec j k) as [->|N].
    + destruct (Rle_dec (U k) t); [|lra]. destruct (Rlt_dec t (U (k + 1)%nat)); lra.
    + destruct (Rle_dec (U j) t); [|reflexivity]. destruct (Rlt_dec t (U (j + 1)%nat)); [|reflexivity].
      destruct (lt_dec j k) as [L|L].
      * pose proof (Hm (j + 1) k ltac:(lia))%nat. lra.
      * pose proof (Hm (k + 1) j ltac:(lia))%nat. lra.
  - cbn [basis]. rewrite !IH by lia. destruct (Nat.eqb_spec j (k - S p)) as [->|N].
    + rewrite (proj2 (Nat.eqb_neq _ _)), (proj2 (Nat.eqb_eq _ _)) by lia.
      replace (k - S p + S p + 1)%nat with (k + 1)%nat by lia. rewrite (He (k - S p + 1)%nat) by lia.
      rewrite (quot_nz (U (k + 1)%nat - t)) by lra. field. lra.
    + rewrite (proj2 (Nat.eqb_neq (j + 1) _)) by lia. destruct (Nat.eqb_spec j (k - p)) as [->|N'].
      * rewrite (He (k - p)%nat) by lia. rewrite (quot_1 (t - t)). ring.
      * ring.
Qed.
Lemma value_at_multiple (U : nat -> R) k D t c C : (D <= k)%nat -> (k < C)%nat -> U k <= t < U (k + 1)%nat ->
  (forall a b, (a <= b)%nat -> U a <= U b) -> (forall i, (k - D < i <= k)%nat -> U i = t) ->
  Rsum (fun j => basis U D j t * c j) C = c (k - D)%nat.
Proof.
  intros HD HC Ht Hm He. rewrite (Rsum_single _ C (k - D)).
  - rewrite (basis_at_multiple U k D t D) by (try assumption; lia). rewrite Nat.eqb_refl. ring.
  - lia.
  - intros i _ Hi. rewrite (basis_at_multiple U k D t D) by (try assumption; lia).
    rewrite (proj2 (Nat.eqb_neq _ _)) by exact Hi. ring.
Qed.
