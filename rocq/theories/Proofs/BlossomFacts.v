(** A B-spline whose control points are the values of a blossom at consecutive knots is the
    polynomial of that blossom. *)
From Coq Require Import Reals List Arith Lia Lra Permutation.
From Verif Require Import Spec.Sums Spec.Bernstein Spec.Basis Spec.Blossom
  Proofs.PointFacts Proofs.BSplineReal Proofs.BasisCalc Proofs.BasisIndependent.
Import ListNotations.
Local Open Scope R_scope.

Section Step.
  Variable F : list R -> R.
  Hypothesis HF : blossom F.

  Lemma blossom_step a b t l : a <> b ->
    F (t :: l) = F (a :: l) * (1 - (t - a) / (b - a)) + F (b :: l) * ((t - a) / (b - a)).
  Proof.
    intros Hab. rewrite (Rmult_comm (F (a :: l))), (Rmult_comm (F (b :: l))).
    rewrite <- (proj2 HF). f_equal. f_equal. field. lra.
  Qed.

  (** entry [(r, j)] of the triangle of De Boor for the span [k] *)
  Lemma blossom_entry (U : nat -> R) (D k : nat) t r j : (D <= k)%nat -> (1 <= r <= j)%nat -> (j <= D)%nat ->
    U (j + k - D)%nat <> U (j + 1 + k - r)%nat ->
    let x := fun r j => F (repeat t r ++ after U (j + k - D) (D - r)) in
    let a := (t - U (j + k - D)%nat) / (U (j + 1 + k - r)%nat - U (j + k - D)%nat) in
    x r j = x (r - 1)%nat (j - 1)%nat * (1 - a) + x (r - 1)%nat j * a.
  Proof.
    intros Hk Hr Hj Hne. cbn zeta. destruct r as [|r]; [lia|]. replace (S r - 1)%nat with r by lia.
    set (i := (j + k - D)%nat) in *. set (L := repeat t r ++ after U i (D - S r)).
    assert (E0 : F (repeat t (S r) ++ after U i (D - S r)) = F (t :: L)) by reflexivity.
    assert (E1 : F (repeat t r ++ after U (j - 1 + k - D) (D - r)) = F (U i :: L)).
    { apply (proj1 HF). unfold L, after. replace (j - 1 + k - D + 1)%nat with i by lia.
      replace (D - r)%nat with (S (D - S r)) by lia. cbn [seq map]. replace (i + 1)%nat with (S i) by lia.
      symmetry. apply Permutation_middle. }
    assert (E2 : F (repeat t r ++ after U i (D - r)) = F (U (j + 1 + k - S r)%nat :: L)).
    { apply (proj1 HF). unfold L, after. replace (D - r)%nat with (D - S r + 1)%nat by lia.
      rewrite seq_app, map_app. cbn [seq map]. replace (i + 1 + (D - S r))%nat with (j + 1 + k - S r)%nat by lia.
      rewrite app_assoc. apply Permutation_sym, Permutation_cons_append. }
    rewrite E0, E1, E2. apply blossom_step. exact Hne.
  Qed.

  Variables (D : nat) (ks : list R) (C : nat).
  Hypotheses (Hs : sorted ks) (HK : length ks = (C + D + 1)%nat).
  Local Notation U i := (nth i ks 0).
  Local Notation V := (fun m => nth m ks 0).

  Lemma blossom_span k t : (D <= k < C)%nat -> U k <= t < U (k + 1) ->
    Rsum (fun j => basis V D j t * F (after V j D)) C = F (repeat t D).
  Proof.
    intros Hk Ht. rewrite (span_terms D ks C Hs HK _ k t Hk Ht).
    pose proof (de_boor_sum V D k t (fun r j => F (repeat t r ++ after V (j + k - D) (D - r)))) as H.
    cbn beta in H. rewrite Nat.sub_diag in H. unfold after at 1 in H. cbn [seq map] in H. rewrite app_nil_r in H.
    rewrite H; [|lia| |exact Ht|].
    - replace (S D) with (D + 1)%nat by lia. apply Rsum_ext. intros j Hj. cbn [repeat app].
      rewrite Nat.sub_0_r. replace (k - D + j)%nat with (j + k - D)%nat by lia. ring.
    - intros a b Hab Hb. apply Hs. lia.
    - intros r j Hr Hj. apply (blossom_entry V D k t r j); try lia.
      pose proof (Hs (j + k - D)%nat k ltac:(lia)). pose proof (Hs (k + 1)%nat (j + 1 + k - r)%nat ltac:(lia)). lra.
  Qed.
  Lemma blossom_curve t : U D <= t < U C ->
    Rsum (fun j => basis V D j t * F (after V j D)) C = F (repeat t D).
  Proof.
    intros Ht. destruct (le_lt_dec C D) as [Hc|Hc].
    { pose proof (Hs C D ltac:(lia)). lra. }
    destruct (span_exists ks t D C) as (k & Hk & Hb); [lia|exact Ht|]. apply (blossom_span k t); [lia|exact Hb].
  Qed.
  (** ... and only those control values give it *)
  Lemma blossom_dual (c : nat -> R) k a b : (D <= k < C)%nat -> a < b -> U k <= a -> b <= U (k + 1) ->
    (forall t, a < t < b -> Rsum (fun j => basis V D j t * c j) C = F (repeat t D)) ->
    forall j, (k - D <= j <= k)%nat -> c j = F (after V j D).
  Proof.
    intros Hk Hab Ha Hb H. apply (piece_determines D ks C Hs HK c (fun j => F (after V j D)) k a b Hk Hab Ha Hb).
    intros t Ht. rewrite (H t Ht). symmetry. apply (blossom_span k t Hk). lra.
  Qed.
End Step.

(** the blossoms of the specification *)
Lemma factors_blossom y : blossom (factors y).
Proof.
  split.
  - induction 1; cbn [factors fold_right] in *; try lra; unfold factors in *; cbn [fold_right]; try ring.
    now rewrite IHPermutation.
  - intros. unfold factors. cbn [fold_right]. ring.
Qed.
Lemma factors_repeat y t n : factors y (repeat t n) = (y - t) ^ n.
Proof. induction n as [|n IH]; [reflexivity|]. cbn [repeat pow]. rewrite <- IH. reflexivity. Qed.

Lemma products_0 l : products 0 l = 1.
Proof. now destruct l. Qed.
Lemma products_perm l l' : Permutation l l' -> forall m, products m l = products m l'.
Proof.
  induction 1 as [|x l l' H IH|x y l|l l' l'' H1 IH1 H2 IH2]; intros m; auto.
  - destruct m; [reflexivity|]. cbn [products]. now rewrite !IH.
  - destruct m as [|[|m]]; [reflexivity| |]; cbn [products]; rewrite ?products_0; ring.
  - now rewrite IH1.
Qed.
Lemma products_blossom m : blossom (products m).
Proof.
  split; [intros; now apply products_perm|]. intros a x y l. destruct m; cbn [products]; rewrite ?products_0; ring.
Qed.
Lemma products_repeat t n : forall m, products m (repeat t n) = INR (binom n m) * t ^ m.
Proof.
  induction n as [|n IH]; intros [|m]; cbn [repeat products binom pow]; try (simpl; ring).
  rewrite !IH, plus_INR. cbn [pow]. ring.
Qed.
Lemma binom_pos n : forall m, (m <= n)%nat -> (0 < binom n m)%nat.
Proof.
  induction n as [|n IH]; intros [|m] Hm; cbn [binom]; try lia. specialize (IH m ltac:(lia)). lia.
Qed.
Lemma polar_blossom a n : blossom (polar a n).
Proof.
  unfold polar. generalize (S n). intros N. split.
  - intros l l' H. apply Rsum_ext. intros m Hm. now rewrite (products_perm l l' H).
  - intros c x y l. rewrite <- !Rsum_scal, <- Rsum_plus. apply Rsum_ext. intros m Hm.
    rewrite (proj2 (products_blossom m)). unfold Rdiv. ring.
Qed.
Lemma polar_repeat a n t : polar a n (repeat t n) = poly a n t.
Proof.
  apply Rsum_ext. intros m Hm. rewrite products_repeat.
  assert (0 < INR (binom n m)) by (apply lt_0_INR, binom_pos; lia). field. lra.
Qed.
Lemma average_repeat n t : (1 <= n)%nat -> total (repeat t n) / INR n = t.
Proof.
  intros Hn. assert (E : total (repeat t n) = INR n * t).
  { induction n as [|n IH]; [lia|]. rewrite S_INR. destruct n; [cbn; ring|]. change (total (repeat t (S (S n)))) with (t + total (repeat t (S n))).
    rewrite IH by lia. ring. }
  rewrite E. assert (0 < INR n) by (apply lt_0_INR; lia). field. lra.
Qed.
