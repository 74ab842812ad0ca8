(** [PointN R N] is a lawful point type for every N; facts about lawful points. *)
From Coq Require Import Reals List Arith Bool Lia Lra Eqdep_dec.
From Verif Require Import Base.Outcome Base.Scalar Model.Point Inst.RealInst
  Spec.Sums Spec.Lawful Proofs.OutcomeFacts.
Import ListNotations.
Local Open Scope R_scope.

(** ** Sums *)
Lemma Rsum_ext f g n : (forall i, (i < n)%nat -> f i = g i) -> Rsum f n = Rsum g n.
Proof.
  induction n as [|n IH]; intros H; simpl; auto.
  rewrite IH, H; auto.
Qed.

Lemma Rsum_plus f g n : Rsum (fun i => f i + g i) n = Rsum f n + Rsum g n.
Proof. induction n as [|n IH]; simpl; [lra|]. rewrite IH; lra. Qed.

Lemma Rsum_minus f g n : Rsum (fun i => f i - g i) n = Rsum f n - Rsum g n.
Proof. induction n as [|n IH]; simpl; [lra|]. rewrite IH; lra. Qed.

Lemma Rsum_scal c f n : Rsum (fun i => c * f i) n = c * Rsum f n.
Proof. induction n as [|n IH]; simpl; [lra|]. rewrite IH; lra. Qed.

Lemma Rsum_0 n : Rsum (fun _ => 0) n = 0.
Proof. induction n as [|n IH]; simpl; lra. Qed.

Lemma Rsum_const c n : Rsum (fun _ => c) n = INR n * c.
Proof. induction n as [|n IH]; [simpl; lra|]. simpl Rsum. rewrite IH, S_INR. lra. Qed.

Lemma Rsum_le f g n : (forall i, (i < n)%nat -> f i <= g i) -> Rsum f n <= Rsum g n.
Proof.
  induction n as [|n IH]; intros H; simpl; [lra|].
  apply Rplus_le_compat; [apply IH; intros; apply H; lia|apply H; lia].
Qed.

Lemma Rsum_nonneg f n : (forall i, (i < n)%nat -> 0 <= f i) -> 0 <= Rsum f n.
Proof. intros H. rewrite <- (Rsum_0 n). now apply Rsum_le. Qed.

Lemma Rsum_shift f n : Rsum f (S n) = f 0%nat + Rsum (fun i => f (S i)) n.
Proof. induction n as [|n IH]; [simpl; lra|]. rewrite <- Nat.add_1_r. simpl Rsum in *. rewrite Nat.add_1_r. simpl Rsum. simpl in IH. lra. Qed.

Lemma Rsum_split f m n : Rsum f (m + n) = Rsum f m + Rsum (fun i => f (m + i)%nat) n.
Proof.
  induction n as [|n IH]; [rewrite Nat.add_0_r; simpl; lra|].
  rewrite Nat.add_succ_r. simpl. rewrite IH. lra.
Qed.


Lemma Rsum_single f n k : (k < n)%nat -> (forall i, (i < n)%nat -> i <> k -> f i = 0) ->
  Rsum f n = f k.
Proof.
  induction n as [|n IH]; intros Hk H; [lia|]. simpl.
  destruct (Nat.eq_dec k n) as [->|Hne].
  - rewrite (Rsum_ext f (fun _ => 0)), Rsum_0; [lra|]. intros; apply H; lia.
  - rewrite (H n) by lia. rewrite IH; [lra|lia|]. intros; apply H; lia.
Qed.


(** ** PointN *)
Lemma pn_eq {T} {N} (p q : PointN T N) : pn_arr p = pn_arr q -> p = q.
Proof.
  destruct p as [a Ha], q as [b Hb]. simpl. intros ->. f_equal.
  apply UIP_dec, bool_dec.
Qed.

Lemma pn_length {T} {N} (p : PointN T N) : length (pn_arr p) = N.
Proof. apply Nat.eqb_eq, pn_len. Qed.

Lemma nth_map2 {T} (f : T -> T -> T) a b i d : (i < length a)%nat -> length a = length b ->
  nth i (map2 f a b) d = f (nth i a d) (nth i b d).
Proof.
  revert b i. induction a as [|x a IH]; intros [|y b] i Hi Hl; simpl in *; try lia.
  destruct i; auto. apply IH; lia.
Qed.

Lemma nth_map_lt {A B} (f : A -> B) l i d d' : (i < length l)%nat -> nth i (map f l) d' = f (nth i l d).
Proof.
  intros H. rewrite (nth_indep _ d' (f d)) by now rewrite map_length. apply map_nth.
Qed.

Lemma fold_sq (l : list R) a :
  fold_left (fun s x => s + x * x) l a = a + Rsum (fun i => nth i l 0 * nth i l 0) (length l).
Proof.
  revert a. induction l as [|x l IH]; intros a; simpl length.
  - simpl. lra.
  - rewrite Rsum_shift. simpl. rewrite IH. lra.
Qed.

Lemma arr_eqb_R {E : Eps} (a b : list R) : length a = length b -> arr_eqb a b = true <-> a = b.
Proof.
  revert b. induction a as [|x a IH]; intros [|y b] Hl; simpl in *; try discriminate.
  - tauto.
  - injection Hl as Hl. cbn. destruct (Reqb_spec x y) as [->|Hne]; simpl.
    + rewrite (IH b Hl). split; [now intros ->|now intros [= ->]].
    + split; [discriminate|]. now intros [= -> _].
Qed.

#[global] Program Instance PointN_lawful {E : Eps} {N : nat} : LawfulPoint (PointN R N) := {
  coord := fun p i => nth i (pn_arr p) 0
}.
Next Obligation.
  apply pn_eq. apply nth_ext_iff with (d := 0).
  - now rewrite !pn_length.
  - intros i Hi. rewrite pn_length in Hi. auto.
Qed.
Next Obligation. rewrite nth_map2; rewrite ?pn_length; auto. Qed.
Next Obligation. rewrite nth_map2; rewrite ?pn_length; auto. Qed.
Next Obligation. rewrite (nth_map_lt _ _ _ 0); rewrite ?pn_length; auto. Qed.
Next Obligation. apply nth_repeat. Qed.
Next Obligation.
  unfold pn_axis. destruct (Nat.ltb_spec i N), (Nat.leb_spec i N); try lia; auto.
  - apply idx_lt. now rewrite pn_length.
  - apply idx_ge. rewrite pn_length. lia.
Qed.
Next Obligation. unfold pn_sqlen. cbn. rewrite fold_sq, pn_length. lra. Qed.
Next Obligation.
  unfold pn_eqb. rewrite arr_eqb_R by now rewrite !pn_length.
  split; [apply pn_eq|now intros ->].
Qed.
