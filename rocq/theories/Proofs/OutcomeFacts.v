(** Rules for outcomes, arrays and loops. *)
From Coq Require Import List Arith Bool Lia.
From Verif Require Import Base.Outcome.
Import ListNotations.


Lemma bind_ret_inv {A B} (x : outcome A) (f : A -> outcome B) b :
  bind x f = Ret b -> exists a, x = Ret a /\ f a = Ret b.
Proof. destruct x; simpl; intros; try discriminate; eauto. Qed.

Lemma idx_lt {A} (l : list A) i d : i < length l -> idx l i = Ret (nth i l d).
Proof.
  intros H. unfold idx. rewrite (nth_error_nth' l d H). reflexivity.
Qed.

Lemma idx_ge {A} (l : list A) i : length l <= i -> idx l i = Panic.
Proof. intros H. unfold idx. apply nth_error_None in H. now rewrite H. Qed.


Lemma idx_cases {A} (l : list A) i :
  (i < length l /\ exists a, idx l i = Ret a) \/ (length l <= i /\ idx l i = Panic).
Proof.
  destruct (lt_dec i (length l)) as [H|H].
  - left. split; auto. unfold idx. destruct (nth_error l i) eqn:E; eauto.
    apply nth_error_None in E. lia.
  - right. split; [lia|]. apply idx_ge. lia.
Qed.

Lemma length_replace_nth {A} (l : list A) i v : length (replace_nth l i v) = length l.
Proof. revert i. induction l; destruct i; simpl; auto. Qed.

Lemma nth_replace_nth {A} (l : list A) i v j d :
  i < length l -> nth j (replace_nth l i v) d = if (j =? i) then v else nth j l d.
Proof.
  revert i j. induction l as [|x l IH]; intros i j H; simpl in H; [lia|].
  destruct i, j; simpl; auto. apply IH. lia.
Qed.

Lemma set_idx_lt {A} (l : list A) i v : i < length l -> set_idx l i v = Ret (replace_nth l i v).
Proof. intros H. unfold set_idx. destruct (Nat.ltb_spec i (length l)); [auto|lia]. Qed.


Lemma usub_le a b : b <= a -> usub a b = Ret (a - b).
Proof. intros H. unfold usub. destruct (Nat.leb_spec b a); [auto|lia]. Qed.

Lemma usub_gt a b : a < b -> usub a b = Panic.
Proof. intros H. unfold usub. destruct (Nat.leb_spec b a); [lia|auto]. Qed.

Lemma for_in_app {S} (l1 l2 : list nat) (s : S) body :
  for_in (l1 ++ l2) s body = (let! s' := for_in l1 s body in for_in l2 s' body).
Proof.
  revert s. induction l1 as [|i l IH]; intros s; simpl; auto.
  destruct (body i s); simpl; auto.
Qed.

Lemma range_S a b : a <= b -> range a (S b) = range a b ++ [b].
Proof.
  intros H. unfold range. replace (S b - a) with ((b - a) + 1) by lia.
  rewrite seq_app. simpl. repeat f_equal. lia.
Qed.

Lemma range_nil a b : b <= a -> range a b = [].
Proof. intros H. unfold range. replace (b - a) with 0 by lia. reflexivity. Qed.

Lemma range_cons a b : a < b -> range a b = a :: range (S a) b.
Proof.
  intros H. unfold range. replace (b - a) with (S (b - S a)) by lia. reflexivity.
Qed.

Lemma range_incl_range a b : range_incl a b = range a (S b).
Proof. reflexivity. Qed.

Lemma in_range a b i : In i (range a b) <-> a <= i < b.
Proof. unfold range. rewrite in_seq. lia. Qed.


(** Loop invariant rule: [Inv i s] holds before iteration [i]. *)
Lemma for_in_range_inv {S} (Inv : nat -> S -> Prop) a b (s : S) body :
  a <= b ->
  Inv a s ->
  (forall i s, a <= i < b -> Inv i s -> exists s', body i s = Ret s' /\ Inv (i + 1) s') ->
  exists s', for_in (range a b) s body = Ret s' /\ Inv b s'.
Proof.
  intros Hab Ha Hstep.
  assert (G : forall n, a + n <= b ->
    exists s', for_in (range a (a + n)) s body = Ret s' /\ Inv (a + n) s').
  { induction n as [|n IH]; intros Hn.
    - rewrite Nat.add_0_r, range_nil by lia. exists s. auto.
    - destruct IH as (s1 & E1 & I1); [lia|].
      replace (a + Datatypes.S n) with (Datatypes.S (a + n)) by lia.
      rewrite range_S, for_in_app, E1 by lia. simpl.
      destruct (Hstep (a + n) s1) as (s2 & E2 & I2); [lia|auto|].
      rewrite E2. simpl. exists s2. rewrite Nat.add_1_r in I2. auto. }
  specialize (G (b - a)). replace (a + (b - a)) with b in G by lia. apply G. lia.
Qed.


Lemma for_in_ext {S} is (s : S) body1 body2 :
  (forall i s, In i is -> body1 i s = body2 i s) -> for_in is s body1 = for_in is s body2.
Proof.
  revert s. induction is as [|i is IH]; intros s H; simpl; auto.
  rewrite (H i s) by (simpl; auto). destruct (body2 i s); simpl; auto.
  apply IH. intros; apply H; simpl; auto.
Qed.


Lemma av_push_lt {A} cap (l : list A) x : length l < cap -> av_push cap l x = Ret (l ++ [x]).
Proof. intros H. unfold av_push. destruct (Nat.ltb_spec (length l) cap); [auto|lia]. Qed.

Lemma av_extend_le {A} cap (l xs : list A) :
  length l + length xs <= cap -> av_extend cap l xs = Ret (l ++ xs).
Proof.
  revert l. induction xs as [|x xs IH]; intros l H; simpl in *.
  - now rewrite app_nil_r.
  - rewrite av_push_lt by lia. simpl. rewrite IH.
    + now rewrite <- app_assoc.
    + rewrite app_length. simpl. lia.
Qed.

Lemma nth_ext_iff {A} (l l' : list A) d :
  length l = length l' -> (forall i, i < length l -> nth i l d = nth i l' d) -> l = l'.
Proof. intros H1 H2. apply (nth_ext l l' d d H1 H2). Qed.
