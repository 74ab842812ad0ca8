(** Number of iterations of the knot searches. *)
From Coq Require Import ZArith List Arith Lia Bool.
From Verif Require Import Base.Outcome Base.Scalar Model.Point Model.BSpline Proofs.OutcomeFacts.
Import ListNotations.

Section Cost.
  Context {T P : Type} {ST : Scalar T} {PT : Point T P}.

  Lemma idx_not_stuck {A} (l : list A) i : idx l i <> Stuck.
  Proof. unfold idx. destruct (nth_error l i); discriminate. Qed.
  Lemma usub_not_stuck a b : usub a b <> Stuck.
  Proof. unfold usub. destruct (b <=? a); discriminate. Qed.

  Lemma search_enough fuel knots (t : T) : forall low high, S high - low < 2 ^ fuel ->
    search_loop fuel knots t low high <> Stuck.
  Proof.
    induction fuel as [|fuel IH]; intros low high H; cbn [search_loop]; destruct (Nat.leb_spec low high) as [L|L]; try discriminate.
    - rewrite Nat.pow_0_r in H. lia.
    - rewrite Nat.pow_succ_r' in H.
      set (mid := (low + high) / 2).
      assert (M : 2 * mid <= low + high < 2 * mid + 2).
      { unfold mid. pose proof (Nat.div_mod (low + high) 2). pose proof (Nat.mod_upper_bound (low + high) 2). lia. }
      destruct (idx knots mid) as [km| |] eqn:E; [|discriminate|now apply idx_not_stuck in E]. cbn [bind].
      assert (R : forall b : bool, (if b then Ret (Some mid)
        else if s_ltb t km then let! high0 := usub mid 1 in search_loop fuel knots t low high0
             else search_loop fuel knots t (mid + 1) high) <> Stuck).
      { intros [|]; [discriminate|]. destruct (s_ltb t km); [|apply IH; lia].
        unfold usub. destruct (Nat.leb_spec 1 mid); cbn [bind]; [|discriminate]. apply IH. lia. }
      destruct (s_leb km t); cbn [bind].
      + destruct (idx knots (mid + 1)) as [k1| |] eqn:E1; cbn [bind]; [|discriminate|now apply idx_not_stuck in E1].
        apply R.
      + apply (R false).
  Qed.

  Lemma search_mono fuel knots (t : T) : forall low high fuel', fuel <= fuel' ->
    search_loop fuel knots t low high <> Stuck -> search_loop fuel' knots t low high = search_loop fuel knots t low high.
  Proof.
    induction fuel as [|fuel IH]; intros low high [|fuel'] Hf H; try lia; try reflexivity.
    - cbn [search_loop] in *. destruct (low <=? high); [now destruct H|reflexivity].
    - cbn [search_loop] in *. destruct (low <=? high); [|reflexivity]. set (mid := (low + high) / 2) in *.
      destruct (idx knots mid) as [km| |]; try reflexivity. cbn [bind] in *.
      destruct (s_leb km t); cbn [bind] in *.
      + destruct (idx knots (mid + 1)) as [k1| |]; try reflexivity. cbn [bind] in *.
        destruct (s_ltb t k1); [reflexivity|]. destruct (s_ltb t km); [|apply IH; [lia|exact H]].
        destruct (usub mid 1); try reflexivity. cbn [bind] in *. apply IH; [lia|exact H].
      + destruct (s_ltb t km); [|apply IH; [lia|exact H]].
        destruct (usub mid 1); try reflexivity. cbn [bind] in *. apply IH; [lia|exact H].
  Qed.

  (** a parameter right of all knots visited: all these iterations are needed *)
  Lemma search_worst fuel knots (t : T) : forall low high, S high < length knots ->
    (forall k x, nth_error knots k = Some x -> s_leb x t = true /\ s_ltb t x = false) ->
    2 ^ fuel <= S high - low -> search_loop fuel knots t low high = Stuck.
  Proof.
    induction fuel as [|fuel IH]; intros low high Hl Hk H; cbn [search_loop].
    - rewrite Nat.pow_0_r in H. rewrite (proj2 (Nat.leb_le low high)) by lia. reflexivity.
    - rewrite Nat.pow_succ_r' in H. pose proof (Nat.pow_nonzero 2 fuel). rewrite (proj2 (Nat.leb_le low high)) by lia.
      set (mid := (low + high) / 2).
      assert (M : 2 * mid <= low + high < 2 * mid + 2).
      { unfold mid. pose proof (Nat.div_mod (low + high) 2). pose proof (Nat.mod_upper_bound (low + high) 2). lia. }
      destruct (nth_error knots mid) as [x|] eqn:E; [|apply nth_error_None in E; lia].
      destruct (nth_error knots (mid + 1)) as [y|] eqn:E'; [|apply nth_error_None in E'; lia].
      unfold idx. rewrite E, E'. destruct (Hk mid x E) as [A B]. destruct (Hk (mid + 1) y E') as [C D].
      cbn [bind]. rewrite A. cbn [bind]. rewrite D, B. apply IH; [exact Hl|exact Hk|lia].
  Qed.

  Lemma unclamped_enough fuel knots (t : T) : forall first count, count < 2 ^ fuel ->
    search_unclamped_loop fuel knots t first count <> Stuck.
  Proof.
    induction fuel as [|fuel IH]; intros first count H; cbn [search_unclamped_loop];
      destruct (Nat.ltb_spec 0 count) as [L|L]; try discriminate.
    - rewrite Nat.pow_0_r in H. lia.
    - rewrite Nat.pow_succ_r' in H. cbv zeta. set (step := count / 2).
      assert (M : 2 * step <= count < 2 * step + 2).
      { unfold step. pose proof (Nat.div_mod count 2). pose proof (Nat.mod_upper_bound count 2). lia. }
      destruct (idx knots (first + step + 1)) as [k1| |] eqn:E; [|discriminate|now apply idx_not_stuck in E]. cbn [bind].
      assert (R : forall hit : bool, (if hit then Ret (Some (first + step)) else
        let! k0 := idx knots (first + step) in
        if s_leb k0 t then search_unclamped_loop fuel knots t (first + step + 1) (count - (step + 1))
        else search_unclamped_loop fuel knots t first step) <> Stuck).
      { intros [|]; [discriminate|]. destruct (idx knots (first + step)) as [k0| |] eqn:E0; cbn [bind];
          [|discriminate|now apply idx_not_stuck in E0].
        destruct (s_leb k0 t); apply IH; lia. }
      destruct (s_ltb t k1); cbn [bind]; [discriminate|].
      destruct (usub (length knots) 2) as [m| |] eqn:U; cbn [bind]; [|discriminate|now apply usub_not_stuck in U].
      destruct (first + step + 1 =? m); cbn [bind]; [apply R|apply (R false)].
  Qed.
  Lemma unclamped_mono fuel knots (t : T) : forall first count fuel', fuel <= fuel' ->
    search_unclamped_loop fuel knots t first count <> Stuck ->
    search_unclamped_loop fuel' knots t first count = search_unclamped_loop fuel knots t first count.
  Proof.
    induction fuel as [|fuel IH]; intros first count [|fuel'] Hf H; try lia; try reflexivity.
    - cbn [search_unclamped_loop] in *. destruct (0 <? count); [now destruct H|reflexivity].
    - cbn [search_unclamped_loop] in *. cbv zeta in *. destruct (0 <? count); [|reflexivity].
      destruct (idx knots (first + count / 2 + 1)) as [k1| |]; try reflexivity. cbn [bind] in *.
      destruct (if s_ltb t k1 then Ret true else _) as [hit| |]; try reflexivity. cbn [bind] in *.
      destruct hit; [reflexivity|]. destruct (idx knots (first + count / 2)) as [k0| |]; try reflexivity. cbn [bind] in *.
      destruct (s_leb k0 t); apply IH; try lia; exact H.
  Qed.
End Cost.

Section Log.
  Context {T : Type} {ST : Scalar T}.
  Lemma log_enough n k : n <= k -> n < 2 ^ S (Nat.log2 k).
  Proof.
    intros H. destruct k as [|k]; [cbn; lia|]. pose proof (Nat.log2_spec (S k)). lia.
  Qed.
  Lemma search_log (knots : list T) t low high fuel : high < length knots -> S (Nat.log2 (length knots)) <= fuel ->
    search_loop fuel knots t low high = search_loop (S (Nat.log2 (length knots))) knots t low high /\
    search_loop (S (Nat.log2 (length knots))) knots t low high <> Stuck.
  Proof.
    intros H F. assert (A : search_loop (S (Nat.log2 (length knots))) knots t low high <> Stuck).
    { apply search_enough, log_enough. lia. }
    split; [|exact A]. now apply search_mono.
  Qed.
  Lemma unclamped_log (knots : list T) t fuel : S (Nat.log2 (length knots)) <= fuel ->
    search_unclamped_loop fuel knots t 0 (length knots)
    = search_unclamped_loop (S (Nat.log2 (length knots))) knots t 0 (length knots) /\
    search_unclamped_loop (S (Nat.log2 (length knots))) knots t 0 (length knots) <> Stuck.
  Proof.
    intros F. assert (A : search_unclamped_loop (S (Nat.log2 (length knots))) knots t 0 (length knots) <> Stuck).
    { apply unclamped_enough, log_enough. lia. }
    split; [|exact A]. now apply unclamped_mono.
  Qed.
  Lemma search_exact (knots : list T) t low high fuel : S high < length knots -> low <= high ->
    (forall k x, nth_error knots k = Some x -> s_leb x t = true /\ s_ltb t x = false) ->
    search_loop fuel knots t low high = Stuck <-> fuel <= Nat.log2 (S high - low).
  Proof.
    intros H L K. split.
    - intros E. destruct (Nat.le_gt_cases fuel (Nat.log2 (S high - low))) as [G|G]; [exact G|].
      exfalso. revert E. apply search_enough. apply Nat.lt_le_trans with (2 ^ S (Nat.log2 (S high - low))).
      + apply log_enough. lia.
      + apply Nat.pow_le_mono_r; lia.
    - intros G. apply search_worst; [exact H|exact K|].
      apply Nat.le_trans with (2 ^ Nat.log2 (S high - low)); [apply Nat.pow_le_mono_r; lia|].
      apply Nat.log2_spec. lia.
  Qed.
End Log.
