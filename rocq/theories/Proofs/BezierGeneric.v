(** Closed forms of the generic Bezier loops, for any scalar type (hence also
    for floats): which points are combined with which, and when the code
    panics. *)
From Coq Require Import ZArith List Arith Bool Lia.
From Verif Require Import Base.Outcome Base.Scalar Model.Point Model.Line Model.Quadratic
  Model.Bezier Proofs.OutcomeFacts.
Import ListNotations.
Local Open Scope point_scope.

Section Generic.
  Context {T P : Type} {ST : Scalar T} {PT : Point T P}.

  Definition lerp (t : T) (a b : P) : P := a *^ (s_add (s_neg t) (s_lit 1)) +^ b *^ t.

  (** The triangle of intermediate points: level [m], index [j]. *)
  Fixpoint tri (t : T) (p : nat -> P) (m j : nat) : P :=
    match m with
    | O => p j
    | S m' => lerp t (tri t p m' j) (tri t p m' (j + 1))
    end.


  Lemma casteljau_level_spec t i (p : list P) d : 1 <= i <= length p ->
    exists p', casteljau_level t i p = Ret p' /\ length p' = length p /\
      forall j, j < length p ->
        nth j p' d = if j <? length p - i then lerp t (nth j p d) (nth (j + 1) p d) else nth j p d.
  Proof.
    intros Hi. unfold casteljau_level. rewrite usub_le by lia. cbn [bind].
    set (n := length p).
    destruct (for_in_range_inv
      (fun k q => length q = n /\ forall j, j < n ->
        nth j q d = if j <? k then lerp t (nth j p d) (nth (j + 1) p d) else nth j p d)
      0 (n - i) p
      (fun j q => let! a := idx q j in let! b := idx q (j + 1) in
                  set_idx q j (a *^ (s_add (s_neg t) (s_lit 1)) +^ b *^ t)))
      as (q & Hq & Hlen & Hval).
    - lia.
    - split; [reflexivity|]. intros; reflexivity.
    - intros k q Hk [Hlen Hval].
      rewrite (idx_lt q k d) by lia. cbn [bind]. rewrite (idx_lt q (k + 1) d) by lia. cbn [bind].
      rewrite set_idx_lt by lia. eexists. split; [reflexivity|].
      split; [now rewrite length_replace_nth|].
      intros j Hj. rewrite nth_replace_nth by lia.
      rewrite (Hval k), (Hval (k + 1)) by lia.
      destruct (Nat.ltb_spec k k), (Nat.ltb_spec (k + 1) k); try lia.
      destruct (Nat.eqb_spec j k), (Nat.ltb_spec j (k + 1)); try lia; subst; auto.
      + rewrite Hval by lia. destruct (Nat.ltb_spec j k); [auto|lia].
      + rewrite Hval by lia. destruct (Nat.ltb_spec j k); [lia|auto].
    - exists q. auto.
  Qed.

  (** State after [m] levels. *)
  Definition level_state (t : T) (ps : list P) (d : P) (m : nat) (q : list P) : Prop :=
    length q = length ps /\
    forall j, j < length ps ->
      nth j q d = tri t (fun k => nth k ps d) (min m (length ps - 1 - j)) j.

  Lemma level_state_0 t ps d : level_state t ps d 0 ps.
  Proof. split; auto. Qed.

  Lemma level_state_step t ps d m q : m + 1 <= length ps -> level_state t ps d m q ->
    exists q', casteljau_level t (m + 1) q = Ret q' /\ level_state t ps d (m + 1) q'.
  Proof.
    intros Hm [Hlen Hval].
    destruct (casteljau_level_spec t (m + 1) q d) as (q' & Hq' & Hlen' & Hval'); [lia|].
    exists q'. split; auto. split; [lia|]. intros j Hj. rewrite Hval', Hlen by lia.
    destruct (Nat.ltb_spec j (length ps - (m + 1))).
    - rewrite !Hval by lia.
      replace (min m (length ps - 1 - j)) with m by lia.
      replace (min m (length ps - 1 - (j + 1))) with m by lia.
      replace (min (m + 1) (length ps - 1 - j)) with (S m) by lia. reflexivity.
    - rewrite Hval by lia. f_equal. lia.
  Qed.

  Theorem bezier_eval_closed (ps : list P) t d : ps <> [] ->
    bezier_eval (Bezier ps) t = Ret (tri t (fun k => nth k ps d) (length ps - 1) 0).
  Proof.
    intros Hne. assert (0 < length ps) by (destruct ps; [contradiction|simpl; lia]).
    unfold bezier_eval. cbn [bz_points]. rewrite range_incl_range.
    destruct (for_in_range_inv (fun i q => level_state t ps d (i - 1) q) 1 (S (length ps)) ps
                (fun i p => casteljau_level t i p)) as (q & Hq & Hs).
    - lia.
    - apply level_state_0.
    - intros i q Hi Hq. destruct (level_state_step t ps d (i - 1) q) as (q' & H1 & H2); auto; [lia|].
      replace (i - 1 + 1) with i in * by lia. exists q'. split; auto.
      now replace (i + 1 - 1) with i by lia.
    - rewrite Hq. cbn [bind]. destruct Hs as [Hlen Hval]. rewrite (idx_lt q 0 d) by lia.
      rewrite Hval by lia. replace (min _ _) with (length ps - 1) by lia. reflexivity.
  Qed.

  Lemma bezier_eval_nil t : bezier_eval (Bezier (@nil P)) t = Panic.
  Proof. reflexivity. Qed.

  Theorem bezier_split_closed (ps : list P) t d :
    exists l r, bezier_split (Bezier ps) t = Ret (Bezier l, Bezier r) /\
      length l = length ps /\ length r = length ps /\
      (forall j, j < length ps -> nth j l d = tri t (fun k => nth k ps d) j 0) /\
      (forall j, j < length ps ->
         nth j r d = tri t (fun k => nth k ps d) (length ps - 1 - j) j).
  Proof.
    unfold bezier_split. cbn [bz_points]. rewrite range_incl_range.
    set (n := length ps).
    destruct (for_in_range_inv
      (fun i (st : list P * list P * list P) =>
         let '(l, r, c) := st in
         level_state t ps d (i - 1) c /\ length l = n /\ length r = n /\
         (forall j, j < i - 1 -> nth j l d = tri t (fun k => nth k ps d) j 0) /\
         (forall j, n - (i - 1) <= j < n ->
            nth j r d = tri t (fun k => nth k ps d) (n - 1 - j) j))
      1 (S n) (ps, ps, ps) (split_body t)) as ([[l r] c] & Hq & Hc & Hl & Hr & Hvl & Hvr).
    - lia.
    - split; [apply level_state_0|]. split; [reflexivity|]. split; [reflexivity|].
      split; intros; lia.
    - intros i [[l r] c] Hi (Hc & Hl & Hr & Hvl & Hvr).
      pose proof Hc as [Hlc Hvc]. fold n in Hlc.
      unfold split_body. rewrite usub_le by lia. cbn [bind].
      rewrite (idx_lt c 0 d) by lia. cbn [bind]. rewrite set_idx_lt by lia. cbn [bind].
      rewrite usub_le by lia. cbn [bind]. rewrite (idx_lt c _ d) by lia. cbn [bind].
      rewrite set_idx_lt by lia. cbn [bind].
      destruct (level_state_step t ps d (i - 1) c) as (c' & H1 & H2); auto; [fold n; lia|].
      replace (i - 1 + 1) with i in * by lia. rewrite H1. cbn [bind].
      eexists. split; [reflexivity|]. replace (i + 1 - 1) with i by lia.
      split; [exact H2|]. rewrite !length_replace_nth. split; [lia|]. split; [lia|]. split.
      + intros j Hj. rewrite nth_replace_nth by lia.
        destruct (Nat.eqb_spec j (i - 1)) as [->|].
        * rewrite Hvc by (fold n; lia). f_equal. fold n. lia.
        * apply Hvl. lia.
      + intros j Hj. rewrite nth_replace_nth by lia. rewrite Hr.
        destruct (Nat.eqb_spec j (n - i)) as [->|].
        * rewrite Hvc by (fold n; lia). f_equal. fold n. lia.
        * apply Hvr. lia.
    - rewrite Hq. cbn [bind]. exists l, r. split; auto. split; auto. split; auto.
      split; intros j Hj; [apply Hvl|apply Hvr]; lia.
  Qed.

  (** ** The loop of [derivative], shared in shape with the B-spline one *)
  Lemma fill_break {A} (f : nat -> outcome A) (g : nat -> A) d n : 2 <= n ->
    (forall i, i < n - 1 -> f i = Ret (g i)) ->
    for_break (range 0 n) (repeat d (n - 1)) (fun i b =>
      let! x := f i in let! b := set_idx b i x in
      let! last := usub n 2 in Ret (b, i =? last))
    = Ret (map g (seq 0 (n - 1))).
  Proof.
    intros Hn Hf. rewrite usub_le by lia. cbn [bind].
    assert (G : forall k b, k <= n - 2 -> length b = n - 1 ->
      (forall j, j < k -> nth j b d = g j) ->
      for_break (range k n) b (fun i b =>
        let! x := f i in let! b := set_idx b i x in Ret (b, i =? n - 2))
      = Ret (map g (seq 0 (n - 1)))).
    { intros k. remember (n - 2 - k) as m eqn:Em. revert k Em.
      induction m as [|m IH]; intros k Em b Hk Hlen Hval.
      - assert (k = n - 2) by lia. subst k. rewrite range_cons by lia. cbn [for_break].
        rewrite Hf by lia. cbn [bind]. rewrite set_idx_lt by lia. cbn [bind].
        cbn [bind fst snd]. rewrite Nat.eqb_refl.
        f_equal. apply nth_ext_iff with (d := d).
        + now rewrite length_replace_nth, map_length, seq_length.
        + intros j Hj. rewrite length_replace_nth in Hj. rewrite nth_replace_nth by lia.
          rewrite (nth_indep (map g _) d (g 0)) by (rewrite map_length, seq_length; lia).
          rewrite map_nth, seq_nth by lia. simpl.
          destruct (Nat.eqb_spec j (n - 2)) as [->|]; auto. apply Hval. lia.
      - rewrite range_cons by lia. cbn [for_break].
        rewrite Hf by lia. cbn [bind]. rewrite set_idx_lt by lia. cbn [bind].
        cbn [bind fst snd].
        destruct (Nat.eqb_spec k (n - 2)); [lia|].
        apply IH; try lia.
        + now rewrite length_replace_nth.
        + intros j Hj. rewrite nth_replace_nth by lia.
          destruct (Nat.eqb_spec j k) as [->|]; auto. apply Hval. lia. }
    apply G; try lia. apply repeat_length.
  Qed.

  Theorem bezier_derivative_closed (ps : list P) d : 2 <= length ps ->
    bezier_derivative (Bezier ps)
    = Ret (Bezier (map (fun i => (nth (i + 1) ps d -^ nth i ps d) *^ s_of_usize (length ps - 1))
                       (seq 0 (length ps - 1)))).
  Proof.
    intros Hn. unfold bezier_derivative. cbn [bz_points]. rewrite usub_le by lia. cbn [bind].
    pose proof (fill_break
      (fun i => let! a := idx ps (i + 1) in let! b := idx ps i in
                Ret ((a -^ b) *^ s_of_usize (length ps - 1)))
      (fun i => (nth (i + 1) ps d -^ nth i ps d) *^ s_of_usize (length ps - 1))
      p_default (length ps) Hn) as H.
    match type of H with _ -> ?lhs = _ =>
      match goal with |- (let! _ := ?l in _) = _ => assert (El : l = lhs) end end.
    { clear H. generalize (repeat p_default (length ps - 1)). generalize (range 0 (length ps)).
      induction l as [|i l IH]; intros b; cbn [for_break]; auto.
      destruct (idx ps (i + 1)); cbn [bind]; auto. destruct (idx ps i); cbn [bind]; auto.
      destruct (set_idx b i _); cbn [bind]; auto. destruct (usub (length ps) 2); cbn [bind]; auto.
      cbn [fst snd]. destruct (i =? a2); auto. }
    rewrite El, H; auto.
    intros i Hi. rewrite (idx_lt ps (i + 1) d) by lia. cbn [bind].
    now rewrite (idx_lt ps i d) by lia.
  Qed.

  Lemma bezier_derivative_one (p : P) : bezier_derivative (Bezier [p]) = Panic.
  Proof. reflexivity. Qed.
End Generic.
