(** B-splines in exact arithmetic: the value computed by [eval]. *)
From Coq Require Import Reals List Arith Bool Lia Lra Psatz.
From Verif Require Import Base.Outcome Base.Scalar Model.Point Model.BSpline Inst.RealInst
  Spec.Sums Spec.Lawful Spec.Hull Spec.Basis
  Proofs.OutcomeFacts Proofs.PointFacts Proofs.RealTac Proofs.BSplineGeneric.
Import ListNotations.
Local Open Scope R_scope.

(** ** The basis functions *)
Section Basis.
  Variable U : nat -> R.

  Lemma quot_nz a b : b <> 0 -> quot a b = a / b.
  Proof. intros H. unfold quot. destruct (Req_EM_T b 0); [contradiction|reflexivity]. Qed.

  Lemma basis_above p i k t : (forall a b, (a <= b <= k)%nat -> U a <= U b) ->
    U k <= t -> (i + p + 1 <= k)%nat -> basis U p i t = 0.
  Proof.
    intros Hm Ht. revert i. induction p as [|p IH]; intros i Hi; cbn [basis].
    - destruct (Rle_dec (U i) t) as [H|H]; [|reflexivity].
      destruct (Rlt_dec t (U (i + 1)%nat)) as [H'|H']; [|reflexivity].
      assert (U (i + 1)%nat <= U k) by (apply Hm; lia). lra.
    - rewrite !IH by lia. ring.
  Qed.

  Lemma sum_shift_lemma (x A B M : nat -> R) n :
    Rsum (fun m => x m * (A m * M m + B m * M (m + 1)%nat)) (S n)
    = x 0%nat * A 0%nat * M 0%nat
      + Rsum (fun m => (x (m + 1)%nat * A (m + 1)%nat + x m * B m) * M (m + 1)%nat) n
      + x n * B n * M (n + 1)%nat.
  Proof.
    induction n as [|n IH]; [cbn [Rsum]; ring|].
    change (Rsum (fun m => x m * (A m * M m + B m * M (m + 1)%nat)) (S (S n)))
      with (Rsum (fun m => x m * (A m * M m + B m * M (m + 1)%nat)) (S n)
            + x (S n) * (A (S n) * M (S n) + B (S n) * M (S n + 1)%nat)).
    rewrite IH. cbn [Rsum]. rewrite (Nat.add_1_r n). ring.
  Qed.

  (** De Boor's scheme: [x r j] for r <= j <= D *)
  Section DeBoor.
    Variables (D k : nat) (t : R) (x : nat -> nat -> R).
    Hypothesis HD : (D <= k)%nat.
    Hypothesis Hmono : forall a b, (k - D <= a <= b)%nat -> (b <= k + D + 1)%nat -> U a <= U b.
    Hypothesis Ht : U k <= t < U (k + 1)%nat.
    Hypothesis Hx : forall r j, (1 <= r <= j)%nat -> (j <= D)%nat ->
      let i := (j + k - D)%nat in
      let a := (t - U i) / (U (j + 1 + k - r)%nat - U i) in
      x r j = x (r - 1)%nat (j - 1)%nat * (1 - a) + x (r - 1)%nat j * a.

    Lemma denominators r j : (1 <= r <= j)%nat -> (j <= D)%nat ->
      U (j + k - D)%nat <= t < U (j + 1 + k - r)%nat.
    Proof.
      intros Hr Hj. split.
      - apply Rle_trans with (U k); [apply Hmono; lia|lra].
      - apply Rlt_le_trans with (U (k + 1)%nat); [lra|apply Hmono; lia].
    Qed.

    Definition layer (r : nat) : R :=
      Rsum (fun m => x r (r + m)%nat * basis U (D - r) (r + m + k - D) t) (D - r + 1).

    Lemma layer_step r : (r < D)%nat -> layer r = layer (S r).
    Proof.
      intros Hr. unfold layer. replace (D - r)%nat with (S (D - S r)) by lia.
      set (n := (D - S r)%nat). replace (S n + 1)%nat with (S (S n)) by lia.
      set (M := fun m => basis U n (r + m + k - D) t).
      set (A := fun m => quot (t - U (r + m + k - D)%nat)
                 (U (r + m + k - D + S n)%nat - U (r + m + k - D)%nat)).
      set (B := fun m => quot (U (r + m + k - D + S n + 1)%nat - t)
                 (U (r + m + k - D + S n + 1)%nat - U (r + m + k - D + 1)%nat)).
      rewrite (Rsum_ext _ (fun m => x r (r + m)%nat * (A m * M m + B m * M (m + 1)%nat))).
      2:{ intros m Hm. cbn [basis]. unfold A, B, M. f_equal. f_equal. f_equal. f_equal. lia. }
      rewrite (sum_shift_lemma (fun m => x r (r + m)%nat) A B M (S n)).
      assert (M0 : M 0%nat = 0).
      { unfold M. 
        assert (G : forall p i, (k - D <= i)%nat -> (i + p + 1 <= k)%nat -> basis U p i t = 0).
        { clear - Hmono Ht. induction p as [|p IH]; intros i H1 H2; cbn [basis].
          - destruct (Rle_dec (U i) t); [|reflexivity]. destruct (Rlt_dec t (U (i + 1)%nat)); [|reflexivity].
            assert (U (i + 1)%nat <= U k) by (apply Hmono; lia). lra.
          - rewrite !IH by lia. ring. }
        apply G; unfold n; lia. }
      assert (M1 : M (S n + 1)%nat = 0).
      { unfold M.
        assert (G : forall p i, (k + 1 <= i)%nat -> (i + p <= k + D + 1)%nat -> basis U p i t = 0).
        { clear - Hmono Ht. induction p as [|p IH]; intros i H1 H2; cbn [basis].
          - destruct (Rle_dec (U i) t); [|reflexivity].
            assert (U (k + 1)%nat <= U i) by (apply Hmono; lia). lra.
          - rewrite !IH by lia. ring. }
        apply G; unfold n; lia. }
      rewrite M0, M1. rewrite !Rmult_0_r, Rplus_0_l, Rplus_0_r.
      replace (n + 1)%nat with (S n) by lia. apply Rsum_ext. intros m Hm.
      assert (EM : M (m + 1)%nat = basis U n (S r + m + k - D) t) by (unfold M; f_equal; lia).
      rewrite EM. f_equal.
      rewrite (Hx (S r) (S r + m)) by (unfold n in *; lia).
      destruct (denominators (S r) (S r + m)) as [Hd1 Hd2]; [lia|unfold n in *; lia|].
      replace (S r - 1)%nat with r by lia. replace (S r + m - 1)%nat with (r + m)%nat by lia.
      replace (S r + m)%nat with (r + (m + 1))%nat in * by lia.
      assert (EA : A (m + 1)%nat = (t - U (r + (m + 1) + k - D)%nat)
          / (U (r + (m + 1) + 1 + k - S r)%nat - U (r + (m + 1) + k - D)%nat)).
      { unfold A. replace (r + (m + 1) + k - D + S n)%nat with (r + (m + 1) + 1 + k - S r)%nat by (unfold n; lia).
        apply quot_nz. lra. }
      assert (EB : B m = 1 - A (m + 1)%nat).
      { rewrite EA. unfold B.
        replace (r + m + k - D + S n + 1)%nat with (r + (m + 1) + 1 + k - S r)%nat by (unfold n; lia).
        replace (r + m + k - D + 1)%nat with (r + (m + 1) + k - D)%nat by (unfold n in *; lia).
        rewrite quot_nz by lra. field. lra. }
      rewrite EB, EA. ring.
    Qed.

    Lemma layers r : (r <= D)%nat -> layer 0 = layer r.
    Proof. induction r as [|r IH]; intros Hr; auto. rewrite IH by lia. apply layer_step. lia. Qed.

    Lemma de_boor_sum : x D D = Rsum (fun j => x 0%nat j * basis U D (j + k - D) t) (D + 1).
    Proof.
      assert (E : layer D = x D D).
      { unfold layer. replace (D - D)%nat with 0%nat by lia. cbn [Rsum Nat.add].
        rewrite Nat.add_0_r. replace (D + k - D)%nat with k by lia. cbn [basis].
        destruct (Rle_dec (U k) t); [|lra]. destruct (Rlt_dec t (U (k + 1)%nat)); [|lra]. ring. }
      rewrite <- E, <- (layers D) by lia. unfold layer. rewrite Nat.sub_0_r. reflexivity.
    Qed.
  End DeBoor.
End Basis.

Lemma nth_window {A} (l : list A) a n m d : (m < n)%nat ->
  nth m (firstn n (skipn a l)) d = nth (a + m) l d.
Proof.
  intros Hm. revert a. assert (F : forall l', nth m (firstn n l') d = nth m l' d).
  { revert n Hm. induction m as [|m IH]; intros [|n] Hm [|x l']; cbn [firstn nth]; auto; try lia.
    apply IH. lia. }
  intros a. rewrite F. revert l. induction a as [|a IH]; intros l; [reflexivity|].
  destruct l as [|x l]; [now destruct m|]. apply IH.
Qed.

(** ** The code *)
Section Spline.
  Context {E : Eps} {P : Type} {PT : Point R P} {LP : LawfulPoint P}.

  Lemma new_sorted D ks (ps : list P) s : bspline_new D ks ps = Ret (Ok s) -> sorted ks.
  Proof.
    intros H. destruct (proj1 (new_ok_iff D ks ps)) as (_ & _ & Hd); [eauto|].
    intros i j [Hij Hj]. induction j as [|j IH].
    - replace i with 0%nat by lia. lra.
    - destruct (Nat.eq_dec i (S j)) as [->|Hne]; [lra|].
      specialize (Hd j). rs_in Hd. rewrite Nat.add_1_r in Hd.
      destruct (Rltb_spec (nth (S j) ks 0) (nth j ks 0)) as [Hlt|Hlt].
      + specialize (Hd ltac:(lia)). discriminate.
      + apply Rle_trans with (nth j ks 0); [apply IH; lia|lra].
  Qed.

  Definition srt (s : bspline R P) : Prop := sorted (bs_knots s).

  Lemma knot_le s i j : srt s -> (i <= j < length (bs_knots s))%nat -> knot s i <= knot s j.
  Proof. intros Hs H. apply Hs. exact H. Qed.

  (** completeness of the bracketing search *)
  Lemma search_loop_complete fuel ks t low high :
    (high + 1 < length ks)%nat -> (low <= high)%nat -> (high + 1 - low < fuel)%nat ->
    nth low ks 0 <= t < nth (high + 1) ks 0 ->
    exists k, search_loop fuel ks t low high = Ret (Some k) /\ (low <= k <= high)%nat /\
      nth k ks 0 <= t < nth (k + 1) ks 0.
  Proof.
    revert low high. induction fuel as [|n IH]; intros low high Hh Hl Hf Ht; [lia|].
    cbn [search_loop]. destruct (Nat.leb_spec low high) as [_|Hle]; [|lia].
    cbn zeta. set (mid := ((low + high) / 2)%nat).
    assert (Hm : (low <= mid <= high)%nat).
    { unfold mid. split; [apply Nat.div_le_lower_bound; lia|].
      apply Nat.lt_succ_r, Nat.div_lt_upper_bound; lia. }
    rewrite (idx_lt ks mid 0) by lia. cbn [bind].
    rewrite (idx_lt ks (mid + 1) 0) by lia. cbn [bind]. rs.
    destruct (Rleb_spec (nth mid ks 0) t) as [H1|H1]; cbn [bind].
    - destruct (Rltb_spec t (nth (mid + 1) ks 0)) as [H2|H2].
      + exists mid. split; [reflexivity|]. split; [lia|lra].
      + destruct (Rltb_spec t (nth mid ks 0)) as [H3|H3]; [lra|].
        assert (mid <> high) by (intros ->; lra).
        destruct (IH (mid + 1)%nat high) as (k & Ek & Hk & Hb); [lia|lia|lia|lra|].
        exists k. split; [exact Ek|]. split; [lia|exact Hb].
    - destruct (Rltb_spec t (nth mid ks 0)) as [H3|H3]; [|lra].
      assert (mid <> low) by (intros ->; lra).
      rewrite usub_le by lia. cbn [bind].
      destruct (IH low (mid - 1)%nat) as (k & Ek & Hk & Hb); [lia|lia|lia| |].
      + replace (mid - 1 + 1)%nat with mid by lia. lra.
      + exists k. split; [exact Ek|]. split; [lia|exact Hb].
  Qed.

  Lemma span_unique ks k k' t : sorted ks -> in_span ks k t -> in_span ks k' t -> k = k'.
  Proof.
    intros Hs (Hk & H1) (Hk' & H2). destruct (Nat.lt_trichotomy k k') as [H|[H|H]]; auto; exfalso.
    - pose proof (Hs (k + 1)%nat k' ltac:(lia)). lra.
    - pose proof (Hs (k' + 1)%nat k ltac:(lia)). lra.
  Qed.

  (** in the domain [knots[D], knots[C]) the three clamped kinds find the span *)
  Lemma span_found s t : well_formed s -> srt s -> bs_kind s <> Unclamped ->
    knot s (bs_degree s) <= t < knot s (length (bs_points s)) ->
    exists k, knot_span_start_for_t s t = Ret (Some k) /\
      (bs_degree s <= k < length (bs_points s))%nat /\ in_span (bs_knots s) k t.
  Proof.
    intros [H1 H2] Hs Hu Ht. set (C := length (bs_points s)) in *. set (D := bs_degree s) in *.
    assert (Hin : forall k, (k + 1 < length (bs_knots s))%nat ->
      nth k (bs_knots s) 0 <= t < nth (k + 1) (bs_knots s) 0 -> (D <= k < C)%nat).
    { intros k Hk Hb. split.
      - destruct (le_lt_dec D k) as [H|H]; auto. exfalso.
        assert (nth (k + 1) (bs_knots s) 0 <= knot s D) by (apply Hs; lia). lra.
      - destruct (le_lt_dec C k) as [H|H]; auto. exfalso.
        assert (knot s C <= nth k (bs_knots s) 0) by (apply Hs; lia). lra. }
    unfold knot_span_start_for_t, knot_span_start_for_t_clamped,
      knot_span_start_for_t_clamped_start, knot_span_start_for_t_clamped_end. fold C D.
    destruct (bs_kind s); [congruence| | |].
    - repeat (first [rewrite usub_le by lia | rewrite knot_idx by lia]; cbn [bind]). rs.
      assert (HC : knot s C <= knot s (length (bs_knots s) - 1)) by (apply knot_le; auto; lia).
      rewrite Reqb_false by lra. rewrite !Rltb_false by lra. cbn [orb].
      destruct (search_loop_complete (S (length (bs_knots s))) (bs_knots s) t D (length (bs_knots s) - 1 - 1))
        as (k & Ek & Hk & Hb); [lia|lia|lia| |].
      + split; [apply Ht|]. replace (length (bs_knots s) - 1 - 1 + 1)%nat with (length (bs_knots s) - 1)%nat by lia.
        apply Rlt_le_trans with (knot s C); [lra|exact HC].
      + exists k. split; [exact Ek|]. split; [apply Hin; auto; lia|]. split; [lia|exact Hb].
    - repeat (first [rewrite usub_le by lia | rewrite knot_idx by lia]; cbn [bind]). rs.
      replace (C - 1 + 1)%nat with C by lia.
      assert (H0 : knot s 0 <= knot s D) by (apply knot_le; auto; lia).
      rewrite Reqb_false by lra. rewrite !Rltb_false by lra. cbn [orb].
      destruct (search_loop_complete (S (length (bs_knots s))) (bs_knots s) t 0 (C - 1))
        as (k & Ek & Hk & Hb); [lia|lia|lia| |].
      + replace (C - 1 + 1)%nat with C by lia. split; [|apply Ht]. apply Rle_trans with (knot s D); [exact H0|lra].
      + exists k. split; [exact Ek|]. split; [apply Hin; auto; lia|]. split; [lia|exact Hb].
    - repeat (first [rewrite usub_le by lia | rewrite knot_idx by lia]; cbn [bind]). rs.
      replace (C - 1 + 1)%nat with C by lia.
      rewrite Reqb_false by lra.
      destruct (search_loop_complete (S (length (bs_knots s))) (bs_knots s) t D (C - 1))
        as (k & Ek & Hk & Hb); [lia|lia|lia| |].
      + replace (C - 1 + 1)%nat with C by lia. exact Ht.
      + exists k. split; [exact Ek|]. split; [apply Hin; auto; lia|]. split; [lia|exact Hb].
  Qed.


  (** on the reported domain [eval] runs the scheme *)
  Lemma eval_scheme s t : well_formed s -> srt s ->
    (match bs_kind s with ClampedEnd => knot s 0 | _ => knot s (bs_degree s) end <= t <=
     match bs_kind s with ClampedStart => knot s (length (bs_knots s) - 1)
                        | _ => knot s (length (bs_points s)) end) ->
    bspline_eval s t = de_boor_iterative s t.
  Proof.
    intros Hwf Hs Ht. unfold bspline_eval. rewrite domain_value by assumption. cbn [bind].
    rs. destruct (bs_kind s); cbn [fst snd]; rewrite !Rltb_false by lra; reflexivity.
  Qed.
  Lemma eval_right_end s : well_formed s -> srt s ->
    bspline_eval s (knot s (length (bs_points s))) = Ret (Ok (cpoint s (length (bs_points s) - 1))).
  Proof.
    intros Hwf Hs. pose proof Hwf as [H1 H2].
    assert (A : knot s 0 <= knot s (bs_degree s)) by (apply knot_le; auto; lia).
    assert (B : knot s (bs_degree s) <= knot s (length (bs_points s))) by (apply knot_le; auto; lia).
    assert (C : knot s (length (bs_points s)) <= knot s (length (bs_knots s) - 1)) by (apply knot_le; auto; lia).
    rewrite eval_scheme; auto; [|destruct (bs_kind s); lra].
    unfold de_boor_iterative. rewrite knot_idx by lia. cbn [bind].
    rs. rewrite Reqb_true by reflexivity. rewrite usub_le by lia. cbn [bind].
    rewrite (idx_lt _ _ p_default) by lia. reflexivity.
  Qed.

  Section Value.
    Variables (s : bspline R P) (t : R) (k : nat).
    Hypothesis Hwf : roomy s.
    Hypothesis Hs : srt s.
    Hypothesis Hk : (bs_degree s <= k <= length (bs_points s))%nat.
    Hypothesis Hb : in_span (bs_knots s) k t.
    Local Notation D := (bs_degree s).

    Lemma weight_range r j : (1 <= r <= j)%nat -> (j <= D)%nat ->
      knot s (j + k - D) <= t < knot s (j + 1 + k - r).
    Proof.
      intros Hr Hj. destruct Hwf as [H1 H2]. destruct Hb as [Hb1 Hb2]. split.
      - apply Rle_trans with (knot s k); [apply knot_le; auto; lia|apply Hb2].
      - apply Rlt_le_trans with (knot s (k + 1)); [apply Hb2|apply knot_le; auto; lia].
    Qed.

    (** C60: weights lie in [0,1] *)
    Lemma weight_unit r j : (1 <= r <= j)%nat -> (j <= D)%nat -> 0 <= weight s t k r j <= 1.
    Proof.
      intros Hr Hj. destruct (weight_range r j Hr Hj) as [Ha Hc]. unfold weight. rs.
      destruct (Rltb_spec (t - knot s (j + k - D)) eps) as [H1|H1]; [lra|].
      destruct (Rltb_spec (Rabs (knot s (j + 1 + k - r) - knot s (j + k - D))) eps) as [H2|H2]; [lra|].
      pose proof eps_pos. split.
      - apply Rdiv_le_0_compat_lt || (apply Rmult_le_pos; [lra|apply Rlt_le, Rinv_0_lt_compat; lra]).
      - apply Rmult_le_reg_r with (knot s (j + 1 + k - r) - knot s (j + k - D)); [lra|].
        unfold Rdiv. rewrite Rmult_assoc, Rinv_l by lra. lra.
    Qed.

    (** weights are exact as soon as [t] is at, or EPSILON past, each knot below it *)
    Lemma weight_exact r j : (1 <= r <= j)%nat -> (j <= D)%nat ->
      (t = knot s (j + k - D) \/ eps <= t - knot s (j + k - D)) ->
      weight s t k r j = (t - knot s (j + k - D)) / (knot s (j + 1 + k - r) - knot s (j + k - D)).
    Proof.
      intros Hr Hj Hc. destruct (weight_range r j Hr Hj) as [Ha Hc']. unfold weight. rs. pose proof eps_pos.
      destruct Hc as [Ht|Ht].
      - rewrite Rltb_true by lra. rewrite <- Ht. unfold Rdiv. ring.
      - rewrite Rltb_false by lra. rewrite Rabs_pos_eq by lra. rewrite Rltb_false by lra. reflexivity.
    Qed.

    Lemma entry_coord r j i : (i < p_dim (P := P))%nat -> (1 <= r)%nat ->
      coord (entry s t k r j) i
      = coord (entry s t k (r - 1) (j - 1)) i * (1 - weight s t k r j)
        + coord (entry s t k (r - 1) j) i * weight s t k r j.
    Proof.
      clear Hwf Hs Hk Hb. intros Hi Hr. destruct r as [|r]; [lia|]. replace (S r - 1)%nat with r by lia.
      cbn [entry]. coords. rs. reflexivity.
    Qed.

    (** C44, what the code computes: the last contributing control point is missing *)
    Lemma entry_value : (k + D + 1 < length (bs_knots s))%nat ->
      (forall i, (k - D < i <= k)%nat -> t = knot s i \/ eps <= t - knot s i) ->
      forall i, (i < p_dim (P := P))%nat ->
      coord (entry s t k D D) i
      = spline_coord D (bs_knots s) (bs_points s) t i
        - basis (fun m => nth m (bs_knots s) 0) D k t * coord (cpoint s k) i.
    Proof.
      intros Hlen Hc i Hi. destruct Hwf as [H1 H2]. pose proof Hb as [Hb1 Hb2].
      rewrite (de_boor_sum (knot s) D k t (fun r j => coord (entry s t k r j) i)).
      - replace (D + 1)%nat with (S D) by lia. cbn [Rsum].
        rewrite (Rsum_ext _ (fun j => basis (knot s) D (j + k - D) t * coord (cpoint s (j + k - D)) i)).
        2:{ intros j Hj. cbn [entry]. destruct (Nat.ltb_spec j D); [|lia]. ring. }
        cbn [entry]. rewrite Nat.ltb_irrefl. rewrite lp_default by assumption. rewrite Rmult_0_l, Rplus_0_r.
        unfold spline_coord. set (C := length (bs_points s)) in *.
        change (fun m => nth m (bs_knots s) 0) with (knot s).
        set (g := fun j => basis (knot s) D j t * coord (nth j (bs_points s) p_default) i).
        destruct (Nat.eq_dec k C) as [HkC|HkC].
        { unfold cpoint. rewrite (nth_overflow (bs_points s)) by lia. rewrite lp_default by assumption.
          replace C with ((k - D) + D)%nat at 1 by lia. rewrite Rsum_split.
          rewrite (Rsum_ext g (fun _ => 0)), Rsum_0.
          2:{ intros j Hj. unfold g. rewrite (basis_above (knot s) D j k t); [ring| |apply Hb2|lia].
              intros a b Hab. apply knot_le; auto; lia. }
          rewrite Rmult_0_r, Rplus_0_l, Rminus_0_r. apply Rsum_ext. intros j Hj. unfold g.
          now replace (j + k - D)%nat with (k - D + j)%nat by lia. }
        replace C with ((k - D) + (D + (1 + (C - k - 1))))%nat at 1 by lia.
        rewrite !Rsum_split. cbn [Rsum].
        rewrite (Rsum_ext g (fun _ => 0)), Rsum_0.
        2:{ intros j Hj. unfold g. rewrite (basis_above (knot s) D j k t); [ring| |apply Hb2|lia].
            intros a b Hab. apply knot_le; auto; lia. }
        rewrite (Rsum_ext (fun i0 => g (k - D + (D + (1 + i0)))%nat) (fun _ => 0)), Rsum_0.
        2:{ intros j Hj. unfold g.
            assert (Hz : forall p a, (k + 1 <= a)%nat -> (a + p <= C + D)%nat -> basis (knot s) p a t = 0).
            { induction p as [|p IH]; intros a Ha Hap; cbn [basis].
              - destruct (Rle_dec (knot s a) t) as [Hle|]; [|reflexivity].
                assert (knot s (k + 1) <= knot s a) by (apply knot_le; auto; lia).
                assert (t < knot s (k + 1)) by apply Hb2. lra.
              - rewrite !IH by lia. ring. }
            rewrite Hz by lia. ring. }
        unfold g. unfold cpoint. replace (k - D + (D + 0))%nat with k by lia.
        rewrite (Rsum_ext (fun j => basis (knot s) D (j + k - D) t * coord (nth (j + k - D) (bs_points s) p_default) i)
                          (fun i0 => basis (knot s) D (k - D + i0) t * coord (nth (k - D + i0) (bs_points s) p_default) i)).
        2:{ intros j Hj. replace (j + k - D)%nat with (k - D + j)%nat by lia. reflexivity. }
        ring.
      - lia.
      - intros a b Hab Hbk. apply knot_le; auto. lia.
      - exact Hb2.
      - intros r j Hr Hj. cbn zeta. rewrite entry_coord by (auto; lia).
        rewrite weight_exact by (auto; apply Hc; lia). reflexivity.
    Qed.

    (** C60: convexity *)
    Lemma entry_hull_gen r : (r <= D)%nat -> forall j, (r <= j <= D)%nat ->
      exists w : nat -> R, (forall m, 0 <= w m) /\ Rsum w (D + 1) = 1 /\
        forall i, (i < p_dim (P := P))%nat ->
          coord (entry s t k r j) i = Rsum (fun m => w m * coord (entry s t k 0 m) i) (D + 1).
    Proof.
      induction r as [|r IH]; intros Hr j Hj.
      - exists (fun m => if (m =? j)%nat then 1 else 0). split; [|split].
        + intros m. destruct (m =? j)%nat; lra.
        + rewrite (Rsum_single _ _ j) by (try lia; intros m Hm Hne; apply Nat.eqb_neq in Hne; now rewrite Hne).
          now rewrite Nat.eqb_refl.
        + intros i Hi. rewrite (Rsum_single _ _ j); [rewrite Nat.eqb_refl; ring|lia|].
          intros m Hm Hne. apply Nat.eqb_neq in Hne. rewrite Hne. ring.
      - destruct (IH ltac:(lia) (j - 1)%nat ltac:(lia)) as (w1 & P1 & S1 & C1).
        destruct (IH ltac:(lia) j ltac:(lia)) as (w2 & P2 & S2 & C2).
        destruct (weight_unit (S r) j ltac:(lia) ltac:(lia)) as [Ha Hb'].
        set (a := weight s t k (S r) j) in *.
        exists (fun m => (1 - a) * w1 m + a * w2 m). split; [|split].
        + intros m. specialize (P1 m). specialize (P2 m). nra.
        + rewrite Rsum_plus, !Rsum_scal, S1, S2. ring.
        + intros i Hi. rewrite entry_coord by (auto; lia). fold a.
          replace (S r - 1)%nat with r by lia. rewrite C1, C2 by assumption.
          rewrite (Rsum_ext (fun m => ((1 - a) * w1 m + a * w2 m) * coord (entry s t k 0 m) i) (fun m => (1 - a) * (w1 m * coord (entry s t k 0 m) i) + a * (w2 m * coord (entry s t k 0 m) i)))
            by (intros; ring).
          rewrite Rsum_plus, !Rsum_scal. ring.
    Qed.

    Lemma entry_hull : in_hull (firstn D (skipn (k - D) (bs_points s)) ++ [p_default]) (entry s t k D D).
    Proof.
      destruct (entry_hull_gen D (le_n _) D ltac:(lia)) as (w & Pw & Sw & Cw). destruct Hwf as [H1 H2].
      assert (Hl : length (firstn D (skipn (k - D) (bs_points s)) ++ [p_default]) = (D + 1)%nat).
      { rewrite app_length, firstn_length, skipn_length. simpl. lia. }
      exists w. rewrite Hl. split; [auto|]. split; [exact Sw|]. intros i Hi. rewrite (Cw i Hi).
      apply Rsum_ext. intros m Hm. f_equal. f_equal. cbn [entry].
      destruct (Nat.ltb_spec m D) as [Hlt|Hge].
      - rewrite app_nth1 by (rewrite firstn_length, skipn_length; lia).
        unfold cpoint. rewrite (nth_indep _ (entry s t k D D) p_default) by (rewrite firstn_length, skipn_length; lia).
        rewrite nth_window by lia. f_equal. lia.
      - replace m with D by lia. rewrite app_nth2; rewrite firstn_length, skipn_length; [|lia].
        replace (D - Nat.min D (length (bs_points s) - (k - D)))%nat with 0%nat by lia. reflexivity.
    Qed.
  End Value.
End Spline.
