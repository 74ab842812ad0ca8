(** De Boor's scheme in IEEE arithmetic: the span search decides as in the reals,
    no weight is NaN for moderate knots, and the rounding error is bounded. *)
From Coq Require Import Reals ZArith List Arith Lia Lra Bool.
From Flocq Require Import Core.Core IEEE754.BinarySingleNaN.
From Verif Require Import Base.Outcome Base.Scalar Model.Point Model.BSpline
  Inst.RealInst Inst.FloatInst Spec.Sums Spec.Lawful Spec.Points Spec.Basis Spec.Rounding
  Spec.Componentwise Spec.FloatPoints Spec.FloatSplines
  Proofs.OutcomeFacts Proofs.PointFacts Proofs.RealTac Proofs.FloatFacts Proofs.FloatPoint Proofs.FloatEval Proofs.FloatBound
  Proofs.FloatSpline Proofs.BSplineGeneric Proofs.BSplineReal.
Import ListNotations.
Local Open Scope R_scope.

(** ** The searches on floats and on the reals they stand for *)
Section Search.
  Context {F : Format}.
  Local Existing Instance Eps64.
  Implicit Types x y : float.

  Lemma idx_map {A B} (f : A -> B) l i :
    idx (map f l) i = (let! a := idx l i in Ret (f a)).
  Proof. unfold idx. rewrite nth_error_map. now destruct (nth_error l i). Qed.

  Lemma fltb x y : fin x -> fin y -> s_ltb x y = Rltb (val x) (val y).
  Proof.
    intros Hx Hy. rewrite ltb_val by assumption.
    destruct (Rlt_bool_spec (val x) (val y)), (Rltb_spec (val x) (val y)); try reflexivity; lra.
  Qed.
  Lemma fleb x y : fin x -> fin y -> s_leb x y = Rleb (val x) (val y).
  Proof.
    intros Hx Hy. rewrite leb_val by assumption.
    destruct (Rle_bool_spec (val x) (val y)), (Rleb_spec (val x) (val y)); try reflexivity; lra.
  Qed.
  Lemma feqb x y : fin x -> fin y -> s_eqb x y = Reqb (val x) (val y).
  Proof.
    intros Hx Hy. rewrite eqb_val by assumption.
    destruct (Req_bool_spec (val x) (val y)) as [H|H].
    - now rewrite Reqb_true.
    - now rewrite Reqb_false.
  Qed.

  Lemma idx_fin (ks : list float) i x : (forall y, In y ks -> fin y) -> idx ks i = Ret x -> fin x.
  Proof.
    intros H E. apply H. unfold idx in E. destruct (nth_error ks i) eqn:N; [|discriminate].
    injection E as <-. eapply nth_error_In; eauto.
  Qed.

  Lemma search_loop_val fuel ks (t : float) low high : (forall x, In x ks -> fin x) -> fin t ->
    search_loop fuel ks t low high = search_loop fuel (map val ks) (val t) low high.
  Proof.
    intros Hk Ht. revert low high. induction fuel as [|n IH]; intros low high; cbn [search_loop];
      (destruct (low <=? high)%nat; [|reflexivity]); [reflexivity|]. cbn zeta.
    rewrite !idx_map. destruct (idx ks ((low + high) / 2)) as [x| |] eqn:E; cbn [bind]; try reflexivity.
    assert (Hx : fin x) by (eapply idx_fin; eauto).
    rewrite (fleb x t Hx Ht). cbn [s_leb s_ltb RScalar].
    rewrite (fltb t x Ht Hx). destruct (Rleb (val x) (val t)); cbn [bind].
    - destruct (idx ks ((low + high) / 2 + 1)) as [y| |] eqn:E'; cbn [bind]; try reflexivity.
      assert (Hy : fin y) by (eapply idx_fin; eauto).
      rewrite (fltb t y Ht Hy). destruct (Rltb (val t) (val y)); [reflexivity|].
      destruct (Rltb (val t) (val x)); [|apply IH].
      destruct (usub ((low + high) / 2) 1); cbn [bind]; [apply IH|reflexivity|reflexivity].
    - destruct (Rltb (val t) (val x)); [|apply IH].
      destruct (usub ((low + high) / 2) 1); cbn [bind]; [apply IH|reflexivity|reflexivity].
  Qed.
End Search.

Section Spline.
  Context {F : Format} {P : Type} {PT : Point float P} {CP : CwPoint float P}.
  Local Existing Instance Eps64.

  (** the real spline with the same knots, for the span search only *)
  Definition shadow (s : bspline float P) : bspline R (PointN R 1) :=
    BSpline (bs_degree s) (map val (bs_knots s)) (bs_kind s) (repeat p_default (length (bs_points s))).

  Lemma span_val (s : bspline float P) (t : float) : (forall x, In x (bs_knots s) -> fin x) -> fin t ->
    bs_kind s <> Unclamped ->
    knot_span_start_for_t s t = knot_span_start_for_t (shadow s) (val t).
  Proof.
    intros Hk Ht Hu. unfold knot_span_start_for_t, knot_span_start_for_t_clamped,
      knot_span_start_for_t_clamped_start, knot_span_start_for_t_clamped_end.
    unfold shadow; cbn [bs_kind bs_knots bs_points bs_degree]. rewrite repeat_length, map_length.
    destruct (bs_kind s); [congruence| | |];
    repeat (rewrite ?idx_map; match goal with
    | |- context [usub ?a ?b] => destruct (usub a b); cbn [bind]; try reflexivity
    | |- context [idx (bs_knots s) ?i] =>
        let E := fresh "E" in let x := fresh "x" in
        destruct (idx (bs_knots s) i) as [x| |] eqn:E; cbn [bind]; try reflexivity;
        apply idx_fin in E; [|exact Hk]; rewrite ?(feqb t x Ht E), ?(fltb t x Ht E), ?(fltb x t E Ht)
    | |- (if ?b then _ else _) = _ => cbn [s_eqb s_ltb RScalar]; destruct b; [reflexivity|]
    end); first [reflexivity | now apply search_loop_val].
  Qed.

  Definition fsorted (ks : list float) : Prop :=
    forall i j, (i <= j < length ks)%nat -> fknot ks i <= fknot ks j.

  Lemma new_fsorted D ks (ps : list P) s : bspline_new D ks ps = Ret (Ok s) ->
    (forall x, In x ks -> fin x) -> fsorted ks.
  Proof.
    intros H Hf i j Hij.
    assert (L : s_leb (nth i ks (s_lit 0)) (nth j ks (s_lit 0)) = true).
    { apply (new_sorted_float D ks ps s H); [|exact Hij].
      intros x Hx. specialize (Hf x Hx). intros N. destruct x; discriminate. }
    rewrite leb_val in L by (apply Hf, nth_In; lia). unfold fknot.
    destruct (Rle_bool_spec (val (nth i ks (s_lit 0))) (val (nth j ks (s_lit 0)))); [assumption|discriminate].
  Qed.

  Lemma fknot_map ks m : nth m (map val ks) 0 = fknot ks m.
  Proof.
    unfold fknot. change 0 with (val (s_lit 0)) || rewrite <- (proj2 (lit_small 0 ltac:(lia))). apply map_nth.
  Qed.

  Lemma fspan_found (s : bspline float P) (t : float) : well_formed s -> fsorted (bs_knots s) ->
    (forall x, In x (bs_knots s) -> fin x) -> fin t -> bs_kind s <> Unclamped ->
    fknot (bs_knots s) (bs_degree s) <= val t < fknot (bs_knots s) (length (bs_points s)) ->
    exists k, knot_span_start_for_t s t = Ret (Some k) /\
      (bs_degree s <= k < length (bs_points s))%nat /\ fspan (bs_knots s) k (val t).
  Proof.
    intros [W1 W2] Hs Hk Ht Hu Hr. rewrite span_val by assumption.
    destruct (span_found (shadow s) (val t)) as (k & E & B & I1 & I2).
    - unfold well_formed, shadow. cbn [bs_degree bs_knots bs_points]. rewrite map_length, repeat_length. auto.
    - unfold srt, shadow. cbn [bs_knots]. intros i j. rewrite map_length, !fknot_map. apply Hs.
    - exact Hu.
    - unfold knot, shadow. cbn [bs_degree bs_knots bs_points]. rewrite repeat_length.
      change (s_lit 0 : R) with 0. rewrite !fknot_map. exact Hr.
    - exists k. split; [exact E|]. unfold shadow in *. cbn [bs_degree bs_knots bs_points] in *.
      rewrite repeat_length in B. rewrite map_length in I1. rewrite !fknot_map in I2.
      split; [exact B|]. split; assumption.
  Qed.

  (** ** Weights *)
  Lemma sub_err (x y : float) : fin x -> fin y -> Rabs (val x) <= fmax / 2 -> Rabs (val y) <= fmax / 2 ->
    fin (s_sub x y) /\ val (s_sub x y) = rnd (val x - val y) /\
    Rabs (val (s_sub x y) - (val x - val y)) <= uro * Rabs (val x - val y).
  Proof.
    intros Hx Hy Bx By. destruct (sub_ok x y Hx Hy) as [A1 A2].
    { eapply Rle_trans; [apply Rabs_triang|]. rewrite Rabs_Ropp. lra. }
    split; [exact A1|]. split; [exact A2|]. rewrite A2.
    exact (rnd_sum_err (val x) (- val y) (val_float x) (float_opp _ (val_float y))).
  Qed.

  Lemma eps_float : is_float (2 * uro).
  Proof. rewrite <- (proj2 eps_ok). apply val_float. Qed.

  Section Weight.
    Variables t a b : float.
    Hypotheses (Ht : fin t) (Ha : fin a) (Hb : fin b).
    Hypotheses (Bt : Rabs (val t) <= fmax / 2) (Ba : Rabs (val a) <= fmax / 2) (Bb : Rabs (val b) <= fmax / 2).
    Hypothesis Hr : val a <= val t < val b.

    Definition fweight : float :=
      if s_ltb (s_sub t a) s_eps then s_lit 0
      else if s_ltb (s_abs (s_sub b a)) s_eps then s_lit 1
      else s_div (s_sub t a) (s_sub b a).

    Lemma weight_cases :
      (rnd (val t - val a) < 2 * uro /\ fweight = s_lit 0) \/
      (2 * uro <= rnd (val t - val a) <= rnd (val b - val a) /\
       fin fweight /\ val fweight = rnd (rnd (val t - val a) / rnd (val b - val a)) /\ val fweight <= 1).
    Proof.
      destruct (sub_err t a Ht Ha Bt Ba) as (N1 & N2 & _).
      destruct (sub_err b a Hb Ha Bb Ba) as (D1 & D2 & _).
      destruct eps_ok as [E1 E2]. pose proof uro_pos.
      assert (L : rnd (val t - val a) <= rnd (val b - val a)) by (apply rnd_le; lra).
      unfold fweight. rewrite ltb_val by assumption. rewrite N2, E2.
      destruct (Rlt_bool_spec (rnd (val t - val a)) (2 * uro)) as [H1|H1]; [left; auto|right].
      rewrite ltb_val by (auto; now apply abs_fin). rewrite abs_val, D2, E2.
      rewrite Rabs_pos_eq by lra. rewrite Rlt_bool_false by lra.
      assert (Q : 0 <= rnd (val t - val a) / rnd (val b - val a) <= 1).
      { split.
        - apply Rmult_le_pos; [lra|]. apply Rlt_le, Rinv_0_lt_compat. lra.
        - apply Rmult_le_reg_r with (rnd (val b - val a)); [lra|].
          unfold Rdiv. rewrite Rmult_assoc, Rinv_l by lra. lra. }
      destruct (div_ok (s_sub t a) (s_sub b a) N1) as [Q1 Q2].
      - rewrite D2. lra.
      - rewrite N2, D2. rewrite Rabs_pos_eq by lra. pose proof fmax_ge. lra.
      - rewrite N2, D2 in Q2. split; [lra|]. split; [exact Q1|]. split; [exact Q2|].
        rewrite Q2. apply rnd_le_float; [apply float_1|lra].
    Qed.

    Lemma fweight_unit : fin fweight /\ 0 <= val fweight <= 1.
    Proof.
      destruct weight_cases as [(_ & ->)|(H1 & H2 & H3 & H4)].
      - destruct (lit_small 0 ltac:(lia)) as [A B]. split; [exact A|]. rewrite B. lra.
      - split; [exact H2|]. split; [|exact H4]. rewrite H3. apply rnd_ge_float; [apply float_0|].
        pose proof uro_pos. apply Rmult_le_pos; [lra|]. apply Rlt_le, Rinv_0_lt_compat. lra.
    Qed.

    Lemma fweight_err : val t = val a \/ 2 * uro <= val t - val a ->
      Rabs (val fweight - (val t - val a) / (val b - val a)) <= 4 * uro + eta.
    Proof.
      intros Hc. pose proof uro_pos. pose proof eta_pos. pose proof uro_small as US.
      destruct weight_cases as [(H1 & ->)|(H1 & H2 & H3 & H4)].
      - destruct Hc as [Hc|Hc].
        + rewrite (proj2 (lit_small 0 ltac:(lia))), Hc. unfold Rdiv.
          rewrite Rminus_eq_0, Rmult_0_l, Rminus_0_r, Rabs_R0. lra.
        + exfalso. assert (2 * uro <= rnd (val t - val a)); [|lra].
          apply rnd_ge_float; [apply eps_float|exact Hc].
      - destruct (sub_err t a Ht Ha Bt Ba) as (_ & N2 & N3).
        destruct (sub_err b a Hb Ha Bb Ba) as (_ & D2 & D3).
        rewrite N2 in N3. rewrite D2 in D3. rewrite H3.
        rewrite (Rabs_pos_eq (val t - val a)) in N3 by lra. rewrite (Rabs_pos_eq (val b - val a)) in D3 by lra.
        set (n := val t - val a) in *. set (d := val b - val a) in *.
        set (n' := rnd n) in *. set (d' := rnd d) in *.
        assert (0 <= n < d) by (unfold n, d; lra).
        apply Rabs_le_inv in N3. apply Rabs_le_inv in D3.
        assert (U1 : uro * d <= / 2048 * d) by (apply Rmult_le_compat_r; lra).
        assert (U2 : uro * n <= uro * d) by (apply Rmult_le_compat_l; lra).
        assert (Dp : 0 < d') by lra.
        assert (Dd : d <= 5 / 4 * d') by lra.
        assert (Q : Rabs (n' / d' - n / d) <= 5 / 2 * uro).
        { replace (n' / d' - n / d) with ((n' * d - n * d') / (d' * d)) by (field; lra).
          unfold Rdiv. rewrite Rabs_mult, Rabs_inv. rewrite (Rabs_pos_eq (d' * d)) by nra.
          apply Rmult_le_reg_r with (d' * d); [nra|]. rewrite Rmult_assoc, Rinv_l by nra. rewrite Rmult_1_r.
          apply Rle_trans with (2 * uro * (d * d)).
          - replace (n' * d - n * d') with ((n' - n) * d + n * (d - d')) by ring.
            eapply Rle_trans; [apply Rabs_triang|]. rewrite !Rabs_mult.
            rewrite (Rabs_pos_eq d), (Rabs_pos_eq n) by lra.
            assert (Rabs (n' - n) <= uro * d) by (apply Rabs_le; lra).
            assert (Rabs (d - d') <= uro * d) by (apply Rabs_le; lra).
            assert (Rabs (n' - n) * d <= uro * d * d) by (apply Rmult_le_compat_r; lra).
            assert (n * Rabs (d - d') <= d * (uro * d)) by (apply Rmult_le_compat; try lra; apply Rabs_pos).
            lra.
          - assert (Z : d * d <= 5 / 4 * (d' * d)) by nra.
            replace (5 / 2 * uro * (d' * d)) with (2 * uro * (5 / 4 * (d' * d))) by field.
            apply Rmult_le_compat_l; lra. }
        pose proof (rnd_err (n' / d')) as E.
        assert (Qu : Rabs (n' / d') <= 1).
        { rewrite Rabs_pos_eq; [|apply Rmult_le_pos; [lra|apply Rlt_le, Rinv_0_lt_compat; lra]].
          apply Rmult_le_reg_r with d'; [lra|]. unfold Rdiv. rewrite Rmult_assoc, Rinv_l by lra. lra. }
        replace (rnd (n' / d') - n / d) with ((rnd (n' / d') - n' / d') + (n' / d' - n / d)) by ring.
        eapply Rle_trans; [apply Rabs_triang|].
        assert (uro * Rabs (n' / d') <= uro) by (rewrite <- (Rmult_1_r uro) at 2; apply Rmult_le_compat_l; lra).
        lra.
    Qed.
  End Weight.

  Lemma weight_fweight (s : bspline float P) t k r j :
    weight s t k r j = fweight t (knot s (j + k - bs_degree s)) (knot s (j + 1 + k - r)).
  Proof. reflexivity. Qed.

  (** 1 - t as written here *)
  Lemma one_sub t : fin t -> 0 <= val t <= 1 ->
    fin (s_sub (s_lit 1) t) /\ 0 <= val (s_sub (s_lit 1) t) <= 1 /\
    Rabs (val (s_sub (s_lit 1) t) - (1 - val t)) <= uro * (1 - val t).
  Proof.
    intros Ht Hr. destruct lit1 as [F1 V1].
    destruct (sub_ok (s_lit 1) t F1 Ht) as [A1 A2].
    { rewrite V1, Rabs_pos_eq; pose proof fmax_ge; lra. }
    rewrite V1 in A2. split; [exact A1|]. rewrite A2. split.
    - split; [apply rnd_ge_float; [apply float_0|lra]|apply rnd_le_float; [apply float_1|lra]].
    - pose proof (rnd_sum_err 1 (- val t) float_1 (float_opp _ (val_float t))) as H.
      change (1 + - val t) with (1 - val t) in H.
      rewrite (Rabs_pos_eq (1 - val t)) in H by lra. exact H.
  Qed.

  Lemma mix_bound w x y M : 0 <= w <= 1 -> Rabs x <= M -> Rabs y <= M -> Rabs (x * (1 - w) + y * w) <= M.
  Proof.
    intros Hw Hx Hy. eapply Rle_trans; [apply Rabs_triang|]. rewrite !Rabs_mult.
    rewrite (Rabs_pos_eq (1 - w)), (Rabs_pos_eq w) by lra.
    assert (Rabs x * (1 - w) <= M * (1 - w)) by (apply Rmult_le_compat_r; lra).
    assert (Rabs y * w <= M * w) by (apply Rmult_le_compat_r; lra). lra.
  Qed.

  Section Scheme.
    Variables (s : bspline float P) (t : float) (k : nat).
    Hypothesis Hwf : well_formed s.
    Hypothesis Hs : fsorted (bs_knots s).
    Hypothesis Hm : moderate (bs_knots s).
    Hypothesis Ht : fin t.
    Hypothesis Hk : (bs_degree s <= k < length (bs_points s))%nat.
    Hypothesis Hb : fspan (bs_knots s) k (val t).
    Local Notation D := (bs_degree s).
    Local Notation U := (fknot (bs_knots s)).

    Lemma knot_ok m : (m < length (bs_knots s))%nat ->
      fin (knot s m) /\ Rabs (val (knot s m)) <= fmax / 2.
    Proof. intros H. apply Hm, nth_In, H. Qed.

    Lemma t_moderate : Rabs (val t) <= fmax / 2.
    Proof.
      destruct Hb as [B1 B2]. destruct (knot_ok k ltac:(lia)) as [_ A1]. destruct (knot_ok (k + 1) B1) as [_ A2].
      change (val (knot s k)) with (U k) in A1. change (val (knot s (k + 1))) with (U (k + 1)%nat) in A2.
      apply Rabs_le_inv in A1. apply Rabs_le_inv in A2. apply Rabs_le. lra.
    Qed.

    Lemma range r j : (1 <= r <= j)%nat -> (j <= D)%nat ->
      U (j + k - D)%nat <= val t < U (j + 1 + k - r)%nat.
    Proof.
      intros Hr Hj. destruct Hwf as [H1 H2]. destruct Hb as [Hb1 Hb2]. split.
      - apply Rle_trans with (U k); [apply Hs; lia|apply Hb2].
      - apply Rlt_le_trans with (U (k + 1)%nat); [apply Hb2|apply Hs; lia].
    Qed.

    Lemma weight_ok r j : (1 <= r <= j)%nat -> (j <= D)%nat ->
      fin (weight s t k r j) /\ 0 <= val (weight s t k r j) <= 1.
    Proof.
      intros Hr Hj. destruct Hwf as [H1 H2]. rewrite weight_fweight.
      destruct (knot_ok (j + k - D) ltac:(lia)) as [A1 A2].
      destruct (knot_ok (j + 1 + k - r) ltac:(lia)) as [B1 B2].
      apply fweight_unit; auto. { apply t_moderate. } apply (range r j Hr Hj).
    Qed.

    Variables (i : nat) (M : R).
    Hypothesis Hi : (i < p_dim (P := P))%nat.
    Hypothesis HM : 0 <= M.
    Hypothesis Hp : forall p, In p (bs_points s) -> fin (cw p i) /\ Rabs (val (cw p i)) <= M.

    (** exact interpolation with the computed weights *)
    Fixpoint approx (r j : nat) : R :=
      match r with
      | O => val (cw (entry s t k 0 j) i)
      | S r' => approx r' (j - 1) * (1 - val (weight s t k r j)) + approx r' j * val (weight s t k r j)
      end.
    (** exact interpolation with the exact weights *)
    Fixpoint ideal (r j : nat) : R :=
      match r with
      | O => val (cw (entry s t k 0 j) i)
      | S r' =>
          let a := (val t - U (j + k - D)%nat) / (U (j + 1 + k - r)%nat - U (j + k - D)%nat) in
          ideal r' (j - 1) * (1 - a) + ideal r' j * a
      end.

    Lemma entry0_ok j : (j <= D)%nat ->
      fin (cw (entry s t k 0 j) i) /\ Rabs (val (cw (entry s t k 0 j) i)) <= M.
    Proof.
      intros Hj. cbn [entry]. destruct (Nat.ltb_spec j D) as [H|H].
      - apply Hp. apply nth_In. lia.
      - rewrite cw_default by exact Hi. destruct (lit_small 0 ltac:(lia)) as [A B].
        split; [exact A|]. rewrite B, Rabs_R0. exact HM.
    Qed.

    Lemma approx_bound r j : (r <= j <= D)%nat -> Rabs (approx r j) <= M.
    Proof.
      revert j. induction r as [|r IH]; intros j Hj.
      - apply entry0_ok. lia.
      - cbn [approx]. apply mix_bound; [apply weight_ok; lia|apply IH; lia|apply IH; lia].
    Qed.

    Lemma alpha_unit r j : (1 <= r <= j)%nat -> (j <= D)%nat ->
      0 <= (val t - U (j + k - D)%nat) / (U (j + 1 + k - r)%nat - U (j + k - D)%nat) <= 1.
    Proof.
      intros Hr Hj. destruct (range r j Hr Hj). split.
      - apply Rmult_le_pos; [lra|]. apply Rlt_le, Rinv_0_lt_compat. lra.
      - apply Rmult_le_reg_r with (U (j + 1 + k - r)%nat - U (j + k - D)%nat); [lra|].
        unfold Rdiv. rewrite Rmult_assoc, Rinv_l by lra. lra.
    Qed.
    Lemma ideal_bound r j : (r <= j <= D)%nat -> Rabs (ideal r j) <= M.
    Proof.
      revert j. induction r as [|r IH]; intros j Hj.
      - apply entry0_ok. lia.
      - cbn [ideal]. cbv zeta. apply mix_bound; [apply alpha_unit; lia|apply IH; lia|apply IH; lia].
    Qed.

    (** float entries against [approx] *)
    Lemma entry_approx r j n : (r <= j <= D)%nat -> (r <= n)%nat ->
      (M + casteljau_err M n) * (1 + uro) ^ 2 + 2 * eta <= fmax ->
      fin (cw (entry s t k r j) i) /\
      Rabs (val (cw (entry s t k r j) i) - approx r j) <= casteljau_err M r.
    Proof.
      intros Hj Hn Hov. revert j Hj. induction r as [|r IH]; intros j Hj.
      - destruct (entry0_ok j ltac:(lia)) as [A B]. split; [exact A|].
        cbn [approx]. rewrite Rminus_diag_eq by reflexivity. rewrite Rabs_R0. now apply casteljau_err_ge0.
      - destruct (IH ltac:(lia) (j - 1)%nat ltac:(lia)) as [A1 A2].
        destruct (IH ltac:(lia) j ltac:(lia)) as [B1 B2].
        destruct (weight_ok (S r) j ltac:(lia) ltac:(lia)) as [W1 W2].
        destruct (one_sub _ W1 W2) as (O1 & O2 & O3).
        cbn [entry approx]. rewrite cw_add, !cw_mul by exact Hi.
        destruct (mix_err _ _ _ _ _ _ M (casteljau_err M r) W1 W2 O1 O2 O3 A1 B1
                    (casteljau_err_ge0 M r HM) A2 B2 (approx_bound r (j - 1) ltac:(lia))
                    (approx_bound r j ltac:(lia))) as [C1 C2].
        { eapply Rle_trans; [|exact Hov]. apply Rplus_le_compat_r.
          apply Rmult_le_compat_r; [apply pow2_ge_0|].
          apply Rplus_le_compat_l. apply casteljau_err_mono; [exact HM|lia]. }
        split; [exact C1|]. eapply Rle_trans; [|now apply casteljau_err_step].
        eapply Rle_trans; [|exact C2]. right. f_equal. ring.
    Qed.

    (** computed against exact weights *)
    Lemma approx_ideal r j : clear_of (bs_knots s) (val t) -> (r <= j <= D)%nat ->
      Rabs (approx r j - ideal r j) <= INR r * (9 * uro * M).
    Proof.
      intros Hc. revert j. induction r as [|r IH]; intros j Hj.
      - cbn [approx ideal]. rewrite Rminus_diag_eq by reflexivity. rewrite Rabs_R0. cbn [INR]. lra.
      - cbn [approx ideal]. cbv zeta. rewrite S_INR.
        pose proof (IH (j - 1)%nat ltac:(lia)) as E1. pose proof (IH j ltac:(lia)) as E2.
        destruct (weight_ok (S r) j ltac:(lia) ltac:(lia)) as [W1 W2].
        set (w := val (weight s t k (S r) j)) in *.
        set (a := (val t - U (j + k - D)%nat) / (U (j + 1 + k - S r)%nat - U (j + k - D)%nat)).
        assert (Ew : Rabs (w - a) <= 4 * uro + eta).
        { unfold w, a. rewrite weight_fweight. destruct Hwf as [H1 H2].
          destruct (knot_ok (j + k - D) ltac:(lia)) as [A1 A2].
          destruct (knot_ok (j + 1 + k - S r) ltac:(lia)) as [B1 B2].
          pose proof (range (S r) j ltac:(lia) ltac:(lia)) as Hr.
          apply (fweight_err t _ _ Ht A1 B1 t_moderate A2 B2 Hr).
          destruct (Rle_lt_or_eq_dec _ _ (proj1 Hr)) as [L|L]; [right|left; symmetry; exact L].
          rewrite <- (proj2 eps_ok). apply Hc; [apply nth_In; lia|exact L]. }
        pose proof (ideal_bound r (j - 1) ltac:(lia)) as I1. pose proof (ideal_bound r j ltac:(lia)) as I2.
        set (x := approx r (j - 1)) in *. set (y := approx r j) in *.
        set (x' := ideal r (j - 1)) in *. set (y' := ideal r j) in *.
        replace (x * (1 - w) + y * w - (x' * (1 - a) + y' * a))
          with (((x - x') * (1 - w) + (y - y') * w) + (w - a) * (y' - x')) by ring.
        eapply Rle_trans; [apply Rabs_triang|].
        pose proof (mix_bound w (x - x') (y - y') _ W2 E1 E2) as B1.
        assert (B2 : Rabs ((w - a) * (y' - x')) <= 9 * uro * M).
        { rewrite Rabs_mult. apply Rle_trans with ((4 * uro + eta) * (2 * M)).
          - apply Rmult_le_compat; try apply Rabs_pos; [exact Ew|].
            eapply Rle_trans; [apply Rabs_triang|]. rewrite Rabs_Ropp. lra.
          - pose proof eta_uro. pose proof eta_pos. pose proof uro_pos.
            replace ((4 * uro + eta) * (2 * M)) with ((8 * uro + 2 * eta) * M) by ring.
            apply Rmult_le_compat_r; lra. }
        lra.
    Qed.

    (** the exact scheme is the Cox-de Boor sum without its last term *)
    Lemma ideal_value :
      ideal D D = fspline_coord D (bs_knots s) (bs_points s) (val t) i
                  - basis U D k (val t) * val (cw (nth k (bs_points s) p_default) i).
    Proof.
      destruct Hwf as [H1 H2]. destruct Hb as [Hb1 Hb2].
      rewrite (de_boor_sum U D k (val t) ideal).
      - replace (D + 1)%nat with (S D) by lia. cbn [Rsum].
        rewrite (Rsum_ext _ (fun j => basis U D (j + k - D) (val t) * val (cw (nth (j + k - D) (bs_points s) p_default) i))).
        2:{ intros j Hj. cbn [ideal entry]. destruct (Nat.ltb_spec j D); [|lia]. apply Rmult_comm. }
        cbn [ideal entry]. rewrite Nat.ltb_irrefl. rewrite cw_default by assumption.
        rewrite (proj2 (lit_small 0 ltac:(lia))), Rmult_0_l, Rplus_0_r.
        unfold fspline_coord. set (C := length (bs_points s)) in *.
        set (g := fun j => basis U D j (val t) * val (cw (nth j (bs_points s) p_default) i)).
        replace C with ((k - D) + (D + (1 + (C - k - 1))))%nat at 1 by lia.
        rewrite !Rsum_split. cbn [Rsum].
        rewrite (Rsum_ext g (fun _ => 0)), Rsum_0.
        2:{ intros j Hj. unfold g. rewrite (basis_above U D j k (val t)); [ring| |apply Hb2|lia].
            intros a b Hab. apply Hs; lia. }
        rewrite (Rsum_ext (fun i0 => g (k - D + (D + (1 + i0)))%nat) (fun _ => 0)), Rsum_0.
        2:{ intros j Hj. unfold g.
            assert (Hz : forall p a, (k + 1 <= a)%nat -> (a + p <= C + D)%nat -> basis U p a (val t) = 0).
            { induction p as [|p IH]; intros a Ha Hap; cbn [basis].
              - destruct (Rle_dec (U a) (val t)) as [Hle|]; [|reflexivity].
                assert (U (k + 1)%nat <= U a) by (apply Hs; lia). lra.
              - rewrite !IH by lia. ring. }
            rewrite Hz by lia. ring. }
        unfold g. replace (k - D + (D + 0))%nat with k by lia.
        rewrite (Rsum_ext (fun j => basis U D (j + k - D) (val t) * val (cw (nth (j + k - D) (bs_points s) p_default) i))
                          (fun i0 => basis U D (k - D + i0) (val t) * val (cw (nth (k - D + i0) (bs_points s) p_default) i))).
        2:{ intros j Hj. replace (j + k - D)%nat with (k - D + j)%nat by lia. reflexivity. }
        ring.
      - lia.
      - intros a b Hab Hbk. apply Hs. lia.
      - exact Hb2.
      - intros r j Hr Hj. cbv zeta. destruct r as [|r]; [lia|]. replace (S r - 1)%nat with r by lia. reflexivity.
    Qed.
  End Scheme.

  (** ** eval *)
  Lemma eval_entry D ks (ps : list P) s t : bspline_new D ks ps = Ret (Ok s) -> bs_kind s <> Unclamped ->
    moderate ks -> fin t -> fknot ks D <= val t < fknot ks (length ps) ->
    exists k, (D <= k < length ps)%nat /\ fspan ks k (val t) /\
      bspline_eval s t = Ret (Ok (entry s t k D D)).
  Proof.
    intros H Hu Hm Ht Hr. destruct (new_fields D ks ps s H) as (E1 & E2 & E3).
    pose proof (new_wf D ks ps s H) as Hwf.
    assert (Hf : forall x, In x ks -> fin x) by (intros x Hx; apply Hm, Hx).
    pose proof (new_fsorted D ks ps s H Hf) as Hs. subst D ks ps.
    destruct (fspan_found s t Hwf Hs Hf Ht Hu Hr) as (k & Ek & Hk & Hb).
    exists k. split; [exact Hk|]. split; [exact Hb|].
    unfold bspline_eval. rewrite domain_value by assumption. cbn [bind].
    pose proof Hwf as [W1 W2].
    assert (KF : forall m, (m < length (bs_knots s))%nat -> fin (knot s m)) by (intros; apply Hf, nth_In; assumption).
    assert (L1 : fknot (bs_knots s) 0 <= fknot (bs_knots s) (bs_degree s)) by (apply Hs; lia).
    assert (L2 : fknot (bs_knots s) (length (bs_points s)) <= fknot (bs_knots s) (length (bs_knots s) - 1)) by (apply Hs; lia).
    assert (G : forall m, (m < length (bs_knots s))%nat -> fknot (bs_knots s) m <= val t -> s_ltb t (knot s m) = false).
    { intros m Hm' HL. rewrite ltb_val by auto. apply Rlt_bool_false. exact HL. }
    assert (G' : forall m, (m < length (bs_knots s))%nat -> val t <= fknot (bs_knots s) m -> s_ltb (knot s m) t = false).
    { intros m Hm' HL. rewrite ltb_val by auto. apply Rlt_bool_false. exact HL. }
    assert (Ed : (s_ltb t (fst match bs_kind s with
         | ClampedStart => (knot s (bs_degree s), knot s (length (bs_knots s) - 1))
         | ClampedEnd => (knot s 0, knot s (length (bs_points s)))
         | _ => (knot s (bs_degree s), knot s (length (bs_points s)))
         end) || s_ltb (snd match bs_kind s with
         | ClampedStart => (knot s (bs_degree s), knot s (length (bs_knots s) - 1))
         | ClampedEnd => (knot s 0, knot s (length (bs_points s)))
         | _ => (knot s (bs_degree s), knot s (length (bs_points s)))
         end) t)%bool = false).
    { destruct (bs_kind s); cbn [fst snd]; rewrite G, G' by (lia || lra); reflexivity. }
    rewrite Ed.
    destruct (de_boor_cases s t (Some k) (wf_roomy s Hwf) Ek) as [(Ee & _)|(_ & [Eo|(_ & _ & r & j & R1 & R2 & Hn)])].
    - intros k' [= <-]. lia.
    - rewrite eqb_val in Ee by (auto; apply KF; lia).
      change (val (knot s (length (bs_points s)))) with (fknot (bs_knots s) (length (bs_points s))) in Ee.
      rewrite Req_bool_false in Ee by lra. discriminate.
    - exact Eo.
    - destruct (weight_ok s t k Hwf Hs Hm Ht Hk Hb r j R1 R2) as [A _].
      rewrite (fin_not_nan _ A) in Hn. discriminate.
  Qed.

  Lemma bound_nonneg (ps : list P) M i : ps <> [] -> (i < p_dim (P := P))%nat ->
    (forall p, In p ps -> bounded M p) -> 0 <= M.
  Proof.
    intros Hne Hi H. destruct ps as [|p ps]; [contradiction|].
    destruct (H p (or_introl eq_refl) i Hi) as [_ B]. pose proof (Rabs_pos (val (cw p i))). lra.
  Qed.

  (** C65 *)
  Theorem eval_finite D ks (ps : list P) s t M : bspline_new D ks ps = Ret (Ok s) -> bs_kind s <> Unclamped ->
    moderate ks -> fin t -> fknot ks D <= val t < fknot ks (length ps) ->
    (forall p, In p ps -> bounded M p) -> 6 * INR D * uro <= 1 -> 4 * M <= fmax ->
    exists p, bspline_eval s t = Ret (Ok p) /\ bounded (M + 6 * INR D * uro * M + 5 * INR D * eta) p.
  Proof.
    intros H Hu Hm Ht Hr Hp Hd H4. destruct (eval_entry D ks ps s t H Hu Hm Ht Hr) as (k & Hk & Hb & Ee).
    eexists. split; [exact Ee|]. intros i Hi.
    destruct (new_fields D ks ps s H) as (E1 & E2 & E3).
    pose proof (new_wf D ks ps s H) as Hwf.
    assert (Hf : forall x, In x ks -> fin x) by (intros x Hx; apply Hm, Hx).
    pose proof (new_fsorted D ks ps s H Hf) as Hs. subst D ks ps.
    assert (HM : 0 <= M).
    { apply (bound_nonneg (bs_points s) M i); auto. intros E. rewrite E in Hk. cbn in Hk. lia. }
    assert (Hp' : forall p, In p (bs_points s) -> fin (cw p i) /\ Rabs (val (cw p i)) <= M)
      by (intros p Hin; exact (Hp p Hin i Hi)).
    destruct (entry_approx s t k Hwf Hs Hm Ht Hk Hb i M Hi HM Hp' (bs_degree s) (bs_degree s) (bs_degree s)) as [A B];
      [lia|lia|now apply no_overflow_cond|].
    split; [exact A|].
    pose proof (approx_bound s t k Hwf Hs Hm Ht Hk Hb i M Hi HM Hp' (bs_degree s) (bs_degree s) ltac:(lia)) as C.
    pose proof (casteljau_err_lin M (bs_degree s) HM Hd).
    replace (val (cw (entry s t k (bs_degree s) (bs_degree s)) i))
      with ((val (cw (entry s t k (bs_degree s) (bs_degree s)) i) - approx s t k i (bs_degree s) (bs_degree s))
            + approx s t k i (bs_degree s) (bs_degree s)) by ring.
    eapply Rle_trans; [apply Rabs_triang|]. lra.
  Qed.

  (** C66 *)
  Theorem eval_error D ks (ps : list P) s t M : bspline_new D ks ps = Ret (Ok s) -> bs_kind s <> Unclamped ->
    moderate ks -> fin t -> fknot ks D <= val t < fknot ks (length ps) -> clear_of ks (val t) ->
    (forall p, In p ps -> bounded M p) -> 6 * INR D * uro <= 1 -> 4 * M <= fmax ->
    exists k p, (D <= k < length ps)%nat /\ fspan ks k (val t) /\ bspline_eval s t = Ret (Ok p) /\
      forall i, (i < p_dim (P := P))%nat -> fin (cw p i) /\
        Rabs (val (cw p i) - (fspline_coord D ks ps (val t) i
                              - basis (fknot ks) D k (val t) * val (cw (nth k ps p_default) i)))
          <= 15 * INR D * uro * M + 5 * INR D * eta.
  Proof.
    intros H Hu Hm Ht Hr Hc Hp Hd H4. destruct (eval_entry D ks ps s t H Hu Hm Ht Hr) as (k & Hk & Hb & Ee).
    exists k. eexists. split; [exact Hk|]. split; [exact Hb|]. split; [exact Ee|]. intros i Hi.
    destruct (new_fields D ks ps s H) as (E1 & E2 & E3).
    pose proof (new_wf D ks ps s H) as Hwf.
    assert (Hf : forall x, In x ks -> fin x) by (intros x Hx; apply Hm, Hx).
    pose proof (new_fsorted D ks ps s H Hf) as Hs. subst D ks ps.
    assert (HM : 0 <= M).
    { apply (bound_nonneg (bs_points s) M i); auto. intros E. rewrite E in Hk. cbn in Hk. lia. }
    assert (Hp' : forall p, In p (bs_points s) -> fin (cw p i) /\ Rabs (val (cw p i)) <= M)
      by (intros p Hin; exact (Hp p Hin i Hi)).
    destruct (entry_approx s t k Hwf Hs Hm Ht Hk Hb i M Hi HM Hp' (bs_degree s) (bs_degree s) (bs_degree s)) as [A B];
      [lia|lia|now apply no_overflow_cond|].
    split; [exact A|].
    pose proof (approx_ideal s t k Hwf Hs Hm Ht Hk Hb i M Hi HM Hp' (bs_degree s) (bs_degree s) Hc ltac:(lia)) as C.
    pose proof (casteljau_err_lin M (bs_degree s) HM Hd).
    rewrite <- (ideal_value s t k Hwf Hs Hk Hb i Hi).
    replace (val (cw (entry s t k (bs_degree s) (bs_degree s)) i) - ideal s t k i (bs_degree s) (bs_degree s))
      with ((val (cw (entry s t k (bs_degree s) (bs_degree s)) i) - approx s t k i (bs_degree s) (bs_degree s))
            + (approx s t k i (bs_degree s) (bs_degree s) - ideal s t k i (bs_degree s) (bs_degree s))) by ring.
    eapply Rle_trans; [apply Rabs_triang|]. lra.
  Qed.

  (** the right end of the domain, every kind of knot vector: the last control point itself *)
  Theorem eval_last D ks (ps : list P) s t d : bspline_new D ks ps = Ret (Ok s) ->
    (forall x, In x ks -> fin x) -> fin t -> val t = fknot ks (length ps) ->
    bspline_eval s t = Ret (Ok (last ps d)).
  Proof.
    intros H Hf Ht Hr. destruct (new_fields D ks ps s H) as (E1 & E2 & E3).
    pose proof (new_wf D ks ps s H) as Hwf. pose proof (new_fsorted D ks ps s H Hf) as Hs. subst D ks ps.
    pose proof Hwf as [W1 W2]. unfold bspline_eval. rewrite domain_value by assumption. cbn [bind].
    assert (KF : forall m, (m < length (bs_knots s))%nat -> fin (knot s m)) by (intros; apply Hf, nth_In; assumption).
    assert (G : forall m, (m <= length (bs_points s))%nat -> s_ltb t (knot s m) = false).
    { intros m Hm. rewrite ltb_val by (auto; apply KF; lia). apply Rlt_bool_false. rewrite Hr. apply Hs. lia. }
    assert (G' : forall m, (length (bs_points s) <= m < length (bs_knots s))%nat -> s_ltb (knot s m) t = false).
    { intros m Hm. rewrite ltb_val by (auto; apply KF; lia). apply Rlt_bool_false. rewrite Hr. apply Hs. lia. }
    assert (Ed : (s_ltb t (fst match bs_kind s with
         | ClampedStart => (knot s (bs_degree s), knot s (length (bs_knots s) - 1))
         | ClampedEnd => (knot s 0, knot s (length (bs_points s)))
         | _ => (knot s (bs_degree s), knot s (length (bs_points s)))
         end) || s_ltb (snd match bs_kind s with
         | ClampedStart => (knot s (bs_degree s), knot s (length (bs_knots s) - 1))
         | ClampedEnd => (knot s 0, knot s (length (bs_points s)))
         | _ => (knot s (bs_degree s), knot s (length (bs_points s)))
         end) t)%bool = false).
    { destruct (bs_kind s); cbn [fst snd]; rewrite G, G' by lia; reflexivity. }
    rewrite Ed. unfold de_boor_iterative. rewrite knot_idx by lia. cbn [bind].
    rewrite eqb_val by (auto; apply KF; lia).
    rewrite Req_bool_true by exact Hr. rewrite usub_le by lia. cbn [bind].
    rewrite (idx_lt _ _ d) by lia. cbn [bind]. do 2 f_equal.
    assert (Hne : bs_points s <> []) by (intros E; rewrite E in W1; cbn in W1; lia).
    clear - Hne. destruct (exists_last Hne) as (l & x & ->).
    rewrite last_last, app_length. cbn [length]. replace (length l + 1 - 1)%nat with (length l) by lia.
    now rewrite app_nth2, Nat.sub_diag by lia.
  Qed.
End Spline.

(** ** f64 witnesses *)
Section Witness.
  Local Existing Instance Binary64.

  Definition is_alpha_nan {T P} {ST : Scalar T} {PT : Point T P} (D : nat) (ks : list T) (ps : list P) (t : T) : bool :=
    match bspline_new D ks ps with
    | Ret (Ok s) => match bspline_eval s t with Ret (Err EvaluationAlphaIsNaN) => true | _ => false end
    | _ => false
    end.

  Lemma alpha_nan_spec {T P} {ST : Scalar T} {PT : Point T P} D (ks : list T) (ps : list P) t :
    is_alpha_nan D ks ps t = true ->
    exists s, bspline_new D ks ps = Ret (Ok s) /\ bspline_eval s t = Ret (Err EvaluationAlphaIsNaN).
  Proof.
    unfold is_alpha_nan. destruct (bspline_new D ks ps) as [[s|]| |]; try discriminate.
    intros H. exists s. split; [reflexivity|].
    destruct (bspline_eval s t) as [[|[]]| |]; try discriminate. reflexivity.
  Qed.

  Definition is_clamped {T P} {ST : Scalar T} {PT : Point T P} (D : nat) (ks : list T) (ps : list P) : bool :=
    match bspline_new D ks ps with
    | Ret (Ok s) => match bs_kind s with Clamped => true | _ => false end
    | _ => false
    end.
  Lemma clamped_spec {T P} {ST : Scalar T} {PT : Point T P} D (ks : list T) (ps : list P) s :
    is_clamped D ks ps = true -> bspline_new D ks ps = Ret (Ok s) -> bs_kind s = Clamped.
  Proof. unfold is_clamped. intros H E. rewrite E in H. destruct (bs_kind s); congruence. Qed.

  Definition ones : list (PointN float 1) := [fpt1 (flt 1 0); fpt1 (flt 1 0)].
  Lemma ones_bounded p : In p ones -> bounded 1 p.
  Proof.
    intros [<-|[<-|[]]]; intros [|j] Hj; try (cbn in Hj; lia); (split; [reflexivity|]);
      change (Rabs (val (s_lit 1)) <= 1); rewrite (proj2 (lit_small 1 ltac:(lia))), Rabs_R1; lra.
  Qed.

  (** finite knots -2^1023 and 2^1023: the differences overflow, inf / inf is NaN *)
  Definition wide_knots : list float := [flt (-1) 1023; flt (-1) 1023; flt 1 1023; flt 1 1023].
  Definition wide_t : float := flt 9007199254740991 970.
  Lemma wide_nan : is_alpha_nan 1 wide_knots ones wide_t = true.
  Proof. vm_compute. reflexivity. Qed.
  Lemma wide_fin x : In x wide_knots -> fin x.
  Proof. intros [<-|[<-|[<-|[<-|[]]]]]; vm_compute; reflexivity. Qed.
  Lemma lt_of (x y : float) : fin x -> fin y -> s_ltb x y = true -> val x < val y.
  Proof. intros Hx Hy H. rewrite ltb_val in H by assumption. destruct (Rlt_bool_spec (val x) (val y)); [assumption|discriminate]. Qed.
  Lemma le_of (x y : float) : fin x -> fin y -> s_leb x y = true -> val x <= val y.
  Proof. intros Hx Hy H. rewrite leb_val in H by assumption. destruct (Rle_bool_spec (val x) (val y)); [assumption|discriminate]. Qed.

  Theorem alpha_nan_refuted : ~ (forall D ks (ps : list (PointN float 1)) s t,
    bspline_new D ks ps = Ret (Ok s) -> bs_kind s <> Unclamped ->
    (forall x, In x ks -> fin x) -> fin t -> fknot ks D <= val t < fknot ks (length ps) ->
    (forall p, In p ps -> bounded 1 p) -> exists p, bspline_eval s t = Ret (Ok p)).
  Proof.
    intros H. destruct (alpha_nan_spec _ _ _ _ wide_nan) as (s & E & N).
    destruct (H 1%nat wide_knots ones s wide_t E) as (p & Ep).
    - rewrite (clamped_spec 1 wide_knots ones s); [discriminate|vm_compute; reflexivity|exact E].
    - exact wide_fin.
    - vm_compute. reflexivity.
    - split; [apply le_of|apply lt_of]; vm_compute; reflexivity.
    - exact ones_bounded.
    - congruence.
  Qed.

  (** knots 2^-60 apart: within EPSILON of one another, every weight is 0 *)
  Definition near_knots : list float := [flt 0 0; flt 0 0; flt 1 (-60); flt 1 (-60)].
  Definition near_t : float := flt 1 (-61).
  Definition is_value {T P} {ST : Scalar T} {PT : Point T P} {CP : CwPoint T P} (D : nat) (ks : list T) (ps : list P) (t v : T) : bool :=
    match bspline_new D ks ps with
    | Ret (Ok s) => match bspline_eval s t with Ret (Ok p) => s_eqb (cw p 0) v | _ => false end
    | _ => false
    end.
  Lemma value_spec {T P} {ST : Scalar T} {PT : Point T P} {CP : CwPoint T P} D (ks : list T) (ps : list P) t v :
    is_value D ks ps t v = true -> exists s p, bspline_new D ks ps = Ret (Ok s) /\
      bspline_eval s t = Ret (Ok p) /\ s_eqb (cw p 0) v = true.
  Proof.
    unfold is_value. destruct (bspline_new D ks ps) as [[s|]| |]; try discriminate.
    destruct (bspline_eval s t) as [[p|]| |] eqn:E; try discriminate. intros H. exists s, p. auto.
  Qed.
  Lemma near_value : is_value 1 near_knots ones near_t (flt 1 0) = true.
  Proof. vm_compute. reflexivity. Qed.
  Lemma flt_pow e : (-1000 <= e <= 0)%Z -> fin (flt 1 e) /\ val (flt 1 e) = bpow radix2 e.
  Proof.
    intros He.
    pose proof (binary_normalize_correct fprec femax _ _ mode_NE 1 e false) as C.
    cbv zeta in C. change (round_mode mode_NE) with ZnearestE in C.
    assert (Hv : F2R (Float radix2 1 e) = bpow radix2 e) by (unfold F2R; cbn [Fnum Fexp]; apply Rmult_1_l).
    rewrite Hv in C. fold fx in C. fold (rnd (bpow radix2 e)) in C.
    rewrite no_overflow in C.
    - destruct C as (C1 & C2 & _). split; [exact C2|]. unfold val, flt. rewrite C1. apply rnd_float.
      apply generic_format_bpow. unfold fx, SpecFloat.fexp, SpecFloat.emin. cbn [fprec femax Binary64]. lia.
    - rewrite Rabs_pos_eq by apply bpow_ge_0. apply Rle_trans with 1; [|pose proof fmax_ge; lra].
      change 1 with (bpow radix2 0). apply bpow_le. lia.
  Qed.
  Lemma near_knot_values : fknot near_knots 0 = 0 /\ fknot near_knots 1 = 0 /\
    fknot near_knots 2 = 2 * val near_t /\ fknot near_knots 3 = 2 * val near_t /\ 0 < val near_t.
  Proof.
    unfold fknot, near_knots, near_t; cbn [nth].
    rewrite (proj2 (flt_pow (-60) ltac:(lia))), (proj2 (flt_pow (-61) ltac:(lia))).
    change (flt 0 0) with (s_lit 0 : float). rewrite (proj2 (lit_small 0 ltac:(lia))).
    pose proof (bpow_gt_0 radix2 (-61)).
    replace (bpow radix2 (-60)) with (2 * bpow radix2 (-61)) by (change (-60)%Z with (1 + -61)%Z; rewrite bpow_plus; reflexivity).
    lra.
  Qed.
  Lemma near_spline : fspline_coord 1 near_knots ones (val near_t) 0
    - basis (fknot near_knots) 1 1 (val near_t) * val (cw (nth 1 ones p_default) 0) = / 2.
  Proof.
    destruct near_knot_values as (K0 & K1 & K2 & K3 & Kt).
    unfold fspline_coord. cbn [length ones Rsum nth].
    assert (V : forall n, (n < 2)%nat -> val (cw (nth n ones p_default) 0) = 1).
    { intros [|[|n]] Hn; [| |lia]; apply (lit_small 1); lia. }
    pose proof (V 0%nat ltac:(lia)) as V0. pose proof (V 1%nat ltac:(lia)) as V1. cbn [nth ones] in V0, V1.
    rewrite V0. cbn [basis Nat.add]. rewrite K0, K1, K2, K3.
    repeat match goal with |- context [Rle_dec ?a ?b] => destruct (Rle_dec a b); try (exfalso; lra) end;
    repeat match goal with |- context [Rlt_dec ?a ?b] => destruct (Rlt_dec a b); try (exfalso; lra) end.
    rewrite (quot_nz _ (2 * val near_t - 0)) by lra. field. lra.
  Qed.

  Theorem near_knots_refuted : ~ (forall D ks (ps : list (PointN float 1)) s t M,
    bspline_new D ks ps = Ret (Ok s) -> bs_kind s <> Unclamped ->
    moderate ks -> fin t -> fknot ks D <= val t < fknot ks (length ps) ->
    (forall p, In p ps -> bounded M p) -> 6 * INR D * uro <= 1 -> 4 * M <= fmax ->
    exists k p, (D <= k < length ps)%nat /\ fspan ks k (val t) /\ bspline_eval s t = Ret (Ok p) /\
      Rabs (val (cw p 0) - (fspline_coord D ks ps (val t) 0
                              - basis (fknot ks) D k (val t) * val (cw (nth k ps p_default) 0)))
          <= 15 * INR D * uro * M + 5 * INR D * eta).
  Proof.
    intros H. destruct (value_spec _ _ _ _ _ near_value) as (s & p & E & Ep & V).
    pose proof uro_small. pose proof uro_pos. pose proof eta_uro. pose proof eta_pos. pose proof fmax_ge.
    destruct near_knot_values as (K0 & K1 & K2 & K3 & Kt).
    destruct (H 1%nat near_knots ones s near_t 1 E) as (k & q & Hk & _ & Eq & B).
    - rewrite (clamped_spec 1 near_knots ones s); [discriminate|vm_compute; reflexivity|exact E].
    - intros x Hx. split.
      + destruct Hx as [<-|[<-|[<-|[<-|[]]]]]; vm_compute; reflexivity.
      + assert (Rabs (val x) <= 1); [|lra]. destruct Hx as [<-|[<-|[<-|[<-|[]]]]].
        1,2: change (Rabs (fknot near_knots 0) <= 1); rewrite K0, Rabs_R0; lra.
        1,2: rewrite (proj2 (flt_pow (-60) ltac:(lia))); rewrite Rabs_pos_eq by apply bpow_ge_0;
             change 1 with (bpow radix2 0); apply bpow_le; lia.
    - apply (flt_pow (-61)). lia.
    - cbn [length ones]. rewrite K1, K2. lra.
    - exact ones_bounded.
    - cbn [INR]. lra.
    - lra.
    - rewrite Ep in Eq. injection Eq as <-. cbn [length ones] in Hk. replace k with 1%nat in B by lia.
      rewrite near_spline in B.
      assert (F1 : fin (cw p 0)).
      { destruct (eval_finite 1 near_knots ones s near_t 1 E) as (p' & Ep' & B').
        - rewrite (clamped_spec 1 near_knots ones s); [discriminate|vm_compute; reflexivity|exact E].
        - intros x Hx. split.
          + destruct Hx as [<-|[<-|[<-|[<-|[]]]]]; vm_compute; reflexivity.
          + assert (Rabs (val x) <= 1); [|lra]. destruct Hx as [<-|[<-|[<-|[<-|[]]]]].
            1,2: change (Rabs (fknot near_knots 0) <= 1); rewrite K0, Rabs_R0; lra.
            1,2: rewrite (proj2 (flt_pow (-60) ltac:(lia))); rewrite Rabs_pos_eq by apply bpow_ge_0;
                 change 1 with (bpow radix2 0); apply bpow_le; lia.
        - apply (flt_pow (-61)). lia.
        - cbn [length ones]. rewrite K1, K2. lra.
        - exact ones_bounded.
        - cbn [INR]. lra.
        - lra.
        - rewrite Ep in Ep'. injection Ep' as <-. apply (B' 0%nat). cbn. lia. }
      rewrite eqb_val in V by (exact F1 || apply (lit_small 1); lia).
      destruct (Req_bool_spec (val (cw p 0)) (val (flt 1 0))) as [V'|]; [|discriminate].
      rewrite V' in B. change (flt 1 0) with (s_lit 1 : float) in B.
      rewrite (proj2 (lit_small 1 ltac:(lia))) in B. cbn [INR] in B.
      rewrite Rabs_pos_eq in B by lra. lra.
  Qed.
End Witness.
