(** The repaired evaluation of Model/Repairs.v in IEEE-754 arithmetic. *)
From Coq Require Import Reals ZArith List Arith Lia Lra Bool.
From Flocq Require Import Core.Core IEEE754.BinarySingleNaN.
From Verif Require Import Base.Outcome Base.Scalar Model.Point Model.BSpline Model.Repairs
  Inst.RealInst Inst.FloatInst Spec.Sums Spec.Lawful Spec.Points Spec.Basis Spec.Rounding
  Spec.Componentwise Spec.FloatPoints Spec.FloatSplines
  Proofs.OutcomeFacts Proofs.PointFacts Proofs.RealTac Proofs.FloatFacts Proofs.FloatPoint Proofs.FloatEval Proofs.FloatBound Proofs.FloatNear Proofs.FloatEnds
  Proofs.FloatSpline Proofs.FloatSplineEval Proofs.BSplineGeneric Proofs.BSplineReal.
Import ListNotations.
Local Open Scope R_scope.

(** ** The loops, over any scalar *)
Section Loops.
  Context {T P : Type} {ST : Scalar T} {PT : Point T P}.
  Variables (s : bspline T P) (t : T) (k : nat).
  Hypothesis Hwf : well_formed s.
  Hypothesis Hk : (bs_degree s <= k < length (bs_points s))%nat.
  Local Notation D := (bs_degree s).

  Definition gratio (r j : nat) : T :=
    s_div (s_sub t (knot s (j + k - D))) (s_sub (knot s (j + 1 + k - r)) (knot s (j + k - D))).
  Fixpoint gtri (r j : nat) : P :=
    match r with
    | O => cpoint s (j + k - D)
    | S r' => p_add (p_mul (gtri r' (j - 1)) (s_sub (s_lit 1) (gratio r j))) (p_mul (gtri r' j) (gratio r j))
    end.
  Hypothesis Hnan : forall r j, (1 <= r <= j)%nat -> (j <= D)%nat -> s_is_nan (gratio r j) = false.

  Lemma gload_ok : exists d, fixed_load s k = Ret d /\ length d = (D + 1)%nat /\
    forall j, (j <= D)%nat -> nth j d p_default = gtri 0 j.
  Proof.
    destruct Hwf as [H1 H2]. unfold fixed_load.
    destruct (for_in_range_inv (fun m d => length d = (D + 1)%nat /\
        forall j, (j < m)%nat -> nth j d p_default = gtri 0 j)
      0 (D + 1) (repeat p_default (D + 1)) (fun j d =>
        let! i := usub (j + k) D in let! c := idx (bs_points s) i in set_idx d j c)) as (d & Ed & Hl & Hd).
    - lia.
    - split; [apply repeat_length|]. intros; lia.
    - intros i d Hi (Hl & Hd). rewrite usub_le by lia. cbn [bind].
      rewrite (idx_lt _ _ p_default) by lia. cbn [bind]. rewrite set_idx_lt by lia.
      eexists. split; [reflexivity|]. split; [now rewrite length_replace_nth|].
      intros j Hj. rewrite nth_replace_nth by lia. destruct (Nat.eqb_spec j i) as [->|Hne]; [reflexivity|].
      apply Hd. lia.
    - exists d. split; [|split; [exact Hl|intros j Hj; apply Hd; lia]].
      rewrite <- Ed. f_equal. unfold range_incl, Outcome.range. f_equal. lia.
  Qed.

  Lemma galpha_ok r j : (1 <= r <= j)%nat -> (j <= D)%nat ->
    fixed_alpha (bs_knots s) D t k r j = Ret (gratio r j).
  Proof.
    destruct Hwf as [H1 H2]. intros Hr Hj. unfold fixed_alpha.
    rewrite usub_le by lia. cbn [bind]. rewrite knot_idx by lia. cbn [bind].
    rewrite usub_le by lia. cbn [bind]. rewrite knot_idx by lia. cbn [bind]. reflexivity.
  Qed.

  Lemma ginner_ok r d : (1 <= r <= D)%nat -> length d = (D + 1)%nat ->
    (forall j, (r - 1 <= j <= D)%nat -> nth j d p_default = gtri (r - 1) j) ->
    exists res, for_result (rev (range_incl r D)) d (fun j d => fixed_body (bs_knots s) D t k r j d) = Ret res /\
      match res with
      | Ok d' => length d' = (D + 1)%nat /\ forall j, (r <= j <= D)%nat -> nth j d' p_default = gtri r j
      | Err e => False
      end.
  Proof.
    intros Hr Hl Hd.
    destruct (for_result_rule (fun l d => exists n, l = rev (seq r n) /\ (r + n <= D + 1)%nat /\ length d = (D + 1)%nat /\
        (forall j, (r - 1 <= j < r + n)%nat -> nth j d p_default = gtri (r - 1) j) /\
        (forall j, (r + n <= j <= D)%nat -> nth j d p_default = gtri r j))
      (fun _ => False) (fun j d => fixed_body (bs_knots s) D t k r j d) (rev (range_incl r D)) d) as (res & Er & Hres).
    - exists (S D - r)%nat. unfold range_incl. split; [reflexivity|]. split; [lia|]. split; [exact Hl|]. split.
      + intros j Hj. apply Hd. lia.
      + intros j Hj. lia.
    - clear d Hl Hd. intros i l d (n & En & Hn & Hl & Hd1 & Hd2).
      destruct n as [|n]; [discriminate|]. rewrite seq_S, rev_unit in En. injection En as -> ->.
      unfold fixed_body. rewrite galpha_ok by lia. cbn [bind]. rewrite Hnan by lia.
      rewrite usub_le by lia. cbn [bind]. rewrite !(idx_lt d _ p_default) by lia. cbn [bind].
      rewrite set_idx_lt by lia. cbn [bind]. eexists. split; [reflexivity|].
      exists n. repeat split; try lia.
      + now rewrite length_replace_nth.
      + intros j Hj. rewrite nth_replace_nth by lia. destruct (Nat.eqb_spec j (r + n)); [lia|]. apply Hd1. lia.
      + intros j Hj. rewrite nth_replace_nth by lia. destruct (Nat.eqb_spec j (r + n)) as [->|Hne].
        * rewrite !Hd1 by lia. destruct r as [|r']; [lia|]. replace (S r' - 1)%nat with r' by lia. reflexivity.
        * apply Hd2. lia.
    - exists res. split; [exact Er|]. destruct res as [d'|e]; [|exact Hres].
      destruct Hres as (n & En & Hn & Hl' & Hd1 & Hd2). destruct n as [|n].
      2:{ rewrite seq_S, rev_unit in En. discriminate. }
      split; auto. intros j Hj. apply Hd2. lia.
  Qed.

  Lemma gscheme_ok d : length d = (D + 1)%nat -> (forall j, (j <= D)%nat -> nth j d p_default = gtri 0 j) ->
    exists d', for_result (range_incl 1 D) d (fun r d =>
        for_result (rev (range_incl r D)) d (fun j d => fixed_body (bs_knots s) D t k r j d)) = Ret (Ok d') /\
      length d' = (D + 1)%nat /\ nth D d' p_default = gtri D D.
  Proof.
    intros Hl Hd.
    destruct (for_result_rule (fun l d => exists m, l = seq (m + 1) (D - m) /\ (m <= D)%nat /\ length d = (D + 1)%nat /\
        (forall j, (m <= j <= D)%nat -> nth j d p_default = gtri m j))
      (fun _ => False) (fun r d => for_result (rev (range_incl r D)) d (fun j d => fixed_body (bs_knots s) D t k r j d))
      (range_incl 1 D) d) as (res & Er & Hres).
    - exists 0%nat. unfold range_incl. repeat split; auto; try lia. intros j Hj. apply Hd. lia.
    - clear d Hl Hd. intros i l d (m & Em & Hm & Hl & Hd).
      destruct (D - m)%nat as [|n] eqn:En; [discriminate|]. simpl in Em. injection Em as -> ->.
      destruct (ginner_ok (m + 1) d) as (res & Er & Hr); [lia|exact Hl| |].
      + intros j Hj. replace (m + 1 - 1)%nat with m in * by lia. apply Hd. lia.
      + exists res. split; [exact Er|]. destruct res as [d'|e]; [|exact Hr].
        destruct Hr as [Hl' Hd']. exists (m + 1)%nat. repeat split; auto; try lia.
        replace (D - (m + 1))%nat with n by lia. f_equal. lia.
    - destruct res as [d'|e]; [|contradiction]. exists d'. split; [exact Er|].
      destruct Hres as (m & Em & Hm & Hl' & Hd').
      destruct (D - m)%nat as [|n] eqn:En; [|discriminate]. replace m with D in * by lia.
      split; [exact Hl'|]. apply Hd'. lia.
  Qed.

  Lemma gde_boor_value : fixed_span s t = Ret (Some k) -> fixed_de_boor s t = Ret (Ok (gtri D D)).
  Proof.
    intros Hs. unfold fixed_de_boor. rewrite Hs. cbn [bind].
    destruct gload_ok as (d & Ed & Hl & Hd). rewrite Ed. cbn [bind].
    destruct (gscheme_ok d Hl Hd) as (d' & Er & Hl' & Hd'). rewrite Er. cbn [bind].
    rewrite (idx_lt _ _ p_default) by lia. cbn [bind]. now rewrite Hd'.
  Qed.
End Loops.

(** ** Weights *)
Section Quotient.
  Context {F : Format}.
  Variables t a b : float.
  Hypotheses (Ht : fin t) (Ha : fin a) (Hb : fin b).
  Hypotheses (Bt : Rabs (val t) <= fmax / 2) (Ba : Rabs (val a) <= fmax / 2) (Bb : Rabs (val b) <= fmax / 2).
  Hypotheses (Hr : val a <= val t <= val b) (Hd : val a < val b).
  Local Notation q := (s_div (s_sub t a) (s_sub b a)).

  Lemma quotient_val : fin q /\ val q = rnd (rnd (val t - val a) / rnd (val b - val a)) /\ 0 < rnd (val b - val a).
  Proof.
    pose proof uro_pos as UP. pose proof uro_small as US.
    destruct (sub_err t a Ht Ha Bt Ba) as (N1 & N2 & N3).
    destruct (sub_err b a Hb Ha Bb Ba) as (D1 & D2 & D3).
    rewrite D2 in D3. rewrite (Rabs_pos_eq (val b - val a)) in D3 by lra.
    assert (L : rnd (val t - val a) <= rnd (val b - val a)) by (apply rnd_le; lra).
    assert (L0 : 0 <= rnd (val t - val a)) by (apply rnd_ge_float; [apply float_0|lra]).
    assert (Dp : 0 < rnd (val b - val a)).
    { apply Rabs_le_inv in D3. assert (uro * (val b - val a) <= / 2048 * (val b - val a)) by (apply Rmult_le_compat_r; lra). lra. }
    assert (Q : 0 <= rnd (val t - val a) / rnd (val b - val a) <= 1).
    { split.
      - apply Rmult_le_pos; [lra|]. apply Rlt_le, Rinv_0_lt_compat. lra.
      - apply Rmult_le_reg_r with (rnd (val b - val a)); [lra|].
        unfold Rdiv. rewrite Rmult_assoc, Rinv_l by lra. lra. }
    destruct (div_ok (s_sub t a) (s_sub b a) N1) as [Q1 Q2].
    - rewrite D2. lra.
    - rewrite N2, D2. rewrite Rabs_pos_eq by lra. pose proof fmax_ge. lra.
    - rewrite N2, D2 in Q2. auto.
  Qed.
  Lemma quotient_0 : val t = val a -> is q 0.
  Proof.
    intros E. destruct quotient_val as (Q1 & Q2 & Q3). split; [exact Q1|].
    rewrite Q2, E, Rminus_diag_eq by reflexivity. rewrite rnd_0. unfold Rdiv. rewrite Rmult_0_l. apply rnd_0.
  Qed.
  Lemma quotient_1 : val t = val b -> is q 1.
  Proof.
    intros E. destruct quotient_val as (Q1 & Q2 & Q3). split; [exact Q1|].
    rewrite Q2, E. unfold Rdiv. rewrite Rinv_r by lra. apply rnd_float, float_1.
  Qed.

  Lemma quotient_ok : fin q /\ 0 <= val q <= 1 /\
    Rabs (val q - (val t - val a) / (val b - val a)) <= 4 * uro + eta.
  Proof.
    pose proof uro_pos as UP. pose proof eta_pos. pose proof uro_small as US.
    destruct quotient_val as (Q1 & Q2 & Dp).
    destruct (sub_err t a Ht Ha Bt Ba) as (N1 & N2 & N3).
    destruct (sub_err b a Hb Ha Bb Ba) as (D1 & D2 & D3).
    rewrite N2 in N3. rewrite D2 in D3.
    rewrite (Rabs_pos_eq (val t - val a)) in N3 by lra. rewrite (Rabs_pos_eq (val b - val a)) in D3 by lra.
    assert (L : rnd (val t - val a) <= rnd (val b - val a)) by (apply rnd_le; lra).
    assert (L0 : 0 <= rnd (val t - val a)) by (apply rnd_ge_float; [apply float_0|lra]).
    assert (Q : 0 <= rnd (val t - val a) / rnd (val b - val a) <= 1).
    { split.
      - apply Rmult_le_pos; [lra|]. apply Rlt_le, Rinv_0_lt_compat. lra.
      - apply Rmult_le_reg_r with (rnd (val b - val a)); [lra|].
        unfold Rdiv. rewrite Rmult_assoc, Rinv_l by lra. lra. }
    split; [exact Q1|]. rewrite Q2. split.
    { split; [apply rnd_ge_float; [apply float_0|lra]|apply rnd_le_float; [apply float_1|lra]]. }
      set (n := val t - val a) in *. set (d := val b - val a) in *.
      set (n' := rnd n) in *. set (d' := rnd d) in *.
      assert (0 <= n <= d) by (unfold n, d; lra). assert (0 < d) by (unfold d; lra).
      apply Rabs_le_inv in N3. apply Rabs_le_inv in D3.
      assert (U1 : uro * d <= / 2048 * d) by (apply Rmult_le_compat_r; lra).
      assert (U2 : uro * n <= uro * d) by (apply Rmult_le_compat_l; lra).
      assert (Dd : d <= 5 / 4 * d') by lra.
      assert (QE : Rabs (n' / d' - n / d) <= 5 / 2 * uro).
      { replace (n' / d' - n / d) with ((n' * d - n * d') / (d' * d)) by (field; lra).
        unfold Rdiv. rewrite Rabs_mult, Rabs_inv. rewrite (Rabs_pos_eq (d' * d)) by nra.
        apply Rmult_le_reg_r with (d' * d); [nra|]. rewrite Rmult_assoc, Rinv_l by nra. rewrite Rmult_1_r.
        apply Rle_trans with (2 * uro * (d * d)).
        - replace (n' * d - n * d') with ((n' - n) * d + n * (d - d')) by ring.
          eapply Rle_trans; [apply Rabs_triang|]. rewrite !Rabs_mult.
          rewrite (Rabs_pos_eq d), (Rabs_pos_eq n) by lra.
          assert (Rabs (n' - n) <= uro * d) by (apply Rabs_le; lra).
          assert (Rabs (d - d') <= uro * d) by (apply Rabs_le; lra).
          assert (Rabs (n' - n) * d <= uro * d * d) by (apply Rmult_le_compat_r; lra).
          assert (n * Rabs (d - d') <= d * (uro * d)) by (apply Rmult_le_compat; try lra; apply Rabs_pos).
          lra.
        - assert (Z : d * d <= 5 / 4 * (d' * d)) by nra.
          replace (5 / 2 * uro * (d' * d)) with (2 * uro * (5 / 4 * (d' * d))) by field.
          apply Rmult_le_compat_l; lra. }
      pose proof (rnd_err (n' / d')) as E.
      assert (Qu : Rabs (n' / d') <= 1) by (rewrite Rabs_pos_eq; lra).
      replace (rnd (n' / d') - n / d) with ((rnd (n' / d') - n' / d') + (n' / d' - n / d)) by ring.
      eapply Rle_trans; [apply Rabs_triang|].
      assert (uro * Rabs (n' / d') <= uro) by (rewrite <- (Rmult_1_r uro) at 2; apply Rmult_le_compat_l; lra).
      lra.
  Qed.
End Quotient.

(** ** The triangle *)
Section Scheme.
  Context {F : Format} {P : Type} {PT : Point float P} {CP : CwPoint float P}.
  Variables (s : bspline float P) (t : float) (k : nat).
  Hypothesis Hwf : well_formed s.
  Hypothesis Hs : fsorted (bs_knots s).
  Hypothesis Hm : moderate (bs_knots s).
  Hypothesis Ht : fin t.
  Hypothesis Hk : (bs_degree s <= k < length (bs_points s))%nat.
  Local Notation D := (bs_degree s).
  Local Notation U := (fknot (bs_knots s)).
  Hypothesis Hb : U k <= val t <= U (k + 1)%nat.
  Hypothesis Hlt : U k < U (k + 1)%nat.

  Lemma gt_moderate : Rabs (val t) <= fmax / 2.
  Proof.
    destruct Hwf as [H1 H2].
    destruct (Hm (knot s k)) as [_ A1]; [apply nth_In; lia|]. destruct (Hm (knot s (k + 1))) as [_ A2]; [apply nth_In; lia|].
    change (val (knot s k)) with (U k) in A1. change (val (knot s (k + 1))) with (U (k + 1)%nat) in A2.
    apply Rabs_le_inv in A1. apply Rabs_le_inv in A2. apply Rabs_le. lra.
  Qed.
  Local Notation alpha r j := ((val t - U (j + k - D)%nat) / (U (j + 1 + k - r)%nat - U (j + k - D)%nat)).

  Lemma gdist r j : (1 <= r <= j)%nat -> (j <= D)%nat ->
    U (j + k - D)%nat <= val t <= U (j + 1 + k - r)%nat /\ U (j + k - D)%nat < U (j + 1 + k - r)%nat.
  Proof.
    intros Hr Hj. destruct Hwf as [H1 H2].
    pose proof (Hs (j + k - D)%nat k ltac:(lia)). pose proof (Hs (k + 1)%nat (j + 1 + k - r)%nat ltac:(lia)). lra.
  Qed.
  Lemma gratio_ok r j : (1 <= r <= j)%nat -> (j <= D)%nat ->
    fin (gratio s t k r j) /\ 0 <= val (gratio s t k r j) <= 1 /\
    Rabs (val (gratio s t k r j) - alpha r j) <= 4 * uro + eta.
  Proof.
    intros Hr Hj. destruct Hwf as [H1 H2]. destruct (gdist r j Hr Hj) as [G1 G2].
    destruct (Hm (knot s (j + k - D))) as [A1 A2]; [apply nth_In; lia|].
    destruct (Hm (knot s (j + 1 + k - r))) as [B1 B2]; [apply nth_In; lia|].
    apply (quotient_ok t _ _ Ht A1 B1 gt_moderate A2 B2 G1 G2).
  Qed.
  Lemma gratio_nan r j : (1 <= r <= j)%nat -> (j <= D)%nat -> s_is_nan (gratio s t k r j) = false.
  Proof. intros Hr Hj. apply fin_not_nan, gratio_ok; assumption. Qed.
  Lemma galpha_unit r j : (1 <= r <= j)%nat -> (j <= D)%nat -> 0 <= alpha r j <= 1.
  Proof.
    intros Hr Hj. destruct (gdist r j Hr Hj). split.
    - apply Rmult_le_pos; [lra|]. apply Rlt_le, Rinv_0_lt_compat. lra.
    - apply Rmult_le_reg_r with (U (j + 1 + k - r)%nat - U (j + k - D)%nat); [lra|].
      unfold Rdiv. rewrite Rmult_assoc, Rinv_l by lra. lra.
  Qed.

  Variables (i : nat) (M : R).
  Hypothesis Hi : (i < p_dim (P := P))%nat.
  Hypothesis HM : 0 <= M.
  Hypothesis Hp : forall p, In p (bs_points s) -> fin (cw p i) /\ Rabs (val (cw p i)) <= M.

  (** exact interpolation, with the computed and with the exact weights *)
  Fixpoint gapprox (r j : nat) : R :=
    match r with
    | O => val (cw (cpoint s (j + k - D)) i)
    | S r' => gapprox r' (j - 1) * (1 - val (gratio s t k r j)) + gapprox r' j * val (gratio s t k r j)
    end.
  Fixpoint gideal (r j : nat) : R :=
    match r with
    | O => val (cw (cpoint s (j + k - D)) i)
    | S r' => gideal r' (j - 1) * (1 - alpha r j) + gideal r' j * alpha r j
    end.
  Lemma gpoint_ok j : (j <= D)%nat -> fin (cw (cpoint s (j + k - D)) i) /\ Rabs (val (cw (cpoint s (j + k - D)) i)) <= M.
  Proof. intros Hj. apply Hp. apply nth_In. lia. Qed.
  Lemma gapprox_bound r j : (r <= j <= D)%nat -> Rabs (gapprox r j) <= M.
  Proof.
    revert j. induction r as [|r IH]; intros j Hj.
    - apply gpoint_ok. lia.
    - cbn [gapprox]. apply mix_bound; [apply gratio_ok; lia|apply IH; lia|apply IH; lia].
  Qed.
  Lemma gideal_bound r j : (r <= j <= D)%nat -> Rabs (gideal r j) <= M.
  Proof.
    revert j. induction r as [|r IH]; intros j Hj.
    - apply gpoint_ok. lia.
    - cbn [gideal]. apply mix_bound; [apply galpha_unit; lia|apply IH; lia|apply IH; lia].
  Qed.

  Lemma gtri_approx r j n : (r <= j <= D)%nat -> (r <= n)%nat ->
    (M + casteljau_err M n) * (1 + uro) ^ 2 + 2 * eta <= fmax ->
    fin (cw (gtri s t k r j) i) /\ Rabs (val (cw (gtri s t k r j) i) - gapprox r j) <= casteljau_err M r.
  Proof.
    intros Hj Hn Hov. revert j Hj. induction r as [|r IH]; intros j Hj.
    - destruct (gpoint_ok j ltac:(lia)) as [A B]. split; [exact A|].
      cbn [gapprox gtri]. rewrite Rminus_diag_eq by reflexivity. rewrite Rabs_R0. now apply casteljau_err_ge0.
    - destruct (IH ltac:(lia) (j - 1)%nat ltac:(lia)) as [A1 A2].
      destruct (IH ltac:(lia) j ltac:(lia)) as [B1 B2].
      destruct (gratio_ok (S r) j ltac:(lia) ltac:(lia)) as (W1 & W2 & _).
      destruct (one_sub _ W1 W2) as (O1 & O2 & O3).
      cbn [gtri gapprox]. rewrite cw_add, !cw_mul by exact Hi.
      destruct (mix_err _ _ _ _ _ _ M (casteljau_err M r) W1 W2 O1 O2 O3 A1 B1
                  (casteljau_err_ge0 M r HM) A2 B2 (gapprox_bound r (j - 1) ltac:(lia))
                  (gapprox_bound r j ltac:(lia))) as [C1 C2].
      { eapply Rle_trans; [|exact Hov]. apply Rplus_le_compat_r.
        apply Rmult_le_compat_r; [apply pow2_ge_0|].
        apply Rplus_le_compat_l. apply casteljau_err_mono; [exact HM|lia]. }
      split; [exact C1|]. eapply Rle_trans; [|now apply casteljau_err_step].
      eapply Rle_trans; [|exact C2]. right. f_equal. ring.
  Qed.

  Lemma gapprox_ideal r j : (r <= j <= D)%nat -> Rabs (gapprox r j - gideal r j) <= INR r * (9 * uro * M).
  Proof.
    revert j. induction r as [|r IH]; intros j Hj.
    - cbn [gapprox gideal]. rewrite Rminus_diag_eq by reflexivity. rewrite Rabs_R0. cbn [INR]. lra.
    - cbn [gapprox gideal]. rewrite S_INR.
      pose proof (IH (j - 1)%nat ltac:(lia)) as E1. pose proof (IH j ltac:(lia)) as E2.
      destruct (gratio_ok (S r) j ltac:(lia) ltac:(lia)) as (W1 & W2 & Ew).
      pose proof (gideal_bound r (j - 1) ltac:(lia)) as I1. pose proof (gideal_bound r j ltac:(lia)) as I2.
      set (w := val (gratio s t k (S r) j)) in *. set (a := alpha (S r) j) in *.
      set (x := gapprox r (j - 1)) in *. set (y := gapprox r j) in *.
      set (x' := gideal r (j - 1)) in *. set (y' := gideal r j) in *.
      replace (x * (1 - w) + y * w - (x' * (1 - a) + y' * a))
        with (((x - x') * (1 - w) + (y - y') * w) + (w - a) * (y' - x')) by ring.
      eapply Rle_trans; [apply Rabs_triang|].
      pose proof (mix_bound w (x - x') (y - y') _ W2 E1 E2) as B1.
      assert (B2 : Rabs ((w - a) * (y' - x')) <= 9 * uro * M).
      { rewrite Rabs_mult. apply Rle_trans with ((4 * uro + eta) * (2 * M)).
        - apply Rmult_le_compat; try apply Rabs_pos; [exact Ew|].
          eapply Rle_trans; [apply Rabs_triang|]. rewrite Rabs_Ropp. lra.
        - pose proof eta_uro. pose proof eta_pos. pose proof uro_pos.
          replace ((4 * uro + eta) * (2 * M)) with ((8 * uro + 2 * eta) * M) by ring.
          apply Rmult_le_compat_r; lra. }
      lra.
  Qed.

  Lemma gideal_value : val t < U (k + 1)%nat ->
    gideal D D = fspline_coord D (bs_knots s) (bs_points s) (val t) i.
  Proof.
    intros Ht'. destruct Hwf as [H1 H2].
    rewrite (de_boor_sum U D k (val t) gideal).
    - unfold fspline_coord. set (C := length (bs_points s)) in *.
      set (g := fun j => basis U D j (val t) * val (cw (nth j (bs_points s) p_default) i)).
      replace C with ((k - D) + (S D + (C - k - 1)))%nat at 1 by lia. replace (D + 1)%nat with (S D) by lia.
      rewrite !Rsum_split.
      rewrite (Rsum_ext g (fun _ => 0)), Rsum_0.
      2:{ intros j Hj. unfold g. rewrite (basis_above U D j k (val t)); [ring| |lra|lia].
          intros a b Hab. apply Hs; lia. }
      rewrite (Rsum_ext (fun i0 => g (k - D + (S D + i0))%nat) (fun _ => 0)), Rsum_0.
      2:{ intros j Hj. unfold g.
          assert (Hz : forall p a, (k + 1 <= a)%nat -> (a + p <= C + D)%nat -> basis U p a (val t) = 0).
          { induction p as [|p IH]; intros a Ha Hap; cbn [basis].
            - destruct (Rle_dec (U a) (val t)) as [Hle|]; [|reflexivity].
              assert (U (k + 1)%nat <= U a) by (apply Hs; lia). lra.
            - rewrite !IH by lia. ring. }
          rewrite Hz by lia. ring. }
      rewrite Rplus_0_l, Rplus_0_r. apply Rsum_ext. intros j Hj. unfold g. cbn [gideal]. unfold cpoint.
      replace (j + k - D)%nat with (k - D + j)%nat by lia. ring.
    - lia.
    - intros a b Hab Hbk. apply Hs. lia.
    - lra.
    - intros r j Hr Hj. cbn zeta. destruct r as [|r]; [lia|]. replace (S r - 1)%nat with r by lia. reflexivity.
  Qed.

  Lemma gtri_err : 6 * INR D * uro <= 1 -> 4 * M <= fmax ->
    fin (cw (gtri s t k D D) i) /\
    Rabs (val (cw (gtri s t k D D) i) - gideal D D) <= 15 * INR D * uro * M + 5 * INR D * eta.
  Proof.
    intros Hd H4. destruct (gtri_approx D D D ltac:(lia) ltac:(lia) ltac:(now apply no_overflow_cond)) as [A B].
    split; [exact A|]. pose proof (gapprox_ideal D D ltac:(lia)) as C. pose proof (casteljau_err_lin M D HM Hd).
    replace (val (cw (gtri s t k D D) i) - gideal D D)
      with ((val (cw (gtri s t k D D) i) - gapprox D D) + (gapprox D D - gideal D D)) by ring.
    eapply Rle_trans; [apply Rabs_triang|]. lra.
  Qed.

  (** at a knot where D knots coincide all the weights are 0, or all are 1 *)
  Lemma gtri_first : (forall p, In p (bs_points s) -> fin (cw p i)) ->
    (forall r j, (1 <= r <= j)%nat -> (j <= D)%nat -> is (gratio s t k r j) 0) ->
    forall r j, (r <= j <= D)%nat -> is (cw (gtri s t k r j) i) (val (cw (cpoint s (j - r + k - D)) i)).
  Proof.
    intros Hf Hw. induction r as [|r IH]; intros j Hj.
    - rewrite Nat.sub_0_r. split; [|reflexivity]. apply Hf, nth_In. lia.
    - cbn [gtri]. rewrite cw_add, !cw_mul by exact Hi. pose proof (Hw (S r) j ltac:(lia) ltac:(lia)) as W.
      apply is_add_0.
      + apply is_mul_1.
        * replace (j - S r)%nat with (j - 1 - r)%nat by lia. apply IH. lia.
        * destruct W as [W1 W2]. destruct (lit_small 1 ltac:(lia)) as [O1 O2].
          destruct (sub_ok (s_lit 1) _ O1 W1) as [Q1 Q2].
          { rewrite O2, W2, Rminus_0_r, Rabs_R1. pose proof fmax_ge. lra. }
          split; [exact Q1|]. rewrite Q2, O2, W2, Rminus_0_r. apply rnd_float, float_1.
      + eapply is_mul_0; [apply IH; lia|exact W].
  Qed.
  Lemma gtri_last : (forall p, In p (bs_points s) -> fin (cw p i)) ->
    (forall r j, (1 <= r <= j)%nat -> (j <= D)%nat -> is (gratio s t k r j) 1) ->
    forall r j, (r <= j <= D)%nat -> is (cw (gtri s t k r j) i) (val (cw (cpoint s (j + k - D)) i)).
  Proof.
    intros Hf Hw. induction r as [|r IH]; intros j Hj.
    - split; [|reflexivity]. apply Hf, nth_In. lia.
    - cbn [gtri]. rewrite cw_add, !cw_mul by exact Hi. pose proof (Hw (S r) j ltac:(lia) ltac:(lia)) as W.
      apply is_add_0l.
      + eapply is_mul_0; [apply IH; lia|]. destruct W as [W1 W2]. destruct (lit_small 1 ltac:(lia)) as [O1 O2].
        destruct (sub_ok (s_lit 1) _ O1 W1) as [Q1 Q2].
        { rewrite O2, W2, Rminus_diag_eq by reflexivity. rewrite Rabs_R0. pose proof fmax_ge. lra. }
        split; [exact Q1|]. rewrite Q2, O2, W2, Rminus_diag_eq by reflexivity. apply rnd_0.
      + apply is_mul_1; [apply IH; lia|exact W].
  Qed.
End Scheme.

(** ** Splines returned by [new], of every kind *)
Section New.
  Context {F : Format} {P : Type} {PT : Point float P} {CP : CwPoint float P}.
  Variables (D : nat) (ks : list float) (ps : list P) (s : bspline float P).
  Hypothesis Hnew : bspline_new D ks ps = Ret (Ok s).
  Hypothesis Hm : moderate ks.
  Local Notation C := (length ps).
  Local Notation U := (fknot ks).

  Lemma gspan_found (t : float) : fin t -> U D <= val t < U C ->
    exists k, fixed_span s t = Ret (Some k) /\ (D <= k < C)%nat /\ fspan ks k (val t).
  Proof.
    intros Ht Hr. destruct (new_fields D ks ps s Hnew) as (E1 & E2 & E3).
    assert (Hf : forall x, In x ks -> fin x) by (intros x Hx; apply Hm, Hx).
    pose proof (new_fsorted D ks ps s Hnew Hf) as Hs. pose proof (new_wf D ks ps s Hnew) as Hwf.
    destruct (fspan_found (BSpline D ks Clamped ps) t) as (k & Ek & Hk & Hb); auto.
    - unfold well_formed in *. cbn. rewrite E1, E2, E3 in Hwf. exact Hwf.
    - discriminate.
    - exists k. split; [|split; [exact Hk|exact Hb]]. rewrite <- Ek.
      unfold fixed_span, knot_span_start_for_t, knot_span_start_for_t_clamped. cbn [bs_kind bs_knots bs_points bs_degree].
      now rewrite E1, E2, E3.
  Qed.

  Lemma fixed_eval_in (t : float) : fin t -> U D <= val t <= U C -> fixed_eval s t = fixed_de_boor s t.
  Proof.
    intros Ht Hr. destruct (new_fields D ks ps s Hnew) as (E1 & E2 & E3). pose proof (new_wf D ks ps s Hnew) as Hwf.
    assert (Hf : forall x, In x ks -> fin x) by (intros x Hx; apply Hm, Hx).
    subst D ks ps. destruct Hwf as [H1 H2].
    unfold fixed_eval, fixed_knot_domain, knot_domain_unclamped. rewrite !knot_idx by lia. cbn [bind fst snd].
    assert (G1 : s_ltb t (knot s (bs_degree s)) = false).
    { rewrite ltb_val; [apply Rlt_bool_false; apply Hr|exact Ht|apply Hf, nth_In; lia]. }
    assert (G2 : s_ltb (knot s (length (bs_points s))) t = false).
    { rewrite ltb_val; [apply Rlt_bool_false; apply Hr|apply Hf, nth_In; lia|exact Ht]. }
    now rewrite G1, G2.
  Qed.
  Lemma fixed_eval_out (t : float) : fin t -> ~ (U D <= val t <= U C) -> fixed_eval s t = Ret (Err KnotDomainViolation).
  Proof.
    intros Ht Hr. destruct (new_fields D ks ps s Hnew) as (E1 & E2 & E3). pose proof (new_wf D ks ps s Hnew) as Hwf.
    assert (Hf : forall x, In x ks -> fin x) by (intros x Hx; apply Hm, Hx).
    subst D ks ps. destruct Hwf as [H1 H2].
    unfold fixed_eval, fixed_knot_domain, knot_domain_unclamped. rewrite !knot_idx by lia. cbn [bind fst snd].
    assert (G1 : s_ltb t (knot s (bs_degree s)) = Rlt_bool (val t) (fknot (bs_knots s) (bs_degree s))).
    { apply ltb_val; [exact Ht|apply Hf, nth_In; lia]. }
    assert (G2 : s_ltb (knot s (length (bs_points s))) t = Rlt_bool (fknot (bs_knots s) (length (bs_points s))) (val t)).
    { apply ltb_val; [apply Hf, nth_In; lia|exact Ht]. }
    rewrite G1, G2. destruct (Rlt_bool_spec (val t) (fknot (bs_knots s) (bs_degree s))); [reflexivity|].
    destruct (Rlt_bool_spec (fknot (bs_knots s) (length (bs_points s))) (val t)); [reflexivity|]. lra.
  Qed.

  Lemma fixed_eval_error (t : float) M : fin t -> U D <= val t < U C ->
    (forall p, In p ps -> bounded M p) -> 6 * INR D * uro <= 1 -> 4 * M <= fmax ->
    exists p, fixed_eval s t = Ret (Ok p) /\
      forall i, (i < p_dim (P := P))%nat -> fin (cw p i) /\
        Rabs (val (cw p i) - fspline_coord D ks ps (val t) i) <= 15 * INR D * uro * M + 5 * INR D * eta.
  Proof.
    intros Ht Hr Hp Hd H4. destruct (gspan_found t Ht Hr) as (k & Ek & Hk & Hb).
    rewrite fixed_eval_in by (assumption || lra).
    destruct (new_fields D ks ps s Hnew) as (E1 & E2 & E3). pose proof (new_wf D ks ps s Hnew) as Hwf.
    assert (Hf : forall x, In x ks -> fin x) by (intros x Hx; apply Hm, Hx).
    pose proof (new_fsorted D ks ps s Hnew Hf) as Hs. subst D ks ps. destruct Hb as [Hb1 Hb2].
    exists (gtri s t k (bs_degree s) (bs_degree s)). split.
    - apply gde_boor_value; auto. apply (gratio_nan s t k Hwf Hs Hm Ht Hk); lra.
    - intros i Hi.
      assert (HM : 0 <= M).
      { apply (bound_nonneg (bs_points s) M i); auto. intros E. rewrite E in Hk. cbn in Hk. lia. }
      assert (Hp' : forall p, In p (bs_points s) -> fin (cw p i) /\ Rabs (val (cw p i)) <= M)
        by (intros p Hin; exact (Hp p Hin i Hi)).
      rewrite <- (gideal_value s t k Hwf Hs Hk ltac:(lra) i Hi ltac:(lra)).
      apply (gtri_err s t k Hwf Hs Hm Ht Hk ltac:(lra) ltac:(lra) i M Hi HM Hp' Hd H4).
  Qed.

  Lemma fixed_eval_first (t : float) : fin t -> val t = U D -> U 0 = U D -> U D < U (D + 1) ->
    (forall p, In p ps -> fin_point p) ->
    exists p, fixed_eval s t = Ret (Ok p) /\ same_point p (nth 0 ps p_default).
  Proof.
    intros Ht Et H0 Hlt Hp. pose proof (new_wf D ks ps s Hnew) as Hwf.
    assert (Hf : forall x, In x ks -> fin x) by (intros x Hx; apply Hm, Hx).
    pose proof (new_fsorted D ks ps s Hnew Hf) as Hs. destruct (new_fields D ks ps s Hnew) as (E1 & E2 & E3).
    assert (HC : U (D + 1)%nat <= U C) by (destruct Hwf as [W1 W2]; rewrite E1, E3 in W1; rewrite E1, E2, E3 in W2; apply Hs; lia).
    destruct (gspan_found t Ht ltac:(lra)) as (k & Ek & Hk & Hb1 & Hb2).
    assert (k = D).
    { destruct (Nat.lt_total k D) as [L|[L|L]]; [lia|exact L|]. destruct Hwf as [W1 W2]. rewrite E1, E3 in W1. rewrite E1, E2, E3 in W2.
      pose proof (Hs (D + 1)%nat k ltac:(lia)). lra. }
    rewrite fixed_eval_in by (assumption || lra). subst D ks ps. subst k.
    exists (gtri s t (bs_degree s) (bs_degree s) (bs_degree s)). split.
    - apply gde_boor_value; auto. apply (gratio_nan s t _ Hwf Hs Hm Ht Hk); lra.
    - intros i Hi. destruct Hwf as [W1 W2].
      replace (nth 0 (bs_points s) p_default) with (cpoint s (bs_degree s - bs_degree s + bs_degree s - bs_degree s))
        by (unfold cpoint; f_equal; lia).
      apply (gtri_first s t (bs_degree s) Hk i Hi); [|  |lia].
      + intros p Hin. now apply Hp.
      + intros r j Hr Hj.
        destruct (gdist s t (bs_degree s) (conj W1 W2) Hs Hk ltac:(lra) ltac:(lra) r j Hr Hj) as [G1 G2].
        destruct (Hm (knot s (j + bs_degree s - bs_degree s))) as [A1 A2]; [apply nth_In; lia|].
        destruct (Hm (knot s (j + 1 + bs_degree s - r))) as [B1 B2]; [apply nth_In; lia|].
        apply (quotient_0 t _ _ Ht A1 B1 (gt_moderate s t (bs_degree s) (conj W1 W2) Hm Hk ltac:(lra)) A2 B2 G1 G2).
        change (val (knot s (j + bs_degree s - bs_degree s))) with (fknot (bs_knots s) (j + bs_degree s - bs_degree s)).
        replace (j + bs_degree s - bs_degree s)%nat with j by lia.
        pose proof (Hs 0%nat j ltac:(lia)). pose proof (Hs j (bs_degree s) ltac:(lia)). lra.
  Qed.

  Lemma fixed_eval_last (t : float) : fin t -> val t = U C -> U C = U (C + D) -> U (C - 1) < U C ->
    (forall p, In p ps -> fin_point p) ->
    exists p, fixed_eval s t = Ret (Ok p) /\ same_point p (nth (C - 1) ps p_default).
  Proof.
    intros Ht Et H0 Hlt Hp. pose proof (new_wf D ks ps s Hnew) as Hwf.
    assert (Hf : forall x, In x ks -> fin x) by (intros x Hx; apply Hm, Hx).
    pose proof (new_fsorted D ks ps s Hnew Hf) as Hs. destruct (new_fields D ks ps s Hnew) as (E1 & E2 & E3).
    assert (HC : U D <= U C) by (destruct Hwf as [W1 W2]; rewrite E1, E3 in W1; rewrite E1, E2, E3 in W2; apply Hs; lia).
    rewrite fixed_eval_in by (assumption || lra). subst D ks ps. pose proof Hwf as [W1 W2].
    set (k := (length (bs_points s) - 1)%nat) in *.
    assert (Hk : (bs_degree s <= k < length (bs_points s))%nat) by lia.
    replace (length (bs_points s)) with (k + 1)%nat in Et, H0, HC by lia.
    assert (Hlt' : fknot (bs_knots s) k < fknot (bs_knots s) (k + 1)) by (replace (k + 1)%nat with (length (bs_points s)) by lia; exact Hlt).
    exists (gtri s t k (bs_degree s) (bs_degree s)). split.
    - apply gde_boor_value; auto.
      + apply (gratio_nan s t _ Hwf Hs Hm Ht Hk); lra.
      + unfold fixed_span, knot_span_start_for_t_clamped. rewrite usub_le by lia. cbn [bind]. fold k.
        rewrite knot_idx by lia. cbn [bind]. rewrite eqb_val; [|exact Ht|apply Hf, nth_In; lia].
        rewrite Req_bool_true; [reflexivity|exact Et].
    - intros i Hi.
      replace (nth k (bs_points s) p_default) with (cpoint s (bs_degree s + k - bs_degree s))
        by (unfold cpoint; f_equal; lia).
      apply (gtri_last s t k Hk i Hi); [| |lia].
      + intros p Hin. now apply Hp.
      + intros r j Hr Hj.
        destruct (gdist s t k Hwf Hs Hk ltac:(lra) ltac:(lra) r j Hr Hj) as [G1 G2].
        destruct (Hm (knot s (j + k - bs_degree s))) as [A1 A2]; [apply nth_In; lia|].
        destruct (Hm (knot s (j + 1 + k - r))) as [B1 B2]; [apply nth_In; lia|].
        apply (quotient_1 t _ _ Ht A1 B1 (gt_moderate s t k Hwf Hm Hk ltac:(lra)) A2 B2 G1 G2).
        change (val (knot s (j + 1 + k - r))) with (fknot (bs_knots s) (j + 1 + k - r)).
        pose proof (Hs (k + 1)%nat (j + 1 + k - r)%nat ltac:(lia)).
        pose proof (Hs (j + 1 + k - r)%nat (k + 1 + bs_degree s)%nat ltac:(lia)). lra.
  Qed.
End New.
