(** The evaluation of Model/RepairsLoad.v in IEEE-754 arithmetic. *)
From Coq Require Import Reals ZArith List Arith Lia Lra Bool.
From Flocq Require Import Core.Core IEEE754.BinarySingleNaN.
From Verif Require Import Base.Outcome Base.Scalar Model.Point Model.BSpline Model.Repairs Model.RepairsLoad
  Inst.RealInst Inst.FloatInst Spec.Sums Spec.Lawful Spec.Points Spec.Basis Spec.Rounding
  Spec.Componentwise Spec.FloatPoints Spec.FloatSplines
  Proofs.OutcomeFacts Proofs.PointFacts Proofs.RealTac Proofs.FloatFacts Proofs.FloatPoint Proofs.FloatEval Proofs.FloatBound Proofs.FloatNear Proofs.FloatEnds
  Proofs.FloatSpline Proofs.FloatSplineEval Proofs.BSplineGeneric Proofs.BSplineReal Proofs.RepairFloat.
Import ListNotations.
Local Open Scope R_scope.

(** ** The loops, over any scalar *)
Section Loops.
  Context {T P : Type} {ST : Scalar T} {PT : Point T P}.
  Variables (s : bspline T P) (t : T) (k : nat).
  Hypothesis Hwf : well_formed s.
  Hypothesis Hk : (bs_degree s <= k < length (bs_points s))%nat.
  Local Notation D := (bs_degree s).

  (** entry [j] after pass [r], with the weights of the code and all D + 1 control points *)
  Fixpoint lrow (r j : nat) : P :=
    match r with
    | O => cpoint s (j + k - D)
    | S r' => p_add (p_mul (lrow r' (j - 1)) (s_sub (s_lit 1) (weight s t k r j))) (p_mul (lrow r' j) (weight s t k r j))
    end.
  Hypothesis Hnan : forall r j, (1 <= r <= j)%nat -> (j <= D)%nat -> s_is_nan (weight s t k r j) = false.

  Lemma lrow_inner r d : (1 <= r <= D)%nat -> length d = (D + 1)%nat ->
    (forall j, (r - 1 <= j <= D)%nat -> nth j d p_default = lrow (r - 1) j) ->
    exists res, for_result (rev (range_incl r D)) d (fun j d => de_boor_body (bs_knots s) D t k r j d) = Ret res /\
      match res with
      | Ok d' => length d' = (D + 1)%nat /\ forall j, (r <= j <= D)%nat -> nth j d' p_default = lrow r j
      | Err e => False
      end.
  Proof.
    intros Hr Hl Hd.
    destruct (for_result_rule (fun l d => exists n, l = rev (seq r n) /\ (r + n <= D + 1)%nat /\ length d = (D + 1)%nat /\
        (forall j, (r - 1 <= j < r + n)%nat -> nth j d p_default = lrow (r - 1) j) /\
        (forall j, (r + n <= j <= D)%nat -> nth j d p_default = lrow r j))
      (fun _ => False) (fun j d => de_boor_body (bs_knots s) D t k r j d) (rev (range_incl r D)) d) as (res & Er & Hres).
    - exists (S D - r)%nat. unfold range_incl. split; [reflexivity|]. split; [lia|]. split; [exact Hl|]. split.
      + intros j Hj. apply Hd. lia.
      + intros j Hj. lia.
    - clear d Hl Hd. intros i l d (n & En & Hn & Hl & Hd1 & Hd2).
      destruct n as [|n]; [discriminate|]. rewrite seq_S, rev_unit in En. injection En as -> ->.
      unfold de_boor_body. rewrite (alpha_ok s t k (wf_roomy s Hwf)) by lia. cbn [bind]. rewrite Hnan by lia.
      rewrite usub_le by lia. cbn [bind]. rewrite !(idx_lt d _ p_default) by lia. cbn [bind].
      rewrite set_idx_lt by lia. cbn [bind]. eexists. split; [reflexivity|].
      exists n. repeat split; try lia.
      + now rewrite length_replace_nth.
      + intros j Hj. rewrite nth_replace_nth by lia. destruct (Nat.eqb_spec j (r + n)); [lia|]. apply Hd1. lia.
      + intros j Hj. rewrite nth_replace_nth by lia. destruct (Nat.eqb_spec j (r + n)) as [->|Hne].
        * rewrite !Hd1 by lia. destruct r as [|r']; [lia|]. replace (S r' - 1)%nat with r' by lia. reflexivity.
        * apply Hd2. lia.
    - exists res. split; [exact Er|]. destruct res as [d'|e]; [|exact Hres].
      destruct Hres as (n & En & Hn & Hl' & Hd1 & Hd2). destruct n as [|n].
      2:{ rewrite seq_S, rev_unit in En. discriminate. }
      split; auto. intros j Hj. apply Hd2. lia.
  Qed.

  Lemma lrow_scheme d : length d = (D + 1)%nat -> (forall j, (j <= D)%nat -> nth j d p_default = lrow 0 j) ->
    exists d', for_result (range_incl 1 D) d (fun r d =>
        for_result (rev (range_incl r D)) d (fun j d => de_boor_body (bs_knots s) D t k r j d)) = Ret (Ok d') /\
      length d' = (D + 1)%nat /\ nth D d' p_default = lrow D D.
  Proof.
    intros Hl Hd.
    destruct (for_result_rule (fun l d => exists m, l = seq (m + 1) (D - m) /\ (m <= D)%nat /\ length d = (D + 1)%nat /\
        (forall j, (m <= j <= D)%nat -> nth j d p_default = lrow m j))
      (fun _ => False) (fun r d => for_result (rev (range_incl r D)) d (fun j d => de_boor_body (bs_knots s) D t k r j d))
      (range_incl 1 D) d) as (res & Er & Hres).
    - exists 0%nat. unfold range_incl. repeat split; auto; try lia. intros j Hj. apply Hd. lia.
    - clear d Hl Hd. intros i l d (m & Em & Hm & Hl & Hd).
      destruct (D - m)%nat as [|n] eqn:En; [discriminate|]. simpl in Em. injection Em as -> ->.
      destruct (lrow_inner (m + 1) d) as (res & Er & Hr); [lia|exact Hl| |].
      + intros j Hj. replace (m + 1 - 1)%nat with m in * by lia. apply Hd. lia.
      + exists res. split; [exact Er|]. destruct res as [d'|e]; [|exact Hr].
        destruct Hr as [Hl' Hd']. exists (m + 1)%nat. repeat split; auto; try lia.
        replace (D - (m + 1))%nat with n by lia. f_equal. lia.
    - destruct res as [d'|e]; [|contradiction]. exists d'. split; [exact Er|].
      destruct Hres as (m & Em & Hm & Hl' & Hd').
      destruct (D - m)%nat as [|n] eqn:En; [|discriminate]. replace m with D in * by lia.
      split; [exact Hl'|]. apply Hd'. lia.
  Qed.

  Lemma lde_boor_value : s_eqb t (knot s (length (bs_points s))) = false -> knot_span_start_for_t s t = Ret (Some k) ->
    loaded_de_boor s t = Ret (Ok (lrow D D)).
  Proof.
    intros Hne Hs. pose proof Hwf as [H1 H2]. unfold loaded_de_boor. rewrite knot_idx by lia. cbn [bind].
    rewrite Hne, Hs. cbn [bind].
    destruct (gload_ok s t k Hwf Hk) as (d & Ed & Hl & Hd). rewrite Ed. cbn [bind].
    destruct (lrow_scheme d Hl Hd) as (d' & Er & Hl' & Hd'). rewrite Er. cbn [bind].
    rewrite (idx_lt _ _ p_default) by lia. cbn [bind]. now rewrite Hd'.
  Qed.
End Loops.

(** ** The triangle *)
Section Scheme.
  Context {F : Format} {P : Type} {PT : Point float P} {CP : CwPoint float P}.
  Variables (s : bspline float P) (t : float) (k : nat).
  Hypothesis Hwf : well_formed s.
  Hypothesis Hs : fsorted (bs_knots s).
  Hypothesis Hm : moderate (bs_knots s).
  Hypothesis Ht : fin t.
  Hypothesis Hk : (bs_degree s <= k < length (bs_points s))%nat.
  Hypothesis Hb : fspan (bs_knots s) k (val t).
  Local Notation D := (bs_degree s).
  Local Notation U := (fknot (bs_knots s)).
  Variables (i : nat) (M : R).
  Hypothesis Hi : (i < p_dim (P := P))%nat.
  Hypothesis HM : 0 <= M.
  Hypothesis Hp : forall p, In p (bs_points s) -> fin (cw p i) /\ Rabs (val (cw p i)) <= M.
  Local Notation alpha r j := ((val t - U (j + k - D)%nat) / (U (j + 1 + k - r)%nat - U (j + k - D)%nat)).

  Lemma span_lt : U k < U (k + 1)%nat.
  Proof. destruct Hb as [_ B]. lra. Qed.
  Lemma span_in : U k <= val t <= U (k + 1)%nat.
  Proof. destruct Hb as [_ B]. lra. Qed.

  (** exact interpolation with the computed weights *)
  Fixpoint lapprox (r j : nat) : R :=
    match r with
    | O => val (cw (cpoint s (j + k - D)) i)
    | S r' => lapprox r' (j - 1) * (1 - val (weight s t k r j)) + lapprox r' j * val (weight s t k r j)
    end.
  Lemma lpoint_ok j : (j <= D)%nat -> fin (cw (cpoint s (j + k - D)) i) /\ Rabs (val (cw (cpoint s (j + k - D)) i)) <= M.
  Proof. intros Hj. apply Hp. apply nth_In. lia. Qed.
  Lemma lapprox_bound r j : (r <= j <= D)%nat -> Rabs (lapprox r j) <= M.
  Proof.
    revert j. induction r as [|r IH]; intros j Hj.
    - apply lpoint_ok. lia.
    - cbn [lapprox]. apply mix_bound; [apply (weight_ok s t k Hwf Hs Hm Ht Hk Hb); lia|apply IH; lia|apply IH; lia].
  Qed.

  Lemma lrow_approx r j n : (r <= j <= D)%nat -> (r <= n)%nat ->
    (M + casteljau_err M n) * (1 + uro) ^ 2 + 2 * eta <= fmax ->
    fin (cw (lrow s t k r j) i) /\ Rabs (val (cw (lrow s t k r j) i) - lapprox r j) <= casteljau_err M r.
  Proof.
    intros Hj Hn Hov. revert j Hj. induction r as [|r IH]; intros j Hj.
    - destruct (lpoint_ok j ltac:(lia)) as [A B]. split; [exact A|].
      cbn [lapprox lrow]. rewrite Rminus_diag_eq by reflexivity. rewrite Rabs_R0. now apply casteljau_err_ge0.
    - destruct (IH ltac:(lia) (j - 1)%nat ltac:(lia)) as [A1 A2].
      destruct (IH ltac:(lia) j ltac:(lia)) as [B1 B2].
      destruct (weight_ok s t k Hwf Hs Hm Ht Hk Hb (S r) j ltac:(lia) ltac:(lia)) as (W1 & W2).
      destruct (one_sub _ W1 W2) as (O1 & O2 & O3).
      cbn [lrow lapprox]. rewrite cw_add, !cw_mul by exact Hi.
      destruct (mix_err _ _ _ _ _ _ M (casteljau_err M r) W1 W2 O1 O2 O3 A1 B1
                  (casteljau_err_ge0 M r HM) A2 B2 (lapprox_bound r (j - 1) ltac:(lia))
                  (lapprox_bound r j ltac:(lia))) as [C1 C2].
      { eapply Rle_trans; [|exact Hov]. apply Rplus_le_compat_r.
        apply Rmult_le_compat_r; [apply pow2_ge_0|].
        apply Rplus_le_compat_l. apply casteljau_err_mono; [exact HM|lia]. }
      split; [exact C1|]. eapply Rle_trans; [|now apply casteljau_err_step].
      eapply Rle_trans; [|exact C2]. right. f_equal. ring.
  Qed.

  Lemma lapprox_ideal r j : clear_of (bs_knots s) (val t) -> (r <= j <= D)%nat ->
    Rabs (lapprox r j - gideal s t k i r j) <= INR r * (9 * uro * M).
  Proof.
    intros Hc. revert j. induction r as [|r IH]; intros j Hj.
    - cbn [lapprox gideal]. rewrite Rminus_diag_eq by reflexivity. rewrite Rabs_R0. cbn [INR]. lra.
    - cbn [lapprox gideal]. rewrite S_INR.
      pose proof (IH (j - 1)%nat ltac:(lia)) as E1. pose proof (IH j ltac:(lia)) as E2.
      destruct (weight_ok s t k Hwf Hs Hm Ht Hk Hb (S r) j ltac:(lia) ltac:(lia)) as (W1 & W2).
      pose proof (gideal_bound s t k Hwf Hs Hk span_in span_lt i M Hi Hp r (j - 1) ltac:(lia)) as I1.
      pose proof (gideal_bound s t k Hwf Hs Hk span_in span_lt i M Hi Hp r j ltac:(lia)) as I2.
      set (w := val (weight s t k (S r) j)) in *. set (a := alpha (S r) j) in *.
      assert (Ew : Rabs (w - a) <= 4 * uro + eta).
      { unfold w, a. rewrite weight_fweight. destruct Hwf as [H1 H2].
        destruct (knot_ok s Hm (j + k - D) ltac:(lia)) as [A1 A2].
        destruct (knot_ok s Hm (j + 1 + k - S r) ltac:(lia)) as [B1 B2].
        pose proof (range s t k Hwf Hs Hk Hb (S r) j ltac:(lia) ltac:(lia)) as Hr.
        apply (fweight_err t _ _ Ht A1 B1 (t_moderate s t k Hm Hk Hb) A2 B2 Hr).
        destruct (Rle_lt_or_eq_dec _ _ (proj1 Hr)) as [L|L]; [right|left; symmetry; exact L].
        rewrite <- (proj2 eps_ok). apply Hc; [apply nth_In; lia|exact L]. }
      set (x := lapprox r (j - 1)) in *. set (y := lapprox r j) in *.
      set (x' := gideal s t k i r (j - 1)) in *. set (y' := gideal s t k i r j) in *.
      replace (x * (1 - w) + y * w - (x' * (1 - a) + y' * a))
        with (((x - x') * (1 - w) + (y - y') * w) + (w - a) * (y' - x')) by ring.
      eapply Rle_trans; [apply Rabs_triang|].
      pose proof (mix_bound w (x - x') (y - y') _ W2 E1 E2) as B1.
      assert (B2 : Rabs ((w - a) * (y' - x')) <= 9 * uro * M).
      { rewrite Rabs_mult. apply Rle_trans with ((4 * uro + eta) * (2 * M)).
        - apply Rmult_le_compat; try apply Rabs_pos; [exact Ew|].
          eapply Rle_trans; [apply Rabs_triang|]. rewrite Rabs_Ropp. lra.
        - pose proof eta_uro. pose proof eta_pos. pose proof uro_pos.
          replace ((4 * uro + eta) * (2 * M)) with ((8 * uro + 2 * eta) * M) by ring.
          apply Rmult_le_compat_r; lra. }
      lra.
  Qed.
End Scheme.

(** ** Splines returned by [new] *)
Section New.
  Context {F : Format} {P : Type} {PT : Point float P} {CP : CwPoint float P}.

  Lemma loaded_entry D ks (ps : list P) s t : bspline_new D ks ps = Ret (Ok s) -> bs_kind s <> Unclamped ->
    moderate ks -> fin t -> fknot ks D <= val t < fknot ks (length ps) ->
    exists k, (D <= k < length ps)%nat /\ fspan ks k (val t) /\ loaded_eval s t = Ret (Ok (lrow s t k D D)).
  Proof.
    intros H Hu Hm Ht Hr. destruct (new_fields D ks ps s H) as (E1 & E2 & E3).
    pose proof (new_wf D ks ps s H) as Hwf.
    assert (Hf : forall x, In x ks -> fin x) by (intros x Hx; apply Hm, Hx).
    pose proof (new_fsorted D ks ps s H Hf) as Hs. subst D ks ps.
    destruct (fspan_found s t Hwf Hs Hf Ht Hu Hr) as (k & Ek & Hk & Hb).
    exists k. split; [exact Hk|]. split; [exact Hb|].
    unfold loaded_eval. rewrite domain_value by assumption. cbn [bind].
    pose proof Hwf as [W1 W2].
    assert (KF : forall m, (m < length (bs_knots s))%nat -> fin (knot s m)) by (intros; apply Hf, nth_In; assumption).
    assert (L1 : fknot (bs_knots s) 0 <= fknot (bs_knots s) (bs_degree s)) by (apply Hs; lia).
    assert (L2 : fknot (bs_knots s) (length (bs_points s)) <= fknot (bs_knots s) (length (bs_knots s) - 1)) by (apply Hs; lia).
    assert (G : forall m, (m < length (bs_knots s))%nat -> fknot (bs_knots s) m <= val t -> s_ltb t (knot s m) = false).
    { intros m Hm' HL. rewrite ltb_val by auto. apply Rlt_bool_false. exact HL. }
    assert (G' : forall m, (m < length (bs_knots s))%nat -> val t <= fknot (bs_knots s) m -> s_ltb (knot s m) t = false).
    { intros m Hm' HL. rewrite ltb_val by auto. apply Rlt_bool_false. exact HL. }
    match goal with |- (if ?c then _ else _) = _ => assert (Ed : c = false) end.
    { destruct (bs_kind s); cbn [fst snd]; rewrite G, G' by (lia || lra); reflexivity. }
    rewrite Ed. apply lde_boor_value; auto.
    - intros r j R1 R2. apply fin_not_nan. apply (weight_ok s t k Hwf Hs Hm Ht Hk Hb r j R1 R2).
    - rewrite eqb_val by (auto; apply KF; lia). apply Req_bool_false.
      change (val t <> fknot (bs_knots s) (length (bs_points s))). lra.
  Qed.

  Theorem loaded_error D ks (ps : list P) s t M : bspline_new D ks ps = Ret (Ok s) -> bs_kind s <> Unclamped ->
    moderate ks -> fin t -> fknot ks D <= val t < fknot ks (length ps) -> clear_of ks (val t) ->
    (forall p, In p ps -> bounded M p) -> 6 * INR D * uro <= 1 -> 4 * M <= fmax ->
    exists p, loaded_eval s t = Ret (Ok p) /\
      forall i, (i < p_dim (P := P))%nat -> fin (cw p i) /\
        Rabs (val (cw p i) - fspline_coord D ks ps (val t) i) <= 15 * INR D * uro * M + 5 * INR D * eta.
  Proof.
    intros H Hu Hm Ht Hr Hc Hp Hd H4. destruct (loaded_entry D ks ps s t H Hu Hm Ht Hr) as (k & Hk & Hb & Ee).
    eexists. split; [exact Ee|]. intros i Hi.
    destruct (new_fields D ks ps s H) as (E1 & E2 & E3).
    pose proof (new_wf D ks ps s H) as Hwf.
    assert (Hf : forall x, In x ks -> fin x) by (intros x Hx; apply Hm, Hx).
    pose proof (new_fsorted D ks ps s H Hf) as Hs. subst D ks ps.
    assert (HM : 0 <= M).
    { apply (bound_nonneg (bs_points s) M i); auto. intros E. rewrite E in Hk. cbn in Hk. lia. }
    assert (Hp' : forall p, In p (bs_points s) -> fin (cw p i) /\ Rabs (val (cw p i)) <= M)
      by (intros p Hin; exact (Hp p Hin i Hi)).
    destruct (lrow_approx s t k Hwf Hs Hm Ht Hk Hb i M Hi HM Hp' (bs_degree s) (bs_degree s) (bs_degree s)) as [A B];
      [lia|lia|now apply no_overflow_cond|].
    split; [exact A|].
    pose proof (lapprox_ideal s t k Hwf Hs Hm Ht Hk Hb i M Hi HM Hp' (bs_degree s) (bs_degree s) Hc ltac:(lia)) as C.
    pose proof (casteljau_err_lin M (bs_degree s) HM Hd).
    assert (Hb2 : fknot (bs_knots s) k <= val t < fknot (bs_knots s) (k + 1)) by apply Hb.
    rewrite <- (gideal_value s t k Hwf Hs Hk ltac:(lra) i Hi ltac:(lra)).
    replace (val (cw (lrow s t k (bs_degree s) (bs_degree s)) i) - gideal s t k i (bs_degree s) (bs_degree s))
      with ((val (cw (lrow s t k (bs_degree s) (bs_degree s)) i) - lapprox s t k i (bs_degree s) (bs_degree s))
            + (lapprox s t k i (bs_degree s) (bs_degree s) - gideal s t k i (bs_degree s) (bs_degree s))) by ring.
    eapply Rle_trans; [apply Rabs_triang|]. lra.
  Qed.
End New.
