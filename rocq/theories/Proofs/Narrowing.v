(** C126-C127: exact coordinates over a rounded [NativeFloat]. *)
From Coq Require Import Reals ZArith List Arith Bool Lia Lra.
From Flocq Require Import Core.Core IEEE754.BinarySingleNaN.
From Verif Require Import Base.Outcome Base.Scalar Model.Point Model.Line Model.Quadratic Model.Cubic Model.Bezier
  Model.BSpline Model.Segment Model.TwoScalars Inst.RealInst Inst.FloatInst Inst.ExactOver Spec.Sums Spec.Lawful Spec.Points
  Spec.Rounding Spec.Widening Spec.Basis
  Proofs.OutcomeFacts Proofs.PointFacts Proofs.RealTac Proofs.FloatFacts Proofs.FloatHalf Proofs.Interface Proofs.TwoScalars
  Proofs.BSplineGeneric Proofs.BSplineReal.
From Verif Require Proofs.FloatRoots.
Import ListNotations.
Local Open Scope R_scope.

Section Conv.
  Context {F : Format}.

  Lemma narrow_ok x : Rabs x <= fmax -> fin (narrow x) /\ val (narrow x) = rnd x.
  Proof.
    intros H. unfold narrow, fin, val.
    pose proof (binary_normalize_correct fprec femax _ _ mode_NE
      (ZnearestE (scaled_mantissa radix2 (SpecFloat.fexp fprec femax) x))
      (cexp radix2 (SpecFloat.fexp fprec femax) x) false) as C.
    cbv zeta in C. change (round_mode mode_NE) with ZnearestE in C.
    change (F2R (Float radix2 (ZnearestE (scaled_mantissa radix2 (SpecFloat.fexp fprec femax) x))
                   (cexp radix2 (SpecFloat.fexp fprec femax) x))) with (rnd x) in C.
    fold fx in C. fold (rnd (rnd x)) in C.
    assert (E : rnd (rnd x) = rnd x).
    { apply rnd_float. unfold is_float, rnd. apply generic_format_round; [apply fexp_correct; exact _|apply valid_rnd_N]. }
    rewrite E in C. rewrite (no_overflow x H) in C. destruct C as (C1 & C2 & _). split; [exact C2|exact C1].
  Qed.

  Lemma small_float z k : (Z.abs z < 2048)%Z -> (0 <= k <= 12)%Z -> is_float (IZR z / bpow radix2 k).
  Proof.
    intros Hz Hk. replace (IZR z / bpow radix2 k) with (F2R (Float radix2 z (- k))).
    2:{ unfold F2R. cbn [Fnum Fexp]. rewrite bpow_opp. reflexivity. }
    destruct (Z.eq_dec z 0) as [->|Hz0]; [rewrite F2R_0; apply float_0|].
    apply generic_format_F2R. cbn [Fnum Fexp]. intros _.
    unfold cexp. fold fx. unfold fx, SpecFloat.fexp, SpecFloat.emin. rewrite mag_F2R by assumption. cbn [Fexp Fnum].
    pose proof fprec_ge. pose proof femax_gt. pose proof femax_ge.
    assert (M' : (mag radix2 (IZR z) <= 11)%Z).
    { apply mag_le_bpow. now apply not_0_IZR. rewrite <- abs_IZR. apply Rlt_le_trans with (IZR 2048); [apply IZR_lt; lia|].
      cbn. lra. }
    lia.
  Qed.

  Hypothesis H13 : (13 <= femax)%Z.

  Lemma fmax_4096 : 4096 <= fmax.
  Proof.
    rewrite fmax_eq. pose proof uro_small. pose proof uro_pos.
    assert (8192 <= bpow radix2 femax) by (change 8192 with (bpow radix2 13); now apply bpow_le). nra.
  Qed.
  Lemma lit_4096 : fin (s_lit 4096) /\ val (s_lit 4096) = 4096.
  Proof.
    pose proof (binary_normalize_correct fprec femax _ _ mode_NE 4096 0 false) as C.
    cbv zeta in C. change (round_mode mode_NE) with ZnearestE in C.
    assert (Hv : F2R (Float radix2 4096 0) = 4096) by (unfold F2R; cbn; ring).
    rewrite Hv in C. fold fx in C. fold (rnd 4096) in C.
    assert (G : is_float 4096).
    { change 4096 with (bpow radix2 12). apply generic_format_bpow. unfold fx, SpecFloat.fexp, SpecFloat.emin.
      pose proof fprec_ge. pose proof femax_gt. lia. }
    rewrite no_overflow in C by (rewrite Rabs_pos_eq by lra; apply fmax_4096).
    destruct C as (C1 & C2 & _). split; [exact C2|]. cbn [s_lit FScalar]. unfold val. rewrite C1. now apply rnd_float.
  Qed.

  Lemma step_exact i n k : (i < 64)%nat -> (0 <= k <= 12)%Z -> val (s_of_usize n : float) = bpow radix2 k ->
    val (s_div (s_mul (s_of_usize i) (s_lit 1)) (s_of_usize n)) = INR i * 1 / bpow radix2 k.
  Proof.
    intros Hi Hk Hn. pose proof fmax_4096 as B.
    destruct (usize_ok i) as [Fi Vi].
    { apply Z.le_trans with (2 ^ 11)%Z; [lia|]. apply Z.pow_le_mono_r; [lia|apply fprec_ge]. }
    destruct (lit_small 1) as [F1 V1]; [cbn; lia|].
    assert (I : 0 <= INR i <= 64) by (split; [apply pos_INR|replace 64 with (INR 64) by (cbn; lra); apply le_INR; lia]).
    destruct (mul_ok (s_of_usize i) (s_lit 1) Fi F1) as [Fm Vm].
    { rewrite Vi, V1, Rabs_pos_eq; lra. }
    rewrite Vi, V1, Rmult_1_r, rnd_float in Vm by (rewrite <- Vi; apply val_float).
    assert (Hb : 1 <= bpow radix2 k) by (change 1 with (bpow radix2 0); apply bpow_le; lia).
    assert (Q : 0 <= INR i / bpow radix2 k <= 64).
    { split; [apply Rmult_le_pos; [lra|apply Rlt_le, Rinv_0_lt_compat; lra]|].
      apply Rmult_le_reg_r with (bpow radix2 k); [lra|]. unfold Rdiv. rewrite Rmult_assoc, Rinv_l by lra. nra. }
    destruct (div_ok (s_mul (s_of_usize i) (s_lit 1)) (s_of_usize n) Fm) as [Fd Vd]; rewrite ?Vm, ?Hn in *.
    - lra.
    - rewrite Rabs_pos_eq; lra.
    - rewrite Vd, rnd_float; [now rewrite Rmult_1_r|]. rewrite INR_IZR_INZ. apply small_float; lia.
  Qed.

  Lemma exact_widening {E : Eps} {P : Type} {PT : Point R P} : widening float R P.
  Proof.
    assert (U64 : fin (s_of_usize 64 : float) /\ val (s_of_usize 64 : float) = 64).
    { change (s_of_usize 64 : float) with (s_lit 64 : float). apply lit_small. cbn. lia. }
    destruct U64 as [F64 V64].
    split; intros; try reflexivity.
    - cbn [m_from ExactMixed]. rewrite (proj2 (lit_small z ltac:(lia))). reflexivity.
    - cbn [m_from ExactMixed]. rewrite (proj2 half_ok). cbn. lra.
    - cbn [m_from ExactMixed s_of_usize s_lit s_div RScalar].
      destruct (lit_small 2) as [F2 V2]; [cbn; lia|].
      pose proof fmax_4096.
      destruct (div_ok (s_of_usize 64) (s_lit 2) F64) as [_ Vd]; rewrite ?V64, ?V2; [lra|rewrite Rabs_pos_eq; lra|].
      etransitivity; [exact Vd|]. rewrite V64, V2. replace (INR 64) with 64 by (cbn; lra). rewrite rnd_float; [reflexivity|].
      replace (64 / 2) with (IZR 32 / bpow radix2 0) by (cbn; lra). apply small_float; lia.
    - cbn [m_from ExactMixed s_of_usize s_lit s_div s_mul RScalar].
      rewrite (step_exact i 64 6) by (auto; lia || (rewrite V64; cbn; lra)). replace (INR 64) with 64 by (cbn; lra). cbn. lra.
    - cbn [m_from ExactMixed s_of_usize s_lit s_div s_mul RScalar].
      rewrite (step_exact i (64 * 64) 12); [|assumption|lia|exact (proj2 lit_4096)].
      rewrite (mult_INR 64 64). replace (INR 64) with 64 by (cbn; lra). cbn [bpow]. unfold Rdiv.
      f_equal. f_equal. cbn. lra.
  Qed.
End Conv.

(** ** De Boor's scheme with the left weight computed in floats *)
Section Scheme2.
  Context {F : Format} {E : Eps} {P : Type} {PT : Point R P} {LP : LawfulPoint P}.

  Definition left_weight (a : R) : R := val (s_sub (s_lit 1) (narrow a) : float).

  Section Entries.
    Variables (s : bspline R P) (t : R) (k : nat).
    Hypothesis Hwf : roomy s.
    Hypothesis Hk : (bs_degree s <= k <= length (bs_points s))%nat.
    Local Notation D := (bs_degree s).

    Fixpoint entry2 (r j : nat) : P :=
      match r with
      | O => if (j <? D)%nat then cpoint s (j + k - D) else p_default
      | S r' => p_add (p_mul (entry2 r' (j - 1)) (left_weight (weight s t k r j)))
                      (p_mul (entry2 r' j) (weight s t k r j))
      end.

    Lemma alpha2_ok r j : (1 <= r <= j)%nat -> (j <= D)%nat ->
      alpha_of2 (T := float) (bs_knots s) D t k r j = Ret (weight s t k r j).
    Proof.
      intros Hr Hj. rewrite <- (alpha_ok s t k Hwf Hk r j Hr Hj). unfold alpha_of2, alpha_of, n_lit.
      cbn [m_from ExactMixed]. rewrite (proj2 (lit_small 0 ltac:(cbn; lia))), (proj2 (lit_small 1 ltac:(cbn; lia))). reflexivity.
    Qed.

    Lemma body2_ok r j d : (1 <= r <= j)%nat -> (j <= D)%nat -> length d = (D + 1)%nat ->
      de_boor_body2 (T := float) (bs_knots s) D t k r j d
      = Ret (Ok (replace_nth d j (p_add (p_mul (nth (j - 1) d p_default) (left_weight (weight s t k r j)))
                                        (p_mul (nth j d p_default) (weight s t k r j))))).
    Proof.
      intros Hr Hj Hl. unfold de_boor_body2. rewrite alpha2_ok by assumption. cbn [bind s_is_nan RScalar].
      rewrite usub_le by lia. cbn [bind]. rewrite !(idx_lt d _ p_default) by lia. cbn [bind].
      rewrite set_idx_lt by lia. reflexivity.
    Qed.

    Lemma inner2_ok r d : (1 <= r <= D)%nat -> length d = (D + 1)%nat ->
      (forall j, (r - 1 <= j <= D)%nat -> nth j d p_default = entry2 (r - 1) j) ->
      exists d', for_result (rev (range_incl r D)) d (fun j d => de_boor_body2 (T := float) (bs_knots s) D t k r j d) = Ret (Ok d') /\
        length d' = (D + 1)%nat /\ forall j, (r <= j <= D)%nat -> nth j d' p_default = entry2 r j.
    Proof.
      intros Hr Hl Hd.
      destruct (for_result_rule (fun l d => exists n, l = rev (seq r n) /\ (r + n <= D + 1)%nat /\ length d = (D + 1)%nat /\
          (forall j, (r - 1 <= j < r + n)%nat -> nth j d p_default = entry2 (r - 1) j) /\
          (forall j, (r + n <= j <= D)%nat -> nth j d p_default = entry2 r j))
        (fun _ => False) (fun j d => de_boor_body2 (T := float) (bs_knots s) D t k r j d) (rev (range_incl r D)) d) as (res & Er & Hres).
      - exists (S D - r)%nat. unfold range_incl. repeat split; auto; try lia.
        + intros j Hj. apply Hd. lia.
      - clear d Hl Hd. intros i l d (n & En & Hn & Hl & Hd1 & Hd2).
        destruct n as [|n]; [discriminate|]. rewrite seq_S, rev_unit in En. injection En as -> ->.
        rewrite body2_ok by (auto; lia). eexists. split; [reflexivity|].
        exists n. repeat split; try lia.
        + now rewrite length_replace_nth.
        + intros j Hj. rewrite nth_replace_nth by lia. destruct (Nat.eqb_spec j (r + n)); [lia|]. apply Hd1. lia.
        + intros j Hj. rewrite nth_replace_nth by lia. destruct (Nat.eqb_spec j (r + n)) as [->|Hne].
          * rewrite !Hd1 by lia. destruct r as [|r']; [lia|]. replace (S r' - 1)%nat with r' by lia. reflexivity.
          * apply Hd2. lia.
      - destruct res as [d'|e]; [|contradiction]. exists d'. split; [exact Er|].
        destruct Hres as (n & En & Hn & Hl' & Hd1 & Hd2). destruct n as [|n].
        2:{ rewrite seq_S, rev_unit in En. discriminate. }
        split; auto. intros j Hj. apply Hd2. lia.
    Qed.

    Lemma scheme2_ok d : length d = (D + 1)%nat -> (forall j, (j <= D)%nat -> nth j d p_default = entry2 0 j) ->
      exists d', for_result (range_incl 1 D) d (fun r d =>
          for_result (rev (range_incl r D)) d (fun j d => de_boor_body2 (T := float) (bs_knots s) D t k r j d)) = Ret (Ok d') /\
        length d' = (D + 1)%nat /\ nth D d' p_default = entry2 D D.
    Proof.
      intros Hl Hd.
      destruct (for_result_rule (fun l d => exists m, l = seq (m + 1) (D - m) /\ (m <= D)%nat /\ length d = (D + 1)%nat /\
          (forall j, (m <= j <= D)%nat -> nth j d p_default = entry2 m j))
        (fun _ => False) (fun r d => for_result (rev (range_incl r D)) d (fun j d => de_boor_body2 (T := float) (bs_knots s) D t k r j d))
        (range_incl 1 D) d) as (res & Er & Hres).
      - exists 0%nat. unfold range_incl. repeat split; auto; try lia. intros j Hj. apply Hd. lia.
      - clear d Hl Hd. intros i l d (m & Em & Hm & Hl & Hd).
        destruct (D - m)%nat as [|n] eqn:En; [discriminate|]. simpl in Em. injection Em as -> ->.
        destruct (inner2_ok (m + 1) d) as (d' & Er & Hr); [lia|exact Hl| |].
        + intros j Hj. replace (m + 1 - 1)%nat with m in * by lia. apply Hd. lia.
        + exists (Ok d'). split; [exact Er|].
          destruct Hr as [Hl' Hd']. exists (m + 1)%nat. repeat split; auto; try lia.
          replace (D - (m + 1))%nat with n by lia. f_equal. lia.
      - destruct res as [d'|e]; [|contradiction]. exists d'. split; [exact Er|].
        destruct Hres as (m & Em & Hm & Hl' & Hd').
        destruct (D - m)%nat as [|n] eqn:En; [|discriminate]. replace m with D in * by lia.
        split; [exact Hl'|]. apply Hd'. lia.
    Qed.
  End Entries.

  Lemma de_boor2_cases s t r : roomy s -> knot_span_start_for_t s t = Ret r ->
    (forall k, r = Some k -> (bs_degree s <= k <= length (bs_points s))%nat) ->
    de_boor_iterative2 (T := float) s t =
      if Reqb t (knot s (length (bs_points s))) then Ret (Ok (cpoint s (length (bs_points s) - 1)))
      else match r with
           | None => Ret (Err KnotDomainViolation)
           | Some k => Ret (Ok (entry2 s t k (bs_degree s) (bs_degree s)))
           end.
  Proof.
    intros [H1 H2] Hr Hk. unfold de_boor_iterative2. rewrite knot_idx by lia. cbn [bind s_eqb RScalar].
    destruct (Reqb t (knot s (length (bs_points s)))) eqn:Ee.
    - rewrite usub_le by lia. cbn [bind]. rewrite (idx_lt _ _ p_default) by lia. reflexivity.
    - rewrite Hr. cbn [bind]. destruct r as [k|]; [|reflexivity].
      specialize (Hk k eq_refl).
      destruct (load_ok s t k) as (d & Ed & Hl & Hd); [split; auto|auto|]. rewrite Ed. cbn [bind].
      destruct (scheme2_ok s t k (conj H1 H2) Hk d Hl Hd) as (d' & Er & Hl' & Hd'). rewrite Er. cbn [bind].
      rewrite (idx_lt _ _ p_default) by lia. cbn [bind]. now rewrite Hd'.
  Qed.
  Lemma de_boor1_cases s t r : roomy s -> knot_span_start_for_t s t = Ret r ->
    (forall k, r = Some k -> (bs_degree s <= k <= length (bs_points s))%nat) ->
    de_boor_iterative s t =
      if Reqb t (knot s (length (bs_points s))) then Ret (Ok (cpoint s (length (bs_points s) - 1)))
      else match r with
           | None => Ret (Err KnotDomainViolation)
           | Some k => Ret (Ok (entry s t k (bs_degree s) (bs_degree s)))
           end.
  Proof.
    intros H1 Hr Hk. destruct (de_boor_cases s t r H1 Hr Hk) as [[A ->]|[A B]]; cbn [s_eqb RScalar] in A; rewrite A; [reflexivity|].
    destruct r; [|exact B]. destruct B as [B|[_ (_ & i & j & _ & _ & B)]]; [exact B|discriminate].
  Qed.

  (** the float weight is close to the exact one *)
  Definition slip : R := 2 * uro + eta.
  Lemma slip_pos : 0 <= slip.
  Proof. unfold slip. pose proof (@uro_pos F). pose proof (@eta_pos F). lra. Qed.
  Lemma rnd_unit a : 0 <= a <= 1 -> 0 <= rnd a <= 1.
  Proof.
    intros H. split; [rewrite <- rnd_0|]; [now apply rnd_le|]. apply rnd_le_float; [|lra].
    pose proof (proj2 (lit_small 1 ltac:(cbn; lia))) as V. cbn in V. rewrite <- V. apply val_float.
  Qed.
  Lemma unit_in_range a : 0 <= a <= 1 -> Rabs a <= fmax.
  Proof. intros H. pose proof (@fmax_ge F). rewrite Rabs_pos_eq; lra. Qed.
  Lemma left_weight_close a : 0 <= a <= 1 -> 0 <= left_weight a <= 1 /\ Rabs (left_weight a - (1 - a)) <= slip.
  Proof.
    intros H. unfold left_weight. destruct (narrow_ok a (unit_in_range a H)) as [Fn Vn].
    destruct (lit_small 1 ltac:(cbn; lia)) as [F1 V1]. pose proof (rnd_unit a H) as U.
    destruct (sub_ok (s_lit 1) (narrow a) F1 Fn) as [_ Vs].
    { rewrite V1, Vn. apply unit_in_range. lra. }
    rewrite Vs, V1, Vn. split; [apply rnd_unit; lra|].
    pose proof (rnd_err a) as E1. rewrite (Rabs_pos_eq a) in E1 by lra.
    pose proof (rnd_sum_err 1 (- rnd a)) as E2.
    replace (1 + - rnd a) with (1 - rnd a) in E2 by ring. rewrite (Rabs_pos_eq (1 - rnd a)) in E2 by lra.
    assert (E2' : Rabs (rnd (1 - rnd a) - (1 - rnd a)) <= uro * (1 - rnd a)).
    { apply E2; [rewrite <- V1; apply val_float|]. apply float_opp. rewrite <- Vn. apply val_float. }
    pose proof (@uro_pos F). pose proof (@eta_pos F). unfold slip.
    apply Rabs_le_inv in E1, E2'. apply Rabs_le. split; nra.
  Qed.

  Section Error.
    Variables (s : bspline R P) (t : R) (k : nat) (M : R).
    Hypothesis Hwf : roomy s.
    Hypothesis Hs : sorted (bs_knots s).
    Hypothesis Hk : (bs_degree s <= k <= length (bs_points s))%nat.
    Hypothesis Hb : in_span (bs_knots s) k t.
    Hypothesis HM : forall p i, In p (bs_points s) -> (i < p_dim (P := P))%nat -> Rabs (coord p i) <= M.
    Local Notation D := (bs_degree s).

    Lemma M_pos i : (i < p_dim (P := P))%nat -> 0 <= M.
    Proof.
      intros Hi. destruct Hwf as [H1 _]. eapply Rle_trans; [apply Rabs_pos|].
      apply (HM (cpoint s 0) i); [|exact Hi]. apply nth_In. lia.
    Qed.
    Lemma entry0_bound j i : (j <= D)%nat -> (i < p_dim (P := P))%nat -> Rabs (coord (entry s t k 0 j) i) <= M.
    Proof.
      intros Hj Hi. cbn [entry]. destruct (Nat.ltb_spec j D).
      - apply HM; [|exact Hi]. unfold cpoint. apply nth_In. destruct Hwf. lia.
      - rewrite lp_default by exact Hi. rewrite Rabs_R0. now apply (M_pos i).
    Qed.
    Lemma entry_bound r j i : (r <= j <= D)%nat -> (i < p_dim (P := P))%nat -> Rabs (coord (entry s t k r j) i) <= M.
    Proof.
      intros Hj Hi. revert j Hj. induction r as [|r IH]; intros j Hj; [apply entry0_bound; lia || assumption|].
      rewrite (entry_coord s t k) by (assumption || lia). replace (S r - 1)%nat with r by lia.
      pose proof (weight_unit s t k Hwf Hs Hk Hb (S r) j ltac:(lia) ltac:(lia)) as W.
      pose proof (IH (j - 1)%nat ltac:(lia)) as A. pose proof (IH j ltac:(lia)) as B.
      apply Rabs_le_inv in A, B. apply Rabs_le. split; nra.
    Qed.
    Lemma entry2_close r j i : (r <= j <= D)%nat -> (i < p_dim (P := P))%nat ->
      Rabs (coord (entry2 s t k r j) i - coord (entry s t k r j) i) <= ((1 + slip) ^ r - 1) * M.
    Proof.
      intros Hj Hi. pose proof (M_pos i Hi) as M0. pose proof slip_pos as S0.
      revert j Hj. induction r as [|r IH]; intros j Hj.
      - cbn [entry entry2 pow]. replace (_ - _) with 0 by ring. rewrite Rabs_R0. lra.
      - rewrite (entry_coord s t k) by (assumption || lia). replace (S r - 1)%nat with r by lia. cbn [entry2].
        rewrite lp_add, !lp_mul by assumption.
        pose proof (weight_unit s t k Hwf Hs Hk Hb (S r) j ltac:(lia) ltac:(lia)) as W.
        set (w := weight s t k (S r) j) in *. destruct (left_weight_close w W) as [L0 L]. set (v := left_weight w) in *.
        pose proof (IH (j - 1)%nat ltac:(lia)) as A. pose proof (IH j ltac:(lia)) as B.
        pose proof (entry_bound r (j - 1) i ltac:(lia) Hi) as C.
        set (x := coord (entry2 s t k r (j - 1)) i) in *. set (x' := coord (entry s t k r (j - 1)) i) in *.
        set (y := coord (entry2 s t k r j) i) in *. set (y' := coord (entry s t k r j) i) in *.
        cbn [pow]. set (q := (1 + slip) ^ r) in *.
        assert (Q : 1 <= q) by (apply pow_R1_Rle; lra).
        replace (x * v + y * w - (x' * (1 - w) + y' * w)) with ((x - x') * (1 - w) + (y - y') * w + x * (v - (1 - w))) by ring.
        assert (X : Rabs x <= q * M).
        { replace x with ((x - x') + x') by ring. eapply Rle_trans; [apply Rabs_triang|]. lra. }
        assert (X2 : Rabs (x * (v - (1 - w))) <= q * M * slip).
        { rewrite Rabs_mult. apply Rmult_le_compat; auto using Rabs_pos. }
        apply Rabs_le_inv in A, B, X2. apply Rabs_le. split; nra.
    Qed.
  End Error.
End Scheme2.

Section Results.
  Context {F : Format} {E : Eps} {P : Type} {PT : Point R P} {LP : LawfulPoint P}.

  Lemma eval2_scheme (s : bspline R P) t : well_formed s -> sorted (bs_knots s) ->
    (match bs_kind s with ClampedEnd => knot s 0 | _ => knot s (bs_degree s) end <= t <=
     match bs_kind s with ClampedStart => knot s (length (bs_knots s) - 1)
                        | _ => knot s (length (bs_points s)) end) ->
    bspline_eval2 (T := float) s t = de_boor_iterative2 (T := float) s t.
  Proof.
    intros Hwf Hs Ht. unfold bspline_eval2. rewrite domain_value by assumption. cbn [bind].
    rs. destruct (bs_kind s); cbn [fst snd]; rewrite !Rltb_false by lra; reflexivity.
  Qed.

  Theorem spline_narrow D ks (ps : list P) s M t : bspline_new D ks ps = Ret (Ok s) -> bs_kind s <> Unclamped ->
    nth D ks 0 <= t <= nth (length ps) ks 0 ->
    (forall p i, In p ps -> (i < p_dim (P := P))%nat -> Rabs (coord p i) <= M) ->
    exists p p2, bspline_eval s t = Ret (Ok p) /\ bspline_eval2 (T := float) s t = Ret (Ok p2) /\
      forall i, (i < p_dim (P := P))%nat -> Rabs (coord p2 i - coord p i) <= ((1 + (2 * uro + eta)) ^ D - 1) * M.
  Proof.
    intros Hn Hu Ht HM. pose proof (new_wf D ks ps s Hn) as Hwf. pose proof (new_sorted D ks ps s Hn) as Hs.
    destruct (new_fields D ks ps s Hn) as (ED & EK & EP). pose proof Hwf as [H1 H2].
    assert (Ht' : knot s (bs_degree s) <= t <= knot s (length (bs_points s))).
    { unfold knot. rewrite ED, EK, EP. exact Ht. }
    assert (Hs' : sorted (bs_knots s)) by now rewrite EK.
    assert (A : knot s 0 <= knot s (bs_degree s)) by (apply Hs'; lia).
    assert (C : knot s (length (bs_points s)) <= knot s (length (bs_knots s) - 1)) by (apply Hs'; lia).
    rewrite eval_scheme, eval2_scheme by (auto; destruct (bs_kind s); lra).
    destruct (Req_EM_T t (knot s (length (bs_points s)))) as [Et|Et].
    - exists (cpoint s (length (bs_points s) - 1)), (cpoint s (length (bs_points s) - 1)).
      unfold de_boor_iterative, de_boor_iterative2. rewrite knot_idx by lia. cbn [bind]. rs. rewrite Reqb_true by exact Et.
      rewrite usub_le by lia. cbn [bind]. rewrite (idx_lt _ _ p_default) by lia. cbn [bind].
      split; [reflexivity|]. split; [reflexivity|]. intros i Hi. replace (_ - _) with 0 at 1 by ring. rewrite Rabs_R0.
      apply Rmult_le_pos.
      + pose proof (@slip_pos F) as S0. assert (S2 : 1 <= 1 + slip) by (clear - S0; lra). pose proof (pow_R1_Rle _ D S2) as S1. change (2 * uro + eta) with slip. apply Rge_le, Rge_minus, Rle_ge, S1.
      + pose proof (HM (nth 0 ps p_default) i ltac:(apply nth_In; rewrite <- EP; lia) Hi) as HM0.
        eapply Rle_trans; [apply Rabs_pos|exact HM0].
    - destruct (span_found s t Hwf Hs' Hu) as (k & Ek & Hk & Hb); [lra|].
      rewrite (de_boor1_cases s t (Some k)), (de_boor2_cases s t (Some k));
        auto using wf_roomy; try (intros ? [=]; subst; lia).
      unfold Reqb. destruct (Req_EM_T t (knot s (length (bs_points s)))); [contradiction|].
      eexists _, _. split; [reflexivity|]. split; [reflexivity|]. intros i Hi. rewrite <- ED.
      apply (entry2_close s t k M (wf_roomy s Hwf) Hs' ltac:(lia) Hb); auto. now rewrite EP.
  Qed.

  (** [dd] of a quadratic: the weights are floats *)
  Lemma quad_dd_narrow (q : quad P) t i M : 0 <= t <= 1 -> (i < p_dim (P := P))%nat ->
    (forall p, In p (quad_control_points q) -> Rabs (coord p i) <= M) ->
    exists x, quad_dd2 (T := float) q t i = Ret x /\
      Rabs (x - (2 * (1 - t) * (coord (q_ctrl q) i - coord (q_start q) i) + 2 * t * (coord (q_end q) i - coord (q_ctrl q) i)))
      <= (12 * uro + 8 * eta) * M.
  Proof.
    intros Ht Hi HM. unfold quad_dd2. cbn zeta. rewrite !lp_axis. destruct (Nat.ltb_spec i (p_dim (P := P))); [|lia]. cbn [bind].
    eexists. split; [reflexivity|]. cbn [m_into m_mul ExactMixed s_add RScalar]. unfold n_lit.
    destruct (narrow_ok t (unit_in_range t Ht)) as [Fn Vn]. pose proof (rnd_unit t Ht) as U. rewrite <- Vn in U.
    pose proof (rnd_err t) as Er. rewrite <- Vn, (Rabs_pos_eq t) in Er by lra.
    pose proof (@fmax_ge F) as B. pose proof (@uro_pos F) as up. pose proof (@eta_pos F) as ep. pose proof (@uro_small F) as us.
    destruct (lit_small 2 ltac:(cbn; lia)) as [F2 V2]. destruct (lit_small 4 ltac:(cbn; lia)) as [F4 V4].
    set (n := narrow t) in *.
    assert (T2 : forall k, (0 <= k)%Z -> is_float (val n * bpow radix2 k)).
    { intros k Hk. apply FloatRoots.float_shift; [apply val_float|exact Hk]. }
    destruct (mul_ok n (s_lit 2) Fn F2) as [Fa Va]; [rewrite V2, Rabs_pos_eq; lra|].
    destruct (mul_ok (s_lit 2) n F2 Fn) as [Fc Vc]; [rewrite V2, Rabs_pos_eq; lra|].
    destruct (mul_ok (s_lit 4) n F4 Fn) as [Fb Vb]; [rewrite V4, Rabs_pos_eq; lra|].
    rewrite V2, rnd_float in Va by (apply (T2 1%Z); lia).
    rewrite V2, rnd_float in Vc by (rewrite Rmult_comm; apply (T2 1%Z); lia).
    rewrite V4, rnd_float in Vb by (rewrite Rmult_comm; apply (T2 2%Z); lia).
    destruct (sub_ok (s_mul n (s_lit 2)) (s_lit 2) Fa F2) as [_ Vd]; [rewrite Va, V2; apply Rabs_le; lra|].
    destruct (sub_ok (s_lit 2) (s_mul (s_lit 4) n) F2 Fb) as [_ Ve]; [rewrite Vb, V2; apply Rabs_le; lra|].
    assert (E0 : Rabs (val (s_sub (s_mul n (s_lit 2)) (s_lit 2)) - (2 * t - 2)) <= 4 * uro + 2 * eta).
    { rewrite Vd, Va, V2. pose proof (rnd_sum_err (val n * 2) (Ropp 2)) as K.
      assert (K' : Rabs (rnd (val n * 2 + Ropp 2) - (val n * 2 + Ropp 2)) <= uro * Rabs (val n * 2 + Ropp 2)).
      { apply K; [apply (T2 1%Z); lia|apply float_opp; rewrite <- V2; apply val_float]. }
      replace (val n * 2 + Ropp 2) with (val n * 2 - 2) in K' by ring. rewrite (Rabs_left1 (val n * 2 - 2)) in K' by lra.
      apply Rabs_le_inv in K', Er. apply Rabs_le. split; nra. }
    assert (E1 : Rabs (val (s_sub (s_lit 2) (s_mul (s_lit 4) n)) - (2 - 4 * t)) <= 6 * uro + 4 * eta).
    { rewrite Ve, Vb, V2. pose proof (rnd_sum_err 2 (- (4 * val n))) as K.
      assert (K' : Rabs (rnd (2 + - (4 * val n)) - (2 + - (4 * val n))) <= uro * Rabs (2 + - (4 * val n))).
      { apply K; [rewrite <- V2; apply val_float|apply float_opp; rewrite Rmult_comm; apply (T2 2%Z); lia]. }
      replace (2 + - (4 * val n)) with (2 - 4 * val n) in K' by ring.
      assert (Rabs (2 - 4 * val n) <= 2) by (apply Rabs_le; lra).
      assert (K2 : Rabs (rnd (2 - 4 * val n) - (2 - 4 * val n)) <= uro * 2)
        by (eapply Rle_trans; [exact K'|apply Rmult_le_compat_l; lra]).
      apply Rabs_le_inv in K2, Er. apply Rabs_le. split; nra. }
    assert (E2 : Rabs (val (s_mul (s_lit 2) n) - 2 * t) <= 2 * uro + 2 * eta).
    { rewrite Vc. apply Rabs_le_inv in Er. apply Rabs_le. split; nra. }
    set (c0 := val (s_sub (s_mul n (s_lit 2)) (s_lit 2))) in *. set (c1 := val (s_sub (s_lit 2) (s_mul (s_lit 4) n))) in *.
    set (c2 := val (s_mul (s_lit 2) n)) in *.
    pose proof (HM (q_start q) ltac:(cbn; auto)) as A0. pose proof (HM (q_ctrl q) ltac:(cbn; auto)) as A1.
    pose proof (HM (q_end q) ltac:(cbn; auto)) as A2.
    set (x := coord (q_start q) i) in *. set (y := coord (q_ctrl q) i) in *. set (z := coord (q_end q) i) in *.
    match goal with |- Rabs ?e <= _ => replace e with (x * (c0 - (2 * t - 2)) + (y * (c1 - (2 - 4 * t)) + z * (c2 - 2 * t))) by ring end.
    assert (G : forall a b e, Rabs a <= M -> Rabs b <= e -> Rabs (a * b) <= e * M).
    { intros a b e Ha Hb. rewrite Rabs_mult, Rmult_comm. apply Rmult_le_compat; auto using Rabs_pos. }
    eapply Rle_trans; [apply Rabs_triang|]. eapply Rle_trans; [apply Rplus_le_compat_l, Rabs_triang|].
    pose proof (G _ _ _ A0 E0). pose proof (G _ _ _ A1 E1). pose proof (G _ _ _ A2 E2). lra.
  Qed.

  Lemma cubic_split_narrow (c : cubic P) t : cubic_split2 (T := float) c t = cubic_split c (val (narrow t)).
  Proof. reflexivity. Qed.
  Lemma narrow_close t : 0 <= t <= 1 -> Rabs (val (narrow t) - t) <= uro * t + eta.
  Proof.
    intros Ht. destruct (narrow_ok t (unit_in_range t Ht)) as [_ ->]. pose proof (rnd_err t) as Er. now rewrite (Rabs_pos_eq t) in Er by lra.
  Qed.
End Results.

(** ** A third is not a float *)
Section Third.
  Context {F : Format}.
  Lemma pow2_mod3 n : (2 ^ Z.of_nat n mod 3 = 1 \/ 2 ^ Z.of_nat n mod 3 = 2)%Z.
  Proof.
    induction n as [|n IH]; [left; reflexivity|]. rewrite Nat2Z.inj_succ, Z.pow_succ_r by lia.
    rewrite Z.mul_mod by lia. destruct IH as [-> | ->]; [right|left]; reflexivity.
  Qed.
  Lemma no_thirds (x : float) z : (z mod 3 <> 0)%Z -> 3 * val x <> IZR z.
  Proof.
    intros Hz Hx. pose proof (val_float x) as G. unfold is_float, generic_format, F2R in G. cbn [Fnum Fexp] in G.
    set (m := Ztrunc (scaled_mantissa radix2 fx (val x))) in *. set (e := cexp radix2 fx (val x)) in *. clearbody m e.
    rewrite G in Hx. destruct (Z_le_gt_dec 0 e) as [He|He].
    - rewrite <- (IZR_Zpower radix2 e He) in Hx. rewrite <- !mult_IZR in Hx. apply eq_IZR in Hx. apply Hz. rewrite <- Hx.
      rewrite Z.mul_comm. apply Z_mod_mult.
    - assert (H : IZR (3 * m) = IZR (z * 2 ^ (- e))).
      { rewrite !mult_IZR. change 2%Z with (radix_val radix2) at 1. rewrite (IZR_Zpower radix2) by lia. rewrite <- Hx, bpow_opp.
        field. apply Rgt_not_eq, bpow_gt_0. }
      apply eq_IZR in H. assert (K : ((z * 2 ^ (- e)) mod 3 = 0)%Z) by (rewrite <- H, Z.mul_comm; apply Z_mod_mult).
      rewrite Z.mul_mod in K by lia. pose proof (Z.mod_pos_bound z 3 ltac:(lia)) as B.
      destruct (pow2_mod3 (Z.to_nat (- e))) as [Q|Q]; rewrite Z2Nat.id in Q by lia; rewrite Q in K;
        (assert (z mod 3 = 1 \/ z mod 3 = 2)%Z as [W|W] by lia; rewrite W in K; discriminate).
  Qed.

  Lemma split_misses {E : Eps} : exists (c : cubic P1) t, 0 < t < 1 /\
    c_end (fst (cubic_split2 (T := float) c t)) <> cubic_eval2 (T := float) c t.
  Proof.
    exists (Cubic (pt1 0) (pt1 1) (pt1 2) (pt1 3)), (1 / 3). split; [lra|]. rewrite cubic_split_narrow. intros H.
    apply (f_equal (fun p => coord p 0%nat)) in H. unfold cubic_split, cubic_eval2, n_lit in H. cbn [fst c_end] in H.
    cbn [m_add m_mul ExactMixed] in H.
    rewrite (proj2 (lit_small 1 ltac:(cbn; lia))), (proj2 (lit_small 3 ltac:(cbn; lia))) in H.
    cbn in H. apply (no_thirds (narrow (1 / 3)) 1); [discriminate|]. lra.
  Qed.

  Lemma spline_misses {E : Eps} : eps < 1 / 3 -> exists s : bspline R P1, exists t p p2,
    bspline_new 1 [0; 0; 1; 1] [pt1 1; pt1 1] = Ret (Ok s) /\ 0 < t < 1 /\
    bspline_eval s t = Ret (Ok p) /\ bspline_eval2 (T := float) s t = Ret (Ok p2) /\ p <> p2.
  Proof.
    intros He. pose proof eps_pos as He0.
    assert (N : bspline_new 1 [0; 0; 1; 1] [pt1 1; pt1 1] = Ret (Ok (BSpline 1 [0; 0; 1; 1] Clamped [pt1 1; pt1 1]))).
    { unfold bspline_new. cbn. unfold Rltb. repeat (destruct (Rlt_dec _ _); try lra; cbn); reflexivity || idtac.
      all: exfalso; match goal with H : ~ Rabs ?x < _ |- _ => apply H; replace x with 0 by ring; rewrite Rabs_R0; exact He0 end. }
    set (s := BSpline 1 [0; 0; 1; 1] Clamped [pt1 1; pt1 1]) in *.
    exists s, (1 / 3). pose proof (new_wf _ _ _ _ N) as Hwf. pose proof (new_sorted _ _ _ _ N) as Hs.
    destruct (span_found s (1 / 3) Hwf Hs ltac:(discriminate)) as (k & Ek & Hk & _); [cbn; lra|].
    assert (k = 1)%nat by (cbn in Hk; lia). subst k.
    rewrite eval_scheme, eval2_scheme by (auto; cbn; lra).
    rewrite (de_boor1_cases s (1 / 3) (Some 1%nat)), (de_boor2_cases s (1 / 3) (Some 1%nat));
      auto using wf_roomy; try (intros ? [=]; subst; cbn; lia).
    unfold Reqb. destruct (Req_EM_T (1 / 3) (knot s (length (bs_points s)))) as [X|X]; [cbn in X; lra|].
    eexists _, _. split; [exact N|]. split; [lra|]. split; [reflexivity|]. split; [reflexivity|]. intros H.
    apply (f_equal (fun p => coord p 0%nat)) in H. cbn [entry entry2 bs_degree s] in H.
    assert (W : weight s (1 / 3) 1 1 1 = 1 / 3).
    { unfold weight. cbn. unfold Rltb. rewrite !Rminus_0_r. rewrite (Rabs_pos_eq 1) by lra.
      destruct (Rlt_dec (1 / 3) eps); [lra|]. destruct (Rlt_dec 1 eps); [lra|]. lra. }
    rewrite W in H. cbn in H. apply (no_thirds (s_sub (s_lit 1) (narrow (1 / 3)) : float) 2); [discriminate|].
    change (val (s_sub (s_lit 1) (narrow (1 / 3)))) with (left_weight (1 / 3)). lra.
  Qed.
End Third.
