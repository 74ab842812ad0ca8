(** [BSpline::arclen] in IEEE arithmetic. *)
From Coq Require Import Reals ZArith List Arith Lia Lra Bool.
From Flocq Require Import Core.Core IEEE754.BinarySingleNaN.
From Verif Require Import Base.Outcome Base.Scalar Model.Point Model.BSpline Inst.FloatInst Spec.Sums Spec.Basis
  Spec.Rounding Spec.Componentwise Spec.FloatPoints Spec.FloatCurves Spec.FloatSplines
  Proofs.OutcomeFacts Proofs.PointFacts Proofs.Metric Proofs.FloatFacts Proofs.FloatPoint Proofs.BSplineGeneric
  Proofs.FloatEval Proofs.FloatBound Proofs.FloatNorm Proofs.FloatLength Proofs.FloatSpline Proofs.FloatSplineEval.
Import ListNotations.
Local Open Scope R_scope.

Section Sum.
  Context {F : Format}.

  (** adding up [N] numbers that are not negative *)
  Lemma fsum_err (f : nat -> float) (g : nat -> R) (e G : R) (N : nat) :
    (forall i, (i < N)%nat -> fin (f i) /\ 0 <= val (f i) /\ Rabs (val (f i) - g i) <= e) ->
    (forall i, (i < N)%nat -> 0 <= g i <= G) -> 0 <= e -> 0 <= G ->
    4 * INR N * uro <= 1 -> 3 * INR N * (G + e) <= fmax ->
    exists a, for_in (Outcome.range 0 N) (s_lit 0) (fun i a => Ret (s_add a (f i))) = Ret a /\ fin a /\ 0 <= val a /\
      Rabs (val a - Rsum g N) <= 2 * INR N * (e + uro * (INR N * G)).
  Proof.
    intros Hf Hg He HG HN Hov. pose proof uro_pos as U0. pose proof uro_small as U1. pose proof (pos_INR N) as N0.
    set (A := INR N * G). assert (A0 : 0 <= A) by (apply Rmult_le_pos; lra).
    assert (uA0 : 0 <= uro * A) by (apply Rmult_le_pos; lra).
    assert (Lin : forall k, (k <= N)%nat -> INR k * (1 + uro) ^ k * (e + uro * A) <= 2 * INR N * (e + uro * A)).
    { intros k Hk. apply Rmult_le_compat_r; [lra|].
      assert (INR k <= INR N) by now apply le_INR. pose proof (pos_INR k).
      destruct (pow_lin uro k) as [_ Y]; [lra| |].
      - assert (INR k * uro <= INR N * uro) by (apply Rmult_le_compat_r; lra). lra.
      - assert (0 < (1 + uro) ^ k) by (apply pow_lt; lra). nra. }
    assert (Tot : A + 2 * INR N * (e + uro * A) <= fmax).
    { assert (INR N * uro * A <= / 4 * A) by (apply Rmult_le_compat_r; lra).
      assert (0 <= INR N * e) by (apply Rmult_le_pos; lra). unfold A in *. nra. }
    assert (SA : forall k, (k <= N)%nat -> 0 <= Rsum g k <= A).
    { intros k Hk. split.
      - apply Rsum_nonneg. intros i Hi. apply Hg. lia.
      - apply Rle_trans with (INR k * G).
        + clear - Hg Hk. induction k as [|k IH]; [simpl; lra|]. cbn [Rsum]. rewrite S_INR.
          specialize (IH ltac:(lia)). pose proof (Hg k ltac:(lia)). lra.
        + unfold A. apply Rmult_le_compat_r; [exact HG|]. now apply le_INR. }
    destruct (for_in_range_inv (fun k a => fin a /\ 0 <= val a /\
       Rabs (val a - Rsum g k) <= INR k * (1 + uro) ^ k * (e + uro * A))
       0 N (s_lit 0) (fun i a => Ret (s_add a (f i)))) as (a & Ea & B1 & B2 & B3).
    - lia.
    - destruct (lit_small 0) as [L1 L2]; [lia|]. split; [exact L1|]. rewrite L2. split; [lra|].
      simpl. rewrite Rminus_0_r, Rabs_R0. lra.
    - intros k a Hk (B1 & B2 & B3). eexists. split; [reflexivity|].
      replace (k + 1)%nat with (S k) by lia.
      destruct (Hf k ltac:(lia)) as (F1 & F2 & F3).
      pose proof (SA (S k) ltac:(lia)) as XR. cbn [Rsum] in XR |- *.
      set (X := Rsum g k + g k) in *.
      set (d := INR k * (1 + uro) ^ k * (e + uro * A)) in *.
      set (v := val (f k)) in *.
      assert (Er : Rabs (val a + v - X) <= d + e).
      { unfold X. replace (val a + v - (Rsum g k + g k)) with ((val a - Rsum g k) + (v - g k)) by ring.
        eapply Rle_trans; [apply Rabs_triang|]. lra. }
      assert (Step : (1 + uro) * (d + e) + uro * A <= INR (S k) * (1 + uro) ^ S k * (e + uro * A)).
      { rewrite S_INR. cbn [pow].
        assert (P1 : 1 <= (1 + uro) ^ k) by (apply pow_R1_Rle; lra).
        replace ((INR k + 1) * ((1 + uro) * (1 + uro) ^ k) * (e + uro * A))
          with ((1 + uro) * d + (1 + uro) * ((1 + uro) ^ k * (e + uro * A))) by (unfold d; ring).
        assert (1 * (e + uro * A) <= (1 + uro) ^ k * (e + uro * A)) by (apply Rmult_le_compat_r; lra).
        assert ((1 + uro) * (1 * (e + uro * A)) <= (1 + uro) * ((1 + uro) ^ k * (e + uro * A)))
          by (apply Rmult_le_compat_l; lra).
        assert (uro * A <= (1 + uro) * (uro * A)) by nra. lra. }
      pose proof (Lin (S k) ltac:(lia)) as LT.
      assert (d0 : 0 <= d).
      { unfold d. apply Rmult_le_pos; [|lra]. apply Rmult_le_pos; [apply pos_INR|]. apply pow_le. lra. }
      assert (ue : d + e <= (1 + uro) * (d + e)) by nra.
      assert (Ov : Rabs (val a + v) <= fmax).
      { rewrite Rabs_pos_eq by lra. apply Rabs_le_inv in Er. lra. }
      destruct (add_ok a (f k) B1 F1 Ov) as [S1 S2]. fold v in S2.
      split; [exact S1|]. rewrite S2. split; [apply rnd_nonneg; lra|].
      eapply Rle_trans; [|exact Step].
      replace (rnd (val a + v) - X) with ((rnd (val a + v) - (val a + v)) + (val a + v - X)) by ring.
      eapply Rle_trans; [apply Rabs_triang|].
      pose proof (rnd_sum_err (val a) v (val_float _) (val_float _)) as Rs.
      rewrite (Rabs_pos_eq (val a + v)) in Rs by lra.
      assert (val a + v <= A + (d + e)) by (apply Rabs_le_inv in Er; lra).
      assert (uro * (val a + v) <= uro * (A + (d + e))) by (apply Rmult_le_compat_l; lra).
      lra.
    - exists a. split; [exact Ea|]. split; [exact B1|]. split; [exact B2|].
      eapply Rle_trans; [exact B3|]. now apply Lin.
  Qed.
End Sum.

Section Length.
  Context {F : Format} {P : Type} {PT : Point float P} {CP : CwPoint float P}.
  Notation dim := (p_dim (P := P)).
  Variables (D : nat) (ks : list float) (ps : list P) (s : bspline float P).
  Hypothesis Hnew : bspline_new D ks ps = Ret (Ok s).
  Hypothesis Hk : bs_kind s = Clamped.
  Hypothesis Hm : moderate ks.
  Local Notation C := (length ps).
  Local Notation U i := (fknot ks i).
  Local Notation lo := (nth D ks (s_lit 0)).
  Local Notation hi := (nth C ks (s_lit 0)).

  Definition sample (t : float) : P := match bspline_eval s t with Ret (Ok p) => p | _ => p_default end.

  Let Hfin : forall x, In x ks -> fin x.
  Proof. intros x Hx. now apply Hm. Qed.
  Let Hlen : (D < C)%nat /\ length ks = (C + D + 1)%nat.
  Proof. destruct (proj1 (new_ok_iff D ks ps)) as (H1 & H2 & _); [eauto|]. auto. Qed.
  Let Hdom : knot_domain s = Ret (lo, hi).
  Proof.
    rewrite (domain_value s (new_wf D ks ps s Hnew)), Hk. destruct (new_fields D ks ps s Hnew) as (E1 & E2 & E3).
    unfold knot. now rewrite E1, E2, E3.
  Qed.
  Let Hlo : fin lo. Proof. apply Hfin, nth_In. lia. Qed.
  Let Hhi : fin hi. Proof. apply Hfin, nth_In. lia. Qed.

  Lemma sample_eval t : eval_or_default s t = Ret (sample t).
  Proof.
    unfold eval_or_default, sample. destruct (clamped_eval_total s t (new_wf D ks ps s Hnew) Hk) as (r & ->).
    now destruct r.
  Qed.
  Lemma sample_cases t : bspline_eval s t = Ret (Ok (sample t)) \/
    (exists e, bspline_eval s t = Ret (Err e)) /\ sample t = p_default.
  Proof.
    unfold sample. destruct (clamped_eval_total s t (new_wf D ks ps s Hnew) Hk) as (r & ->).
    destruct r; [now left|]. right. eauto.
  Qed.

  Lemma sample_out t : s_ltb t lo = true \/ s_ltb hi t = true -> bspline_eval s t = Ret (Err KnotDomainViolation).
  Proof.
    intros H. unfold bspline_eval. rewrite Hdom. cbn [bind fst snd].
    destruct H as [H|H]; rewrite H; [reflexivity|now rewrite orb_true_r].
  Qed.

  Lemma arclen_samples n : bspline_arclen s n =
    for_in (Outcome.range 0 (n + 1)) (s_lit 0) (fun i a =>
      let t := s_add lo (s_mul (s_div (s_of_usize i) (s_of_usize n)) (s_sub hi lo)) in
      Ret (s_add a (s_sqrt (p_sqlen (p_sub (sample t) (sample (s_add t (s_div (s_lit 1) (s_of_usize n))))))))).
  Proof.
    unfold bspline_arclen. rewrite Hdom. cbn [bind fst snd].
    replace (range_incl 0 n) with (Outcome.range 0 (n + 1)) by (unfold Outcome.range, range_incl; f_equal; lia).
    apply for_in_ext. intros i a _. cbn zeta. now rewrite !sample_eval.
  Qed.

  Section Bounds.
    Variable M : R.
    Hypothesis Hps : forall p, In p ps -> bounded M p.
    Hypothesis HD : 6 * INR D * uro <= 1.
    Hypothesis HM : 4 * M <= fmax.
    Hypothesis HM0 : 0 <= M.
    Definition top : R := M + 6 * INR D * uro * M + 5 * INR D * eta.

    Lemma top_ge : M <= top.
    Proof.
      unfold top. pose proof uro_pos. pose proof eta_pos. pose proof (pos_INR D).
      assert (0 <= 6 * INR D * uro * M) by (repeat apply Rmult_le_pos; lra).
      assert (0 <= 5 * INR D * eta) by (repeat apply Rmult_le_pos; lra). lra.
    Qed.

    Lemma bounded_le A B (p : P) : A <= B -> bounded A p -> bounded B p.
    Proof. intros H Hb i Hi. destruct (Hb i Hi). split; [assumption|lra]. Qed.
    Lemma default_bounded B : 0 <= B -> bounded B (p_default (P := P)).
    Proof.
      intros HB i Hi. rewrite cw_default by exact Hi. destruct (lit_small 0) as [L1 L2]; [lia|].
      split; [exact L1|]. rewrite L2, Rabs_R0. exact HB.
    Qed.

    Lemma sample_in t : fin t -> U D <= val t <= U C ->
      bspline_eval s t = Ret (Ok (sample t)) /\ bounded top (sample t).
    Proof.
      intros Ht R. pose proof top_ge. unfold sample.
      destruct (Req_EM_T (val t) (U C)) as [E|E].
      - rewrite (eval_last D ks ps s t p_default Hnew Hfin Ht E). split; [reflexivity|].
        apply (bounded_le M); [assumption|]. apply Hps.
        destruct ps as [|p l]; [simpl in Hlen; lia|]. rewrite (app_removelast_last p_default) by discriminate.
        rewrite last_last. apply in_or_app. right. now left.
      - destruct (eval_finite D ks ps s t M Hnew) as (p & E1 & E2); auto; [congruence|lra|].
        rewrite E1. split; [reflexivity|exact E2].
    Qed.

    (** any parameter at all *)
    Lemma sample_bounded t : bounded top (sample t).
    Proof.
      pose proof top_ge.
      destruct (sample_cases t) as [E|[_ E]]; [|rewrite E; apply default_bounded; lra].
      destruct (is_nan t) eqn:Nt.
      { rewrite (eval_nan D ks ps s t Hnew Hfin Nt) in E. discriminate. }
      destruct (s_ltb t lo) eqn:L1; [rewrite (sample_out t (or_introl L1)) in E; discriminate|].
      destruct (s_ltb hi t) eqn:L2; [rewrite (sample_out t (or_intror L2)) in E; discriminate|].
      assert (Ft : fin t).
      { unfold fin. revert L1 L2 Nt. pose proof Hlo as A. pose proof Hhi as B. unfold fin in A, B.
        destruct lo as [| | |[]], hi as [| | |[]]; try discriminate; destruct t as [|[]| |[]]; try discriminate; reflexivity. }
      rewrite ltb_val in L1, L2 by assumption. unfold val in L1, L2.
      destruct (Rlt_bool_spec (B2R t) (B2R lo)) as [|A]; [discriminate|].
      destruct (Rlt_bool_spec (B2R hi) (B2R t)) as [|B]; [discriminate|].
      now apply sample_in.
    Qed.

    Definition chord_slack : R :=
      sqrt (INR dim) * ((6 * INR dim + 14) * uro * top) + 2 * sqrt (2 * INR dim * eta) + eta.

    Hypothesis Hdim : 4 * INR (dim + 1) * uro <= 1.
    Hypothesis HW : 36 * INR dim * (top * top) <= fmax.
    Hypothesis HW2 : 3 * top <= fmax.

    Notation vals p := (fun k => val (cw p k)).

    Lemma sample_chord t t' : let L := s_sqrt (p_sqlen (p_sub (sample t) (sample t'))) in
      fin L /\ 0 <= val L /\ Rabs (val L - gap (P := P) (vals (sample t)) (vals (sample t'))) <= chord_slack.
    Proof.
      intros L. pose proof top_ge.
      destruct (diff_length top 0 ltac:(lra) ltac:(lra) Hdim ltac:(rewrite Rplus_0_r; exact HW)
                  ltac:(rewrite Rplus_0_r; exact HW2) (sample t) (sample t')
                  (vals (sample t)) (vals (sample t')) 0) as (_ & _ & A & B & C0); [lra| | |].
      - intros i Hi. destruct (sample_bounded t i Hi) as [X Y]. split; [exact X|]. split; [lra|].
        rewrite Rminus_eq_0, Rabs_R0. lra.
      - intros i Hi. destruct (sample_bounded t' i Hi) as [X Y]. split; [exact X|]. split; [lra|].
        rewrite Rminus_eq_0, Rabs_R0. lra.
      - split; [exact A|]. split; [exact B|]. eapply Rle_trans; [exact C0|]. unfold chord_slack.
        rewrite Rplus_0_r. lra.
    Qed.

    Lemma gap_bound t t' : 0 <= gap (P := P) (vals (sample t)) (vals (sample t')) <= sqrt (INR dim) * (2 * top).
    Proof.
      pose proof top_ge. split; [apply sqrt_pos|].
      apply (nrm_const_bound (fun i => val (cw (sample t) i) - val (cw (sample t') i))); [lra|].
      intros i Hi. destruct (sample_bounded t i Hi) as [_ X]. destruct (sample_bounded t' i Hi) as [_ Y].
      unfold Rminus. eapply Rle_trans; [apply Rabs_triang|]. rewrite Rabs_Ropp. lra.
    Qed.

    Lemma slack_pos : 0 <= chord_slack.
    Proof.
      pose proof (sample_chord (s_lit 0) (s_lit 0)) as (_ & _ & A). eapply Rle_trans; [apply Rabs_pos|exact A].
    Qed.

    Variable n : nat.
    Hypothesis Hn : 4 * INR (n + 1) * uro <= 1.
    Hypothesis Hov : 3 * INR (n + 1) * (sqrt (INR dim) * (2 * top) + chord_slack) <= fmax.

    Local Notation x i := (s_add lo (s_mul (s_div (s_of_usize i) (s_of_usize n)) (s_sub hi lo))).
    Local Notation y i := (s_add (x i) (s_div (s_lit 1) (s_of_usize n))).

    Definition length_slack : R :=
      2 * INR (n + 1) * (chord_slack + uro * (INR (n + 1) * (sqrt (INR dim) * (2 * top)))).

    Lemma arclen_sum : exists a, bspline_arclen s n = Ret a /\ fin a /\ 0 <= val a /\
      Rabs (val a - Rsum (fun i => gap (P := P) (vals (sample (x i))) (vals (sample (y i)))) (n + 1)) <= length_slack.
    Proof.
      rewrite arclen_samples. pose proof slack_pos. pose proof top_ge.
      apply (fsum_err (fun i => s_sqrt (p_sqlen (p_sub (sample (x i)) (sample (y i)))))
               (fun i => gap (P := P) (vals (sample (x i))) (vals (sample (y i)))) chord_slack (sqrt (INR dim) * (2 * top)));
        auto.
      - intros i _. apply sample_chord.
      - intros i _. apply gap_bound.
      - apply Rmult_le_pos; [apply sqrt_pos|lra].
    Qed.

    (** the domain [0,1] *)
    Section Unit.
      Hypothesis H0 : U D = 0.
      Hypothesis H1 : U C = 1.
      Hypothesis Hn0 : (0 < n)%nat.

      Let Hn' : 4 * INR n * uro <= 1.
      Proof.
        pose proof uro_pos. assert (INR n <= INR (n + 1)) by (apply le_INR; lia).
        assert (INR n * uro <= INR (n + 1) * uro) by (apply Rmult_le_compat_r; lra). lra.
      Qed.

      Lemma x_val i : (i <= n)%nat -> fin (x i) /\ val (x i) = val (par n i).
      Proof.
        intros Hi. pose proof (n_pos n Hn0) as NP. pose proof fmax_ge as FM.
        destruct (par_val n Hn0 Hn' i Hi) as [_ PV].
        destruct (par_ok n Hn0 Hn' i Hi) as (_ & PR & _). rewrite PV in PR |- *.
        destruct (usize_ok n (usize_small n Hn')) as [N1 N2].
        destruct (usize_ok i) as [I1 I2].
        { pose proof (usize_small n Hn'). lia. }
        destruct (frac_range n Hn0 i Hi) as [R1 R2].
        destruct (div_ok (s_of_usize i) (s_of_usize n) I1) as [D1 D2].
        { rewrite N2. lra. }
        { rewrite I2, N2, Rabs_pos_eq by lra. lra. }
        rewrite I2, N2 in D2.
        destruct (sub_ok hi lo Hhi Hlo) as [S1 S2].
        { change (val hi) with (U C). change (val lo) with (U D). rewrite H0, H1, Rminus_0_r, Rabs_R1. lra. }
        change (val hi) with (U C) in S2. change (val lo) with (U D) in S2.
        rewrite H0, H1, Rminus_0_r, (rnd_float 1 float_1) in S2.
        destruct (mul_1 _ (s_sub hi lo) D1 S1 S2) as [M1 M2].
        destruct (add_ok lo (s_mul (s_div (s_of_usize i) (s_of_usize n)) (s_sub hi lo)) Hlo M1) as [A1 A2].
        { change (val lo) with (U D). rewrite H0, Rplus_0_l, M2, D2, Rabs_pos_eq by lra. lra. }
        split; [exact A1|]. rewrite A2. change (val lo) with (U D). rewrite H0, Rplus_0_l, M2.
        rewrite (rnd_float _ (val_float _)). exact D2.
      Qed.

      Let step_val : fin (s_div (s_lit 1) (s_of_usize n)) /\
        val (s_div (s_lit 1) (s_of_usize n)) = rnd (1 / INR n) /\ 4 * uro <= val (s_div (s_lit 1) (s_of_usize n)) <= 1.
      Proof.
        pose proof (n_pos n Hn0) as NP. pose proof fmax_ge as FM. pose proof uro_pos. pose proof uro_small.
        destruct (usize_ok n (usize_small n Hn')) as [N1 N2]. destruct lit1 as [L1 L2].
        destruct (frac_range n Hn0 1 ltac:(lia)) as [J0 J1]. simpl (INR 1) in J0, J1.
        destruct (div_ok (s_lit 1) (s_of_usize n) L1) as [D1 D2].
        { rewrite N2. lra. }
        { rewrite L2, N2, Rabs_pos_eq by lra. lra. }
        rewrite L2, N2 in D2. split; [exact D1|]. split; [exact D2|]. rewrite D2. split.
        - apply rnd_ge_float.
          + replace (4 * uro) with (bpow radix2 (2 - fprec)).
            * apply generic_format_bpow. unfold fx, SpecFloat.fexp, SpecFloat.emin.
              pose proof femax_gt. pose proof fprec_ge. lia.
            * unfold uro. replace (2 - fprec)%Z with (2 + - fprec)%Z by ring. rewrite bpow_plus. reflexivity.
          + unfold Rdiv. rewrite Rmult_1_l. now apply inv_n_big.
        - apply rnd_le_float; [apply float_1|exact J1].
      Qed.

      Lemma y_val i : (i <= n)%nat -> fin (y i) /\ val (y i) = val (par_next n i).
      Proof.
        intros Hi. destruct (x_val i Hi) as [X1 X2]. destruct step_val as (S1 & S2 & S3).
        destruct (par_val n Hn0 Hn' i Hi) as [PF _]. pose proof uro_pos.
        destruct (par_ok n Hn0 Hn' i Hi) as (_ & PR & _). pose proof fmax_ge as FM.
        destruct (add_ok (x i) (s_div (s_lit 1) (s_of_usize n)) X1 S1) as [A1 A2].
        { rewrite X2, Rabs_pos_eq by lra. lra. }
        destruct (add_ok (par n i) (s_div (s_lit 1) (s_of_usize n)) PF S1) as [B1 B2].
        { rewrite Rabs_pos_eq by lra. lra. }
        split; [exact A1|]. unfold par_next. now rewrite A2, B2, X2.
      Qed.

      Lemma inner_x i : (i <= n)%nat -> bspline_eval s (x i) = Ret (Ok (sample (x i))).
      Proof.
        intros Hi. destruct (x_val i Hi) as [X1 X2]. destruct (par_ok n Hn0 Hn' i Hi) as (_ & PR & _).
        apply sample_in; [exact X1|]. rewrite H0, H1, X2. exact PR.
      Qed.
      Lemma inner_y i : (i < n)%nat -> bspline_eval s (y i) = Ret (Ok (sample (y i))).
      Proof.
        intros Hi. destruct (y_val i ltac:(lia)) as [X1 X2]. destruct (par_next_ok n Hn0 Hn' i ltac:(lia)) as (_ & PR & _).
        apply sample_in; [exact X1|]. rewrite H0, H1, X2. exact PR.
      Qed.
      Lemma last_x : sample (x n) = last ps p_default.
      Proof.
        destruct (x_val n ltac:(lia)) as [X1 X2]. unfold sample.
        rewrite (eval_last D ks ps s (x n) p_default Hnew Hfin X1); [reflexivity|].
        rewrite H1, X2. destruct (par_val n Hn0 Hn' n ltac:(lia)) as [_ ->].
        unfold Rdiv. rewrite Rinv_r by (pose proof (n_pos n Hn0); lra). apply rnd_float, float_1.
      Qed.
      Lemma past_y : bspline_eval s (y n) = Ret (Err KnotDomainViolation).
      Proof.
        destruct (y_val n ltac:(lia)) as [Y1 Y2]. destruct step_val as (S1 & S2 & S3). pose proof uro_pos.
        apply sample_out. right. rewrite ltb_val by assumption. apply Rlt_bool_true.
        change (val hi) with (U C). rewrite H1, Y2. unfold par_next.
        destruct (par_val n Hn0 Hn' n ltac:(lia)) as [PF PV].
        unfold Rdiv in PV. rewrite Rinv_r in PV by (pose proof (n_pos n Hn0); lra). rewrite (rnd_float 1 float_1) in PV.
        pose proof fmax_ge as FM. destruct (add_ok (par n n) (s_div (s_lit 1) (s_of_usize n)) PF S1) as [B1 B2].
        { rewrite PV, Rabs_pos_eq by lra. lra. }
        rewrite B2, PV. apply Rlt_le_trans with (1 + 2 * uro); [lra|]. apply rnd_ge_float; [|lra].
        replace (1 + 2 * uro) with (succ radix2 fx 1).
        - apply generic_format_succ; [exact (fexp_correct fprec femax _)|apply float_1].
        - rewrite succ_eq_pos by lra. f_equal. change 1 with (bpow radix2 0). rewrite ulp_bpow.
          unfold fx, SpecFloat.fexp, SpecFloat.emin. pose proof femax_gt. pose proof fprec_ge.
          replace (Z.max (0 + 1 - fprec) (3 - femax - fprec)) with (1 + - fprec)%Z by lia.
          unfold uro. rewrite bpow_plus. reflexivity.
      Qed.

      Lemma arclen_unit_float : exists a, bspline_arclen s n = Ret a /\ fin a /\
        Rabs (val a - (Rsum (fun i => gap (P := P) (vals (sample (x i))) (vals (sample (y i)))) n
                       + gap (P := P) (vals (last ps p_default)) (fun _ => 0))) <= length_slack.
      Proof.
        destruct arclen_sum as (a & E1 & E2 & _ & E3). exists a. split; [exact E1|]. split; [exact E2|].
        replace (n + 1)%nat with (S n) in E3 at 1 by lia. cbn [Rsum] in E3.
        rewrite last_x in E3. unfold sample at 3 in E3. rewrite past_y in E3.
        replace (gap (P := P) (vals (last ps p_default)) (vals p_default))
          with (gap (P := P) (vals (last ps p_default)) (fun _ => 0)) in E3; [exact E3|].
        unfold gap. f_equal. apply Rsum_ext. intros i Hi. rewrite cw_default by exact Hi.
        destruct (lit_small 0) as [_ ->]; [lia|]. reflexivity.
      Qed.
    End Unit.
  End Bounds.

  (** no steps: 0/0 is NaN, both points are taken for the origin *)
  Lemma arclen_0_steps : exists a, bspline_arclen s 0 = Ret a /\ is a 0.
  Proof.
    rewrite arclen_samples. change (0 + 1)%nat with 1%nat. change (Outcome.range 0 1) with [0%nat]. cbn [for_in bind]. cbn zeta.
    set (t := s_add lo _). set (t' := s_add t _).
    assert (N : nan t).
    { unfold t. destruct lo as [| | |], hi as [| | |]; try discriminate; reflexivity. }
    assert (N' : nan t') by (unfold t'; destruct t; try discriminate; reflexivity).
    assert (E : forall u, nan u -> sample u = p_default).
    { intros u Hu. unfold sample. now rewrite (eval_nan D ks ps s u Hnew Hfin Hu). }
    rewrite (E t N), (E t' N'). eexists. split; [reflexivity|].
    assert (Z : p_sqlen (p_sub p_default p_default : P) = s_lit 0).
    { rewrite cw_sqlen.
      assert (G : forall l, (forall i, In i l -> (i < dim)%nat) ->
        fold_left (sq_step (p_sub p_default p_default)) l (s_lit 0) = s_lit 0).
      { induction l as [|i l IH]; intros Hl; [reflexivity|]. cbn [fold_left].
        replace (sq_step (p_sub p_default p_default) (s_lit 0) i) with (s_lit (T := float) 0).
        2:{ unfold sq_step. rewrite !cw_sub, !cw_default by (apply Hl; now left). reflexivity. }
        change (fold_left (sq_step (p_sub p_default p_default)) l (s_lit 0) = s_lit 0).
        apply IH. intros j Hj. apply Hl. now right. }
      apply G. intros i Hi. apply in_seq in Hi. lia. }
    rewrite Z. split; reflexivity.
  Qed.
End Length.
