(** Two points computed for the same point of a curve: the comparison made by the
    unit tests, [(p - q).squared_length() < EPSILON], in IEEE arithmetic. *)
From Coq Require Import Reals ZArith List Arith Lia Lra Bool.
From Flocq Require Import Core.Core IEEE754.BinarySingleNaN.
From Verif Require Import Base.Outcome Base.Scalar Model.Point Model.Line Model.Quadratic
  Model.Cubic Model.Bezier Inst.RealInst Inst.FloatInst Spec.Sums Spec.Lawful Spec.Bernstein
  Spec.Rounding Spec.Componentwise Spec.FloatPoints Spec.FloatCurves
  Proofs.OutcomeFacts Proofs.PointFacts Proofs.RealTac Proofs.FloatFacts Proofs.BezierGeneric
  Proofs.BezierReal Proofs.FloatEval Proofs.FloatBound Proofs.FloatNear Proofs.FloatSplit
  Proofs.FloatNorm Proofs.FloatLength Proofs.FloatCurve.
Import ListNotations.
Local Open Scope R_scope.

Section Agree.
  Context {F : Format} {P : Type} {PT : Point float P} {CP : CwPoint float P}.
  Notation D := (p_dim (P := P)).
  Variable M : R.
  Hypotheses (HM : 1 <= M) (HD0 : (0 < D)%nat) (HD : 4 * INR (D + 1) * uro <= 1).

  Lemma D_ge1 : 1 <= INR D.
  Proof. change 1 with (INR 1). apply le_INR. lia. Qed.
  Lemma eta_small : eta <= / 1024 * (uro * M).
  Proof.
    pose proof eta_uro. pose proof uro_pos.
    assert (uro * 1 <= uro * M) by (apply Rmult_le_compat_l; lra). lra.
  Qed.

  Section Compare.
    Variable K : R.
    Hypotheses (HK : 1 <= K) (HS : 2 * INR D * ((K * M) * (K * M)) * uro <= 1).

    Lemma KM_ge : M <= K * M.
    Proof. replace M with (1 * M) at 1 by ring. apply Rmult_le_compat_r; lra. Qed.
    Lemma KM_fmax : 5 * (K * M) <= fmax \/ K * M < 5.
    Proof.
      destruct (Rlt_or_le (K * M) 5) as [H|H]; [now right|left].
      pose proof bpow_prec_le_fmax as B. pose proof uro_pos as U. pose proof D_ge1 as D1. pose proof KM_ge.
      assert (E : uro * bpow radix2 fprec = 1).
      { unfold uro. rewrite <- bpow_plus. replace (- fprec + fprec)%Z with 0%Z by ring. reflexivity. }
      set (b := bpow radix2 fprec) in *. set (x := K * M) in *.
      assert (X2 : 5 * x <= x * x) by (apply Rmult_le_compat_r; lra).
      assert (0 <= x * x) by lra.
      assert (X3 : 1 * (x * x) <= 2 * INR D * (x * x)) by (apply Rmult_le_compat_r; lra).
      assert (X4 : x * x * uro <= 1).
      { eapply Rle_trans; [|exact HS]. apply Rmult_le_compat_r; lra. }
      assert (B0 : 0 < b) by apply bpow_gt_0.
      assert (X5 : x * x * uro * b <= 1 * b) by (apply Rmult_le_compat_r; lra).
      replace (x * x * uro * b) with (x * x * (uro * b)) in X5 by ring. rewrite E in X5. lra.
    Qed.
    Lemma KM_le : 5 * (K * M) <= fmax.
    Proof. destruct KM_fmax as [H|H]; [exact H|]. pose proof fmax_ge. lra. Qed.
    Lemma M4 : 4 * (102 / 100 * M) <= fmax.
    Proof. pose proof KM_le. pose proof KM_ge. lra. Qed.

    Lemma compare (p q : P) (x : nat -> R) (a b : R) : 0 <= a -> 0 <= b -> a + b <= K * (uro * M) ->
      (forall i, (i < D)%nat -> fin (cw p i) /\ Rabs (val (cw p i) - x i) <= a) ->
      (forall i, (i < D)%nat -> fin (cw q i) /\ Rabs (val (cw q i) - x i) <= b) ->
      s_ltb (p_sqlen (p_sub p q)) s_eps = true.
    Proof.
      intros Ha Hb Hab Hp Hq.
      pose proof uro_pos as U0. pose proof uro_small as U1. pose proof eta_pos as E0. pose proof D_ge1 as D1.
      pose proof (eta_sq) as ES. pose proof fmax_ge as FM. pose proof KM_le as KF. pose proof KM_ge as KG.
      set (e := K * (uro * M)) in *.
      assert (Ee : e = uro * (K * M)) by (unfold e; ring).
      assert (e0 : 0 <= e) by lra.
      assert (eF : e <= fmax).
      { rewrite Ee. assert (uro * (K * M) <= 1 * (K * M)) by (apply Rmult_le_compat_r; lra). lra. }
      set (W := (1 + uro) * e).
      assert (HW : forall i, (i < D)%nat -> fin (cw (p_sub p q) i) /\ Rabs (val (cw (p_sub p q) i)) <= W).
      { intros i Hi. rewrite cw_sub by exact Hi. destruct (Hp i Hi) as [A1 A2]. destruct (Hq i Hi) as [B1 B2].
        assert (Df : Rabs (val (cw p i) - val (cw q i)) <= e).
        { replace (val (cw p i) - val (cw q i)) with ((val (cw p i) - x i) - (val (cw q i) - x i)) by ring.
          unfold Rminus at 1. eapply Rle_trans; [apply Rabs_triang|]. rewrite Rabs_Ropp. lra. }
        destruct (sub_ok _ _ A1 B1) as [S1 S2]; [lra|]. split; [exact S1|]. rewrite S2.
        pose proof (rnd_sum_err (val (cw p i)) (- val (cw q i)) (val_float _) (float_opp _ (val_float _))) as R.
        fold (val (cw p i) - val (cw q i)) in R.
        set (w := val (cw p i) - val (cw q i)) in *.
        replace (rnd w) with ((rnd w - w) + w) by ring. eapply Rle_trans; [apply Rabs_triang|].
        assert (uro * Rabs w <= uro * e) by (apply Rmult_le_compat_l; lra). unfold W. lra. }
      assert (De : INR D * (e * e) <= / 2 * uro).
      { rewrite Ee.
        replace (INR D * (uro * (K * M) * (uro * (K * M)))) with (/ 2 * (2 * INR D * (K * M * (K * M)) * uro) * uro) by field.
        apply Rmult_le_compat_r; lra. }
      assert (W2 : W * W <= 1001 / 1000 * (e * e)).
      { unfold W. replace ((1 + uro) * e * ((1 + uro) * e)) with ((1 + uro) * (1 + uro) * (e * e)) by ring.
        apply Rmult_le_compat_r; [apply Rle_0_sqr|].
        assert (uro * uro <= / 2048 * uro) by (apply Rmult_le_compat_r; lra). lra. }
      assert (DW : INR D * (W * W) <= 1001 / 1000 * (/ 2 * uro)).
      { eapply Rle_trans; [apply Rmult_le_compat_l; [lra|exact W2]|].
        replace (INR D * (1001 / 1000 * (e * e))) with (1001 / 1000 * (INR D * (e * e))) by ring.
        apply Rmult_le_compat_l; lra. }
      destruct (sq_fold_err (p_sub p q) W D (Nat.le_refl _) HD) as (A & B & C); [lra|exact HW|].
      rewrite cw_sqlen. change (fun (acc : float) (i : nat) => s_add acc (s_mul (cw (p_sub p q) i) (cw (p_sub p q) i)))
        with (sq_step (p_sub p q)).
      set (s := fold_left (sq_step (p_sub p q)) (seq 0 D) (s_lit 0)) in *.
      set (S := Rsum (fun i => val (cw (p_sub p q) i) * val (cw (p_sub p q) i)) D) in *.
      assert (S0 : 0 <= S) by (apply Rsum_nonneg; intros; apply Rle_0_sqr).
      assert (S1 : S <= INR D * (W * W)).
      { unfold S. rewrite <- Rsum_const. apply Rsum_le. intros i Hi. destruct (HW i Hi) as [_ Z].
        rewrite <- (Rabs_pos_eq (val _ * val _)) by apply Rle_0_sqr. rewrite Rabs_mult.
        apply Rmult_le_compat; try apply Rabs_pos; exact Z. }
      destruct (pow_lin uro (D + 1)) as [X _]; [lra|lra|].
      assert (DU : INR D * uro <= INR (D + 1) * uro) by (apply Rmult_le_compat_r; [lra|apply le_INR; lia]).
      destruct (pow_lin uro D) as [_ Y]; [lra|lra|].
      assert (C1 : ((1 + uro) ^ (D + 1) - 1) * S <= / 2 * S) by (apply Rmult_le_compat_r; lra).
      assert (C2 : INR D * (1 + uro) ^ D * eta <= INR D * 2 * eta).
      { apply Rmult_le_compat_r; [lra|]. apply Rmult_le_compat_l; lra. }
      assert (C3 : INR D * 2 * eta <= 4 * (INR D * uro) * uro).
      { replace (4 * (INR D * uro) * uro) with (INR D * 2 * (2 * (uro * uro))) by ring.
        apply Rmult_le_compat_l; lra. }
      assert (C4 : 4 * (INR D * uro) * uro <= 1 * uro).
      { apply Rmult_le_compat_r; [lra|]. rewrite plus_INR in HD, DU. simpl (INR 1) in *. lra. }
      destruct eps_ok as [P1 P2]. rewrite ltb_val, P2 by assumption. apply Rlt_bool_true.
      apply Rabs_le_inv in C. lra.
    Qed.
  End Compare.

  (** the evaluators agree *)
  Section Evaluators.
    Variable t : float.
    Hypotheses (Ht : fin t) (Hr : 0 <= val t <= 1).
    Let ES := eta_small.
    Let EP := eta_pos.
    Let UP := uro_pos.

    Lemma uM0 : 0 <= uro * M.
    Proof. apply Rmult_le_pos; lra. Qed.
    Let UM := uM0.

    Lemma quad_agree (q : quad P) : 2 * INR D * ((30 * M) * (30 * M)) * uro <= 1 ->
      (forall p, In p (quad_control_points q) -> bounded M p) ->
      s_ltb (p_sqlen (p_sub (quad_eval_casteljau q t) (quad_eval q t))) s_eps = true.
    Proof.
      intros HS B. pose proof (M4 30 ltac:(lra) HS).
      assert (B1 : bounded M (q_start q)) by (apply B; cbn; auto).
      assert (B2 : bounded M (q_ctrl q)) by (apply B; cbn; auto).
      assert (B3 : bounded M (q_end q)) by (apply B; cbn; auto).
      apply (compare 30 ltac:(lra) HS) with (x := exact_at (quad_control_points q) (val t))
        (a := 11 * uro * M + 3 * eta) (b := 17 * uro * M + 5 * eta); try lra.
      - intros i Hi. apply (quad_casteljau_err M ltac:(lra) ltac:(lra) q t i Hi Ht Hr (B1 i Hi) (B2 i Hi) (B3 i Hi)).
      - intros i Hi. apply (quad_eval_err M ltac:(lra) ltac:(lra) q t i Hi Ht Hr (B1 i Hi) (B2 i Hi) (B3 i Hi)).
    Qed.

    Lemma cubic_agree (c : cubic P) : 2 * INR D * ((57 * M) * (57 * M)) * uro <= 1 ->
      (forall p, In p (cubic_control_points c) -> bounded M p) ->
      s_ltb (p_sqlen (p_sub (cubic_eval_casteljau c t) (cubic_eval c t))) s_eps = true.
    Proof.
      intros HS B. pose proof (M4 57 ltac:(lra) HS).
      assert (B1 : bounded M (c_start c)) by (apply B; cbn; auto).
      assert (B2 : bounded M (c_ctrl1 c)) by (apply B; cbn; auto).
      assert (B3 : bounded M (c_ctrl2 c)) by (apply B; cbn; auto).
      assert (B4 : bounded M (c_end c)) by (apply B; cbn; auto).
      apply (compare 57 ltac:(lra) HS) with (x := exact_at (cubic_control_points c) (val t))
        (a := 16 * uro * M + 4 * eta) (b := 39 * uro * M + 5 * eta); try lra.
      - intros i Hi. apply (cubic_casteljau_err M ltac:(lra) ltac:(lra) c t i Hi Ht Hr (B1 i Hi) (B2 i Hi) (B3 i Hi) (B4 i Hi)).
      - intros i Hi. apply (cubic_eval_err M ltac:(lra) ltac:(lra) c t i Hi Ht Hr (B1 i Hi) (B2 i Hi) (B3 i Hi) (B4 i Hi)).
    Qed.

    Lemma small_deg (k : nat) : (k <= 20)%nat -> 6 * INR k * uro <= 1.
    Proof.
      intros H. apply le_INR in H. simpl (INR 20) in H. pose proof uro_small. pose proof (pos_INR k).
      assert (INR k * uro <= 20 * / 2048) by (apply Rmult_le_compat; lra). lra.
    Qed.

    Lemma quad_generic_agree (q : quad P) : 2 * INR D * ((30 * M) * (30 * M)) * uro <= 1 ->
      (forall p, In p (quad_control_points q) -> bounded M p) ->
      exists p, bezier_eval (Bezier (quad_control_points q)) t = Ret p /\
        s_ltb (p_sqlen (p_sub (quad_eval q t) p)) s_eps = true.
    Proof.
      intros HS B. pose proof (M4 30 ltac:(lra) HS).
      assert (B1 : bounded M (q_start q)) by (apply B; cbn; auto).
      assert (B2 : bounded M (q_ctrl q)) by (apply B; cbn; auto).
      assert (B3 : bounded M (q_end q)) by (apply B; cbn; auto).
      destruct (bezier_eval_err_lin (quad_control_points q) t M) as (p & E & G); try assumption; try lra;
        [discriminate|apply small_deg; cbn; lia|exact (fun p i A Hi => B p A i Hi)|].
      exists p. split; [exact E|]. cbn [quad_control_points length] in G.
      replace (INR (3 - 1)) with 2 in G by (simpl; lra).
      apply (compare 30 ltac:(lra) HS) with (x := exact_at (quad_control_points q) (val t))
        (a := 17 * uro * M + 5 * eta) (b := 6 * 2 * uro * M + 5 * 2 * eta); try lra.
      - intros i Hi. apply (quad_eval_err M ltac:(lra) ltac:(lra) q t i Hi Ht Hr (B1 i Hi) (B2 i Hi) (B3 i Hi)).
      - exact G.
    Qed.

    Lemma cubic_generic_agree (c : cubic P) : 2 * INR D * ((58 * M) * (58 * M)) * uro <= 1 ->
      (forall p, In p (cubic_control_points c) -> bounded M p) ->
      exists p, bezier_eval (Bezier (cubic_control_points c)) t = Ret p /\
        s_ltb (p_sqlen (p_sub (cubic_eval c t) p)) s_eps = true.
    Proof.
      intros HS B. pose proof (M4 58 ltac:(lra) HS).
      assert (B1 : bounded M (c_start c)) by (apply B; cbn; auto).
      assert (B2 : bounded M (c_ctrl1 c)) by (apply B; cbn; auto).
      assert (B3 : bounded M (c_ctrl2 c)) by (apply B; cbn; auto).
      assert (B4 : bounded M (c_end c)) by (apply B; cbn; auto).
      destruct (bezier_eval_err_lin (cubic_control_points c) t M) as (p & E & G); try assumption; try lra;
        [discriminate|apply small_deg; cbn; lia|exact (fun p i A Hi => B p A i Hi)|].
      exists p. split; [exact E|]. cbn [cubic_control_points length] in G.
      replace (INR (4 - 1)) with 3 in G by (simpl; lra).
      apply (compare 58 ltac:(lra) HS) with (x := exact_at (cubic_control_points c) (val t))
        (a := 39 * uro * M + 5 * eta) (b := 6 * 3 * uro * M + 5 * 3 * eta); try lra.
      - intros i Hi. apply (cubic_eval_err M ltac:(lra) ltac:(lra) c t i Hi Ht Hr (B1 i Hi) (B2 i Hi) (B3 i Hi) (B4 i Hi)).
      - exact G.
    Qed.

    (** a half of a split evaluated at t against the whole curve at s *)
    Lemma lip_step (ps : list P) (s x : R) i (L : nat) : length ps = S (S L) -> (i < D)%nat ->
      (forall p, In p ps -> bounded M p) -> 0 <= s <= 1 -> 0 <= x <= 1 -> Rabs (s - x) <= 2 * uro ->
      Rabs (exact_at ps s i - exact_at ps x i) <= 4 * INR (S L) * (uro * M).
    Proof.
      intros Ln Hi B Hs Hx Hsx. unfold exact_at.
      eapply Rle_trans; [apply (poly_lip _ M)|].
      - rewrite map_length. lia.
      - exact Hs.
      - exact Hx.
      - intros y Hy. apply in_map_iff in Hy. destruct Hy as (p & <- & Hp). apply (B p Hp i Hi).
      - rewrite map_length, Ln. replace (S (S L) - 1)%nat with (S L) by lia.
        replace (4 * INR (S L) * (uro * M)) with (2 * INR (S L) * M * (2 * uro)) by ring.
        apply Rmult_le_compat_l; [|exact Hsx]. pose proof (pos_INR (S L)).
        apply Rmult_le_pos; [|lra]. apply Rmult_le_pos; lra.
    Qed.
  End Evaluators.

  Section Halves.
    Variables (at_ t : float).
    Hypotheses (Hat : fin at_) (Har : 0 <= val at_ <= 1) (Ht : fin t) (Hr : 0 <= val t <= 1).
    Let ES := eta_small.
    Let EP := eta_pos.
    Let UP := uro_pos.
    Let UM := uM0.

    Lemma left_range : 0 <= val at_ * val t <= 1.
    Proof. split; [apply Rmult_le_pos; lra|]. replace 1 with (1 * 1) by ring. apply Rmult_le_compat; lra. Qed.
    Lemma right_range : 0 <= val at_ + val t * (1 - val at_) <= 1.
    Proof.
      split; [apply Rplus_le_le_0_compat; [lra|apply Rmult_le_pos; lra]|].
      assert (val t * (1 - val at_) <= 1 * (1 - val at_)) by (apply Rmult_le_compat_r; lra). lra.
    Qed.

    Lemma near_bounded x r a b : near M x r 1 a b -> a <= 20 -> b <= 20 -> fin x /\ Rabs (val x) <= 102 / 100 * M.
    Proof.
      intros N Ha Hb. pose proof (near_size M ltac:(lra) x r 1 a b N) as S.
      destruct N as (A & _ & _ & _ & A0 & B0). split; [exact A|].
      pose proof uro_small. assert (eta <= / 1024 * (/ 2048 * M)).
      { eapply Rle_trans; [exact ES|]. apply Rmult_le_compat_l; [lra|]. apply Rmult_le_compat_r; lra. }
      assert (b * eta <= 20 * eta) by (apply Rmult_le_compat_r; lra).
      assert ((1 + a / 2048) * M <= (1 + 20 / 2048) * M) by (apply Rmult_le_compat_r; lra). lra.
    Qed.

    Lemma quad_halves_bounded (q l r : quad P) : 4 * M <= fmax -> quad_split q at_ = (l, r) ->
      (forall p, In p (quad_control_points q) -> bounded M p) ->
      forall p, In p (quad_control_points l ++ quad_control_points r) -> bounded (102 / 100 * M) p.
    Proof.
      intros H4 Hs B p Hp i Hi.
      assert (M0 : 0 <= M) by lra.
      assert (B1 : bounded_at M (q_start q) i) by (apply B; [cbn; auto|exact Hi]).
      assert (B2 : bounded_at M (q_ctrl q) i) by (apply B; [cbn; auto|exact Hi]).
      assert (B3 : bounded_at M (q_end q) i) by (apply B; [cbn; auto|exact Hi]).
      unfold quad_split in Hs. injection Hs as <- <-.
      apply (bounded_near M) in B1, B2, B3.
      pose proof (near_mix M M0 H4 at_ _ _ _ _ 0 0 Hat Har B1 B2 ltac:(lra) ltac:(lra)) as N1.
      pose proof (near_mix M M0 H4 at_ _ _ _ _ 0 0 Hat Har B2 B3 ltac:(lra) ltac:(lra)) as N2.
      pose proof (near_mix M M0 H4 at_ _ _ _ _ _ _ Hat Har N1 N2 ltac:(lra) ltac:(lra)) as N3.
      destruct Hp as [<-|[<-|[<-|[<-|[<-|[<-|[]]]]]]]; cbn [q_start q_ctrl q_end]; rewrite ?cw_mix by exact Hi;
        (eapply near_bounded; [eassumption|lra|lra]).
    Qed.

    Lemma cubic_halves_bounded (c l r : cubic P) : 4 * M <= fmax -> cubic_split c at_ = (l, r) ->
      (forall p, In p (cubic_control_points c) -> bounded M p) ->
      forall p, In p (cubic_control_points l ++ cubic_control_points r) -> bounded (102 / 100 * M) p.
    Proof.
      intros H4 Hs B p Hp i Hi.
      assert (M0 : 0 <= M) by lra.
      assert (B1 : bounded_at M (c_start c) i) by (apply B; [cbn; auto|exact Hi]).
      assert (B2 : bounded_at M (c_ctrl1 c) i) by (apply B; [cbn; auto|exact Hi]).
      assert (B3 : bounded_at M (c_ctrl2 c) i) by (apply B; [cbn; auto|exact Hi]).
      assert (B4 : bounded_at M (c_end c) i) by (apply B; [cbn; auto|exact Hi]).
      unfold cubic_split in Hs. injection Hs as <- <-.
      apply (bounded_near M) in B1, B2, B3, B4.
      pose proof (near_mix M M0 H4 at_ _ _ _ _ 0 0 Hat Har B1 B2 ltac:(lra) ltac:(lra)) as N1.
      pose proof (near_mix M M0 H4 at_ _ _ _ _ 0 0 Hat Har B2 B3 ltac:(lra) ltac:(lra)) as N2.
      pose proof (near_mix M M0 H4 at_ _ _ _ _ 0 0 Hat Har B3 B4 ltac:(lra) ltac:(lra)) as N3.
      pose proof (near_mix M M0 H4 at_ _ _ _ _ _ _ Hat Har N1 N2 ltac:(lra) ltac:(lra)) as N4.
      pose proof (near_mix M M0 H4 at_ _ _ _ _ _ _ Hat Har N2 N3 ltac:(lra) ltac:(lra)) as N5.
      pose proof (near_mix M M0 H4 at_ _ _ _ _ _ _ Hat Har N4 N5 ltac:(lra) ltac:(lra)) as N6.
      destruct Hp as [<-|[<-|[<-|[<-|[<-|[<-|[<-|[<-|[]]]]]]]]]; cbn [c_start c_ctrl1 c_ctrl2 c_end]; rewrite ?cw_mix by exact Hi;
        (eapply near_bounded; [eassumption|lra|lra]).
    Qed.

    (** whole curve at s and half at t are both near the exact curve at x *)
    Lemma halves (whole half : P) (ps hs : list P) (s x : R) (L : nat) K a b c : length ps = S (S L) ->
      (forall p, In p ps -> bounded M p) -> 0 <= s <= 1 -> 0 <= x <= 1 -> Rabs (s - x) <= 2 * uro ->
      1 <= K -> 2 * INR D * ((K * M) * (K * M)) * uro <= 1 -> 0 <= a -> 0 <= b -> 0 <= c ->
      a + 4 * INR (S L) * (uro * M) + (b + c) <= K * (uro * M) ->
      (forall i, (i < D)%nat -> fin (cw whole i) /\ Rabs (val (cw whole i) - exact_at ps s i) <= a) ->
      (forall i, (i < D)%nat -> fin (cw half i) /\ Rabs (val (cw half i) - exact_at hs (val t) i) <= b) ->
      (forall i, (i < D)%nat -> Rabs (exact_at hs (val t) i - exact_at ps x i) <= c) ->
      s_ltb (p_sqlen (p_sub whole half)) s_eps = true.
    Proof.
      intros Ln B Hs Hx Hsx HK HS Ha Hb Hc Hab Hw Hh Hc'.
      pose proof (pos_INR (S L)).
      assert (0 <= 4 * INR (S L) * (uro * M)) by (apply Rmult_le_pos; lra).
      apply (compare K HK HS) with (x := exact_at ps x) (a := a + 4 * INR (S L) * (uro * M)) (b := b + c); try lra.
      - intros i Hi. destruct (Hw i Hi) as [A1 A2]. split; [exact A1|].
        pose proof (lip_step ps s x i L Ln Hi B Hs Hx Hsx).
        replace (val (cw whole i) - exact_at ps x i)
          with ((val (cw whole i) - exact_at ps s i) + (exact_at ps s i - exact_at ps x i)) by ring.
        eapply Rle_trans; [apply Rabs_triang|]. lra.
      - intros i Hi. destruct (Hh i Hi) as [A1 A2]. split; [exact A1|]. specialize (Hc' i Hi).
        replace (val (cw half i) - exact_at ps x i)
          with ((val (cw half i) - exact_at hs (val t) i) + (exact_at hs (val t) i - exact_at ps x i)) by ring.
        eapply Rle_trans; [apply Rabs_triang|]. lra.
    Qed.

    Lemma quad_split_agree (q l r : quad P) (s : float) : 2 * INR D * ((55 * M) * (55 * M)) * uro <= 1 ->
      quad_split q at_ = (l, r) -> (forall p, In p (quad_control_points q) -> bounded M p) ->
      fin s -> 0 <= val s <= 1 ->
      (Rabs (val s - val at_ * val t) <= 2 * uro -> s_ltb (p_sqlen (p_sub (quad_eval q s) (quad_eval l t))) s_eps = true) /\
      (Rabs (val s - (val at_ + val t * (1 - val at_))) <= 2 * uro ->
         s_ltb (p_sqlen (p_sub (quad_eval q s) (quad_eval r t))) s_eps = true).
    Proof.
      intros HS Hsp B Hs Hsr. pose proof (M4 55 ltac:(lra) HS) as H4.
      assert (M0 : 0 <= M) by lra.
      assert (B1 : bounded M (q_start q)) by (apply B; cbn; auto).
      assert (B2 : bounded M (q_ctrl q)) by (apply B; cbn; auto).
      assert (B3 : bounded M (q_end q)) by (apply B; cbn; auto).
      pose proof (quad_halves_bounded q l r ltac:(lra) Hsp B) as HB.
      assert (HE : forall h, (forall p, In p (quad_control_points h) -> bounded (102 / 100 * M) p) ->
        forall i, (i < D)%nat -> fin (cw (quad_eval h t) i) /\
          Rabs (val (cw (quad_eval h t) i) - exact_at (quad_control_points h) (val t) i) <= 17 * uro * (102 / 100 * M) + 5 * eta).
      { intros h Hh i Hi. refine (quad_eval_err (102 / 100 * M) ltac:(lra) H4 h t i Hi Ht Hr _ _ _); apply Hh; try exact Hi; cbn; auto. }
      assert (WE : forall i, (i < D)%nat -> fin (cw (quad_eval q s) i) /\
          Rabs (val (cw (quad_eval q s) i) - exact_at (quad_control_points q) (val s) i) <= 17 * uro * M + 5 * eta).
      { intros i Hi. exact (quad_eval_err M ltac:(lra) ltac:(lra) q s i Hi Hs Hsr (B1 i Hi) (B2 i Hi) (B3 i Hi)). }
      split; intros Hd.
      - apply (halves (quad_eval q s) (quad_eval l t) (quad_control_points q) (quad_control_points l) (val s)
                 (val at_ * val t) 1 55 (17 * uro * M + 5 * eta) (17 * uro * (102 / 100 * M) + 5 * eta) (11 * uro * M + 3 * eta));
          try assumption; try lra; try reflexivity; try exact left_range.
        + replace (INR 2) with 2 by (simpl; lra). lra.
        + apply HE. intros p Hp. apply HB, in_or_app. now left.
        + intros i Hi. now apply (quad_split_err M ltac:(lra) ltac:(lra) q at_ i Hi Hat Har (B1 i Hi) (B2 i Hi) (B3 i Hi) l r Hsp).
      - apply (halves (quad_eval q s) (quad_eval r t) (quad_control_points q) (quad_control_points r) (val s)
                 (val at_ + val t * (1 - val at_)) 1 55 (17 * uro * M + 5 * eta) (17 * uro * (102 / 100 * M) + 5 * eta) (11 * uro * M + 3 * eta));
          try assumption; try lra; try reflexivity; try exact right_range.
        + replace (INR 2) with 2 by (simpl; lra). lra.
        + apply HE. intros p Hp. apply HB, in_or_app. now right.
        + intros i Hi. now apply (quad_split_err M ltac:(lra) ltac:(lra) q at_ i Hi Hat Har (B1 i Hi) (B2 i Hi) (B3 i Hi) l r Hsp).
    Qed.

    Lemma cubic_split_agree (c l r : cubic P) (s : float) : 2 * INR D * ((108 * M) * (108 * M)) * uro <= 1 ->
      cubic_split c at_ = (l, r) -> (forall p, In p (cubic_control_points c) -> bounded M p) ->
      fin s -> 0 <= val s <= 1 ->
      (Rabs (val s - val at_ * val t) <= 2 * uro -> s_ltb (p_sqlen (p_sub (cubic_eval c s) (cubic_eval l t))) s_eps = true) /\
      (Rabs (val s - (val at_ + val t * (1 - val at_))) <= 2 * uro ->
         s_ltb (p_sqlen (p_sub (cubic_eval c s) (cubic_eval r t))) s_eps = true).
    Proof.
      intros HS Hsp B Hs Hsr. pose proof (M4 108 ltac:(lra) HS) as H4.
      assert (M0 : 0 <= M) by lra.
      assert (B1 : bounded M (c_start c)) by (apply B; cbn; auto).
      assert (B2 : bounded M (c_ctrl1 c)) by (apply B; cbn; auto).
      assert (B3 : bounded M (c_ctrl2 c)) by (apply B; cbn; auto).
      assert (B4 : bounded M (c_end c)) by (apply B; cbn; auto).
      pose proof (cubic_halves_bounded c l r ltac:(lra) Hsp B) as HB.
      assert (HE : forall h, (forall p, In p (cubic_control_points h) -> bounded (102 / 100 * M) p) ->
        forall i, (i < D)%nat -> fin (cw (cubic_eval h t) i) /\
          Rabs (val (cw (cubic_eval h t) i) - exact_at (cubic_control_points h) (val t) i) <= 39 * uro * (102 / 100 * M) + 5 * eta).
      { intros h Hh i Hi. refine (cubic_eval_err (102 / 100 * M) ltac:(lra) H4 h t i Hi Ht Hr _ _ _ _); apply Hh; try exact Hi; cbn; auto. }
      assert (WE : forall i, (i < D)%nat -> fin (cw (cubic_eval c s) i) /\
          Rabs (val (cw (cubic_eval c s) i) - exact_at (cubic_control_points c) (val s) i) <= 39 * uro * M + 5 * eta).
      { intros i Hi. exact (cubic_eval_err M ltac:(lra) ltac:(lra) c s i Hi Hs Hsr (B1 i Hi) (B2 i Hi) (B3 i Hi) (B4 i Hi)). }
      split; intros Hd.
      - apply (halves (cubic_eval c s) (cubic_eval l t) (cubic_control_points c) (cubic_control_points l) (val s)
                 (val at_ * val t) 2 108 (39 * uro * M + 5 * eta) (39 * uro * (102 / 100 * M) + 5 * eta) (16 * uro * M + 4 * eta));
          try assumption; try lra; try reflexivity; try exact left_range.
        + replace (INR 3) with 3 by (simpl; lra). lra.
        + apply HE. intros p Hp. apply HB, in_or_app. now left.
        + intros i Hi. now apply (cubic_split_err M ltac:(lra) ltac:(lra) c at_ i Hi Hat Har (B1 i Hi) (B2 i Hi) (B3 i Hi) (B4 i Hi) l r Hsp).
      - apply (halves (cubic_eval c s) (cubic_eval r t) (cubic_control_points c) (cubic_control_points r) (val s)
                 (val at_ + val t * (1 - val at_)) 2 108 (39 * uro * M + 5 * eta) (39 * uro * (102 / 100 * M) + 5 * eta) (16 * uro * M + 4 * eta));
          try assumption; try lra; try reflexivity; try exact right_range.
        + replace (INR 3) with 3 by (simpl; lra). lra.
        + apply HE. intros p Hp. apply HB, in_or_app. now right.
        + intros i Hi. now apply (cubic_split_err M ltac:(lra) ltac:(lra) c at_ i Hi Hat Har (B1 i Hi) (B2 i Hi) (B3 i Hi) (B4 i Hi) l r Hsp).
    Qed.

    Section Generic.
      Variables (ps : list P) (L : nat).
      Hypotheses (Ln : length ps = S (S L)) (HS : 2 * INR D * ((30 * INR (S L) * M) * (30 * INR (S L) * M)) * uro <= 1)
                 (B : forall p, In p ps -> bounded M p).
      Notation G := (INR (S L)).

      Lemma G_ge1 : 1 <= G.
      Proof. change 1 with (INR 1). apply le_INR. lia. Qed.
      Lemma G_small : 6 * G * uro <= 1.
      Proof.
        pose proof G_ge1. pose proof D_ge1.
        assert (X : 1 <= 2 * INR D) by lra.
        set (y := 30 * G * M) in *.
        assert (Y1 : 30 * G * 1 <= y) by (apply Rmult_le_compat_l; lra).
        assert (Y2 : 6 * G * 1 <= y * y) by (apply Rmult_le_compat; lra).
        assert (1 * (y * y) <= 2 * INR D * (y * y)) by (apply Rmult_le_compat_r; lra).
        assert (6 * G * uro <= 2 * INR D * (y * y) * uro) by (apply Rmult_le_compat_r; lra). lra.
      Qed.
      Lemma G_KM : 5 * (30 * G * M) <= fmax.
      Proof. pose proof G_ge1. apply (KM_le (30 * G)); [lra|exact HS]. Qed.
      Lemma G_M : M <= G * M.
      Proof. pose proof G_ge1. replace M with (1 * M) at 1 by ring. apply Rmult_le_compat_r; lra. Qed.
      Lemma G_H4 : 4 * M <= fmax.
      Proof. pose proof G_KM. pose proof G_M. lra. Qed.
      Lemma G_err : 0 <= 6 * G * uro * M + 5 * G * eta <= 101 / 100 * M.
      Proof.
        pose proof G_ge1. pose proof G_small as GS.
        assert (E1 : 0 <= G * eta) by (apply Rmult_le_pos; lra).
        assert (E2 : 0 <= G * (uro * M)) by (apply Rmult_le_pos; lra).
        assert (E3 : 6 * G * uro * M <= 1 * M) by (apply Rmult_le_compat_r; lra).
        assert (E4 : G * eta <= G * (/ 1024 * (uro * M))) by (apply Rmult_le_compat_l; lra).
        lra.
      Qed.

      Lemma bezier_halves : exists l r, bezier_split (Bezier ps) at_ = Ret (Bezier l, Bezier r) /\
        length l = S (S L) /\ length r = S (S L) /\
        (forall p, In p l -> bounded (201 / 100 * M) p) /\ (forall p, In p r -> bounded (201 / 100 * M) p) /\
        forall i, (i < D)%nat ->
          Rabs (exact_at l (val t) i - exact_at ps (val at_ * val t) i) <= 6 * G * uro * M + 5 * G * eta /\
          Rabs (exact_at r (val t) i - exact_at ps (val at_ + val t * (1 - val at_)) i) <= 6 * G * uro * M + 5 * G * eta.
      Proof.
        set (d := p_default (P := P)).
        assert (Hne : ps <> []) by (destruct ps; [discriminate|discriminate]).
        pose proof G_small as GS. pose proof G_H4 as H4. pose proof G_err as GE.
        assert (M0 : 0 <= M) by lra.
        assert (Nd : (length ps - 1)%nat = S L) by lia.
        destruct (bezier_split_err ps at_ M d Hne) as (l & r & Hs & Ll & Lr & _ & _ & _ & E);
          try assumption; [now rewrite Nd|exact (fun p i A Hi => B p A i Hi)|].
        destruct (bezier_split_closed ps at_ d) as (l' & r' & Hs' & _ & _ & Vl & Vr).
        rewrite Hs in Hs'. injection Hs' as <- <-.
        exists l, r. split; [exact Hs|]. rewrite <- Ln. split; [exact Ll|]. split; [exact Lr|].
        assert (TE : forall m j i, (i < D)%nat -> (j + m <= S L)%nat ->
          fin (cw (tri at_ (fun k => nth k ps d) m j) i) /\
          Rabs (val (cw (tri at_ (fun k => nth k ps d) m j) i)) <= 201 / 100 * M).
        { intros m j i Hi Hj.
          destruct (tri_err at_ (fun k => nth k ps d) m j i M (S L) Hat Har Hi) as [A B']; auto; try lia.
          - intros k Hk. apply B; [|exact Hi]. apply nth_In. lia.
          - now apply no_overflow_cond.
          - split; [exact A|].
            assert (C : casteljau_err M m <= 6 * G * uro * M + 5 * G * eta).
            { eapply Rle_trans; [apply casteljau_err_mono with (k := S L); [exact M0|lia]|].
              now apply casteljau_err_lin. }
            assert (Rabs (dc (val at_) m (fun k => val (cw (nth k ps d) i)) j) <= M).
            { apply Rabs_le. apply dc_between; [exact Har|]. intros k Hk. apply Rabs_le_inv.
              apply B; [|exact Hi]. apply nth_In. lia. }
            replace (val (cw (tri at_ (fun k => nth k ps d) m j) i))
              with ((val (cw (tri at_ (fun k => nth k ps d) m j) i) - dc (val at_) m (fun k => val (cw (nth k ps d) i)) j)
                    + dc (val at_) m (fun k => val (cw (nth k ps d) i)) j) by ring.
            eapply Rle_trans; [apply Rabs_triang|]. lra. }
        split; [|split].
        - intros p Hp i Hi. apply (In_nth _ _ d) in Hp. destruct Hp as (k & Hk & <-).
          rewrite Vl by lia. apply TE; [exact Hi|lia].
        - intros p Hp i Hi. apply (In_nth _ _ d) in Hp. destruct Hp as (k & Hk & <-).
          rewrite Vr by lia. apply TE; [exact Hi|lia].
        - intros i Hi. rewrite Nd in E. apply (E i Hi). exact Hr.
      Qed.

      Lemma bezier_split_agree (s : float) : fin s -> 0 <= val s <= 1 ->
        exists l r w pl pr, bezier_split (Bezier ps) at_ = Ret (l, r) /\
          bezier_eval (Bezier ps) s = Ret w /\ bezier_eval l t = Ret pl /\ bezier_eval r t = Ret pr /\
          (Rabs (val s - val at_ * val t) <= 2 * uro -> s_ltb (p_sqlen (p_sub w pl)) s_eps = true) /\
          (Rabs (val s - (val at_ + val t * (1 - val at_))) <= 2 * uro -> s_ltb (p_sqlen (p_sub w pr)) s_eps = true).
      Proof.
        intros Hs Hsr. pose proof G_ge1 as G1. pose proof G_small as GS. pose proof G_H4 as H4. pose proof G_KM as GK.
        pose proof G_M as GM. pose proof G_err as GE.
        assert (Hne : forall (q : list P), length q = S (S L) -> q <> []) by (intros [|]; discriminate).
        assert (Nd : forall (q : list P), length q = S (S L) -> (length q - 1)%nat = S L) by (intros; lia).
        destruct bezier_halves as (l & r & Hsp & Ll & Lr & Bl & Br & E).
        destruct (bezier_eval_err_lin ps s M (Hne ps Ln)) as (w & Ew & Gw); try assumption; try lra;
          [now rewrite Nd|exact (fun p i A Hi => B p A i Hi)|].
        destruct (bezier_eval_err_lin l t (201 / 100 * M) (Hne l Ll)) as (pl & El & Gl); try assumption; try lra;
          [now rewrite Nd|exact (fun p i A Hi => Bl p A i Hi)|].
        destruct (bezier_eval_err_lin r t (201 / 100 * M) (Hne r Lr)) as (pr & Er & Gr); try assumption; try lra;
          [now rewrite Nd|exact (fun p i A Hi => Br p A i Hi)|].
        rewrite Nd in Gw, Gl, Gr by assumption.
        exists (Bezier l), (Bezier r), w, pl, pr. do 4 (split; [assumption|]).
        assert (E1 : 0 <= G * eta) by (apply Rmult_le_pos; lra).
        assert (E2 : 0 <= G * (uro * M)) by (apply Rmult_le_pos; lra).
        assert (E4 : G * eta <= G * (/ 1024 * (uro * M))) by (apply Rmult_le_compat_l; lra).
        split; intros Hd.
        - apply (halves w pl ps l (val s) (val at_ * val t) L (30 * G) (6 * G * uro * M + 5 * G * eta)
                   (6 * G * uro * (201 / 100 * M) + 5 * G * eta) (6 * G * uro * M + 5 * G * eta));
            try assumption; try lra; try exact left_range.
          intros i Hi. now apply E.
        - apply (halves w pr ps r (val s) (val at_ + val t * (1 - val at_)) L (30 * G) (6 * G * uro * M + 5 * G * eta)
                   (6 * G * uro * (201 / 100 * M) + 5 * G * eta) (6 * G * uro * M + 5 * G * eta));
            try assumption; try lra; try exact right_range.
          intros i Hi. now apply E.
      Qed.
    End Generic.
  End Halves.
End Agree.
