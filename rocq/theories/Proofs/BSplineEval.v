(** B-splines in exact arithmetic: facts about splines returned by [new]. *)
From Coq Require Import Reals List Arith Bool Lia Lra Psatz.
From Verif Require Import Base.Outcome Base.Scalar Model.Point Model.BSpline Inst.RealInst
  Spec.Sums Spec.Lawful Spec.Metric Spec.Hull Spec.Basis
  Proofs.OutcomeFacts Proofs.PointFacts Proofs.RealTac Proofs.Metric Proofs.BSplineGeneric Proofs.BSplineReal.
Import ListNotations.
Local Open Scope R_scope.

(** an error other than [EvaluationAlphaIsNaN] does not come out of the scheme *)
Lemma for_result_err {S E : Type} (Bad : E -> Prop) (body : nat -> S -> outcome (result S E)) l s e :
  (forall i s e, body i s = Ret (Err e) -> Bad e) -> for_result l s body = Ret (Err e) -> Bad e.
Proof.
  intros H. revert s. induction l as [|i l IH]; intros s; cbn [for_result]; [discriminate|].
  destruct (body i s) as [[s'|e']| |] eqn:Eb; cbn [bind]; try discriminate.
  - apply IH.
  - intros [= <-]. now apply (H i s).
Qed.

Lemma Rltb_lt x y : Rltb x y = true <-> x < y.
Proof. destruct (Rltb_spec x y); split; auto; intros; try discriminate; contradiction. Qed.

Section Eval.
  Context {E : Eps} {P : Type} {PT : Point R P} {LP : LawfulPoint P}.

  Section New.
    Variables (D : nat) (ks : list R) (ps : list P) (s : bspline R P).
    Hypothesis Hnew : bspline_new D ks ps = Ret (Ok s).
    Local Notation C := (length ps).
    Local Notation U i := (nth i ks 0).

    Lemma fields : bs_degree s = D /\ bs_knots s = ks /\ bs_points s = ps.
    Proof. exact (new_fields D ks ps s Hnew). Qed.
    Lemma sizes : (D < C)%nat /\ length ks = (C + D + 1)%nat.
    Proof. destruct (proj1 (new_ok_iff D ks ps)) as (H1 & H2 & _); [eauto|]. auto. Qed.
    Lemma ks_sorted : sorted ks.
    Proof. exact (new_sorted D ks ps s Hnew). Qed.
    Lemma U_le i j : (i <= j < C + D + 1)%nat -> U i <= U j.
    Proof. intros H. apply ks_sorted. destruct sizes. lia. Qed.

    Lemma wf : well_formed s.
    Proof. exact (new_wf D ks ps s Hnew). Qed.
    Lemma ssrt : srt s.
    Proof. unfold srt. destruct fields as (_ & -> & _). apply ks_sorted. Qed.
    Lemma knot_U i : knot s i = U i.
    Proof. unfold knot. destruct fields as (_ & -> & _). reflexivity. Qed.

    (** C61 *)
    Lemma kind_spec :
      (bs_kind s = Clamped \/ bs_kind s = ClampedStart <-> U D - U 0 < eps) /\
      (bs_kind s = Clamped \/ bs_kind s = ClampedEnd <-> U (C + D) - U C < eps).
    Proof.
      destruct sizes as [HD HK].
      assert (F : all_close (U 0) (firstn (D + 1) ks) = true <-> U D - U 0 < eps).
      { unfold all_close. rewrite forallb_forall. split.
        - intros H. specialize (H (U D)).
          assert (I : In (U D) (firstn (D + 1) ks)).
          { pose proof (nth_window ks 0 (D + 1) D 0 ltac:(lia)) as W. cbn [Nat.add skipn] in W. rewrite <- W.
            apply nth_In. rewrite firstn_length. lia. }
          specialize (H I). rs_in H. rewrite Rltb_lt in H.
          pose proof (Rle_abs (U D - U 0)). lra.
        - intros H x Hx. apply (In_nth _ _ 0) in Hx. destruct Hx as (i & Hi & <-).
          rewrite firstn_length in Hi. change (firstn (D + 1) ks) with (firstn (D + 1) (skipn 0 ks)).
          rewrite nth_window by lia. cbn [Nat.add]. rs. apply Rltb_lt.
          pose proof (U_le 0 i ltac:(lia)). pose proof (U_le i D ltac:(lia)).
          rewrite Rabs_pos_eq by lra. lra. }
      assert (B : all_close (U (length ks - 1)) (skipn (length ks - D - 1) ks) = true <-> U (C + D) - U C < eps).
      { replace (length ks - 1)%nat with (C + D)%nat by lia. replace (length ks - D - 1)%nat with C by lia.
        assert (W : forall i, nth i (skipn C ks) 0 = U (C + i)).
        { intros i. assert (Z : firstn (length ks + S i) (skipn C ks) = skipn C ks).
          { apply firstn_all2. rewrite skipn_length. lia. }
          rewrite <- Z. apply nth_window. lia. }
        unfold all_close. rewrite forallb_forall. split.
        - intros H. specialize (H (U C)).
          assert (I : In (U C) (skipn C ks)).
          { replace (U C) with (nth 0 (skipn C ks) 0) by (rewrite W; f_equal; lia).
            apply nth_In. rewrite skipn_length. lia. }
          specialize (H I). rs_in H. rewrite Rltb_lt in H. rewrite Rabs_minus_sym in H.
          pose proof (Rle_abs (U (C + D) - U C)). lra.
        - intros H x Hx. apply (In_nth _ _ 0) in Hx. destruct Hx as (i & Hi & <-).
          rewrite skipn_length in Hi. rewrite W. rs. apply Rltb_lt.
          pose proof (U_le C (C + i) ltac:(lia)). pose proof (U_le (C + i) (C + D) ltac:(lia)).
          rewrite Rabs_minus_sym, Rabs_pos_eq by lra. lra. }
      destruct (new_cases D ks ps) as [(H1 & En)|[(H1 & H2 & En)|[(H1 & H2 & En)|[(H1 & H2 & H3 & En)|(H1 & H2 & H3 & En)]]]];
        rewrite Hnew in En; try discriminate. injection En as ->. cbn [bs_kind].
      change (@s_lit R (@RScalar E) 0) with 0.
      rewrite <- F, <- B.
      destruct (all_close (U 0) _), (all_close (U (length ks - 1)) _); cbn [kind_of];
        split; split; intuition (try discriminate).
    Qed.

    Lemma unclamped_degree : bs_kind s = Unclamped -> (1 <= D)%nat.
    Proof.
      intros Hu. destruct (Nat.eq_dec D 0) as [H0|]; [|lia]. exfalso.
      destruct kind_spec as [[_ H] _]. rewrite H0 in H. pose proof eps_pos.
      destruct H as [H|H]; [lra|congruence|congruence].
    Qed.

    (** ** the search for unclamped knots *)
    Lemma search_unclamped_some fuel first count t :
      (1 <= D)%nat -> (first + count = C + D + 1)%nat -> (count < fuel)%nat ->
      (first = 0%nat \/ ((first < length ks)%nat /\ U first <= t)) -> t < U C ->
      exists k, search_unclamped_loop fuel ks t first count = Ret (Some k) /\
        (first + count / 2 <= k)%nat /\ (k + 1 < length ks)%nat /\ t < U (k + 1) /\
        (t < U (first + count / 2 + 1) -> k = (first + count / 2)%nat).
    Proof.
      intros HD1. destruct sizes as [HD HK]. revert first count.
      induction fuel as [|n IH]; intros first count Hc Hf Hfirst Ht; [lia|].
      assert (Hlt : (first < C)%nat).
      { destruct Hfirst as [->|[Hl Hfi]]; [lia|]. destruct (le_lt_dec C first) as [Hle|]; [|assumption].
        exfalso. pose proof (U_le C first ltac:(lia)). lra. }
      cbn [search_unclamped_loop]. destruct (Nat.ltb_spec 0 count) as [Hp|Hp]; [|lia].
      cbn zeta. set (step := (count / 2)%nat) in *.
      assert (Hstep : (step + 1 < count)%nat).
      { assert (step < count - 1)%nat; [|lia]. apply Nat.div_lt_upper_bound; lia. }
      rewrite (idx_lt ks (first + step + 1) 0) by lia. cbn [bind]. rs.
      destruct (Rltb_spec t (U (first + step + 1))) as [H1|H1]; cbn [bind].
      { exists (first + step)%nat. split; [reflexivity|]. split; [lia|]. split; [lia|]. split; [exact H1|auto]. }
      assert (Hin : (first + step + 1 < C)%nat).
      { destruct (le_lt_dec C (first + step + 1)) as [Hle|]; [|assumption].
        exfalso. pose proof (U_le C (first + step + 1) ltac:(lia)). lra. }
      rewrite usub_le by lia. cbn [bind].
      destruct (Nat.eqb_spec (first + step + 1) (length ks - 2)) as [He|_]; [lia|]. cbn [bind].
      rewrite (idx_lt ks (first + step) 0) by lia. cbn [bind].
      pose proof (U_le (first + step) (first + step + 1) ltac:(lia)).
      rewrite Rleb_true by lra.
      destruct (IH (first + step + 1)%nat (count - (step + 1))%nat) as (k & Ek & Hk & Hk1 & Hb & _).
      + lia.
      + lia.
      + right. split; [lia|lra].
      + exact Ht.
      + exists k. split; [exact Ek|]. split; [lia|]. split; [lia|]. split; [exact Hb|]. intros; lra.
    Qed.

    Lemma span_unclamped t : bs_kind s = Unclamped -> t < U C ->
      exists k, knot_span_start_for_t s t = Ret (Some k) /\
        ((C + D + 1) / 2 <= k)%nat /\ (k + 1 < length ks)%nat /\ t < U (k + 1) /\
        (t < U ((C + D + 1) / 2 + 1) -> k = ((C + D + 1) / 2)%nat).
    Proof.
      intros Hu Ht. destruct sizes as [HD HK]. unfold knot_span_start_for_t. rewrite Hu.
      unfold knot_span_start_for_t_unclamped. destruct fields as (_ & -> & _). rewrite HK.
      destruct (search_unclamped_some (S (C + D + 1)) 0 (C + D + 1) t) as (k & Ek & H1 & H2 & H3 & H4);
        auto; try lia.
      - now apply unclamped_degree.
      - exists k. split; [exact Ek|]. split; [exact H1|]. split; [lia|]. split; [exact H3|exact H4].
    Qed.

    Lemma mid_range : (D <= (C + D + 1) / 2 <= C)%nat.
    Proof.
      destruct sizes as [HD HK]. split; [apply Nat.div_le_lower_bound; lia|].
      apply Nat.lt_succ_r, Nat.div_lt_upper_bound; lia.
    Qed.

    (** ** eval *)
    Lemma scheme_error t k e : knot_span_start_for_t s t = Ret (Some k) ->
      de_boor_iterative s t = Ret (Err e) -> e = EvaluationAlphaIsNaN.
    Proof.
      intros Hk. unfold de_boor_iterative.
      destruct (idx (bs_knots s) _) as [kc| |]; cbn [bind]; try discriminate.
      destruct (s_eqb t kc).
      { destruct (usub _ _) as [l| |]; cbn [bind]; try discriminate.
        destruct (idx (bs_points s) l); cbn [bind]; discriminate. }
      rewrite Hk. cbn [bind]. destruct (de_boor_load s k) as [d| |]; cbn [bind]; try discriminate.
      destruct (for_result _ _ _) as [[d'|e']| |] eqn:Ef; cbn [bind]; try discriminate.
      - destruct (idx d' _); cbn [bind]; discriminate.
      - intros [= ->]. revert Ef. apply (for_result_err (fun e => e = EvaluationAlphaIsNaN)).
        intros r d1 e1. apply (for_result_err (fun e => e = EvaluationAlphaIsNaN)).
        intros j d2 e2. unfold de_boor_body.
        destruct (alpha_of _ _ _ _ _ _) as [a| |]; cbn [bind]; try discriminate.
        destruct (s_is_nan a); [now intros [= <-]|].
        destruct (usub j 1) as [jm| |]; cbn [bind]; try discriminate.
        destruct (idx d2 jm) as [dl| |]; cbn [bind]; try discriminate.
        destruct (idx d2 j) as [dr| |]; cbn [bind]; try discriminate.
        destruct (set_idx _ _ _) as [dd| |]; cbn [bind]; discriminate.
    Qed.

    Lemma domain_U : knot_domain s = Ret (match bs_kind s with
         | Clamped | Unclamped => (U D, U C)
         | ClampedStart => (U D, U (C + D))
         | ClampedEnd => (U 0, U C)
         end).
    Proof.
      rewrite domain_value by apply wf. rewrite !knot_U. destruct fields as (-> & -> & ->).
      destruct sizes as [HD HK]. replace (length ks - 1)%nat with (C + D)%nat by lia. reflexivity.
    Qed.

    (** some span is always found inside the reported domain *)
    Lemma span_some t lo hi : knot_domain s = Ret (lo, hi) -> lo <= t <= hi -> t <> U C ->
      exists k, knot_span_start_for_t s t = Ret (Some k).
    Proof.
      intros Hd Ht Hne. rewrite domain_U in Hd. destruct sizes as [HD HK]. pose proof fields as (F1 & F2 & F3).
      pose proof (U_le 0 D ltac:(lia)). pose proof (U_le D C ltac:(lia)). pose proof (U_le C (C + D) ltac:(lia)).
      destruct (bs_kind s) eqn:Ek; injection Hd as <- <-.
      - destruct (span_unclamped t Ek) as (k & Es & _); [lra|]. eauto.
      - destruct (Rlt_le_dec t (U C)) as [Hlt|Hge].
        { destruct (span_found s t wf ssrt) as (k & Es & _); [congruence| |eauto].
          rewrite !knot_U, F1, F3. lra. }
        unfold knot_span_start_for_t. rewrite Ek. unfold knot_span_start_for_t_clamped_start. rewrite F1, F2, F3.
        repeat (first [rewrite usub_le by lia | rewrite (idx_lt ks _ 0) by lia]; cbn [bind]). rs.
        replace (length ks - 1)%nat with (C + D)%nat by lia.
        destruct (Reqb_spec t (U (C + D))) as [He|He]; [eauto|].
        rewrite !Rltb_false by lra. cbn [orb].
        destruct (search_loop_complete (S (length ks)) ks t D (C + D - 1)) as (k & Es & _); [lia|lia|lia| |eauto].
        replace (C + D - 1 + 1)%nat with (C + D)%nat by lia. lra.
      - unfold knot_span_start_for_t. rewrite Ek. unfold knot_span_start_for_t_clamped_end. rewrite F2, F3.
        repeat (first [rewrite usub_le by lia | rewrite (idx_lt ks _ 0) by lia]; cbn [bind]). rs.
        replace (C - 1 + 1)%nat with C by lia.
        rewrite Reqb_false by assumption. rewrite !Rltb_false by lra. cbn [orb].
        destruct (search_loop_complete (S (length ks)) ks t 0 (C - 1)) as (k & Es & _); [lia|lia|lia| |eauto].
        replace (C - 1 + 1)%nat with C by lia. lra.
      - destruct (span_found s t wf ssrt) as (k & Es & _); [congruence| |eauto].
        rewrite !knot_U, F1, F3. lra.
    Qed.

    (** C41 *)
    Lemma eval_domain_iff t lo hi : knot_domain s = Ret (lo, hi) ->
      (bspline_eval s t = Ret (Err KnotDomainViolation) <-> ~ (lo <= t <= hi)).
    Proof.
      intros Hd. unfold bspline_eval. rewrite Hd. cbn [bind fst snd]. rs.
      destruct (Rltb_spec t lo) as [H1|H1]; cbn [orb]; [split; [intros; lra|auto]|].
      destruct (Rltb_spec hi t) as [H2|H2]; [split; [intros; lra|auto]|].
      split; [|intros H; exfalso; apply H; lra].
      intros Hk _. destruct (Req_EM_T t (U C)) as [He|He].
      - assert (Ee : bspline_eval s t = de_boor_iterative s t).
        { unfold bspline_eval. rewrite Hd. cbn [bind fst snd]. rs. rewrite !Rltb_false by lra. reflexivity. }
        pose proof (eval_right_end s wf ssrt) as Hr. rewrite knot_U in Hr.
        destruct fields as (_ & _ & F3). rewrite F3 in Hr. rewrite <- He in Hr. congruence.
      - destruct (span_some t lo hi Hd ltac:(lra) He) as (k & Es).
        pose proof (scheme_error t k _ Es Hk). discriminate.
    Qed.

    (** C49, C43, C44: where the search finds the span of [t] *)
    Definition good_parameter (t : R) : Prop :=
      match bs_kind s with
      | Unclamped => U ((C + D + 1) / 2) <= t < U ((C + D + 1) / 2 + 1) /\ t < U C
      | _ => U D <= t < U C
      end.

    Lemma good_clamped t : bs_kind s <> Unclamped -> U D <= t < U C -> good_parameter t.
    Proof. intros Hk Ht. unfold good_parameter. destruct (bs_kind s); tauto. Qed.
    Lemma good_unclamped t : bs_kind s = Unclamped ->
      U ((C + D + 1) / 2) <= t < U ((C + D + 1) / 2 + 1) -> t < U C -> good_parameter t.
    Proof. intros Hk Ht Hc. unfold good_parameter. rewrite Hk. auto. Qed.

    Lemma span_good t : good_parameter t ->
      exists k, knot_span_start_for_t s t = Ret (Some k) /\ (D <= k < C)%nat /\ U k <= t < U (k + 1).
    Proof.
      intros Hg. unfold good_parameter in Hg. destruct sizes as [HD HK]. pose proof fields as (F1 & F2 & F3).
      assert (G : bs_kind s <> Unclamped -> U D <= t < U C ->
        exists k, knot_span_start_for_t s t = Ret (Some k) /\ (D <= k < C)%nat /\ U k <= t < U (k + 1)).
      { intros Hu Ht. destruct (span_found s t wf ssrt Hu) as (k & Es & Hk & _ & Hb).
        - rewrite !knot_U, F1, F3. exact Ht.
        - exists k. rewrite F1, F3 in Hk. rewrite F2 in Hb. auto. }
      destruct (bs_kind s) eqn:Ek; try (apply G; [congruence|assumption]).
      destruct Hg as [Hb Hc]. destruct (span_unclamped t Ek Hc) as (k & Es & _ & H2 & _ & H4).
      specialize (H4 (proj2 Hb)). subst k. exists ((C + D + 1) / 2)%nat. split; [exact Es|].
      split; [|exact Hb]. pose proof mid_range. split; [lia|].
      destruct (le_lt_dec C ((C + D + 1) / 2)) as [Hle|]; [|lia]. exfalso.
      pose proof (U_le C ((C + D + 1) / 2) ltac:(lia)). lra.
    Qed.

    Lemma eval_good t : good_parameter t -> exists k, (D <= k < C)%nat /\ U k <= t < U (k + 1) /\
      bspline_eval s t = Ret (Ok (entry s t k D D)).
    Proof.
      intros Hg. destruct (span_good t Hg) as (k & Es & Hk & Hb). exists k. split; [exact Hk|]. split; [exact Hb|].
      destruct sizes as [HD HK]. pose proof fields as (F1 & F2 & F3).
      assert (Hdom : U D <= t < U C).
      { split.
        - pose proof (U_le D k ltac:(lia)). lra.
        - pose proof (U_le (k + 1) C ltac:(lia)). lra. }
      pose proof (U_le 0 D ltac:(lia)). pose proof (U_le C (C + D) ltac:(lia)).
      rewrite eval_scheme.
      - destruct (de_boor_cases s t (Some k) (wf_roomy s wf) Es) as [(Ee & _)|(_ & [Eo|(_ & _ & r & j & _ & _ & Hn)])].
        + intros k' [= <-]. rewrite F1, F3. lia.
        + rs_in Ee. rewrite knot_U, F3, Reqb_false in Ee by lra. discriminate.
        + rewrite F1 in Eo. exact Eo.
        + discriminate.
      - apply wf.
      - apply ssrt.
      - rewrite !knot_U, F1, F2, F3. replace (length ks - 1)%nat with (C + D)%nat by lia.
        destruct (bs_kind s); lra.
    Qed.

    Lemma eval_last : bspline_eval s (U C) = Ret (Ok (nth (C - 1) ps p_default)).
    Proof.
      pose proof (eval_right_end s wf ssrt) as Hr. rewrite knot_U in Hr. unfold cpoint in Hr.
      destruct fields as (_ & _ & F3). rewrite F3 in Hr. exact Hr.
    Qed.

    (** C40 *)
    Lemma domain_right : bs_kind s = Clamped \/ bs_kind s = Unclamped -> knot_domain s = Ret (U D, U C).
    Proof. intros H. rewrite domain_U. destruct H as [-> | ->]; reflexivity. Qed.
    Lemma domain_too_large :
      (bs_kind s = ClampedStart -> knot_domain s = Ret (U D, U (C + D)) /\ U C + eps <= U (C + D)) /\
      (bs_kind s = ClampedEnd -> knot_domain s = Ret (U 0, U C) /\ U 0 + eps <= U D).
    Proof.
      rewrite domain_U. destruct kind_spec as [Hf Hb]. split; intros Hk; rewrite Hk in *; (split; [reflexivity|]).
      - destruct (Rlt_le_dec (U (C + D) - U C) eps) as [H|H]; [|lra].
        apply Hb in H. destruct H; discriminate.
      - destruct (Rlt_le_dec (U D - U 0) eps) as [H|H]; [|lra].
        apply Hf in H. destruct H; discriminate.
    Qed.

    (** C43 *)
    Lemma eval_ok t : bs_kind s <> Unclamped -> U D <= t <= U C -> exists p, bspline_eval s t = Ret (Ok p).
    Proof.
      intros Hk Ht. destruct (Req_EM_T t (U C)) as [->|Hne].
      - eexists. apply eval_last.
      - destruct (eval_good t) as (k & _ & _ & Ee); [|eauto]. apply good_clamped; [exact Hk|lra].
    Qed.

    (** C44 *)
    Lemma eval_value t : good_parameter t -> (forall i, (i < C + D)%nat -> U i < t -> eps <= t - U i) ->
      exists k p, (D <= k < C)%nat /\ U k <= t < U (k + 1) /\ bspline_eval s t = Ret (Ok p) /\
        forall i, (i < p_dim (P := P))%nat ->
          coord p i = spline_coord D ks ps t i - basis (fun m => U m) D k t * coord (nth k ps p_default) i.
    Proof.
      intros Hg Hsep. destruct (eval_good t Hg) as (k & Hk & Hb & Ee). exists k, (entry s t k D D).
      split; [exact Hk|]. split; [exact Hb|]. split; [exact Ee|]. intros i Hi.
      pose proof fields as (F1 & F2 & F3). destruct sizes as [HD HK].
      pose proof (entry_value s t k (wf_roomy s wf) ssrt) as V. rewrite F1, F2, F3 in V. unfold cpoint in V. rewrite F3 in V.
      apply V; auto; try lia.
      - split; [lia|exact Hb].
      - intros j Hj. rewrite !knot_U. pose proof (U_le j k ltac:(lia)).
        destruct (Req_EM_T t (U j)) as [He|He]; [left; exact He|right]. apply Hsep; [lia|lra].
    Qed.

    (** at a knot the value is right *)
    Lemma basis_knot_zero k t : (1 <= D)%nat -> (k < C)%nat -> t = U k -> t < U (k + 1) ->
      basis (fun m => U m) D k t = 0.
    Proof.
      intros H1 Hk Ht Hlt. destruct sizes as [HD HK].
      assert (Hz : forall p a, (k + 1 <= a)%nat -> (a + p <= C + D)%nat -> basis (fun m => U m) p a t = 0).
      { induction p as [|p IH]; intros a Ha Hap; cbn [basis].
        - destruct (Rle_dec (U a) t) as [Hle|]; [|reflexivity].
          pose proof (U_le (k + 1) a ltac:(lia)). lra.
        - rewrite !IH by lia. ring. }
      destruct D as [|D']; [lia|]. cbn [basis]. rewrite (Hz D' (k + 1)%nat) by lia.
      replace (t - U k) with 0 by lra. unfold quot at 1.
      destruct (Req_EM_T _ 0); [ring|]. unfold Rdiv. ring.
    Qed.

    Lemma eval_at_knot k : (1 <= D)%nat -> (k < C)%nat -> good_parameter (U k) -> U k < U (k + 1) ->
      (forall i, (i < C + D)%nat -> U i < U k -> eps <= U k - U i) ->
      exists p, bspline_eval s (U k) = Ret (Ok p) /\
        forall i, (i < p_dim (P := P))%nat -> coord p i = spline_coord D ks ps (U k) i.
    Proof.
      intros H1 Hk Hg Hlt Hsep. destruct (eval_value (U k) Hg Hsep) as (k' & p & Hk' & Hb & Ee & Hv).
      exists p. split; [exact Ee|]. intros i Hi. rewrite (Hv i Hi). destruct sizes as [HD HK].
      assert (k = k').
      { apply (span_unique ks k k' (U k) ks_sorted); split; try lia; try lra; exact Hb. }
      subst k'. rewrite (basis_knot_zero k (U k)) by (auto; lra). ring.
    Qed.

    (** C45 *)
    Lemma eval_first : (1 <= D)%nat -> (bs_kind s = Clamped \/ bs_kind s = ClampedStart) -> U D < U (D + 1) ->
      bspline_eval s (U D) = Ret (Ok (nth 0 ps p_default)).
    Proof.
      intros H1 Hk Hlt. destruct sizes as [HD HK]. pose proof fields as (F1 & F2 & F3).
      assert (HC : U (D + 1) <= U C) by (apply U_le; lia).
      destruct (eval_good (U D)) as (k & Hk' & Hb & Ee).
      { unfold good_parameter. destruct Hk as [-> | ->]; lra. }
      assert (k = D).
      { apply (span_unique ks k D (U D) ks_sorted); split; try lia; try lra; exact Hb. }
      subst k. rewrite Ee. do 2 f_equal.
      assert (Hw : forall r j, (1 <= r <= j)%nat -> (j <= D)%nat -> weight s (U D) D r j = 0).
      { intros r j Hr Hj. unfold weight. rs. rewrite knot_U, F1. replace (j + D - D)%nat with j by lia.
        rewrite Rltb_true; [reflexivity|].
        destruct kind_spec as [[Hf _] _]. specialize (Hf Hk). pose proof (U_le 0 j ltac:(lia)). lra. }
      assert (He : forall r, (r <= D)%nat -> forall j, (r <= j <= D)%nat ->
        entry s (U D) D r j = entry s (U D) D 0 (j - r)).
      { induction r as [|r IH]; intros Hr j Hj; [now rewrite Nat.sub_0_r|].
        apply lp_ext. intros i Hi. rewrite (entry_coord s (U D) D (S r) j i) by (auto; lia). rewrite (Hw (S r) j) by lia.
        replace (S r - 1)%nat with r by lia. rewrite (IH ltac:(lia) (j - 1)%nat ltac:(lia)).
        replace (j - 1 - r)%nat with (j - S r)%nat by lia. ring. }
      rewrite He by lia. rewrite Nat.sub_diag. cbn [entry]. rewrite F1.
      destruct (Nat.ltb_spec 0 D); [|lia]. unfold cpoint. rewrite F3. f_equal. lia.
    Qed.

    (** C60 *)
    Lemma eval_hull t : good_parameter t -> exists k p, (D <= k < C)%nat /\ U k <= t < U (k + 1) /\
      bspline_eval s t = Ret (Ok p) /\ in_hull (firstn D (skipn (k - D) ps) ++ [p_default]) p.
    Proof.
      intros Hg. destruct (eval_good t Hg) as (k & Hk & Hb & Ee). exists k, (entry s t k D D).
      split; [exact Hk|]. split; [exact Hb|]. split; [exact Ee|].
      pose proof fields as (F1 & F2 & F3). destruct sizes as [HD HK].
      pose proof (entry_hull s t k (wf_roomy s wf) ssrt) as V. rewrite F1, F2, F3 in V. apply V; [lia|]. split; [lia|exact Hb].
    Qed.
  End New.

  (** C50 *)
  Lemma entry_local (s s' : bspline R P) t k : bs_degree s' = bs_degree s -> bs_knots s' = bs_knots s ->
    (bs_degree s <= k)%nat ->
    (forall i, (k - bs_degree s <= i < k)%nat -> cpoint s' i = cpoint s i) ->
    forall r j, (r <= j <= bs_degree s)%nat -> entry s' t k r j = entry s t k r j.
  Proof.
    intros Hd Hk HD Hp. induction r as [|r IH]; intros j Hj; cbn [entry].
    - rewrite Hd. destruct (Nat.ltb_spec j (bs_degree s)); [|reflexivity]. apply Hp. lia.
    - rewrite !IH by lia. assert (Hw : weight s' t k (S r) j = weight s t k (S r) j); [|now rewrite Hw].
      unfold weight, knot. now rewrite Hd, Hk.
  Qed.

  Lemma new_kind_same D ks (ps ps' : list P) s s' : bspline_new D ks ps = Ret (Ok s) ->
    bspline_new D ks ps' = Ret (Ok s') -> bs_kind s = bs_kind s'.
  Proof.
    intros H H'.
    destruct (new_cases D ks ps) as [(H1 & En)|[(H1 & H2 & En)|[(H1 & H2 & En)|[(H1 & H2 & H3 & En)|(H1 & H2 & H3 & En)]]]];
      rewrite H in En; try discriminate. injection En as ->.
    destruct (new_cases D ks ps') as [(H1' & En')|[(H1' & H2' & En')|[(H1' & H2' & En')|[(H1' & H2' & H3' & En')|(H1' & H2' & H3' & En')]]]];
      rewrite H' in En'; try discriminate. injection En' as ->. reflexivity.
  Qed.

  Lemma eval_local D ks (ps ps' : list P) s s' t k :
    bspline_new D ks ps = Ret (Ok s) -> bspline_new D ks ps' = Ret (Ok s') ->
    good_parameter D ks ps s t -> (D <= k < length ps)%nat -> nth k ks 0 <= t < nth (k + 1) ks 0 ->
    (forall i, (k - D <= i < k)%nat -> nth i ps p_default = nth i ps' p_default) ->
    bspline_eval s t = bspline_eval s' t.
  Proof.
    intros H H' Hg Hk Hb Hp.
    pose proof (new_kind_same D ks ps ps' s s' H H') as Ek.
    pose proof (sizes D ks ps s H) as [HD HK]. pose proof (sizes D ks ps' s' H') as [HD' HK'].
    pose proof (fields D ks ps s H) as (F1 & F2 & F3). pose proof (fields D ks ps' s' H') as (F1' & F2' & F3').
    assert (Hg' : good_parameter D ks ps' s' t).
    { unfold good_parameter in *. rewrite <- Ek. replace (length ps') with (length ps) by lia. exact Hg. }
    destruct (eval_good D ks ps s H t Hg) as (k1 & Hk1 & Hb1 & E1).
    destruct (eval_good D ks ps' s' H' t Hg') as (k2 & Hk2 & Hb2 & E2).
    assert (k1 = k) by (apply (span_unique ks k1 k t (ks_sorted D ks ps s H)); split; auto; lia).
    assert (k2 = k) by (apply (span_unique ks k2 k t (ks_sorted D ks ps s H)); split; auto; lia).
    subst k1 k2. rewrite E1, E2. do 2 f_equal. symmetry.
    rewrite <- F1 at 2 3. rewrite <- F1 at 1 2.
    apply entry_local; try congruence; try lia.
    intros i Hi. unfold cpoint. rewrite F3, F3'. symmetry. apply Hp. lia.
  Qed.

  Lemma eval_local_span D ks (ps ps' : list P) s s' t k :
    bspline_new D ks ps = Ret (Ok s) -> bspline_new D ks ps' = Ret (Ok s') -> bs_kind s <> Unclamped ->
    (D <= k < length ps)%nat -> nth k ks 0 <= t < nth (k + 1) ks 0 ->
    (forall i, (k - D <= i < k)%nat -> nth i ps p_default = nth i ps' p_default) ->
    bspline_eval s t = bspline_eval s' t.
  Proof.
    intros H H' Hk Hk' Hb Hp. destruct (sizes D ks ps s H) as [HD HK].
    apply (eval_local D ks ps ps' s s' t k H H'); auto. apply good_clamped; auto. 
    pose proof (U_le D ks ps s H D k ltac:(lia)). pose proof (U_le D ks ps s H (k + 1) (length ps) ltac:(lia)). lra.
  Qed.
End Eval.
