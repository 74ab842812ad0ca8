(** Proofs for C112: which parameters make [BSpline::eval] panic in floating point. *)
From Coq Require Import Reals ZArith List Arith Lia Lra Bool.
From Flocq Require Import Core.Core IEEE754.BinarySingleNaN.
From Verif Require Import Base.Outcome Base.Scalar Model.Point Model.BSpline
  Inst.RealInst Inst.FloatInst Spec.Sums Spec.Lawful Spec.Points Spec.Basis Spec.Rounding Spec.Probes
  Spec.Componentwise Spec.FloatPoints Spec.FloatSplines
  Proofs.OutcomeFacts Proofs.PointFacts Proofs.RealTac Proofs.FloatFacts Proofs.FloatBox
  Proofs.FloatSpline Proofs.BSplineGeneric Proofs.BSplineReal Proofs.BSplineEval Proofs.BSplinePanic Proofs.FloatSplineEval
  Proofs.SplineSamples.
Import ListNotations.
Local Open Scope R_scope.

(** ** Any scalar type: a panic means a span outside the control points *)
Section Generic.
  Context {T P : Type} {ST : Scalar T} {PT : Point T P}.

  Lemma de_boor_panics (s : bspline T P) t : well_formed s -> (1 <= bs_degree s)%nat ->
    (de_boor_iterative s t = Panic <->
     s_eqb t (knot s (length (bs_points s))) = false /\
     (knot_span_start_for_t s t = Panic \/
      exists k, knot_span_start_for_t s t = Ret (Some k) /\ ~ (bs_degree s <= k <= length (bs_points s))%nat)).
  Proof.
    intros W HD. pose proof W as [W1 W2].
    destruct (knot_span_start_for_t s t) as [[k|]| |] eqn:Es.
    - destruct (le_lt_dec (bs_degree s) k) as [A|A]; [destruct (le_lt_dec k (length (bs_points s))) as [B|B]|].
      + destruct (de_boor_cases s t (Some k) (wf_roomy s W) Es) as [(E1 & E2)|(E1 & E2)].
        * intros k' [= <-]. lia.
        * rewrite E2, E1. split; [discriminate|]. now intros [? _].
        * split.
          -- destruct E2 as [E2|(E2 & _)]; rewrite E2; discriminate.
          -- intros (_ & [?|(k' & [= <-] & H)]); [discriminate|]. now contradiction H.
      + unfold de_boor_iterative. rewrite knot_idx by lia. cbn [bind].
        destruct (s_eqb t (knot s (length (bs_points s)))) eqn:Ee.
        * rewrite usub_le by lia. cbn [bind]. rewrite (idx_lt _ _ p_default) by lia. split; [discriminate|]. now intros [? _].
        * rewrite Es. cbn [bind]. rewrite load_panics; [|exact (wf_roomy _ W)|lia|lia]. split; [|reflexivity].
          intros _. split; [reflexivity|]. right. exists k. split; [reflexivity|lia].
      + unfold de_boor_iterative. rewrite knot_idx by lia. cbn [bind].
        destruct (s_eqb t (knot s (length (bs_points s)))) eqn:Ee.
        * rewrite usub_le by lia. cbn [bind]. rewrite (idx_lt _ _ p_default) by lia. split; [discriminate|]. now intros [? _].
        * rewrite Es. cbn [bind]. rewrite load_panics; [|exact (wf_roomy _ W)|lia|lia]. split; [|reflexivity].
          intros _. split; [reflexivity|]. right. exists k. split; [reflexivity|lia].
    - unfold de_boor_iterative. rewrite knot_idx by lia. cbn [bind].
      destruct (s_eqb t (knot s (length (bs_points s)))) eqn:Ee.
      + rewrite usub_le by lia. cbn [bind]. rewrite (idx_lt _ _ p_default) by lia. split; [discriminate|]. now intros [? _].
      + rewrite Es. cbn [bind]. split; [discriminate|]. intros (_ & [?|(k' & ? & _)]); discriminate.
    - unfold de_boor_iterative. rewrite knot_idx by lia. cbn [bind].
      destruct (s_eqb t (knot s (length (bs_points s)))) eqn:Ee.
      + rewrite usub_le by lia. cbn [bind]. rewrite (idx_lt _ _ p_default) by lia. split; [discriminate|]. now intros [? _].
      + rewrite Es. cbn [bind]. split; auto.
    - now apply span_terminates in Es.
  Qed.
End Generic.

Lemma kind_eq k k' : (k' = Clamped \/ k' = ClampedStart <-> k = Clamped \/ k = ClampedStart) ->
  (k' = Clamped \/ k' = ClampedEnd <-> k = Clamped \/ k = ClampedEnd) -> k' = k.
Proof.
  intros [A B] [A' B']. destruct k', k; try reflexivity; exfalso.
  all: first [destruct A as [H|H]; [solve [auto]|discriminate H|discriminate H] | destruct B as [H|H]; [solve [auto]|discriminate H|discriminate H]
    | destruct A' as [H|H]; [solve [auto]|discriminate H|discriminate H] | destruct B' as [H|H]; [solve [auto]|discriminate H|discriminate H]].
Qed.

(** ** Floats: the same decisions as on the reals they stand for *)
Section Float.
  Context {F : Format} {P : Type} {PT : Point float P} {CP : CwPoint float P}.

  Lemma search_unclamped_val {E : Eps} fuel ks (t : float) : (forall x, In x ks -> fin x) -> fin t -> forall first count,
    search_unclamped_loop fuel ks t first count = search_unclamped_loop fuel (map val ks) (val t) first count.
  Proof.
    intros Hk Ht. induction fuel as [|n IH]; intros first count; cbn [search_unclamped_loop];
      (destruct (0 <? count)%nat; [|reflexivity]); [reflexivity|]. cbn zeta.
    rewrite !idx_map, map_length. destruct (idx ks (first + count / 2 + 1)) as [x| |] eqn:Ex; cbn [bind]; try reflexivity.
    assert (Hx : fin x) by (eapply idx_fin; eauto).
    rewrite (fltb t x Ht Hx). cbn [s_leb s_ltb s_eqb RScalar].
    assert (G : forall b : bool,
      (if b then Ret (Some (first + count / 2)%nat)
       else let! k0 := idx ks (first + count / 2) in
            if s_leb k0 t then search_unclamped_loop n ks t (first + count / 2 + 1) (count - (count / 2 + 1))
            else search_unclamped_loop n ks t first (count / 2)) =
      (if b then Ret (Some (first + count / 2)%nat)
       else let! k0 := let! a := idx ks (first + count / 2) in Ret (val a) in
            if Rleb k0 (val t) then search_unclamped_loop n (map val ks) (val t) (first + count / 2 + 1) (count - (count / 2 + 1))
            else search_unclamped_loop n (map val ks) (val t) first (count / 2))).
    { intros [|]; [reflexivity|]. destruct (idx ks (first + count / 2)) as [y| |] eqn:Ey; cbn [bind]; try reflexivity.
      assert (Hy : fin y) by (eapply idx_fin; eauto). rewrite (fleb y t Hy Ht). destruct (Rleb (val y) (val t)); apply IH. }
    destruct (Rltb (val t) (val x)); cbn [bind]; [apply (G true)|].
    destruct (usub (length ks) 2) as [m| |]; cbn [bind]; try reflexivity.
    destruct (first + count / 2 + 1 =? m)%nat; cbn [bind]; [|apply (G false)].
    rewrite (feqb t x Ht Hx). apply G.
  Qed.

  (** a test against EPSILON *)
  Lemma close_val (x y : float) : fin x -> fin y ->
    s_ltb (s_abs (s_sub x y)) s_eps = Rltb (Rabs (rnd (val x - val y))) (2 * uro).
  Proof.
    intros Hx Hy. destruct eps_ok as [E1 E2].
    destruct (is_finite (s_sub x y)) eqn:Z.
    - assert (Hz : fin (s_sub x y)) by exact Z. rewrite fltb by (auto; now apply abs_fin). rewrite abs_val, E2.
      destruct (sub_fin_val x y Hx Hy Hz) as [V _]. now rewrite V.
    - assert (L : fmax < Rabs (val x - val y)).
      { destruct (Rlt_le_dec fmax (Rabs (val x - val y))) as [L|L]; [exact L|].
        destruct (sub_ok x y Hx Hy L) as [H _]. unfold fin in H. congruence. }
      assert (M : fmax <= Rabs (rnd (val x - val y))).
      { destruct (Rle_lt_dec 0 (val x - val y)) as [N|N].
        - rewrite Rabs_pos_eq in L by exact N. eapply Rle_trans; [|apply Rle_abs]. apply rnd_ge_float; [apply fmax_float|lra].
        - rewrite Rabs_left in L by exact N.
          assert (H : fmax <= rnd (- (val x - val y))) by (apply rnd_ge_float; [apply fmax_float|lra]). rewrite rnd_opp in H.
          rewrite <- Rabs_Ropp. eapply Rle_trans; [exact H|apply Rle_abs]. }
      pose proof fmax_ge. pose proof uro_small. rewrite (Rltb_false (Rabs _)) by lra.
      destruct (s_sub x y) as [|[]| |]; try discriminate Z; destruct s_eps as [|[]| |]; reflexivity.
  Qed.

  Definition close (d : R) : Prop := rnd d < 2 * uro.
  Lemma close_le d d' : d <= d' -> close d' -> close d.
  Proof. unfold close. intros H H'. pose proof (rnd_le _ _ H). lra. Qed.
  Lemma pred_eps_float : is_float (2 * uro * (1 - 2 * uro)).
  Proof.
    unfold is_float, uro. assert (Hp := fprec_ge). assert (He := femax_gt).
    replace (2 * bpow radix2 (- fprec) * (1 - 2 * bpow radix2 (- fprec)))
      with (F2R (Float radix2 (2 ^ (fprec - 1) - 1) (2 - 2 * fprec))).
    - apply generic_format_F2R. intros _. unfold cexp, fx, SpecFloat.fexp, SpecFloat.emin.
      assert (Hm : (mag radix2 (F2R (Float radix2 (2 ^ (fprec - 1) - 1) (2 - 2 * fprec))) <= 1 - fprec)%Z).
      { apply mag_le_bpow.
        - apply F2R_neq_0. cbn. pose proof (Z.pow_gt_1 2 (fprec - 1)). lia.
        - rewrite Rabs_pos_eq by (apply F2R_ge_0; cbn; pose proof (Z.pow_gt_1 2 (fprec - 1)); lia).
          unfold F2R; cbn [Fnum Fexp]. rewrite minus_IZR, (IZR_Zpower radix2) by lia.
          replace (1 - fprec)%Z with ((fprec - 1) + (2 - 2 * fprec))%Z by lia. rewrite bpow_plus.
          pose proof (bpow_gt_0 radix2 (2 - 2 * fprec)). nra. }
      lia.
    - unfold F2R; cbn [Fnum Fexp]. rewrite minus_IZR, (IZR_Zpower radix2) by lia.
      replace (2 - 2 * fprec)%Z with (1 + - fprec + (1 + - fprec))%Z by lia.
      replace (bpow radix2 (fprec - 1)) with (/ bpow radix2 (1 + - fprec)) by (rewrite <- bpow_opp; f_equal; lia).
      rewrite !(bpow_plus radix2 (1 + - fprec)), !(bpow_plus radix2 1). change (bpow radix2 1) with 2.
      pose proof (bpow_gt_0 radix2 (- fprec)). field. lra.
  Qed.
  Lemma close_bounds d : (d <= 2 * uro * (1 - 2 * uro) -> close d) /\ (close d -> d < 2 * uro).
  Proof.
    split.
    - intros H. unfold close. pose proof (rnd_le_float d _ pred_eps_float H). pose proof uro_pos. nra.
    - intros H. destruct (Rlt_le_dec d (2 * uro)) as [L|L]; [exact L|].
      pose proof (rnd_ge_float d _ eps_float L). unfold close in H. lra.
  Qed.
  Lemma close_0 d : d <= 0 -> close d.
  Proof. intros H. apply (proj1 (close_bounds d)). pose proof uro_pos. pose proof uro_small.
    assert (0 <= 2 * uro * (1 - 2 * uro)) by (apply Rmult_le_pos; lra). lra. Qed.

  Section New.
    Variables (D : nat) (ks : list float) (ps : list P) (s : bspline float P).
    Hypothesis Hnew : bspline_new D ks ps = Ret (Ok s).
    Hypothesis Hfin : forall x, In x ks -> fin x.
    Local Notation C := (length ps).
    Local Notation U i := (fknot ks i).

    Let Fs := new_fields D ks ps s Hnew.
    Let Hs : fsorted ks := new_fsorted D ks ps s Hnew Hfin.

    Lemma fsizes : (D < C)%nat /\ length ks = (C + D + 1)%nat.
    Proof. destruct (proj1 (new_ok_iff D ks ps)) as (H1 & H2 & _); [eauto|]. auto. Qed.
    Lemma fU_le i j : (i <= j < C + D + 1)%nat -> U i <= U j.
    Proof. intros H. apply Hs. destruct fsizes. lia. Qed.
    Lemma fnth i : (i < length ks)%nat -> fin (nth i ks (s_lit 0)).
    Proof. intros H. apply Hfin, nth_In, H. Qed.

    Lemma fkind_spec :
      (bs_kind s = Clamped \/ bs_kind s = ClampedStart <-> close (U D - U 0)) /\
      (bs_kind s = Clamped \/ bs_kind s = ClampedEnd <-> close (U (C + D) - U C)).
    Proof.
      destruct fsizes as [HD HK].
      assert (F0 : all_close (nth 0 ks (s_lit 0)) (firstn (D + 1) ks) = true <-> close (U D - U 0)).
      { unfold all_close. rewrite forallb_forall. split.
        - intros H. specialize (H (nth D ks (s_lit 0))).
          assert (I : In (nth D ks (s_lit 0)) (firstn (D + 1) ks)).
          { pose proof (nth_window ks 0 (D + 1) D (s_lit 0) ltac:(lia)) as W. cbn [Nat.add skipn] in W. rewrite <- W.
            apply nth_In. rewrite firstn_length. lia. }
          specialize (H I). rewrite close_val in H by (apply fnth; lia). rewrite Rltb_lt in H. fold (U D) (U 0) in H.
          unfold close. pose proof (Rle_abs (rnd (U D - U 0))). lra.
        - intros H x Hx. apply (In_nth _ _ (s_lit 0)) in Hx. destruct Hx as (i & Hi & <-).
          rewrite firstn_length in Hi. change (firstn (D + 1) ks) with (firstn (D + 1) (skipn 0 ks)).
          rewrite nth_window by lia. cbn [Nat.add]. rewrite close_val by (apply fnth; lia). apply Rltb_lt. fold (U i) (U 0).
          pose proof (fU_le 0 i ltac:(lia)). pose proof (fU_le i D ltac:(lia)).
          pose proof (rnd_le 0 (U i - U 0) ltac:(lra)) as R. rewrite rnd_0 in R.
          rewrite Rabs_pos_eq by exact R. apply (close_le _ (U D - U 0)); [lra|exact H]. }
      assert (B0 : all_close (nth (length ks - 1) ks (s_lit 0)) (skipn (length ks - D - 1) ks) = true <-> close (U (C + D) - U C)).
      { replace (length ks - 1)%nat with (C + D)%nat by lia. replace (length ks - D - 1)%nat with C by lia.
        assert (W : forall i, nth i (skipn C ks) (s_lit 0) = nth (C + i) ks (s_lit 0)).
        { intros i. assert (Z : firstn (length ks + S i) (skipn C ks) = skipn C ks).
          { apply firstn_all2. rewrite skipn_length. lia. }
          rewrite <- Z. apply nth_window. lia. }
        unfold all_close. rewrite forallb_forall. split.
        - intros H. specialize (H (nth C ks (s_lit 0))).
          assert (I : In (nth C ks (s_lit 0)) (skipn C ks)).
          { replace (nth C ks (s_lit 0)) with (nth 0 (skipn C ks) (s_lit 0)) by (rewrite W; f_equal; lia).
            apply nth_In. rewrite skipn_length. lia. }
          specialize (H I). rewrite close_val in H by (apply fnth; lia). rewrite Rltb_lt in H.
          fold (U C) (U (C + D)) in H. replace (U C - U (C + D)) with (- (U (C + D) - U C)) in H by ring.
          rewrite rnd_opp, Rabs_Ropp in H. unfold close. pose proof (Rle_abs (rnd (U (C + D) - U C))). lra.
        - intros H x Hx. apply (In_nth _ _ (s_lit 0)) in Hx. destruct Hx as (i & Hi & <-).
          rewrite skipn_length in Hi. rewrite W. rewrite close_val by (apply fnth; lia). apply Rltb_lt.
          fold (U (C + i)) (U (C + D)). replace (U (C + i) - U (C + D)) with (- (U (C + D) - U (C + i))) by ring.
          rewrite rnd_opp, Rabs_Ropp.
          pose proof (fU_le C (C + i) ltac:(lia)). pose proof (fU_le (C + i) (C + D) ltac:(lia)).
          pose proof (rnd_le 0 (U (C + D) - U (C + i)) ltac:(lra)) as R. rewrite rnd_0 in R.
          rewrite Rabs_pos_eq by exact R. apply (close_le _ (U (C + D) - U C)); [lra|exact H]. }
      destruct (new_cases D ks ps) as [(H1 & En)|[(H1 & H2 & En)|[(H1 & H2 & En)|[(H1 & H2 & H3 & En)|(H1 & H2 & H3 & En)]]]];
        rewrite Hnew in En; try discriminate. injection En as ->. cbn [bs_kind].
      rewrite <- F0, <- B0.
      destruct (all_close (nth 0 ks _) _), (all_close (nth (length ks - 1) ks _) _); cbn [kind_of];
        split; split; intuition (try discriminate).
    Qed.

    Lemma fdegree_pos : bs_kind s <> Clamped -> (1 <= D)%nat.
    Proof.
      intros Hu. destruct (Nat.eq_dec D 0) as [H0|]; [|lia]. exfalso.
      destruct fkind_spec as [[_ H1] [_ H2]]. rewrite H0 in H1, H2. rewrite Nat.add_0_r in H2.
      destruct H1 as [H1|H1]; [apply close_0; lra|contradiction|].
      destruct H2 as [H2|H2]; [apply close_0; lra|contradiction|congruence].
    Qed.

    (** the same knots over the reals, for a tolerance that gives the same kind *)
    Definition reals : list R := map val ks.
    Definition dummies : list P1 := repeat (pt1 0) C.

    Lemma real_new (E : Eps) : exists s', bspline_new D reals dummies = Ret (Ok s').
    Proof.
      apply new_ok_iff. destruct fsizes as [HD HK]. unfold reals, dummies. rewrite map_length, repeat_length.
      split; [exact HD|]. split; [exact HK|]. intros i Hi. change (s_lit 0 : R) with 0. rewrite !fknot_map.
      rs. apply Rltb_false. pose proof (fU_le i (i + 1) ltac:(lia)). lra.
    Qed.

    Lemma same_kind : bs_kind s <> Clamped -> exists (E : Eps) s',
      bspline_new D reals dummies = Ret (Ok s') /\ bs_kind s' = bs_kind s.
    Proof.
      intros Hn. destruct fsizes as [HD HK]. destruct fkind_spec as [Kf Kb].
      set (a := U D - U 0) in *. set (b := U (C + D) - U C) in *.
      assert (Pa : ~ close a -> 0 < a).
      { intros H. destruct (Rlt_le_dec 0 a) as [|L]; [assumption|]. now contradiction H; apply close_0. }
      assert (Pb : ~ close b -> 0 < b).
      { intros H. destruct (Rlt_le_dec 0 b) as [|L]; [assumption|]. now contradiction H; apply close_0. }
      assert (G : exists e, 0 < e /\ (close a <-> a < e) /\ (close b <-> b < e)).
      { destruct (bs_kind s) eqn:Ek; try congruence.
        - assert (Na : ~ close a) by (intros H; apply Kf in H; destruct H; congruence).
          assert (Nb : ~ close b) by (intros H; apply Kb in H; destruct H; congruence).
          exists (Rmin a b). split; [apply Rmin_pos; auto|].
          pose proof (Rmin_l a b). pose proof (Rmin_r a b). split; split; intros; try tauto; lra.
        - assert (Na : close a) by (apply Kf; auto).
          assert (Nb : ~ close b) by (intros H; apply Kb in H; destruct H; congruence).
          exists b. split; [auto|]. split; split; intros; try tauto; try lra.
          destruct (Rlt_le_dec a b) as [|L]; [assumption|]. now contradiction Nb; apply (close_le _ a).
        - assert (Nb : close b) by (apply Kb; auto).
          assert (Na : ~ close a) by (intros H; apply Kf in H; destruct H; congruence).
          exists a. split; [auto|]. split; split; intros; try tauto; try lra.
          destruct (Rlt_le_dec b a) as [|L]; [assumption|]. now contradiction Na; apply (close_le _ b). }
      destruct G as (e & He & Ga & Gb). set (E := Build_Eps e He). exists E.
      destruct (real_new E) as (s' & N'). exists s'. split; [exact N'|].
      destruct (kind_spec D reals dummies s' N') as [Rf Rb].
      unfold dummies in Rb. rewrite repeat_length in Rb. unfold reals in Rf, Rb. rewrite !fknot_map in Rf, Rb.
      fold a in Rf. fold b in Rb. change eps with e in Rf, Rb. rewrite <- Ga, <- Kf in Rf. rewrite <- Gb, <- Kb in Rb.
      now apply kind_eq.
    Qed.

    Section Span.
      Context {E : Eps} (s' : bspline R P1).
      Hypothesis N' : bspline_new D reals dummies = Ret (Ok s').
      Hypothesis K' : bs_kind s' = bs_kind s.
      Variable t : float.
      Hypothesis Ht : fin t.

      Lemma span_same : knot_span_start_for_t s t = knot_span_start_for_t s' (val t).
      Proof.
        destruct (new_fields D reals dummies s' N') as (F1 & F2 & F3). destruct Fs as (G1 & G2 & G3).
        unfold knot_span_start_for_t, knot_span_start_for_t_clamped, knot_span_start_for_t_unclamped,
          knot_span_start_for_t_clamped_start, knot_span_start_for_t_clamped_end.
        rewrite K', F1, F2, F3, G1, G2, G3. unfold reals, dummies. rewrite repeat_length, map_length.
        destruct (bs_kind s); [now apply search_unclamped_val| | |];
        repeat (rewrite ?idx_map; match goal with
        | |- context [usub ?a ?b] => destruct (usub a b); cbn [bind]; try reflexivity
        | |- context [idx ks ?i] =>
            let Ei := fresh "E" in let x := fresh "x" in
            destruct (idx ks i) as [x| |] eqn:Ei; cbn [bind]; try reflexivity;
            apply idx_fin in Ei; [|exact Hfin]; rewrite ?(feqb t x Ht Ei), ?(fltb t x Ht Ei), ?(fltb x t Ei Ht)
        | |- (if ?b then _ else _) = _ => cbn [s_eqb s_ltb RScalar]; destruct b; [reflexivity|]
        end); first [reflexivity | exact (search_loop_val _ _ _ _ _ Hfin Ht)].
      Qed.

      Lemma panic_same : bs_kind s <> Clamped -> (bspline_eval s t = Panic <-> bspline_eval s' (val t) = Panic).
      Proof.
        intros Hn. pose proof (fdegree_pos Hn) as HD1. destruct fsizes as [HD HK].
        destruct (new_fields D reals dummies s' N') as (F1 & F2 & F3). destruct Fs as (G1 & G2 & G3).
        pose proof (new_wf D ks ps s Hnew) as W. pose proof (new_wf D reals dummies s' N') as W'.
        assert (LC : length dummies = C) by apply repeat_length.
        assert (Kn : forall m, knot s' m = U m).
        { intros m. unfold knot. rewrite F2. apply fknot_map. }
        assert (Kf : forall m, (m < length ks)%nat -> fin (knot s m) /\ val (knot s m) = U m).
        { intros m Hm. unfold knot. rewrite G2. split; [now apply fnth|reflexivity]. }
        assert (DB : de_boor_iterative s t = Panic <-> de_boor_iterative s' (val t) = Panic).
        { rewrite (de_boor_panics s t W) by lia. rewrite (de_boor_panics s' (val t) W') by lia.
          rewrite <- span_same, F1, F3, G1, G3, LC. destruct (Kf C ltac:(lia)) as [A B].
          rewrite (feqb t _ Ht A), B, Kn. reflexivity. }
        unfold bspline_eval. rewrite (domain_value s W), (domain_value s' W'), K'.
        rewrite F1, F2, F3, G1, G2, G3, LC. unfold reals. rewrite map_length.
        assert (Cmp : forall i j, (i < length ks)%nat -> (j < length ks)%nat ->
          ((s_ltb t (knot s i) || s_ltb (knot s j) t)%bool = (s_ltb (val t) (knot s' i) || s_ltb (knot s' j) (val t))%bool)).
        { intros i j Hi Hj. destruct (Kf i Hi) as [A1 B1], (Kf j Hj) as [A2 B2].
          rewrite (fltb t _ Ht A1), (fltb _ t A2 Ht), B1, B2, !Kn. reflexivity. }
        destruct (bs_kind s); cbn [bind fst snd]; rewrite Cmp by lia;
          match goal with |- context [if ?b then _ else _] => destruct b end; try exact DB; split; discriminate.
      Qed.
    End Span.

    Section Panics.
      Variable t : float.
      Hypothesis Ht : fin t.

      Lemma clamped_start_fpanic : bs_kind s = ClampedStart ->
        (bspline_eval s t = Panic <-> U (C + 1) <= val t < U (C + D) /\ val t <> U C).
      Proof.
        intros Hk. destruct same_kind as (E & s' & N' & K'); [congruence|].
        rewrite (panic_same s' N' K' t Ht) by congruence. rewrite Hk in K'.
        destruct (clamped_start_panic_iff D reals dummies s' N' (val t) K') as [H _].
        unfold dummies in H. rewrite repeat_length in H. unfold reals in H. now rewrite !fknot_map in H.
      Qed.

      Lemma clamped_end_fpanic : bs_kind s = ClampedEnd ->
        (bspline_eval s t = Panic <-> U 0 <= val t < U D).
      Proof.
        intros Hk. destruct same_kind as (E & s' & N' & K'); [congruence|].
        rewrite (panic_same s' N' K' t Ht) by congruence. rewrite Hk in K'.
        destruct (clamped_end_panic_iff D reals dummies s' N' (val t) K') as [H _].
        unfold reals in H. now rewrite !fknot_map in H.
      Qed.

      Lemma unclamped_fpanic : bs_kind s = Unclamped ->
        (bspline_eval s t = Panic <-> U D <= val t < U C /\
           forall j, (probe (C + D + 1) j <= C)%nat -> U (probe (C + D + 1) j + 1) <= val t).
      Proof.
        intros Hk. destruct same_kind as (E & s' & N' & K'); [congruence|].
        rewrite (panic_same s' N' K' t Ht) by congruence. rewrite Hk in K'.
        destruct (unclamped_panic_iff D reals dummies s' N' (val t) K') as [H _].
        unfold dummies in H. rewrite repeat_length in H. unfold reals in H. rewrite !fknot_map in H. rewrite H.
        split; intros [A B]; (split; [exact A|]); intros j Hj; specialize (B j Hj); now rewrite fknot_map in *.
      Qed.
    End Panics.

    (** the first sample of the length of a ClampedEnd spline is the first knot *)
    Lemma arclen_fpanic n : moderate ks -> bs_kind s = ClampedEnd -> (0 < n)%nat -> (Z.of_nat n <= 2 ^ fprec)%Z ->
      bspline_arclen s n = Panic.
    Proof.
      intros Hm Hk Hn Hn2. destruct fsizes as [HD HK]. destruct Fs as (G1 & G2 & G3).
      pose proof (new_wf D ks ps s Hnew) as W.
      assert (K0 : fin (knot s 0) /\ val (knot s 0) = U 0 /\ Rabs (val (knot s 0)) <= fmax / 2).
      { unfold knot. rewrite G2. destruct (Hm (nth 0 ks (s_lit 0))) as [A B]; [apply nth_In; lia|]. auto. }
      assert (KC : fin (knot s C) /\ Rabs (val (knot s C)) <= fmax / 2).
      { unfold knot. rewrite G2. destruct (Hm (nth C ks (s_lit 0))) as [A B]; [apply nth_In; lia|]. auto. }
      destruct K0 as (A0 & V0 & M0), KC as (AC & MC). pose proof fmax_ge as Fm. pose proof uro_pos.
      destruct (usize_ok 0) as [Z1 Z2]; [pose proof fprec_ge; pose proof (Z.pow_pos_nonneg 2 fprec); lia|]. cbn [INR] in Z2.
      destruct (usize_ok n Hn2) as [N1 N2].
      assert (Np : 0 < INR n) by (apply lt_0_INR; lia).
      destruct (div_ok (s_of_usize 0) (s_of_usize n)) as [D1 D2]; [exact Z1|lra|rewrite Z2; unfold Rdiv; rewrite Rmult_0_l, Rabs_R0; lra|].
      assert (D3 : val (s_div (s_of_usize 0) (s_of_usize n)) = 0).
      { rewrite D2, Z2. unfold Rdiv. rewrite Rmult_0_l. apply rnd_0. }
      destruct (sub_ok (knot s C) (knot s 0) AC A0) as [S1 S2].
      { pose proof (Rabs_triang (val (knot s C)) (- val (knot s 0))) as T. rewrite Rabs_Ropp in T. unfold Rminus. lra. }
      destruct (mul_ok _ (s_sub (knot s C) (knot s 0)) D1 S1) as [P1' P2'].
      { rewrite D3, Rmult_0_l, Rabs_R0. lra. }
      rewrite D3, Rmult_0_l, rnd_0 in P2'.
      destruct (add_ok (knot s 0) _ A0 P1') as [T1 T2].
      { rewrite P2', Rplus_0_r. lra. }
      rewrite P2', Rplus_0_r in T2. rewrite (rnd_float _ (val_float _)) in T2.
      assert (Lt : U 0 < U D).
      { destruct (Rlt_le_dec (U 0) (U D)) as [|L]; [assumption|]. exfalso.
        destruct fkind_spec as [[_ Kf] _]. destruct Kf as [Kf|Kf]; [apply close_0; lra|congruence|congruence]. }
      assert (EP : bspline_eval s (s_add (knot s 0) (s_mul (s_div (s_of_usize 0) (s_of_usize n)) (s_sub (knot s C) (knot s 0)))) = Panic).
      { apply (clamped_end_fpanic _ T1 Hk). rewrite T2, V0. lra. }
      unfold bspline_arclen. rewrite (domain_value s W), Hk, G3. cbn [bind fst snd].
      replace (range_incl 0 n) with (0%nat :: range_incl 1 n)%nat.
      - cbn [for_in]. unfold eval_or_default at 1. rewrite EP. reflexivity.
      - unfold range_incl. replace (S n - 0)%nat with (S (S n - 1)) by lia. reflexivity.
    Qed.
  End New.
End Float.

(** for examples *)
Definition kind_is {T P} {ST : Scalar T} {PT : Point T P} (D : nat) (ks : list T) (ps : list P) (k : KnotVectorKind) : bool :=
  match bspline_new D ks ps with
  | Ret (Ok s) => match bs_kind s, k with
                  | Unclamped, Unclamped | ClampedStart, ClampedStart | ClampedEnd, ClampedEnd | Clamped, Clamped => true
                  | _, _ => false
                  end
  | _ => false
  end.
Lemma kind_is_spec {T P} {ST : Scalar T} {PT : Point T P} D (ks : list T) (ps : list P) k : kind_is D ks ps k = true ->
  exists s, bspline_new D ks ps = Ret (Ok s) /\ bs_kind s = k.
Proof.
  unfold kind_is. destruct (bspline_new D ks ps) as [[s|]| |]; try discriminate. intros H. exists s. split; [reflexivity|].
  destruct (bs_kind s), k; congruence.
Qed.
