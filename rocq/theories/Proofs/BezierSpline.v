(** B-splines with the knots of a Bezier curve: D+1 times [a], D+1 times [b]. *)
From Coq Require Import Reals List Arith Lia Lra Psatz.
From Verif Require Import Base.Outcome Base.Scalar Model.Point Model.Bezier Model.BSpline Inst.RealInst
  Spec.Sums Spec.Lawful Spec.Basis Spec.Bernstein
  Proofs.OutcomeFacts Proofs.PointFacts Proofs.RealTac Proofs.BezierGeneric Proofs.BezierReal
  Proofs.BSplineGeneric Proofs.BSplineReal Proofs.BSplineEval.
Import ListNotations.
Local Open Scope R_scope.

Section Knots.
  Variables (D : nat) (a b : R).
  Hypothesis Hab : a < b.
  Let ks := repeat a (D + 1) ++ repeat b (D + 1).
  Let U m := nth m ks 0.

  Lemma bk_length : length ks = (2 * D + 2)%nat.
  Proof. unfold ks. rewrite app_length, !repeat_length. lia. Qed.
  Lemma bk_low m : (m <= D)%nat -> U m = a.
  Proof.
    intros H. unfold U, ks. rewrite app_nth1 by (rewrite repeat_length; lia).
    rewrite (nth_indep _ 0 a) by (rewrite repeat_length; lia). apply nth_repeat.
  Qed.
  Lemma bk_high m : (D < m <= 2 * D + 1)%nat -> U m = b.
  Proof.
    intros H. unfold U, ks. rewrite app_nth2 by (rewrite repeat_length; lia). rewrite repeat_length.
    rewrite (nth_indep _ 0 b) by (rewrite repeat_length; lia). apply nth_repeat.
  Qed.

  Lemma bk_basis t p : a <= t < b -> (p <= D)%nat -> forall i, (i + p + 1 <= 2 * D + 1)%nat ->
    basis U p i t = if andb (D <=? i + p)%nat (i <=? D)%nat then bernstein p (i + p - D) ((t - a) / (b - a)) else 0.
  Proof.
    intros Ht. set (u := (t - a) / (b - a)).
    assert (Hu : (b - t) / (b - a) = 1 - u) by (unfold u; field; lra).
    induction p as [|p IH]; intros Hp i Hi; cbn [basis].
    - destruct (Nat.leb_spec D (i + 0)) as [H1|H1]; destruct (Nat.leb_spec i D) as [H2|H2]; cbn [andb].
      + assert (i = D) by lia. subst i. rewrite bk_low, bk_high by lia.
        destruct (Rle_dec a t); [|lra]. destruct (Rlt_dec t b); [|lra].
        rewrite Nat.add_0_r, Nat.sub_diag. unfold bernstein. simpl. ring.
      + rewrite bk_high by lia. destruct (Rle_dec b t); [lra|reflexivity].
      + rewrite (bk_low i), (bk_low (i + 1)) by lia. destruct (Rle_dec a t); [|reflexivity]. destruct (Rlt_dec t a); [lra|reflexivity].
      + lia.
    - rewrite (IH ltac:(lia) i ltac:(lia)), (IH ltac:(lia) (i + 1)%nat ltac:(lia)).
      destruct (Nat.leb_spec D (i + S p)) as [H1|H1]; destruct (Nat.leb_spec i D) as [H2|H2]; cbn [andb].
      + (* inside *)
        destruct (Nat.eq_dec (i + S p) D) as [He|He].
        * (* first of the row *)
          replace (D <=? i + p)%nat with false by (symmetry; apply Nat.leb_gt; lia). cbn [andb].
          replace (D <=? i + 1 + p)%nat with true by (symmetry; apply Nat.leb_le; lia).
          replace (i + 1 <=? D)%nat with true by (symmetry; apply Nat.leb_le; lia). cbn [andb].
          rewrite (bk_high (i + S p + 1)), (bk_low (i + 1)) by lia. rewrite (quot_nz (b - t)) by lra. rewrite Hu.
          replace (i + 1 + p - D)%nat with 0%nat by lia. replace (i + S p - D)%nat with 0%nat by lia.
          rewrite bernstein_S0. ring.
        * replace (D <=? i + p)%nat with true by (symmetry; apply Nat.leb_le; lia). cbn [andb].
          rewrite (bk_high (i + S p)), (bk_low i) by lia. rewrite (quot_nz (t - a)) by lra. fold u.
          replace (i + S p - D)%nat with (S (i + p - D)) by lia. rewrite bernstein_S by lia.
          replace (D <=? i + 1 + p)%nat with true by (symmetry; apply Nat.leb_le; lia).
          destruct (Nat.leb_spec (i + 1) D) as [H3|H3]; cbn [andb].
          -- replace (i + p - D <? p)%nat with true by (symmetry; apply Nat.ltb_lt; lia).
             rewrite (bk_high (i + S p + 1)), (bk_low (i + 1)) by lia. rewrite (quot_nz (b - t)) by lra. rewrite Hu.
             replace (i + 1 + p - D)%nat with (S (i + p - D)) by lia. ring.
          -- replace (i + p - D <? p)%nat with false by (symmetry; apply Nat.ltb_ge; lia). ring.
      + replace (i + 1 <=? D)%nat with false by (symmetry; apply Nat.leb_gt; lia).
        rewrite !Bool.andb_false_r. ring.
      + replace (D <=? i + p)%nat with false by (symmetry; apply Nat.leb_gt; lia).
        replace (D <=? i + 1 + p)%nat with false by (symmetry; apply Nat.leb_gt; lia). cbn [andb]. ring.
      + lia.
  Qed.
End Knots.

Section Splines.
  Context {E : Eps} {P : Type} {PT : Point R P} {LP : LawfulPoint P}.
  Variables (D : nat) (a b : R) (ps : list P).
  Hypothesis Hab : a < b.
  Hypothesis HC : length ps = (D + 1)%nat.
  Let ks := repeat a (D + 1) ++ repeat b (D + 1).

  (** the textbook spline is the textbook Bezier curve *)
  Theorem bezier_spline_coord t i : a <= t < b ->
    spline_coord D ks ps t i = curve_coord ps ((t - a) / (b - a)) i.
  Proof.
    intros Ht. assert (Hne : ps <> []) by (intros ->; simpl in HC; lia).
    rewrite curve_coord_dc, dc_bernstein by exact Hne.
    unfold spline_coord. rewrite HC. replace (D + 1 - 1)%nat with D by lia. replace (D + 1)%nat with (S D) by lia.
    apply Rsum_ext. intros j Hj. unfold ks. rewrite bk_basis by (auto; lia).
    replace (D <=? j + D)%nat with true by (symmetry; apply Nat.leb_le; lia).
    replace (j <=? D)%nat with true by (symmetry; apply Nat.leb_le; lia). cbn [andb].
    replace (j + D - D)%nat with j by lia. reflexivity.
  Qed.

  Variable s : bspline R P.
  Hypothesis Hnew : bspline_new D ks ps = Ret (Ok s).

  Lemma bezier_spline_kind : bs_kind s = Clamped.
  Proof.
    destruct (kind_spec D ks ps s Hnew) as [[_ H1] [_ H2]]. pose proof eps_pos.
    rewrite HC in H2. unfold ks in H1, H2.
    rewrite !bk_low in H1 by lia. rewrite !bk_high in H2 by lia.
    destruct (H1 ltac:(lra)) as [K|K]; [exact K|]. destruct (H2 ltac:(lra)) as [K'|K']; congruence.
  Qed.

  Theorem bezier_spline_eval t : a <= t < b -> t = a \/ eps <= t - a ->
    exists p, bspline_eval s t = Ret (Ok p) /\
      (forall i, (i < p_dim (P := P))%nat ->
        coord p i = curve_coord ps ((t - a) / (b - a)) i - ((t - a) / (b - a)) ^ D * coord (nth D ps p_default) i) /\
      bezier_eval (Bezier (firstn D ps ++ [p_default])) ((t - a) / (b - a)) = Ret p.
  Proof.
    intros Ht Hs. set (u := (t - a) / (b - a)).
    destruct (eval_value D ks ps s Hnew t) as (k & p & Hk & Hb & Ee & Hv).
    - apply good_clamped; [rewrite bezier_spline_kind; discriminate|].
      rewrite HC. unfold ks. rewrite bk_low, bk_high by lia. exact Ht.
    - rewrite HC. intros i Hi HU. unfold ks in HU |- *. destruct (le_lt_dec i D) as [L|L].
      + rewrite bk_low in HU |- * by lia. lra.
      + rewrite bk_high in HU by lia. lra.
    - assert (k = D) by lia. subst k.
      assert (HV : forall i, (i < p_dim (P := P))%nat -> coord p i = curve_coord ps u i - u ^ D * coord (nth D ps p_default) i).
      { intros i Hi. rewrite (Hv i Hi), bezier_spline_coord by exact Ht. fold u. f_equal. f_equal.
        unfold ks. rewrite bk_basis by (auto; lia).
        replace (D <=? D + D)%nat with true by (symmetry; apply Nat.leb_le; lia). rewrite Nat.leb_refl. cbn [andb].
        replace (D + D - D)%nat with D by lia. fold u. unfold bernstein. rewrite Nat.sub_diag.
        assert (HB : binom D D = 1%nat).
        { clear. induction D as [|n IH]; [reflexivity|]. simpl. rewrite IH, binom_gt by lia. reflexivity. }
        rewrite HB. simpl. ring. }
      exists p. split; [exact Ee|]. split; [exact HV|].
      assert (Hne : ps <> []) by (intros ->; simpl in HC; lia).
      assert (Hl : length (firstn D ps ++ [p_default]) = (D + 1)%nat) by (rewrite app_length, firstn_length; simpl; lia).
      assert (Hne' : firstn D ps ++ [p_default] <> []) by (intros X; rewrite X in Hl; simpl in Hl; lia).
      destruct (bezier_eval_spec (firstn D ps ++ [p_default]) u Hne') as (x & Hx & HX). rewrite Hx. f_equal.
      apply lp_ext. intros i Hi. rewrite HX, HV by exact Hi.
      rewrite !curve_coord_dc by assumption. rewrite !dc_bernstein, Hl, HC.
      replace (D + 1 - 1)%nat with D by lia. cbn [Rsum]. unfold cs. rewrite !Nat.add_0_l.
      rewrite (app_nth2 (firstn D ps)) by (rewrite firstn_length; lia). rewrite firstn_length.
      replace (D - Nat.min D (length ps))%nat with 0%nat by lia. cbn [nth]. rewrite lp_default by exact Hi.
      rewrite (Rsum_ext _ (fun i0 => bernstein D i0 u * coord (nth (0 + i0) ps p_default) i)).
      2:{ intros j Hj. rewrite app_nth1 by (rewrite firstn_length; lia).
          rewrite Nat.add_0_l. f_equal. f_equal. clear - Hj. revert j ps Hj. induction D as [|n IH]; intros j l Hj; [lia|].
          destruct l as [|x l]; [destruct j; reflexivity|]. destruct j as [|j]; [reflexivity|]. cbn [firstn nth]. apply IH. lia. }
      assert (HB : bernstein D D u = u ^ D).
      { unfold bernstein. rewrite Nat.sub_diag.
        assert (HB : binom D D = 1%nat).
        { clear. induction D as [|n IH]; [reflexivity|]. simpl. rewrite IH, binom_gt by lia. reflexivity. }
        rewrite HB. simpl. ring. }
      rewrite HB. ring.
  Qed.

  (** right exactly where the dropped term vanishes *)
  Theorem bezier_spline_right_iff t : (1 <= D)%nat -> a < t < b -> eps <= t - a ->
    (exists p, bspline_eval s t = Ret (Ok p) /\ bezier_eval (Bezier ps) ((t - a) / (b - a)) = Ret p) <->
    nth D ps p_default = p_default.
  Proof.
    intros HD Ht Hs. assert (Hne : ps <> []) by (intros ->; simpl in HC; lia).
    destruct (bezier_spline_eval t ltac:(lra) ltac:(lra)) as (p & Ee & HV & _).
    set (u := (t - a) / (b - a)) in *. assert (Hu : 0 < u) by (apply Rdiv_lt_0_compat; lra).
    assert (HuD : u ^ D <> 0) by (apply pow_nonzero; lra).
    destruct (bezier_eval_spec ps u Hne) as (x & Hx & HX). rewrite Ee, Hx. split.
    - intros (q & H1 & H2). injection H1 as <-. injection H2 as <-. apply lp_ext. intros i Hi.
      rewrite lp_default by exact Hi. pose proof (HV i Hi) as H1. rewrite <- (HX i Hi) in H1.
      assert (H0 : u ^ D * coord (nth D ps p_default) i = 0) by lra.
      apply Rmult_integral in H0. tauto.
    - intros H0. exists p. split; [reflexivity|]. f_equal. apply lp_ext. intros i Hi.
      rewrite (HX i Hi), (HV i Hi), H0, lp_default by exact Hi. ring.
  Qed.

  (** closer than EPSILON to the start the first control point is returned *)
  Theorem bezier_spline_start t : (1 <= D)%nat -> a <= t < b -> t - a < eps ->
    bspline_eval s t = Ret (Ok (nth 0 ps p_default)).
  Proof.
    intros H1 Ht Hs. destruct (sizes D ks ps s Hnew) as [HD HK]. pose proof (fields D ks ps s Hnew) as (F1 & F2 & F3).
    destruct (eval_good D ks ps s Hnew t) as (k & Hk' & Hb & Ee).
    { apply good_clamped; [rewrite bezier_spline_kind; discriminate|].
      rewrite HC. unfold ks. rewrite bk_low, bk_high by lia. exact Ht. }
    assert (k = D) by lia. subst k. rewrite Ee. do 2 f_equal.
    assert (Hw : forall r j, (1 <= r <= j)%nat -> (j <= D)%nat -> weight s t D r j = 0).
    { intros r j Hr Hj. unfold weight. rs. rewrite (knot_U D ks ps s Hnew), F1. replace (j + D - D)%nat with j by lia.
      rewrite Rltb_true; [reflexivity|]. unfold ks. rewrite bk_low by lia. lra. }
    assert (He : forall r, (r <= D)%nat -> forall j, (r <= j <= D)%nat ->
      entry s t D r j = entry s t D 0 (j - r)).
    { induction r as [|r IH]; intros Hr j Hj; [now rewrite Nat.sub_0_r|].
      apply lp_ext. intros i Hi. rewrite (entry_coord s t D (S r) j i) by (auto; lia). rewrite (Hw (S r) j) by lia.
      replace (S r - 1)%nat with r by lia. rewrite (IH ltac:(lia) (j - 1)%nat ltac:(lia)).
      replace (j - 1 - r)%nat with (j - S r)%nat by lia. ring. }
    rewrite He by lia. rewrite Nat.sub_diag. cbn [entry]. rewrite F1.
    destruct (Nat.ltb_spec 0 D); [|lia]. unfold cpoint. rewrite F3. f_equal. lia.
  Qed.
End Splines.
