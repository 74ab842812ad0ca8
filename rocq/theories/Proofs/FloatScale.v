(** Proofs for C107: scaling by a power of two commutes with the roundings. *)
From Coq Require Import Reals ZArith List Arith Lia Lra Bool.
From Flocq Require Import Core.Core IEEE754.BinarySingleNaN.
From Verif Require Import Base.Outcome Base.Scalar Model.Point Model.Line Model.Quadratic Model.Cubic Model.Bezier
  Model.BSpline Inst.FloatInst Spec.Rounding Spec.Componentwise Spec.FloatPoints Spec.FloatSplines Spec.Related Spec.Scaling
  Proofs.OutcomeFacts Proofs.FloatFacts Proofs.FloatPoint Proofs.FloatSpline Proofs.FloatOrder Proofs.Poison
  Proofs.BezierGeneric Proofs.Relational Proofs.BSplineGeneric Proofs.FloatSplineEval.
Import ListNotations.
Local Open Scope R_scope.

Section Grid.
  Context {F : Format}.
  Implicit Types x y w t : float.

  Definition multiple (g : Z) (r : R) : Prop := exists z : Z, r = IZR z * bpow radix2 g.

  Lemma multiple_lower g h r : (g <= h)%Z -> multiple h r -> multiple g r.
  Proof.
    intros H [z ->]. exists (z * 2 ^ (h - g))%Z.
    rewrite mult_IZR, (IZR_Zpower radix2) by lia. rewrite Rmult_assoc, <- bpow_plus. do 2 f_equal. lia.
  Qed.
  Lemma multiple_plus g a b : multiple g a -> multiple g b -> multiple g (a + b).
  Proof. intros [x ->] [y ->]. exists (x + y)%Z. rewrite plus_IZR. ring. Qed.
  Lemma multiple_opp g a : multiple g a -> multiple g (- a).
  Proof. intros [x ->]. exists (- x)%Z. rewrite opp_IZR. ring. Qed.
  Lemma multiple_mult g h a b : multiple g a -> multiple h b -> multiple (g + h) (a * b).
  Proof. intros [x ->] [y ->]. exists (x * y)%Z. rewrite mult_IZR, bpow_plus. ring. Qed.

  Lemma least_eq : least = SpecFloat.emin fprec femax.
  Proof. reflexivity. Qed.
  Lemma fx_eq e : fx e = Z.max (e - fprec) least.
  Proof. reflexivity. Qed.

  (** fine grids relative to the magnitude are represented exactly *)
  Lemma multiple_format g r : (least <= g)%Z -> (mag radix2 r - fprec <= g)%Z -> multiple g r -> is_float r.
  Proof.
    intros Hg Hm [z E]. change (IZR z * bpow radix2 g) with (F2R (Float radix2 z g)) in E. unfold is_float. rewrite E.
    apply generic_format_F2R. intros Hz. rewrite <- E. unfold cexp. rewrite fx_eq. lia.
  Qed.

  Lemma rnd_multiple g r : (least <= g)%Z -> multiple g r -> multiple g (rnd r).
  Proof.
    intros Hg H. destruct (Z_le_gt_dec (mag radix2 r - fprec) g) as [L|L].
    - rewrite rnd_float; [exact H|now apply multiple_format with g].
    - unfold rnd, round. set (m := ZnearestE _). apply multiple_lower with (cexp radix2 fx r).
      + unfold cexp. rewrite fx_eq. lia.
      + exists m. reflexivity.
  Qed.

  Lemma rnd_scale g k r : (least <= g)%Z -> (least <= g + k)%Z -> multiple g r ->
    rnd (bpow radix2 k * r) = bpow radix2 k * rnd r.
  Proof.
    intros Hg Hk H. destruct (Req_dec r 0) as [->|Hr]; [now rewrite rnd_0, !Rmult_0_r, rnd_0|].
    assert (M : (mag radix2 (bpow radix2 k * r) : Z) = (mag radix2 r + k)%Z)
      by (rewrite Rmult_comm; now apply mag_mult_bpow).
    destruct (Z_le_gt_dec (mag radix2 r - fprec) g) as [L|L].
    - rewrite (rnd_float r) by now apply multiple_format with g.
      apply rnd_float. apply multiple_format with (g + k)%Z; [exact Hk|lia|].
      replace (g + k)%Z with (k + g)%Z by lia. apply multiple_mult; [|exact H]. exists 1%Z. ring.
    - assert (C : cexp radix2 fx (bpow radix2 k * r) = (cexp radix2 fx r + k)%Z)
        by (unfold cexp; rewrite M, !fx_eq; lia).
      unfold rnd, round, F2R. cbn [Fnum Fexp]. rewrite C.
      unfold scaled_mantissa. rewrite C.
      replace (bpow radix2 k * r * bpow radix2 (- (cexp radix2 fx r + k)))
        with (r * bpow radix2 (- cexp radix2 fx r)).
      + rewrite bpow_plus. ring.
      + replace (- cexp radix2 fx r)%Z with (k + - (cexp radix2 fx r + k))%Z by ring. rewrite bpow_plus. ring.
  Qed.

  (** a finite result is the rounded one *)
  Lemma add_val x y : fin (s_add x y) -> val (s_add x y) = rnd (val x + val y).
  Proof.
    intros H. destruct (fin_add x y H) as [Hx Hy].
    pose proof (Bplus_correct fprec femax _ _ mode_NE x y Hx Hy) as A.
    change (round_mode mode_NE) with ZnearestE in A. fold fx in A. fold (rnd (B2R x + B2R y)) in A.
    destruct (Rlt_bool _ _); [apply A|]. exfalso. destruct A as [A _]. unfold fin in H.
    change (s_add x y) with (Bplus mode_NE x y) in H. destruct (Bplus mode_NE x y); discriminate.
  Qed.
  Lemma sub_val x y : fin (s_sub x y) -> val (s_sub x y) = rnd (val x - val y).
  Proof.
    intros H. destruct (fin_sub x y H) as [Hx Hy].
    pose proof (Bminus_correct fprec femax _ _ mode_NE x y Hx Hy) as A.
    change (round_mode mode_NE) with ZnearestE in A. fold fx in A. fold (rnd (B2R x - B2R y)) in A.
    destruct (Rlt_bool _ _); [apply A|]. exfalso. destruct A as [A _]. unfold fin in H.
    change (s_sub x y) with (Bminus mode_NE x y) in H. destruct (Bminus mode_NE x y); discriminate.
  Qed.
  Lemma mul_val x y : fin (s_mul x y) -> val (s_mul x y) = rnd (val x * val y).
  Proof.
    intros H. pose proof (Bmult_correct fprec femax _ _ mode_NE x y) as A.
    change (round_mode mode_NE) with ZnearestE in A. fold fx in A. fold (rnd (B2R x * B2R y)) in A.
    destruct (Rlt_bool _ _); [apply A|]. exfalso. unfold fin in H.
    change (s_mul x y) with (Bmult mode_NE x y) in H. destruct (Bmult mode_NE x y); discriminate.
  Qed.

  (** common factors *)
  Definition gridded (g : Z) (x : float) : Prop := fin x -> on_grid g x.
  Lemma gridded_lower g h x : (g <= h)%Z -> gridded h x -> gridded g x.
  Proof. intros L H Fx. exact (multiple_lower g h _ L (H Fx)). Qed.
  Lemma gridded_neg g x : gridded g x -> gridded g (s_neg x).
  Proof. intros H Fx. unfold on_grid. rewrite neg_val. exact (multiple_opp _ _ (H (proj1 (neg_fin x) Fx))). Qed.
  Lemma gridded_add g x y : (least <= g)%Z -> gridded g x -> gridded g y -> gridded g (s_add x y).
  Proof.
    intros L A B H. destruct (fin_add x y H) as [Hx Hy]. unfold on_grid. rewrite add_val by exact H.
    apply rnd_multiple; [exact L|]. apply multiple_plus; [exact (A Hx)|exact (B Hy)].
  Qed.
  Lemma gridded_sub g x y : (least <= g)%Z -> gridded g x -> gridded g y -> gridded g (s_sub x y).
  Proof.
    intros L A B H. destruct (fin_sub x y H) as [Hx Hy]. unfold on_grid. rewrite sub_val by exact H.
    apply rnd_multiple; [exact L|]. apply multiple_plus; [exact (A Hx)|exact (multiple_opp _ _ (B Hy))].
  Qed.
  Lemma gridded_mul g h x y : (least <= g + h)%Z -> gridded g x -> gridded h y -> gridded (g + h) (s_mul x y).
  Proof.
    intros L A B H. destruct (fin_mul x y H) as [Hx Hy]. unfold on_grid. rewrite mul_val by exact H.
    apply rnd_multiple; [exact L|]. apply multiple_mult; [exact (A Hx)|exact (B Hy)].
  Qed.
  Lemma gridded_lit z : (Z.abs z <= 2048)%Z -> gridded 0 (s_lit z).
  Proof. intros H _. exists z. rewrite (proj2 (lit_small z H)). cbn. ring. Qed.
  Lemma gridded_usize n : (Z.of_nat n <= 2 ^ fprec)%Z -> gridded 0 (s_of_usize n).
  Proof. intros H _. exists (Z.of_nat n). rewrite (proj2 (usize_ok n H)), INR_IZR_INZ. cbn. ring. Qed.
  Lemma gridded_one_sub b t : (least <= b <= 0)%Z -> gridded b t -> gridded b (s_add (s_neg t) (s_lit 1)).
  Proof.
    intros L H. apply gridded_add; [lia|now apply gridded_neg|].
    apply gridded_lower with 0%Z; [lia|]. now apply gridded_lit.
  Qed.

  (** the relation *)
  Lemma scaled_lower g h k x y : (g <= h)%Z -> scaled h k x y -> scaled g k x y.
  Proof. intros L H Fx Fy. destruct (H Fx Fy) as [A B]. split; [exact (multiple_lower g h _ L A)|exact B]. Qed.
  Lemma scaled_add g k x y x' y' : (least <= g)%Z -> (least <= g + k)%Z ->
    scaled g k x y -> scaled g k x' y' -> scaled g k (s_add x x') (s_add y y').
  Proof.
    intros L L' H H' Fx Fy. destruct (fin_add _ _ Fx), (fin_add _ _ Fy).
    destruct (H ltac:(assumption) ltac:(assumption)) as [A B].
    destruct (H' ltac:(assumption) ltac:(assumption)) as [A' B'].
    unfold on_grid. rewrite !add_val by assumption. rewrite B, B'.
    pose proof (multiple_plus g _ _ A A') as M. split; [now apply rnd_multiple|].
    rewrite <- Rmult_plus_distr_l. now apply rnd_scale with g.
  Qed.
  Lemma scaled_sub g k x y x' y' : (least <= g)%Z -> (least <= g + k)%Z ->
    scaled g k x y -> scaled g k x' y' -> scaled g k (s_sub x x') (s_sub y y').
  Proof.
    intros L L' H H' Fx Fy. destruct (fin_sub _ _ Fx), (fin_sub _ _ Fy).
    destruct (H ltac:(assumption) ltac:(assumption)) as [A B].
    destruct (H' ltac:(assumption) ltac:(assumption)) as [A' B'].
    unfold on_grid. rewrite !sub_val by assumption. rewrite B, B'.
    pose proof (multiple_plus g _ _ A (multiple_opp _ _ A')) as M. split; [now apply rnd_multiple|].
    rewrite <- Rmult_minus_distr_l. now apply rnd_scale with g.
  Qed.
  Lemma scaled_mul g b k x y w : (least <= g + b)%Z -> (least <= g + b + k)%Z ->
    scaled g k x y -> gridded b w -> scaled (g + b) k (s_mul x w) (s_mul y w).
  Proof.
    intros L L' H Hw Fx Fy. destruct (fin_mul _ _ Fx), (fin_mul _ _ Fy).
    destruct (H ltac:(assumption) ltac:(assumption)) as [A B].
    unfold on_grid. rewrite !mul_val by assumption. rewrite B.
    pose proof (multiple_mult g b _ _ A (Hw ltac:(assumption))) as M. split; [now apply rnd_multiple|].
    rewrite Rmult_assoc. now apply rnd_scale with (g + b)%Z.
  Qed.
End Grid.

Section Curves.
  Context {F : Format} {P : Type} {PT : Point float P} {CP : CwPoint float P}.
  Variables (g b k : Z) (t : float).
  Hypotheses (Hg : (g <= 0)%Z) (Hb : (b <= 0)%Z) (Ht : gridded b t).

  Lemma point_lower h h' p q : (h <= h')%Z -> scaled_point h' k p q -> scaled_point h k p q.
  Proof. intros L H i Hi. exact (scaled_lower h h' k _ _ L (H i Hi)). Qed.
  Lemma point_add h p q p' q' : (least <= h)%Z -> (least <= h + k)%Z ->
    scaled_point h k p q -> scaled_point h k p' q' -> scaled_point h k (p_add p p') (p_add q q').
  Proof. intros L L' H H' i Hi. rewrite !cw_add by exact Hi. apply scaled_add; auto. Qed.
  Lemma point_sub h p q p' q' : (least <= h)%Z -> (least <= h + k)%Z ->
    scaled_point h k p q -> scaled_point h k p' q' -> scaled_point h k (p_sub p p') (p_sub q q').
  Proof. intros L L' H H' i Hi. rewrite !cw_sub by exact Hi. apply scaled_sub; auto. Qed.
  Lemma point_mul h c h' p q w : h' = (h + c)%Z -> (least <= h')%Z -> (least <= h' + k)%Z ->
    scaled_point h k p q -> gridded c w -> scaled_point h' k (p_mul p w) (p_mul q w).
  Proof. intros -> L L' H Hw i Hi. rewrite !cw_mul by exact Hi. apply scaled_mul; auto. Qed.

  (** a + (b - a) t *)
  Lemma point_toward h h' p q p' q' : h' = (h + b)%Z -> (least <= h')%Z -> (least <= h' + k)%Z ->
    scaled_point h k p q -> scaled_point h k p' q' ->
    scaled_point h' k (p_add p (p_mul (p_sub p' p) t)) (p_add q (p_mul (p_sub q' q) t)).
  Proof.
    intros E L L' H H'. apply point_add; [assumption..|apply point_lower with h; [lia|assumption]|].
    apply point_mul with h b; auto. apply point_sub; auto; lia.
  Qed.

  Theorem line_scaled (c d : line P) : (least <= g + b)%Z -> (least <= g + b + k)%Z ->
    related_lines (scaled_point g k) c d -> scaled_point (g + b) k (line_eval c t) (line_eval d t).
  Proof. intros L L' [A B]. unfold line_eval. now apply point_toward with g. Qed.

  Theorem line_split_scaled (c d : line P) : (least <= g + b)%Z -> (least <= g + b + k)%Z ->
    related_lines (scaled_point g k) c d ->
    related_pairs (related_lines (scaled_point (g + b) k)) (related_lines (scaled_point (g + b) k))
      (line_split c t) (line_split d t).
  Proof.
    intros L L' [A B].
    assert (M : scaled_point (g + b) k (p_add (l_start c) (p_mul (p_sub (l_start c) (l_end c)) t))
                                       (p_add (l_start d) (p_mul (p_sub (l_start d) (l_end d)) t))).
    { apply point_add; [assumption..|apply point_lower with g; [lia|assumption]|].
      apply point_mul with g b; auto. apply point_sub; auto; lia. }
    split; (split; [|]); cbn [line_split fst snd l_start l_end]; try exact M;
      (apply point_lower with g; [lia|assumption]).
  Qed.

  Theorem quad_casteljau_scaled (c d : quad P) : (least <= g + 2 * b)%Z -> (least <= g + 2 * b + k)%Z ->
    related_quads (scaled_point g k) c d -> scaled_point (g + 2 * b) k (quad_eval_casteljau c t) (quad_eval_casteljau d t).
  Proof.
    intros L L' (A & B & C). unfold quad_eval_casteljau.
    apply point_toward with (g + b)%Z; try lia; apply point_toward with g; auto; lia.
  Qed.
  Theorem quad_split_scaled (c d : quad P) : (least <= g + 2 * b)%Z -> (least <= g + 2 * b + k)%Z ->
    related_quads (scaled_point g k) c d ->
    related_pairs (related_quads (scaled_point (g + 2 * b) k)) (related_quads (scaled_point (g + 2 * b) k))
      (quad_split c t) (quad_split d t).
  Proof.
    intros L L' H. pose proof H as (A & B & C). pose proof (quad_casteljau_scaled c d L L' H) as M.
    unfold quad_split. split; cbn [fst snd]; (split; [|split]); cbn [q_start q_ctrl q_end]; try exact M;
      try (apply point_lower with g; [lia|assumption]);
      (apply point_lower with (g + b)%Z; [lia|]; apply point_toward with g; auto; lia).
  Qed.
  Theorem quad_scaled (c d : quad P) : (least <= g + 2 * b)%Z -> (least <= g + 2 * b + k)%Z ->
    related_quads (scaled_point g k) c d -> scaled_point (g + 2 * b) k (quad_eval c t) (quad_eval d t).
  Proof.
    intros L L' (A & B & C). unfold quad_eval. cbv zeta.
    assert (O : gridded b (s_add (s_neg t) (s_lit 1))) by (apply gridded_one_sub; [lia|exact Ht]).
    assert (O2 : gridded (b + b) (s_mul (s_add (s_neg t) (s_lit 1)) (s_add (s_neg t) (s_lit 1)))) by (apply gridded_mul; auto; lia).
    assert (T2 : gridded (b + b) (s_mul t t)) by (apply gridded_mul; auto; lia).
    assert (W : gridded 0 (s_lit 2)) by (apply gridded_lit; lia).
    apply point_add; try lia; [apply point_add; try lia|].
    - apply point_mul with g (b + b)%Z; auto; lia.
    - apply point_mul with (g + b)%Z b; auto; try lia. apply point_mul with g b; auto; try lia.
      apply point_mul with g 0%Z; auto; lia.
    - apply point_mul with g (b + b)%Z; auto; lia.
  Qed.

  Theorem cubic_casteljau_scaled (c d : cubic P) : (least <= g + 3 * b)%Z -> (least <= g + 3 * b + k)%Z ->
    related_cubics (scaled_point g k) c d -> scaled_point (g + 3 * b) k (cubic_eval_casteljau c t) (cubic_eval_casteljau d t).
  Proof.
    intros L L' (A & B & C & D). unfold cubic_eval_casteljau.
    apply point_toward with (g + 2 * b)%Z; try lia; apply point_toward with (g + b)%Z; try lia;
      apply point_toward with g; auto; lia.
  Qed.
  Theorem cubic_split_scaled (c d : cubic P) : (least <= g + 3 * b)%Z -> (least <= g + 3 * b + k)%Z ->
    related_cubics (scaled_point g k) c d ->
    related_pairs (related_cubics (scaled_point (g + 3 * b) k)) (related_cubics (scaled_point (g + 3 * b) k))
      (cubic_split c t) (cubic_split d t).
  Proof.
    intros L L' H. pose proof H as (A & B & C & D). pose proof (cubic_casteljau_scaled c d L L' H) as M.
    unfold cubic_split. split; cbn [fst snd]; (split; [|split; [|split]]); cbn [c_start c_ctrl1 c_ctrl2 c_end]; try exact M;
      try (apply point_lower with g; [lia|assumption]);
      try (apply point_lower with (g + b)%Z; [lia|]; apply point_toward with g; auto; lia);
      (apply point_lower with (g + 2 * b)%Z; [lia|]; apply point_toward with (g + b)%Z; try lia;
       apply point_toward with g; auto; lia).
  Qed.
  Theorem cubic_scaled (c d : cubic P) : (least <= g + 3 * b)%Z -> (least <= g + 3 * b + k)%Z ->
    related_cubics (scaled_point g k) c d -> scaled_point (g + 3 * b) k (cubic_eval c t) (cubic_eval d t).
  Proof.
    intros L L' (A & B & C & D). unfold cubic_eval.
    assert (O : gridded b (s_add (s_neg t) (s_lit 1))) by (apply gridded_one_sub; [lia|exact Ht]).
    set (o := s_add (s_neg t) (s_lit 1)) in *.
    assert (O2 : gridded (b + b) (s_mul o o)) by (apply gridded_mul; auto; lia).
    assert (T2 : gridded (b + b) (s_mul t t)) by (apply gridded_mul; auto; lia).
    assert (TO : gridded (b + b) (s_mul t o)) by (apply gridded_mul; auto; lia).
    assert (W : gridded 0 (s_lit 3)) by (apply gridded_lit; lia).
    apply point_add; try lia; [apply point_add; try lia; [apply point_add; try lia|]|].
    - apply point_mul with g (b + b + b)%Z; auto; try lia. apply gridded_mul; auto; lia.
    - apply point_mul with g (b + b + b + 0)%Z; auto; try lia. apply gridded_mul; auto; try lia. apply gridded_mul; auto; lia.
    - apply point_mul with g (b + b + b + 0)%Z; auto; try lia. apply gridded_mul; auto; try lia. apply gridded_mul; auto; lia.
    - apply point_mul with g (b + b + b)%Z; auto; try lia. apply gridded_mul; auto; lia.
  Qed.

  (** the triangle of a curve of any degree *)
  Lemma tri_scaled (p q : nat -> P) n : (forall j, (j <= n)%nat -> scaled_point g k (p j) (q j)) ->
    forall m j, (m + j <= n)%nat -> (least <= g + Z.of_nat m * b)%Z -> (least <= g + Z.of_nat m * b + k)%Z ->
    scaled_point (g + Z.of_nat m * b) k (tri t p m j) (tri t q m j).
  Proof.
    intros H. induction m as [|m IH]; intros j Hj L L'.
    - cbn [tri]. replace (g + Z.of_nat 0 * b)%Z with g by lia. apply H. lia.
    - cbn [tri]. unfold lerp.
      assert (O : gridded b (s_add (s_neg t) (s_lit 1))) by (apply gridded_one_sub; [nia|exact Ht]).
      apply point_add; [assumption..| |]; apply point_mul with (g + Z.of_nat m * b)%Z b; auto; try lia; apply IH; lia.
  Qed.
  Lemma nth_scaled (ps qs : list P) d j : Forall2 (scaled_point g k) ps qs -> (j < length ps)%nat ->
    scaled_point g k (nth j ps d) (nth j qs d).
  Proof.
    intros H. revert j. induction H as [|x y l m A B IH]; intros [|j] Hj; cbn in *; try lia; auto. apply IH. lia.
  Qed.
  Theorem bezier_scaled (c d : bezier P) n : length (bz_points c) = S n ->
    (least <= g + Z.of_nat n * b)%Z -> (least <= g + Z.of_nat n * b + k)%Z ->
    related_beziers (scaled_point g k) c d ->
    related (scaled_point (g + Z.of_nat n * b) k) (bezier_eval c t) (bezier_eval d t).
  Proof.
    destruct c as [ps], d as [qs]. unfold related_beziers. cbn [bz_points]. intros Hn L L' H.
    pose proof (Forall2_length H) as E.
    rewrite (bezier_eval_closed ps t p_default), (bezier_eval_closed qs t p_default)
      by (intros ->; cbn in *; lia).
    cbn [related]. rewrite <- E, Hn. replace (S n - 1)%nat with n by lia.
    apply tri_scaled with n; [|lia|exact L|exact L']. intros j Hj. apply nth_scaled; [exact H|lia].
  Qed.
  Theorem bezier_split_scaled (c d : bezier P) n : length (bz_points c) = S n ->
    (least <= g + Z.of_nat n * b)%Z -> (least <= g + Z.of_nat n * b + k)%Z ->
    related_beziers (scaled_point g k) c d ->
    related (related_pairs (related_beziers (scaled_point (g + Z.of_nat n * b) k))
                           (related_beziers (scaled_point (g + Z.of_nat n * b) k)))
      (bezier_split c t) (bezier_split d t).
  Proof.
    destruct c as [ps], d as [qs]. unfold related_beziers. cbn [bz_points]. intros Hn L L' H.
    pose proof (Forall2_length H) as E.
    destruct (bezier_split_closed ps t p_default) as (l & r & S1 & A1 & A2 & A3 & A4).
    destruct (bezier_split_closed qs t p_default) as (l' & r' & S2 & B1 & B2 & B3 & B4).
    rewrite S1, S2. cbn [related].
    assert (X : forall m j, (m + j <= n)%nat -> scaled_point (g + Z.of_nat n * b) k
       (tri t (fun i => nth i ps p_default) m j) (tri t (fun i => nth i qs p_default) m j)).
    { intros m j Hm. apply point_lower with (g + Z.of_nat m * b)%Z; [nia|].
      apply tri_scaled with n; [|exact Hm|nia|nia]. intros i Hi. apply nth_scaled; [exact H|lia]. }
    assert (Y : forall u v : list P, length u = S n -> length v = S n ->
      (forall j, (j < S n)%nat -> scaled_point (g + Z.of_nat n * b) k (nth j u p_default) (nth j v p_default)) ->
      Forall2 (scaled_point (g + Z.of_nat n * b) k) u v).
    { generalize (S n). intros m. induction m as [|m IH]; intros [|x u] [|y v] Hu Hv Hj; try discriminate; constructor.
      - apply (Hj 0%nat). lia.
      - apply IH; [now injection Hu|now injection Hv|]. intros j Hjm. apply (Hj (S j)). lia. }
    split; cbn [fst snd bz_points]; apply Y; try lia; intros j Hj.
    - rewrite A3, B3 by lia. apply X. lia.
    - rewrite A4, B4 by lia. rewrite <- E, Hn. apply X. lia.
  Qed.

  (** derivatives *)
  Hypotheses (L : (least <= g)%Z) (L' : (least <= g + k)%Z).
  Theorem line_derivative_scaled (c d : line P) : related_lines (scaled_point g k) c d ->
    scaled_point g k (line_derivative c) (line_derivative d).
  Proof. intros [A B]. unfold line_derivative. apply point_sub; auto. Qed.
  Lemma difference_scaled p q p' q' w : gridded 0 w -> scaled_point g k p q -> scaled_point g k p' q' ->
    scaled_point g k (p_mul (p_sub p' p) w) (p_mul (p_sub q' q) w).
  Proof. intros W A B. apply point_mul with g 0%Z; auto; [lia|]. apply point_sub; auto. Qed.
  Theorem quad_derivative_scaled (c d : quad P) : related_quads (scaled_point g k) c d ->
    related_lines (scaled_point g k) (quad_derivative c) (quad_derivative d).
  Proof.
    intros (A & B & C). assert (W : gridded 0 (s_lit 2)) by (apply gridded_lit; lia).
    split; cbn; apply difference_scaled; auto.
  Qed.
  Theorem cubic_derivative_scaled (c d : cubic P) : related_cubics (scaled_point g k) c d ->
    related_quads (scaled_point g k) (cubic_derivative c) (cubic_derivative d).
  Proof.
    intros (A & B & C & D). assert (W : gridded 0 (s_lit 3)) by (apply gridded_lit; lia).
    (split; [|split]); cbn [cubic_derivative q_start q_ctrl q_end]; apply difference_scaled; auto.
  Qed.
End Curves.

(** B-splines over the same knots *)
Section Spline.
  Context {F : Format} {P : Type} {PT : Point float P} {CP : CwPoint float P}.

  (** a float of magnitude 2^e at least is a multiple of 2^(e + 1 - prec) *)
  Lemma large_on_grid e (x : float) : bpow radix2 e <= Rabs (val x) -> on_grid (e + 1 - fprec) x.
  Proof.
    intros H. pose proof (bpow_gt_0 radix2 e) as B.
    assert (N : val x <> 0) by (intros E; rewrite E, Rabs_R0 in H; lra).
    assert (M : (e + 1 <= mag radix2 (val x))%Z) by (apply mag_ge_bpow; now replace (e + 1 - 1)%Z with e by ring).
    apply multiple_lower with (cexp radix2 fx (val x)).
    - unfold cexp. rewrite fx_eq. lia.
    - exists (Ztrunc (scaled_mantissa radix2 fx (val x))). exact (val_float x).
  Qed.

  Variables (D : nat) (ks : list float) (ps qs : list P) (s s' : bspline float P) (t : float) (m g n : Z).
  Hypotheses (Hs : bspline_new D ks ps = Ret (Ok s)) (Hs' : bspline_new D ks qs = Ret (Ok s')).
  Hypothesis Hpq : Forall2 (scaled_point g n) ps qs.
  Hypotheses (Hu : bs_kind s <> Unclamped) (Ht : fin t).
  Hypotheses (Hm : (0 <= m < femax - 2)%Z) (Hk : forall x, In x ks -> fin x /\ Rabs (val x) <= bpow radix2 m).
  Hypothesis Hg : (g <= 0)%Z.
  Local Notation step := (2 * fprec + m)%Z.

  Lemma spline_moderate : moderate ks.
  Proof.
    intros x Hx. destruct (Hk x Hx) as [A B]. split; [exact A|]. eapply Rle_trans; [exact B|].
    assert (bpow radix2 m <= bpow radix2 (femax - 2)) by (apply bpow_le; lia).
    assert (bpow radix2 femax = 4 * bpow radix2 (femax - 2)).
    { replace femax with (2 + (femax - 2))%Z at 1 by ring. rewrite bpow_plus. cbn. lra. }
    pose proof fmax_eq as E. pose proof uro_small. pose proof uro_pos. pose proof (bpow_gt_0 radix2 (femax - 2)).
    rewrite E. nra.
  Qed.

  Lemma bpow_float e : (least <= e < femax)%Z -> is_float (bpow radix2 e).
  Proof.
    intros H. apply generic_format_bpow. rewrite fx_eq. pose proof fprec_ge. lia.
  Qed.

  Lemma weight_grid a b : In a ks -> In b ks -> val a <= val t < val b -> (least <= - step)%Z ->
    gridded (- step) (fweight t a b).
  Proof.
    intros Ha Hb Hr Hl _. destruct (Hk a Ha) as [Fa Ba], (Hk b Hb) as [Fb Bb].
    destruct (spline_moderate a Ha) as [_ Ma], (spline_moderate b Hb) as [_ Mb].
    pose proof fprec_ge as FP.
    assert (Mt : Rabs (val t) <= fmax / 2).
    { apply Rabs_le_inv in Ma. apply Rabs_le_inv in Mb. apply Rabs_le. lra. }
    destruct (weight_cases t a b Ht Fa Fb Mt Ma Mb Hr) as [(_ & ->)|(H1 & H2 & H3 & _)].
    - exists 0%Z. rewrite (proj2 (lit_small 0 ltac:(lia))). ring.
    - apply (multiple_lower _ ((- fprec - m) + 1 - fprec)%Z); [lia|]. apply large_on_grid.
      rewrite H3. pose proof uro_pos as U0.
      set (x := rnd (val t - val a)) in *. set (d := rnd (val b - val a)) in *.
      assert (Bd : d <= bpow radix2 (m + 1)).
      { apply rnd_le_float; [apply bpow_float; pose proof least_eq; lia|].
        apply Rabs_le_inv in Ba. apply Rabs_le_inv in Bb. rewrite bpow_plus. cbn. lra. }
      assert (Q : bpow radix2 (- fprec - m) <= x / d).
      { apply Rmult_le_reg_r with d; [lra|]. unfold Rdiv. rewrite Rmult_assoc, Rinv_l, Rmult_1_r by lra.
        apply Rle_trans with (bpow radix2 (- fprec - m) * bpow radix2 (m + 1)).
        - apply Rmult_le_compat_l; [apply bpow_ge_0|exact Bd].
        - rewrite <- bpow_plus. replace (- fprec - m + (m + 1))%Z with (1 + - fprec)%Z by ring.
          rewrite bpow_plus. fold uro. cbn. lra. }
      assert (R : bpow radix2 (- fprec - m) <= rnd (x / d)).
      { apply rnd_ge_float; [apply bpow_float; lia|exact Q]. }
      rewrite Rabs_pos_eq; [exact R|]. pose proof (bpow_ge_0 radix2 (- fprec - m)). lra.
  Qed.

  Lemma entries_scaled k : (D <= k < length ps)%nat -> fspan ks k (val t) ->
    forall r j, (r <= j <= D)%nat ->
    (least <= g - Z.of_nat r * step)%Z -> (least <= g - Z.of_nat r * step + n)%Z ->
    scaled_point (g - Z.of_nat r * step) n (entry s t k r j) (entry s' t k r j).
  Proof.
    intros Hkk Hb. destruct (new_fields D ks ps s Hs) as (A1 & A2 & A3). destruct (new_fields D ks qs s' Hs') as (B1 & B2 & B3).
    pose proof fprec_ge as FP.
    assert (Hf : forall x, In x ks -> fin x) by (intros x Hx; apply Hk, Hx).
    pose proof (new_wf D ks ps s Hs) as W. pose proof (new_fsorted D ks ps s Hs Hf) as So.
    induction r as [|r IH]; intros j Hj L L'.
    - replace (g - Z.of_nat 0 * step)%Z with g by lia. cbn [entry]. rewrite A1, B1. destruct (Nat.ltb_spec j D).
      + unfold cpoint. rewrite A3, B3. apply nth_scaled; [exact Hpq|]. destruct W as [W1 W2]. rewrite A1, A3 in *. lia.
      + intros i Hi _ _. rewrite cw_default by exact Hi. unfold on_grid. rewrite (proj2 (lit_small 0 ltac:(lia))).
        split; [exists 0%Z|]; ring.
    - assert (E : weight s' t k (S r) j = weight s t k (S r) j).
      { unfold weight, knot. now rewrite A1, A2, B1, B2. }
      cbn [entry]. rewrite E.
      assert (G : gridded (- step) (weight s t k (S r) j)).
      { rewrite weight_fweight. destruct W as [W1 W2]. rewrite A1, A2, A3 in *.
        apply weight_grid.
        - unfold knot. rewrite A2. apply nth_In. lia.
        - unfold knot. rewrite A2. apply nth_In. lia.
        - rewrite <- A1. pose proof (range s t k) as Rg. unfold knot. rewrite A2. unfold fknot in Rg. rewrite A2 in Rg.
          apply Rg; rewrite ?A1, ?A2, ?A3; auto; try lia. split; rewrite ?A1, ?A2, ?A3; lia.
        - nia. }
      assert (G' : gridded (- step) (s_sub (s_lit 1) (weight s t k (S r) j))).
      { apply gridded_sub; [nia| |exact G]. apply gridded_lower with 0%Z; [lia|]. now apply gridded_lit. }
      apply point_add; [exact L|exact L'| |].
      + apply point_mul with (g - Z.of_nat r * step)%Z (- step)%Z; [nia|exact L|exact L'| |assumption]. apply IH; [lia|nia|nia].
      + apply point_mul with (g - Z.of_nat r * step)%Z (- step)%Z; [nia|exact L|exact L'| |assumption]. apply IH; [lia|nia|nia].
  Qed.

  Theorem spline_scaled : fknot ks D <= val t < fknot ks (length ps) ->
    (least <= g - Z.of_nat D * step)%Z -> (least <= g - Z.of_nat D * step + n)%Z ->
    exists p q, bspline_eval s t = Ret (Ok p) /\ bspline_eval s' t = Ret (Ok q) /\
      scaled_point (g - Z.of_nat D * step) n p q.
  Proof.
    intros Hr L L'. pose proof spline_moderate as Hmod.
    destruct (eval_entry D ks ps s t Hs Hu Hmod Ht Hr) as (k & Hkk & Hb & Ee).
    assert (Le : length qs = length ps) by (symmetry; apply (Forall2_length Hpq)).
    assert (Hu' : bs_kind s' <> Unclamped).
    { rewrite (new_kind_of D ks qs s' Hs'). now rewrite (new_kind_of D ks ps s Hs) in Hu. }
    destruct (eval_entry D ks qs s' t Hs' Hu' Hmod Ht) as (k' & Hk' & Hb' & Ee'); [now rewrite Le|].
    assert (k' = k) as ->.
    { assert (Hf : forall x, In x ks -> fin x) by (intros x Hx; apply Hk, Hx).
      pose proof (new_fsorted D ks ps s Hs Hf) as So. destruct Hb as [C1 C2], Hb' as [C1' C2'].
      destruct (Nat.lt_trichotomy k k') as [X|[X|X]]; [exfalso|now symmetry|exfalso].
      - pose proof (So (k + 1)%nat k' ltac:(lia)). unfold fknot in *. lra.
      - pose proof (So (k' + 1)%nat k ltac:(lia)). unfold fknot in *. lra. }
    do 2 eexists. split; [exact Ee|]. split; [exact Ee'|].
    apply entries_scaled; auto.
  Qed.
End Spline.
