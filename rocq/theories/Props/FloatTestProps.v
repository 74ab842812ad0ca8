(** C82: the assertions of the crate's own tests, for every curve and every
    parameter, in IEEE-754 arithmetic.  The tests assert
    [(p - q).squared_length() < EPSILON] and [axis >= lo - e && axis <= hi + e]. *)
From Coq Require Import Reals List Arith ZArith Lia Lra.
From Flocq Require Import Core.Core IEEE754.BinarySingleNaN.
From Verif Require Import Base.Outcome Base.Scalar Model.Point Model.Line Model.Quadratic Model.Cubic
  Model.Bezier Inst.FloatInst Spec.Rounding Spec.Componentwise Spec.Points Spec.FloatPoints Spec.FloatCurves
  Proofs.FloatFacts Proofs.FloatPoint Proofs.FloatCurve Proofs.FloatAgree Proofs.FloatHalf Proofs.FloatBoxTest.
Import ListNotations.
Local Open Scope R_scope.

Section Tests.
  Context {F : Format} {P : Type} {PT : Point float P} {CP : CwPoint float P}.
  Notation D := (p_dim (P := P)).
  (** coordinates of magnitude at most M *)
  Variable M : R.
  Hypotheses (HM : 1 <= M) (HD0 : (0 < D)%nat) (HD : 4 * INR (D + 1) * uro <= 1).
  (** K M is small against 1 / sqrt EPSILON *)
  Notation small K := (2 * INR D * ((K * M) * (K * M)) * uro <= 1).
  (** what the tests assert of two points *)
  Notation close p q := (s_ltb (p_sqlen (p_sub p q)) s_eps = true).

  Theorem C82_quad_eval (q : quad P) t : fin t -> 0 <= val t <= 1 -> small 30 ->
    (forall p, In p (quad_control_points q) -> bounded M p) ->
    close (quad_eval_casteljau q t) (quad_eval q t).
  Proof. intros Ht Hr. exact (quad_agree M HM HD0 HD t Ht Hr q). Qed.

  Theorem C82_cubic_eval (c : cubic P) t : fin t -> 0 <= val t <= 1 -> small 57 ->
    (forall p, In p (cubic_control_points c) -> bounded M p) ->
    close (cubic_eval_casteljau c t) (cubic_eval c t).
  Proof. intros Ht Hr. exact (cubic_agree M HM HD0 HD t Ht Hr c). Qed.

  Theorem C82_quad_generic (q : quad P) t : fin t -> 0 <= val t <= 1 -> small 30 ->
    (forall p, In p (quad_control_points q) -> bounded M p) ->
    exists p, bezier_eval (Bezier [q_start q; q_ctrl q; q_end q]) t = Ret p /\ close (quad_eval q t) p.
  Proof. intros Ht Hr. exact (quad_generic_agree M HM HD0 HD t Ht Hr q). Qed.

  Theorem C82_cubic_generic (c : cubic P) t : fin t -> 0 <= val t <= 1 -> small 58 ->
    (forall p, In p (cubic_control_points c) -> bounded M p) ->
    exists p, bezier_eval (Bezier [c_start c; c_ctrl1 c; c_ctrl2 c; c_end c]) t = Ret p /\ close (cubic_eval c t) p.
  Proof. intros Ht Hr. exact (cubic_generic_agree M HM HD0 HD t Ht Hr c). Qed.

  (** the halves of a split at any parameter, against the whole curve at any float
      within EPSILON of the corresponding parameter *)
  Theorem C82_quad_split (q l r : quad P) at_ t s : fin at_ -> 0 <= val at_ <= 1 -> fin t -> 0 <= val t <= 1 ->
    fin s -> 0 <= val s <= 1 -> small 55 -> (forall p, In p (quad_control_points q) -> bounded M p) ->
    quad_split q at_ = (l, r) ->
    (Rabs (val s - val at_ * val t) <= val s_eps -> close (quad_eval q s) (quad_eval l t)) /\
    (Rabs (val s - (val at_ + val t * (1 - val at_))) <= val s_eps -> close (quad_eval q s) (quad_eval r t)).
  Proof.
    intros A1 A2 T1 T2 S1 S2 HS B E. rewrite (proj2 eps_ok).
    exact (quad_split_agree M HM HD0 HD at_ t A1 A2 T1 T2 q l r s HS E B S1 S2).
  Qed.

  Theorem C82_cubic_split (c l r : cubic P) at_ t s : fin at_ -> 0 <= val at_ <= 1 -> fin t -> 0 <= val t <= 1 ->
    fin s -> 0 <= val s <= 1 -> small 108 -> (forall p, In p (cubic_control_points c) -> bounded M p) ->
    cubic_split c at_ = (l, r) ->
    (Rabs (val s - val at_ * val t) <= val s_eps -> close (cubic_eval c s) (cubic_eval l t)) /\
    (Rabs (val s - (val at_ + val t * (1 - val at_))) <= val s_eps -> close (cubic_eval c s) (cubic_eval r t)).
  Proof.
    intros A1 A2 T1 T2 S1 S2 HS B E. rewrite (proj2 eps_ok).
    exact (cubic_split_agree M HM HD0 HD at_ t A1 A2 T1 T2 c l r s HS E B S1 S2).
  Qed.

  Theorem C82_bezier_split (ps : list P) n at_ t s : length ps = S (S n) ->
    fin at_ -> 0 <= val at_ <= 1 -> fin t -> 0 <= val t <= 1 -> fin s -> 0 <= val s <= 1 ->
    small (30 * INR (S n)) -> (forall p, In p ps -> bounded M p) ->
    exists l r w pl pr, bezier_split (Bezier ps) at_ = Ret (l, r) /\
      bezier_eval (Bezier ps) s = Ret w /\ bezier_eval l t = Ret pl /\ bezier_eval r t = Ret pr /\
      (Rabs (val s - val at_ * val t) <= val s_eps -> close w pl) /\
      (Rabs (val s - (val at_ + val t * (1 - val at_))) <= val s_eps -> close w pr).
  Proof.
    intros L A1 A2 T1 T2 S1 S2 HS B. rewrite (proj2 eps_ok).
    exact (bezier_split_agree M HM HD0 HD at_ t A1 A2 T1 T2 ps n L HS B s S1 S2).
  Qed.

  (** the very expressions of the split tests: at 0.5, against t / 2 and t * 0.5 + 0.5 *)
  Theorem C82_quad_split_half (q l r : quad P) t : fin t -> 0 <= val t <= 1 ->
    small 55 -> (forall p, In p (quad_control_points q) -> bounded M p) -> quad_split q s_half = (l, r) ->
    close (quad_eval q (s_div t (s_lit 2))) (quad_eval l t) /\
    close (quad_eval q (s_add (s_mul t s_half) s_half)) (quad_eval r t).
  Proof.
    intros T1 T2 HS B E. destruct half_ok as [H1 H2].
    destruct (left_param t T1 T2) as (L1 & L2 & L3). destruct (right_param t T1 T2) as (R1 & R2 & R3).
    assert (H3 : 0 <= val s_half <= 1) by (rewrite H2; lra). rewrite <- H2 in L3, R3. rewrite <- (proj2 eps_ok) in L3, R3.
    split; [exact (proj1 (C82_quad_split q l r s_half t _ H1 H3 T1 T2 L1 L2 HS B E) L3)
           |exact (proj2 (C82_quad_split q l r s_half t _ H1 H3 T1 T2 R1 R2 HS B E) R3)].
  Qed.

  Theorem C82_cubic_split_half (c l r : cubic P) t : fin t -> 0 <= val t <= 1 ->
    small 108 -> (forall p, In p (cubic_control_points c) -> bounded M p) -> cubic_split c s_half = (l, r) ->
    close (cubic_eval c (s_div t (s_lit 2))) (cubic_eval l t) /\
    close (cubic_eval c (s_add (s_mul t s_half) s_half)) (cubic_eval r t).
  Proof.
    intros T1 T2 HS B E. destruct half_ok as [H1 H2].
    destruct (left_param t T1 T2) as (L1 & L2 & L3). destruct (right_param t T1 T2) as (R1 & R2 & R3).
    assert (H3 : 0 <= val s_half <= 1) by (rewrite H2; lra). rewrite <- H2 in L3, R3. rewrite <- (proj2 eps_ok) in L3, R3.
    split; [exact (proj1 (C82_cubic_split c l r s_half t _ H1 H3 T1 T2 L1 L2 HS B E) L3)
           |exact (proj2 (C82_cubic_split c l r s_half t _ H1 H3 T1 T2 R1 R2 HS B E) R3)].
  Qed.

  (** the containment test with tolerance e, for every tolerance above rounding *)
  Theorem C82_quad_box (q : quad P) (t e : float) : fin t -> 0 <= val t <= 1 ->
    fin e -> 70 * uro * M <= val e <= fmax / 2 -> 4 * M <= uro * fmax ->
    (forall p, In p (quad_control_points q) -> bounded M p) ->
    exists bounds, quad_bounding_box q = Ret bounds /\
      forall i, (i < D)%nat -> exists x lo hi, nth_error bounds i = Some (lo, hi) /\
        p_axis (quad_eval_casteljau q t) i = Ret x /\
        s_leb (s_sub lo e) x = true /\ s_leb x (s_add hi e) = true.
  Proof. intros T1 T2 E1 E2 H4. exact (quad_box_test M t e HM T1 T2 E1 (proj2 E2) q H4 (proj1 E2)). Qed.

  (** C73: the containment test of the cubic test, for curves as in [C73_cubic_partial] *)
  Theorem C73_cubic_test_partial (c : cubic P) (t e : float) lam : fin t -> 0 <= val t <= 1 ->
    fin e -> (36 * uro + 66000 * (lam * lam) * (uro * sqrt uro)) * M <= val e <= fmax / 2 ->
    2048 * (M * M) <= fmax -> 2048 * lam * uro <= 1 ->
    (forall p, In p (cubic_control_points c) -> bounded M p) ->
    (forall i, (i < D)%nat ->
       M <= lam * Rabs (val (cw (c_end c) i) - 3 * val (cw (c_ctrl2 c) i)
                        + 3 * val (cw (c_ctrl1 c) i) - val (cw (c_start c) i))) ->
    exists bounds, cubic_bounding_box c = Ret bounds /\
      forall i, (i < D)%nat -> exists x lo hi, nth_error bounds i = Some (lo, hi) /\
        p_axis (cubic_eval_casteljau c t) i = Ret x /\
        s_leb (s_sub lo e) x = true /\ s_leb x (s_add hi e) = true.
  Proof. intros T1 T2 E1 E2 H2 HL. exact (cubic_box_test M t e HM T1 T2 E1 (proj2 E2) c lam H2 HL (proj1 E2)). Qed.
End Tests.

(** The hypotheses hold for f64 curves in the plane with coordinates up to 64, and
    for a generic curve with five control points. *)
Section Concrete.
  #[local] Existing Instance Binary64.
  Definition pts : list (PointN float 2) :=
    [fpt2 (flt 0 0) (flt (-7) 0); fpt2 (flt 64 0) (flt 1 0); fpt2 (flt 3 0) (flt (-41) 0);
     fpt2 (flt (-20) 0) (flt 9 0); fpt2 (flt 5 0) (flt 6 0)].
  Lemma pts_bounded p : In p pts -> bounded 64 p.
  Proof.
    intros [<-|[<-|[<-|[<-|[<-|[]]]]]]; apply bounded_int2; try lia; apply Rabs_le; lra.
  Qed.
  Definition a_quad : quad (PointN float 2) := Quad (nth 0 pts p_default) (nth 1 pts p_default) (nth 2 pts p_default).
  Definition a_cubic : cubic (PointN float 2) :=
    Cubic (nth 0 pts p_default) (nth 1 pts p_default) (nth 2 pts p_default) (nth 3 pts p_default).
  Lemma a_quad_bounded p : In p (quad_control_points a_quad) -> bounded 64 p.
  Proof. intros [<-|[<-|[<-|[]]]]; apply pts_bounded, nth_In; unfold pts; simpl length; lia. Qed.
  Lemma a_cubic_bounded p : In p (cubic_control_points a_cubic) -> bounded 64 p.
  Proof. intros [<-|[<-|[<-|[<-|[]]]]]; apply pts_bounded, nth_In; unfold pts; simpl length; lia. Qed.
  Lemma dims : INR (p_dim (P := PointN float 2)) = 2 /\ INR (p_dim (P := PointN float 2) + 1) = 3.
  Proof. split; simpl; ring. Qed.
  Lemma dim_pos : (0 < p_dim (P := PointN float 2))%nat.
  Proof. cbn. lia. Qed.
  Lemma dim_ok : 4 * INR (p_dim (P := PointN float 2) + 1) * uro <= 1.
  Proof. rewrite (proj2 dims). pose proof uro_64. lra. Qed.
  Lemma small_64 K : 0 <= K <= 120 ->
    2 * INR (p_dim (P := PointN float 2)) * ((K * 64) * (K * 64)) * uro <= 1.
  Proof.
    intros H. rewrite (proj1 dims). pose proof uro_64. pose proof uro_pos.
    assert (K * K <= 120 * 120) by (apply Rmult_le_compat; lra).
    assert (0 <= K * K) by (apply Rmult_le_pos; lra).
    assert (K * K * uro <= 120 * 120 * / 9007199254740992) by (apply Rmult_le_compat; lra). lra.
  Qed.

  Example C82_quad_case t l r : fin t -> 0 <= val t <= 1 -> quad_split a_quad s_half = (l, r) ->
    s_ltb (p_sqlen (p_sub (quad_eval_casteljau a_quad t) (quad_eval a_quad t))) s_eps = true /\
    s_ltb (p_sqlen (p_sub (quad_eval a_quad (s_div t (s_lit 2))) (quad_eval l t))) s_eps = true.
  Proof.
    intros Ht Hr E. split.
    - apply (C82_quad_eval 64 ltac:(lra) dim_pos dim_ok a_quad t Ht Hr); [apply small_64; lra|exact a_quad_bounded].
    - apply (C82_quad_split_half 64 ltac:(lra) dim_pos dim_ok a_quad l r t Ht Hr); [apply small_64; lra|exact a_quad_bounded|exact E].
  Qed.
  Example C82_cubic_case t l r : fin t -> 0 <= val t <= 1 -> cubic_split a_cubic s_half = (l, r) ->
    s_ltb (p_sqlen (p_sub (cubic_eval_casteljau a_cubic t) (cubic_eval a_cubic t))) s_eps = true /\
    s_ltb (p_sqlen (p_sub (cubic_eval a_cubic (s_add (s_mul t s_half) s_half)) (cubic_eval r t))) s_eps = true /\
    exists p, bezier_eval (Bezier (firstn 4 pts)) t = Ret p /\
      s_ltb (p_sqlen (p_sub (cubic_eval a_cubic t) p)) s_eps = true.
  Proof.
    intros Ht Hr E. split; [|split].
    - apply (C82_cubic_eval 64 ltac:(lra) dim_pos dim_ok a_cubic t Ht Hr); [apply small_64; lra|exact a_cubic_bounded].
    - apply (C82_cubic_split_half 64 ltac:(lra) dim_pos dim_ok a_cubic l r t Ht Hr); [apply small_64; lra|exact a_cubic_bounded|exact E].
    - apply (C82_cubic_generic 64 ltac:(lra) dim_pos dim_ok a_cubic t Ht Hr); [apply small_64; lra|exact a_cubic_bounded].
  Qed.
  (** five control points *)
  Example C82_bezier_case t : fin t -> 0 <= val t <= 1 ->
    exists l r w pl pr, bezier_split (Bezier pts) s_half = Ret (l, r) /\
      bezier_eval (Bezier pts) (s_div t (s_lit 2)) = Ret w /\ bezier_eval l t = Ret pl /\ bezier_eval r t = Ret pr /\
      s_ltb (p_sqlen (p_sub w pl)) s_eps = true.
  Proof.
    intros Ht Hr. destruct half_ok as [H1 H2]. destruct (left_param t Ht Hr) as (L1 & L2 & L3).
    destruct (C82_bezier_split 64 ltac:(lra) dim_pos dim_ok pts 3 s_half t (s_div t (s_lit 2)) eq_refl)
      as (l & r & w & pl & pr & A & B & C & E & G & _); try assumption.
    - rewrite H2. lra.
    - apply small_64. simpl. lra.
    - exact pts_bounded.
    - exists l, r, w, pl, pr. repeat (split; [assumption|]). apply G. rewrite H2, (proj2 eps_ok). exact L3.
  Qed.
  (** a tolerance of 2^-40 *)
  Example C82_box_case t : fin t -> 0 <= val t <= 1 ->
    exists bounds, quad_bounding_box a_quad = Ret bounds /\
      forall i, (i < 2)%nat -> exists x lo hi, nth_error bounds i = Some (lo, hi) /\
        p_axis (quad_eval_casteljau a_quad t) i = Ret x /\
        s_leb (s_sub lo (flt 1 (-40))) x = true /\ s_leb x (s_add hi (flt 1 (-40))) = true.
  Proof.
    intros Ht Hr. pose proof uro_64 as U. pose proof fmax_64 as G. pose proof uro_pos.
    assert (V : val (flt 1 (-40)) = / 1099511627776).
    { replace (val (flt 1 (-40))) with (IZR 4503599627370496 * bpow radix2 (-92)) by (vm_compute; reflexivity).
      cbn. lra. }
    apply (C82_quad_box 64 ltac:(lra) a_quad t (flt 1 (-40)) Ht Hr); [vm_compute; reflexivity|rewrite V; split; lra| |exact a_quad_bounded].
    assert (E : 9007199254740992 * (9007199254740992 * 9007199254740992) <= fmax).
    { rewrite fmax_eq. pose proof uro_small.
      assert (B : 2 * (9007199254740992 * (9007199254740992 * 9007199254740992)) <= bpow radix2 femax).
      { replace (2 * (9007199254740992 * (9007199254740992 * 9007199254740992))) with (bpow radix2 160) by (cbn; ring).
        apply bpow_le. cbn [femax Binary64]. lia. }
      assert (/ 2 * bpow radix2 femax <= (1 - uro) * bpow radix2 femax) by (apply Rmult_le_compat_r; lra). lra. }
    assert (EU : @uro Binary64 * 9007199254740992 = 1).
    { unfold uro. change (9007199254740992) with (bpow radix2 53). rewrite <- bpow_plus. reflexivity. }
    assert (uro * (9007199254740992 * (9007199254740992 * 9007199254740992)) <= uro * fmax) by (apply Rmult_le_compat_l; lra).
    assert (uro * (9007199254740992 * (9007199254740992 * 9007199254740992)) = 9007199254740992 * 9007199254740992)
      by (rewrite <- Rmult_assoc, EU; ring). lra.
  Qed.
End Concrete.

Print Assumptions C82_quad_eval.
Print Assumptions C82_cubic_eval.
Print Assumptions C82_quad_generic.
Print Assumptions C82_cubic_generic.
Print Assumptions C82_quad_split.
Print Assumptions C82_cubic_split.
Print Assumptions C82_bezier_split.
Print Assumptions C82_quad_split_half.
Print Assumptions C82_cubic_split_half.
Print Assumptions C82_quad_box.
Print Assumptions C73_cubic_test_partial.
