(** Rounded sums and products are monotone, and so is everything computed from
    control points with nonnegative weights. *)
From Coq Require Import Reals ZArith List Arith Bool Lia Lra.
From Flocq Require Import Core.Core IEEE754.BinarySingleNaN.
From Verif Require Import Base.Outcome Base.Scalar Model.Point Model.Line Model.Quadratic Model.Cubic Model.Bezier
  Model.Segment Model.BSpline Inst.FloatInst Spec.Rounding Spec.Componentwise Spec.Points Spec.FloatPoints Spec.FloatSplines
  Spec.Mirror Spec.Related Spec.Order
  Proofs.FloatFacts Proofs.FloatNeg Proofs.FloatSpline Proofs.FloatSplineEval Proofs.BSplineGeneric Proofs.BezierGeneric
  Proofs.Relational.
Import ListNotations.
Local Open Scope R_scope.

Section Scalars.
  Context {F : Format}.
  Implicit Types x y z w : float.
  Local Notation inf := (B754_infinity false : float).
  Local Notation minf := (B754_infinity true : float).
  Local Notation NaN := (B754_nan : float).

  Lemma above_key x y : not_above x y <-> (~ nan x -> ~ nan y -> key x <= key y).
  Proof.
    unfold not_above. split.
    - intros H Nx Ny. rewrite ltb_key in H by assumption. now destruct (Rlt_bool_spec (key y) (key x)).
    - intros H. destruct (is_nan x) eqn:Nx; [now apply ltb_nan_r|]. destruct (is_nan y) eqn:Ny; [now apply ltb_nan_l|].
      assert (~ nan x /\ ~ nan y) as [A B] by (unfold nan; split; congruence). rewrite ltb_key by assumption.
      apply Rlt_bool_false. auto.
  Qed.
  Lemma above_refl x : not_above x x.
  Proof. apply above_key. intros; lra. Qed.
  Lemma above_leb x y : ~ nan x -> ~ nan y -> (not_above x y <-> s_leb x y = true).
  Proof.
    intros Nx Ny. rewrite above_key, leb_key by assumption. split; intros H.
    - apply Rle_bool_true. auto.
    - intros _ _. now destruct (Rle_bool_spec (key x) (key y)).
  Qed.

  Definition clamp (r : R) : R := Rmax (- bpow radix2 femax) (Rmin (bpow radix2 femax) r).
  Lemma clamp_le a b : a <= b -> clamp a <= clamp b.
  Proof. intros H. unfold clamp. apply Rle_max_compat_l, Rle_min_compat_l, H. Qed.
  Lemma clamp_in r : Rabs r < bpow radix2 femax -> clamp r = r.
  Proof. intros H. apply Rabs_def2 in H. unfold clamp. rewrite Rmin_right, Rmax_right; lra. Qed.
  Lemma clamp_out r (s : bool) : bpow radix2 femax <= Rabs r -> (if s then r <= 0 else 0 <= r) ->
    clamp r = key (B754_infinity s : float).
  Proof.
    intros H Hs. pose proof bemax_pos. unfold clamp. cbn [key]. destruct s.
    - rewrite Rabs_left1 in H by lra. rewrite Rmin_right, Rmax_left; lra.
    - rewrite Rabs_pos_eq in H by lra. rewrite Rmin_left, Rmax_right; lra.
  Qed.
  Lemma overflow_key z r (s : bool) : (if s then r <= 0 else 0 <= r) ->
    (if Rlt_bool (Rabs (rnd r)) (bpow radix2 femax) then B2R z = rnd r /\ is_finite z = true
     else B2SF z = SpecFloat.S754_infinity s) -> key z = clamp (rnd r).
  Proof.
    intros Hs. destruct (Rlt_bool_spec (Rabs (rnd r)) (bpow radix2 femax)) as [L|L].
    - intros [A B]. rewrite clamp_in by exact L. rewrite key_fin by exact B. exact A.
    - intros A. rewrite (clamp_out _ s L).
      + destruct z; try discriminate. injection A as ->. reflexivity.
      + destruct s; rewrite <- rnd_0; now apply rnd_le.
  Qed.
  Lemma sign_val x : fin x -> if Bsign x then val x <= 0 else 0 <= val x.
  Proof.
    intros Hx. destruct x as [s|s| |s m e B]; try discriminate; cbn [Bsign].
    - unfold val; cbn [B2R]. destruct s; lra.
    - unfold val, B2R. destruct s.
      + apply F2R_le_0. cbn. lia.
      + apply F2R_ge_0. cbn. lia.
  Qed.
  Lemma add_key x y : fin x -> fin y -> key (s_add x y) = clamp (rnd (val x + val y)).
  Proof.
    intros Hx Hy. pose proof (Bplus_correct fprec femax _ _ mode_NE x y Hx Hy) as A.
    change (round_mode mode_NE) with ZnearestE in A. fold fx in A. fold (rnd (B2R x + B2R y)) in A.
    pose proof (sign_val x Hx) as Sx. pose proof (sign_val y Hy) as Sy. unfold val in *.
    destruct (Rlt_bool_spec (Rabs (rnd (B2R x + B2R y))) (bpow radix2 femax)) as [L|L].
    - destruct A as (A1 & A2 & _). rewrite clamp_in by exact L. rewrite key_fin by exact A2. exact A1.
    - apply (overflow_key _ _ (Bsign x)).
      + destruct A as [_ A]. rewrite <- A in Sy. destruct (Bsign x); lra.
      + rewrite Rlt_bool_false by exact L. apply A.
  Qed.
  Lemma mul_key x y : fin x -> fin y -> key (s_mul x y) = clamp (rnd (val x * val y)).
  Proof.
    intros Hx Hy. pose proof (Bmult_correct fprec femax _ _ mode_NE x y) as A.
    change (round_mode mode_NE) with ZnearestE in A. fold fx in A. fold (rnd (B2R x * B2R y)) in A.
    unfold fin in Hx, Hy. rewrite Hx, Hy in A.
    apply (overflow_key _ _ (xorb (Bsign x) (Bsign y))).
    - pose proof (sign_val x Hx) as Sx. pose proof (sign_val y Hy) as Sy.
      destruct (Bsign x), (Bsign y); cbn [xorb]; nra.
    - unfold val. destruct (Rlt_bool (Rabs (rnd (B2R x * B2R y))) (bpow radix2 femax)).
      + destruct A as (A1 & A2 & _). split; assumption.
      + exact A.
  Qed.

  Lemma key_bounds x : - bpow radix2 femax <= key x <= bpow radix2 femax.
  Proof.
    pose proof bemax_pos. pose proof (val_lt_emax x) as B. apply Rabs_def2 in B.
    destruct x as [s|[]| |s m e Bx]; cbn [key] in *; lra.
  Qed.
  Lemma not_above_low y : not_above minf y.
  Proof. apply above_key. intros _ _. apply key_bounds. Qed.
  Lemma not_above_high x : not_above x inf.
  Proof. apply above_key. intros _ _. apply key_bounds. Qed.
  Lemma not_above_nan_l y : not_above NaN y.
  Proof. now apply ltb_nan_r. Qed.
  Lemma not_above_nan_r x : not_above x NaN.
  Proof. now apply ltb_nan_l. Qed.
  Lemma kinds x : x = NaN \/ x = minf \/ x = inf \/ fin x.
  Proof. destruct x as [s|[]| |s m e B]; auto; right; right; right; reflexivity. Qed.
  Lemma not_nan_fin x : fin x -> ~ nan x.
  Proof. unfold fin, nan. destruct x; cbn; congruence. Qed.
  Lemma inf_not_above x : fin x -> ~ not_above inf x.
  Proof.
    intros Hx H. apply above_key in H; [|discriminate|now apply not_nan_fin].
    rewrite (key_fin x Hx) in H. pose proof (val_lt_emax x) as B. apply Rabs_def2 in B. cbn [key] in H. lra.
  Qed.
  Lemma above_minf x : fin x -> ~ not_above x minf.
  Proof.
    intros Hx H. apply above_key in H; [|now apply not_nan_fin|discriminate].
    rewrite (key_fin x Hx) in H. pose proof (val_lt_emax x) as B. apply Rabs_def2 in B. cbn [key] in H. lra.
  Qed.
  Lemma inf_minf : ~ not_above inf minf.
  Proof.
    intros H. apply above_key in H; try discriminate. cbn [key] in H. pose proof bemax_pos. lra.
  Qed.
  Lemma above_val x y : fin x -> fin y -> (not_above x y <-> val x <= val y).
  Proof.
    intros Hx Hy. rewrite above_key, !key_fin by assumption. split; [|auto].
    intros H. apply H; now apply not_nan_fin.
  Qed.

  (** what a non-finite summand does *)
  Lemma add_minf_l y : s_add minf y = minf \/ s_add minf y = NaN.
  Proof. destruct y as [|[]| |]; cbn; auto. Qed.
  Lemma add_minf_r x : s_add x minf = minf \/ s_add x minf = NaN.
  Proof. destruct x as [|[]| |]; cbn; auto. Qed.
  Lemma add_inf_l y : s_add inf y = inf \/ s_add inf y = NaN.
  Proof. destruct y as [|[]| |]; cbn; auto. Qed.
  Lemma add_inf_r x : s_add x inf = inf \/ s_add x inf = NaN.
  Proof. destruct x as [|[]| |]; cbn; auto. Qed.
  Lemma add_nan_l y : s_add NaN y = NaN. Proof. destruct y; reflexivity. Qed.
  Lemma add_nan_r x : s_add x NaN = NaN. Proof. destruct x; reflexivity. Qed.

  Theorem above_add x x' y y' : not_above x x' -> not_above y y' -> not_above (s_add x y) (s_add x' y').
  Proof.
    intros Hx Hy.
    destruct (kinds x) as [->|[->|Kx]]; [rewrite add_nan_l; apply not_above_nan_l| |].
    { destruct (add_minf_l y) as [->| ->]; [apply not_above_low|apply not_above_nan_l]. }
    destruct (kinds y) as [->|[->|Ky]]; [rewrite add_nan_r; apply not_above_nan_l| |].
    { destruct (add_minf_r x) as [->| ->]; [apply not_above_low|apply not_above_nan_l]. }
    destruct (kinds x') as [->|[->|[->|Kx']]]; [rewrite add_nan_l; apply not_above_nan_r| | |].
    { exfalso. destruct Kx as [->|Kx]; [now apply inf_minf|now apply (above_minf x)]. }
    { destruct (add_inf_l y') as [->| ->]; [apply not_above_high|apply not_above_nan_r]. }
    destruct (kinds y') as [->|[->|[->|Ky']]]; [rewrite add_nan_r; apply not_above_nan_r| | |].
    { exfalso. destruct Ky as [->|Ky]; [now apply inf_minf|now apply (above_minf y)]. }
    { destruct (add_inf_r x') as [->| ->]; [apply not_above_high|apply not_above_nan_r]. }
    destruct Kx as [->|Kx]; [now elim (inf_not_above x')|]. destruct Ky as [->|Ky]; [now elim (inf_not_above y')|].
    apply above_key. intros _ _. rewrite !add_key by assumption. apply clamp_le, rnd_le.
    apply above_val in Hx; [|assumption..]. apply above_val in Hy; [|assumption..]. lra.
  Qed.
  Lemma above_neg x y : not_above x y -> not_above (s_neg y) (s_neg x).
  Proof. unfold not_above. now rewrite ltb_neg. Qed.
  Theorem above_sub x x' y y' : not_above x x' -> not_above y' y -> not_above (s_sub x y) (s_sub x' y').
  Proof. intros Hx Hy. rewrite !sub_add. apply above_add; [exact Hx|]. now apply above_neg. Qed.

  (** not negative (or NaN) *)
  Definition nonneg w : Prop := not_above (s_lit 0) w.
  Lemma nonneg_cases w : nonneg w -> w = NaN \/ w = inf \/ (fin w /\ 0 <= val w).
  Proof.
    intros H. destruct (lit_small 0 ltac:(lia)) as [F0 V0].
    destruct (kinds w) as [->|[->|[->|K]]]; auto.
    - now apply above_minf in H.
    - right; right. split; [exact K|]. apply above_val in H; [|assumption..]. rewrite V0 in H. exact H.
  Qed.
  Lemma mul_minf w : nonneg w -> s_mul minf w = minf \/ s_mul minf w = NaN.
  Proof.
    intros H. destruct (nonneg_cases w H) as [->|[->|[A B]]]; cbn; auto.
    destruct w as [|[]| |[] m e Bw]; cbn; auto; discriminate.
  Qed.
  Lemma mul_inf w : nonneg w -> s_mul inf w = inf \/ s_mul inf w = NaN.
  Proof.
    intros H. destruct (nonneg_cases w H) as [->|[->|[A B]]]; cbn; auto.
    destruct w as [|[]| |[] m e Bw]; cbn; auto; discriminate.
  Qed.
  Lemma mul_nan_l w : s_mul NaN w = NaN. Proof. destruct w; reflexivity. Qed.
  Lemma mul_nan_r x : s_mul x NaN = NaN. Proof. destruct x; reflexivity. Qed.

  Theorem above_mul x x' w : not_above x x' -> nonneg w -> not_above (s_mul x w) (s_mul x' w).
  Proof.
    intros Hx Hw.
    destruct (kinds x) as [->|[->|Kx]]; [rewrite mul_nan_l; apply not_above_nan_l| |].
    { destruct (mul_minf w Hw) as [->| ->]; [apply not_above_low|apply not_above_nan_l]. }
    destruct (kinds x') as [->|[->|[->|Kx']]]; [rewrite mul_nan_l; apply not_above_nan_r| | |].
    { exfalso. destruct Kx as [->|Kx]; [now apply inf_minf|now apply (above_minf x)]. }
    { destruct (mul_inf w Hw) as [->| ->]; [apply not_above_high|apply not_above_nan_r]. }
    destruct Kx as [->|Kx]; [now elim (inf_not_above x')|].
    destruct (nonneg_cases w Hw) as [->|[->|[A B]]]; [rewrite mul_nan_r; apply not_above_nan_l| |].
    - apply above_val in Hx; [|assumption..].
      destruct x as [s|s| |[] m e Bx]; try discriminate; try apply not_above_nan_l; try apply not_above_low.
      destruct x' as [s'|s'| |[] m' e' Bx']; try discriminate; try apply not_above_nan_r; try apply not_above_high.
      exfalso. unfold val, B2R in Hx.
      pose proof (F2R_lt_0 radix2 (Float radix2 (Zneg m') e') eq_refl).
      pose proof (F2R_gt_0 radix2 (Float radix2 (Zpos m) e) eq_refl). cbn in *. lra.
    - apply above_key. intros _ _. rewrite !mul_key by assumption. apply clamp_le, rnd_le.
      apply above_val in Hx; [|assumption..]. now apply Rmult_le_compat_r.
  Qed.
  Lemma above_feq x x' y y' : feq x x' -> feq y y' -> not_above x y -> not_above x' y'.
  Proof. intros A B. unfold not_above. now rewrite (feq_ltb y y' x x'). Qed.
  Lemma above_mul_r x w w' : nonneg x -> not_above w w' -> not_above (s_mul x w) (s_mul x w').
  Proof.
    intros Hx Hw. apply (above_feq (s_mul w x) _ (s_mul w' x)); try apply mul_comm. now apply above_mul.
  Qed.
  Lemma nonneg_lit (z : Z) : (0 <= z <= 2048)%Z -> nonneg (s_lit z).
  Proof.
    intros H. destruct (lit_small 0 ltac:(lia)) as [F0 V0]. destruct (lit_small z ltac:(lia)) as [F1 V1].
    apply above_val; [assumption..|]. rewrite V0, V1. apply IZR_le. lia.
  Qed.
  Lemma nonneg_mul x y : nonneg x -> nonneg y -> nonneg (s_mul x y).
  Proof.
    intros Hx Hy. destruct (nonneg_cases y Hy) as [->|[->|[A B]]].
    - rewrite mul_nan_r. apply not_above_nan_r.
    - destruct (nonneg_cases x Hx) as [->|[->|[A B]]]; [rewrite mul_nan_l; apply not_above_nan_r|apply not_above_high|].
      destruct x as [s|s| |[] m e Bx]; try discriminate; try apply not_above_nan_r; apply not_above_high.
    - pose proof (above_mul (s_lit 0) x y Hx Hy) as H. destruct (lit_small 0 ltac:(lia)) as [F0 V0].
      destruct (mul_ok (s_lit 0) y F0 A) as [M1 M2].
      { rewrite V0, Rmult_0_l, Rabs_R0. pose proof fmax_ge. lra. }
      rewrite V0, Rmult_0_l, rnd_0 in M2.
      apply (above_feq _ _ (s_mul x y) (s_mul x y)) with (3 := H); [|apply feq_refl]. apply fin_feq; [assumption..|congruence].
  Qed.
  (** 1 - t, both ways the code writes it *)
  Lemma nonneg_one_sub t : not_above t (s_lit 1) -> nonneg (s_sub (s_lit 1) t).
  Proof.
    intros H. pose proof (above_sub (s_lit 1) (s_lit 1) (s_lit 1) t (above_refl _) H) as A.
    destruct (lit_small 0 ltac:(lia)) as [F0 V0]. destruct (lit_small 1 ltac:(lia)) as [F1 V1].
    destruct (sub_ok (s_lit 1) (s_lit 1) F1 F1) as [M1 M2].
    { rewrite Rminus_eq_0, Rabs_R0. pose proof fmax_ge. lra. }
    rewrite Rminus_eq_0, rnd_0 in M2.
    apply (above_feq _ (s_lit 0) _ (s_sub (s_lit 1) t)) with (3 := A); [|apply feq_refl]. apply fin_feq; [assumption..|congruence].
  Qed.
  Lemma nonneg_neg_add t : not_above t (s_lit 1) -> nonneg (s_add (s_neg t) (s_lit 1)).
  Proof.
    intros H. pose proof (above_add _ _ (s_lit 1) (s_lit 1) (above_neg _ _ H) (above_refl _)) as A.
    destruct (lit_small 0 ltac:(lia)) as [F0 V0]. destruct (lit_small 1 ltac:(lia)) as [F1 V1].
    assert (F1' : fin (s_neg (s_lit 1))) by now apply neg_fin.
    destruct (add_ok (s_neg (s_lit 1)) (s_lit 1) F1' F1) as [M1 M2].
    { rewrite neg_val, Rplus_opp_l, Rabs_R0. pose proof fmax_ge. lra. }
    rewrite neg_val, Rplus_opp_l, rnd_0 in M2.
    apply (above_feq _ (s_lit 0) _ (s_add (s_neg t) (s_lit 1))) with (3 := A); [|apply feq_refl]. apply fin_feq; [assumption..|congruence].
  Qed.
  Lemma nonneg_sub x y : not_above x y -> nonneg (s_sub y x).
  Proof.
    intros H. destruct (kinds x) as [->|[->|[->|K]]].
    - destruct y; apply not_above_nan_r.
    - destruct y as [|[]| |]; first [apply not_above_nan_r|apply not_above_high].
    - destruct (kinds y) as [->|[->|[->|K]]]; try apply not_above_nan_r.
      + now apply inf_minf in H.
      + now apply inf_not_above in H.
    - pose proof (above_sub x y x x H (above_refl _)) as A. destruct (lit_small 0 ltac:(lia)) as [F0 V0].
      destruct (sub_ok x x K K) as [M1 M2].
      { rewrite Rminus_eq_0, Rabs_R0. pose proof fmax_ge. lra. }
      rewrite Rminus_eq_0, rnd_0 in M2.
      apply (above_feq _ (s_lit 0) _ (s_sub y x)) with (3 := A); [|apply feq_refl]. apply fin_feq; [assumption..|congruence].
  Qed.
  Lemma nonpos_sub x y : not_above y x -> nonneg (s_neg (s_sub y x)).
  Proof.
    intros H. destruct (kinds x) as [->|[->|[->|K]]].
    - destruct y; apply not_above_nan_r.
    - destruct (kinds y) as [->|[->|[->|K]]]; try apply not_above_nan_r.
      + now apply inf_minf in H.
      + now apply above_minf in H.
    - destruct y as [|[]| |]; first [apply not_above_nan_r|apply not_above_high].
    - pose proof (above_neg _ _ (above_sub y x x x H (above_refl _))) as A. destruct (lit_small 0 ltac:(lia)) as [F0 V0].
      destruct (sub_ok x x K K) as [M1 M2].
      { rewrite Rminus_eq_0, Rabs_R0. pose proof fmax_ge. lra. }
      rewrite Rminus_eq_0, rnd_0 in M2.
      apply (above_feq _ (s_lit 0) _ (s_neg (s_sub y x))) with (3 := A); [|apply feq_refl].
      apply fin_feq; [now apply neg_fin|assumption|]. rewrite neg_val, M2, V0. lra.
  Qed.
End Scalars.

Section Curves.
  Context {F : Format} {P : Type} {PT : Point float P} {CP : CwPoint float P}.
  Local Notation upto := point_not_above.

  Lemma point_add (p p' q q' : P) : upto p p' -> upto q q' -> upto (p_add p q) (p_add p' q').
  Proof. intros A B i Hi. rewrite !cw_add by exact Hi. apply above_add; auto. Qed.
  Lemma point_mul (p p' : P) w : upto p p' -> nonneg w -> upto (p_mul p w) (p_mul p' w).
  Proof. intros A B i Hi. rewrite !cw_mul by exact Hi. apply above_mul; auto. Qed.

  (** a line in its parameter, axis by axis, and in its end point *)
  Theorem line_monotone (l : line P) t t' i : (i < p_dim (P := P))%nat -> not_above t t' ->
    not_above (cw (l_start l) i) (cw (l_end l) i) -> not_above (cw (line_eval l t) i) (cw (line_eval l t') i).
  Proof.
    intros Hi Ht Hl. unfold line_eval. rewrite !cw_add, !cw_mul, cw_sub by exact Hi.
    apply above_add; [apply above_refl|]. apply above_mul_r; [|exact Ht]. now apply nonneg_sub.
  Qed.
  Theorem line_antitone (l : line P) t t' i : (i < p_dim (P := P))%nat -> not_above t t' ->
    not_above (cw (l_end l) i) (cw (l_start l) i) -> not_above (cw (line_eval l t') i) (cw (line_eval l t) i).
  Proof.
    intros Hi Ht Hl. unfold line_eval. rewrite !cw_add, !cw_mul, cw_sub by exact Hi.
    apply above_add; [apply above_refl|]. set (d := s_sub (cw (l_end l) i) (cw (l_start l) i)).
    assert (Hd : nonneg (s_neg d)) by now apply nonpos_sub.
    apply (above_feq (s_neg (s_mul (s_neg d) t')) _ (s_neg (s_mul (s_neg d) t))).
    3: { apply above_neg. now apply above_mul_r. }
    - eapply feq_trans; [apply feq_neg, mul_neg_l|]. rewrite neg_neg. apply feq_refl.
    - eapply feq_trans; [apply feq_neg, mul_neg_l|]. rewrite neg_neg. apply feq_refl.
  Qed.
  Theorem line_end_monotone (a b b' : P) t : nonneg t -> upto b b' -> upto (line_eval (Line a b) t) (line_eval (Line a b') t).
  Proof.
    intros Ht Hb i Hi. unfold line_eval. cbn [l_start l_end]. rewrite !cw_add, !cw_mul, !cw_sub by exact Hi.
    apply above_add; [apply above_refl|]. apply above_mul; [|exact Ht]. apply above_sub; [auto|apply above_refl].
  Qed.

  Section Unit.
    Variable t : float.
    Hypotheses (H0 : nonneg t) (H1 : not_above t (s_lit 1)).
    Let O := nonneg_neg_add t H1.

    Theorem quad_monotone (c d : quad P) : related_quads upto c d -> upto (quad_eval c t) (quad_eval d t).
    Proof.
      intros (A & B & C). unfold quad_eval. cbv zeta.
      repeat first [apply point_add|apply point_mul|assumption|apply nonneg_mul|exact O|apply nonneg_lit; lia].
    Qed.
    Theorem cubic_monotone (c d : cubic P) : related_cubics upto c d -> upto (cubic_eval c t) (cubic_eval d t).
    Proof.
      intros (A & B & C & D). unfold cubic_eval.
      repeat first [apply point_add|apply point_mul|assumption|apply nonneg_mul|exact O|apply nonneg_lit; lia].
    Qed.
    Lemma level_monotone i (p q : list P) : Forall2 upto p q ->
      related (Forall2 upto) (casteljau_level t i p) (casteljau_level t i q).
    Proof.
      intros H. unfold casteljau_level. rewrite (Forall2_length H).
      apply rel_bind with (R := eq); [apply rel_eq|]. intros m _ <-. apply rel_for; [exact H|].
      intros j a b _ Hab. apply rel_bind with (R := upto); [now apply rel_idx|]. intros x y Hx.
      apply rel_bind with (R := upto); [now apply rel_idx|]. intros x' y' Hx'.
      apply rel_set; [exact Hab|]. apply point_add; apply point_mul; assumption || exact O.
    Qed.
    Theorem bezier_monotone (c d : bezier P) : related_beziers upto c d ->
      related upto (bezier_eval c t) (bezier_eval d t).
    Proof.
      intros H. unfold bezier_eval. cbv zeta. unfold related_beziers in H. rewrite (Forall2_length H).
      apply rel_bind with (R := Forall2 upto).
      - apply rel_for; [exact H|]. intros i a b _ Hab. now apply level_monotone.
      - intros a b Hab. now apply rel_idx.
    Qed.
    Theorem bezier_split_monotone (c d : bezier P) : related_beziers upto c d ->
      related (related_pairs (related_beziers upto) (related_beziers upto)) (bezier_split c t) (bezier_split d t).
    Proof.
      intros H. unfold bezier_split. cbv zeta. unfold related_beziers in H. rewrite (Forall2_length H).
      apply rel_bind with (R := related_pairs (related_pairs (Forall2 upto) (Forall2 upto)) (Forall2 upto)).
      - apply rel_for; [repeat split; exact H|]. intros i [[l r] p] [[l' r'] p'] _ [[A B] C]. cbn in A, B, C.
        unfold split_body. apply rel_bind with (R := eq); [apply rel_eq|]. intros m _ <-.
        apply rel_bind with (R := upto); [now apply rel_idx|]. intros x y Hx.
        apply rel_bind with (R := Forall2 upto); [now apply rel_set|]. intros l1 l1' Hl.
        rewrite (Forall2_length B). apply rel_bind with (R := eq); [apply rel_eq|]. intros k _ <-.
        apply rel_bind with (R := upto); [now apply rel_idx|]. intros x' y' Hx'.
        apply rel_bind with (R := Forall2 upto); [now apply rel_set|]. intros r1 r1' Hr.
        apply rel_bind with (R := Forall2 upto); [now apply level_monotone|]. intros p1 p1' Hp.
        repeat split; assumption.
      - intros [[l r] p] [[l' r'] p'] [[A B] C]. split; assumption.
    Qed.
  End Unit.

  (** B-splines over the same knots *)
  Section Spline.
    Variables (D : nat) (ks : list float) (ps qs : list P) (s s' : bspline float P) (t : float).
    Hypotheses (Hs : bspline_new D ks ps = Ret (Ok s)) (Hs' : bspline_new D ks qs = Ret (Ok s')).
    Hypothesis Hpq : Forall2 upto ps qs.

    Lemma new_kind_of (rs : list P) z : bspline_new D ks rs = Ret (Ok z) ->
      bs_kind z = kind_of (all_close (nth 0 ks (s_lit 0)) (firstn (D + 1) ks))
                          (all_close (nth (length ks - 1) ks (s_lit 0)) (skipn (length ks - D - 1) ks)).
    Proof.
      destruct (new_cases D ks rs) as [(H1 & E)|[(H1 & H2 & E)|[(H1 & H2 & E)|[(H1 & H2 & H3 & E)|(H1 & H2 & H3 & E)]]]];
        rewrite E; intros H; try discriminate H.
      assert (z = BSpline D ks (kind_of (all_close (nth 0 ks (s_lit 0)) (firstn (D + 1) ks))
                          (all_close (nth (length ks - 1) ks (s_lit 0)) (skipn (length ks - D - 1) ks))) rs) as -> by congruence.
      reflexivity.
    Qed.
    Lemma nth_upto (a b : list P) j : Forall2 upto a b -> upto (nth j a p_default) (nth j b p_default).
    Proof.
      intros H. revert j. induction H; intros [|j]; cbn [nth]; auto; intros i _; apply above_refl.
    Qed.
    Lemma spline_related : related_splines upto s s'.
    Proof.
      destruct (new_fields D ks ps s Hs) as (A1 & A2 & A3). destruct (new_fields D ks qs s' Hs') as (B1 & B2 & B3).
      unfold related_splines. rewrite A1, A2, A3, B1, B2, B3. repeat split; try assumption.
      rewrite (new_kind_of ps s Hs), (new_kind_of qs s' Hs'). reflexivity.
    Qed.
    Hypotheses (Hu : bs_kind s <> Unclamped) (Hm : moderate ks) (Ht : fin t).

    Lemma entries_monotone k : (D <= k < length ps)%nat -> fspan ks k (val t) -> forall r j, (r <= j <= D)%nat ->
      upto (entry s t k r j) (entry s' t k r j).
    Proof.
      intros Hk Hb. destruct (new_fields D ks ps s Hs) as (A1 & A2 & A3). destruct (new_fields D ks qs s' Hs') as (B1 & B2 & B3).
      assert (Hf : forall x, In x ks -> fin x) by (intros x Hx; apply Hm, Hx).
      pose proof (new_wf D ks ps s Hs) as W. pose proof (new_fsorted D ks ps s Hs Hf) as So.
      induction r as [|r IH]; intros j Hj.
      - cbn [entry]. rewrite A1, B1. destruct (j <? D)%nat.
        + unfold cpoint. rewrite A3, B3. now apply nth_upto.
        + intros i _. apply above_refl.
      - assert (E : weight s' t k (S r) j = weight s t k (S r) j).
        { unfold weight, knot. now rewrite A1, A2, B1, B2. }
        cbn [entry]. rewrite E.
        assert (G : fin (weight s t k (S r) j) /\ 0 <= val (weight s t k (S r) j) <= 1).
        { apply weight_ok; rewrite ?A1, ?A2, ?A3; try assumption; lia. }
        destruct G as [G1 G2]. destruct (lit_small 0 ltac:(lia)) as [F0 V0]. destruct (lit_small 1 ltac:(lia)) as [F1 V1].
        apply point_add; apply point_mul.
        + apply IH. lia.
        + apply nonneg_one_sub. apply above_val; [assumption..|]. rewrite V1. apply G2.
        + apply IH. lia.
        + apply above_val; [assumption..|]. rewrite V0. apply G2.
    Qed.
    Theorem spline_monotone : fknot ks D <= val t < fknot ks (length ps) ->
      exists p q, bspline_eval s t = Ret (Ok p) /\ bspline_eval s' t = Ret (Ok q) /\ upto p q.
    Proof.
      intros Hr. destruct (eval_entry D ks ps s t Hs Hu Hm Ht Hr) as (k & Hk & Hb & Ee).
      assert (L : length qs = length ps) by (symmetry; apply (Forall2_length Hpq)).
      assert (Hu' : bs_kind s' <> Unclamped).
      { destruct spline_related as (_ & _ & E & _). congruence. }
      destruct (eval_entry D ks qs s' t Hs' Hu' Hm Ht) as (k' & Hk' & Hb' & Ee'); [now rewrite L|].
      assert (k' = k) as ->.
      { assert (Hf : forall x, In x ks -> fin x) by (intros x Hx; apply Hm, Hx).
        pose proof (new_fsorted D ks ps s Hs Hf) as So. destruct Hb as [C1 C2], Hb' as [C1' C2'].
        destruct (Nat.lt_trichotomy k k') as [L'|[L'|L']]; [exfalso|now symmetry|exfalso].
        - pose proof (So (k + 1)%nat k' ltac:(lia)). unfold fknot in *. lra.
        - pose proof (So (k' + 1)%nat k ltac:(lia)). unfold fknot in *. lra. }
      do 2 eexists. split; [exact Ee|]. split; [exact Ee'|].
      destruct (new_fields D ks ps s Hs) as (A1 & _). destruct (new_fields D ks qs s' Hs') as (B1 & _).
      rewrite ?A1, ?B1. apply entries_monotone; auto.
    Qed.
  End Spline.
End Curves.
