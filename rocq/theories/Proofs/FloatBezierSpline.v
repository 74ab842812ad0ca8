(** Proofs for C113: B-splines with the knots of a Bezier curve, in floating point. *)
From Coq Require Import Reals ZArith List Arith Lia Lra Bool.
From Flocq Require Import Core.Core IEEE754.BinarySingleNaN.
From Verif Require Import Base.Outcome Base.Scalar Model.Point Model.Bezier Model.BSpline
  Inst.FloatInst Spec.Rounding Spec.Componentwise Spec.FloatPoints Spec.FloatSplines Spec.FloatCurves Spec.Bernstein Spec.Sums Spec.Mirror
  Proofs.OutcomeFacts Proofs.PointFacts Proofs.FloatFacts Proofs.FloatNeg Proofs.FloatSpline Proofs.BezierGeneric Proofs.BezierReal Proofs.BSplineGeneric
  Proofs.FloatSplineEval Proofs.FloatPanic.
Import ListNotations.
Local Open Scope R_scope.

Lemma nth_firstn_lt {A} (n j : nat) (l : list A) d : (j < n)%nat -> nth j (firstn n l) d = nth j l d.
Proof.
  revert j l. induction n as [|n IH]; intros j l L; [lia|]. destruct l as [|x l]; [now destruct j|].
  destruct j as [|j]; [reflexivity|]. cbn [firstn nth]. apply IH. lia.
Qed.

Lemma binom_diag n : binom n n = 1%nat.
Proof. induction n as [|n IH]; [reflexivity|]. cbn [binom]. rewrite IH, BezierReal.binom_gt by lia. reflexivity. Qed.

(** any scalar type: equal weights turn the scheme into the triangle of de Casteljau *)
Section Generic.
  Context {T P : Type} {ST : Scalar T} {PT : Point T P}.

  Lemma equal_weights (s : bspline T P) (t w : T) :
    length (bs_points s) = S (bs_degree s) ->
    (forall r j, (1 <= r <= j)%nat -> (j <= bs_degree s)%nat -> weight s t (bs_degree s) r j = w) ->
    s_sub (s_lit 1) w = s_add (s_neg w) (s_lit 1) ->
    bezier_eval (Bezier (firstn (bs_degree s) (bs_points s) ++ [p_default])) w
      = Ret (entry s t (bs_degree s) (bs_degree s) (bs_degree s)).
  Proof.
    intros HC HW Hone. set (D := bs_degree s) in *. set (qs := firstn D (bs_points s) ++ [p_default]).
    assert (LQ : length qs = S D).
    { unfold qs. rewrite app_length, firstn_length. cbn [length]. lia. }
    assert (Q : forall j, (j <= D)%nat -> nth j qs p_default = entry s t D 0 j).
    { intros j Hj. cbn [entry]. fold D. unfold qs. destruct (Nat.ltb_spec j D) as [L|L].
      - rewrite app_nth1 by (rewrite firstn_length; lia). unfold cpoint. replace (j + D - D)%nat with j by lia.
        now apply nth_firstn_lt.
      - rewrite app_nth2 by (rewrite firstn_length; lia). rewrite firstn_length.
        replace (j - Init.Nat.min D (length (bs_points s)))%nat with 0%nat by lia. reflexivity. }
    assert (Tr : forall m j, (m + j <= D)%nat -> tri w (fun k => nth k qs p_default) m j = entry s t D m (m + j)).
    { induction m as [|m IH]; intros j Hj; [exact (Q j Hj)|]. cbn [tri entry]. rewrite (IH j), (IH (j + 1)%nat) by lia.
      rewrite (HW (S m) (S m + j)%nat) by lia. unfold lerp. rewrite <- Hone.
      replace (S m + j - 1)%nat with (m + j)%nat by lia. replace (m + (j + 1))%nat with (S m + j)%nat by lia. reflexivity. }
    rewrite (bezier_eval_closed qs w p_default) by (intros N; rewrite N in LQ; discriminate).
    rewrite LQ. replace (S D - 1)%nat with D by lia. f_equal. rewrite Tr by lia. now rewrite Nat.add_0_r.
  Qed.
End Generic.

Section Float.
  Context {F : Format} {P : Type} {PT : Point float P} {CP : CwPoint float P}.

  Lemma add_comm_fin (x y : float) : fin x -> fin y -> Rabs (val x + val y) <= fmax -> s_add x y = s_add y x.
  Proof.
    intros Hx Hy H. pose proof H as H'. rewrite Rplus_comm in H'.
    pose proof (Bplus_correct fprec femax _ _ mode_NE x y Hx Hy) as A.
    pose proof (Bplus_correct fprec femax _ _ mode_NE y x Hy Hx) as B.
    change (round_mode mode_NE) with ZnearestE in A, B. fold fx in A, B.
    fold (rnd (B2R x + B2R y)) in A. fold (rnd (B2R y + B2R x)) in B.
    pose proof (no_overflow _ H) as N. pose proof (no_overflow _ H') as N'. unfold val in N, N'. rewrite N in A. rewrite N' in B.
    destruct A as (A1 & A2 & A3), B as (B1 & B2 & B3). cbn [s_add FScalar].
    apply B2R_Bsign_inj; [exact A2|exact B2| |].
    - rewrite A1, B1. f_equal. ring.
    - rewrite A3, B3. rewrite (Rplus_comm (B2R y)). destruct (Rcompare _ 0); try reflexivity. apply andb_comm.
  Qed.

  Lemma one_minus (w : float) : fin w -> 0 <= val w <= 1 -> s_sub (s_lit 1) w = s_add (s_neg w) (s_lit 1).
  Proof.
    intros Hw Bw. rewrite sub_add. destruct (lit_small 1 ltac:(lia)) as [A B].
    apply add_comm_fin; [exact A|now apply neg_fin|]. rewrite neg_val, B. pose proof fmax_ge.
    apply Rle_trans with 1; [apply Rabs_le; lra|lra].
  Qed.

  Section Spline.
    Variables (D : nat) (a b t : float) (ps : list P) (s : bspline float P).
    Let ks := repeat a (D + 1) ++ repeat b (D + 1).
    Hypothesis HC : length ps = (D + 1)%nat.
    Hypothesis Hnew : bspline_new D ks ps = Ret (Ok s).
    Hypotheses (Ha : fin a) (Hb : fin b) (Ht : fin t).
    Hypotheses (Ba : Rabs (val a) <= fmax / 2) (Bb : Rabs (val b) <= fmax / 2).
    Hypothesis Hr : val a <= val t < val b.

    Lemma fbk_low m : (m <= D)%nat -> nth m ks (s_lit 0) = a.
    Proof.
      intros H. unfold ks. rewrite app_nth1 by (rewrite repeat_length; lia).
      rewrite (nth_indep _ _ a) by (rewrite repeat_length; lia). apply nth_repeat.
    Qed.
    Lemma fbk_high m : (D < m <= 2 * D + 1)%nat -> nth m ks (s_lit 0) = b.
    Proof.
      intros H. unfold ks. rewrite app_nth2 by (rewrite repeat_length; lia). rewrite repeat_length.
      rewrite (nth_indep _ _ b) by (rewrite repeat_length; lia). apply nth_repeat.
    Qed.
    Lemma fbk_moderate : moderate ks.
    Proof. intros x Hx. apply in_app_or in Hx. destruct Hx as [Hx|Hx]; apply repeat_spec in Hx; subst x; auto. Qed.
    Lemma fbk_fin x : In x ks -> fin x.
    Proof. intros H. now apply fbk_moderate. Qed.

    Lemma fbk_clamped : bs_kind s = Clamped.
    Proof.
      destruct (fkind_spec D ks ps s Hnew fbk_fin) as [[_ A] [_ B]]. unfold fknot in A, B. rewrite HC in B.
      rewrite !fbk_low in A by lia. rewrite !fbk_high in B by lia.
      destruct A as [K|K]; [apply close_0; lra|exact K|].
      destruct B as [K'|K']; [apply close_0; lra|exact K'|congruence].
    Qed.

    Lemma bt_moderate : Rabs (val t) <= fmax / 2.
    Proof. apply Rabs_le_inv in Ba. apply Rabs_le_inv in Bb. apply Rabs_le. lra. Qed.

    Lemma fbezier_eval : bspline_eval s t
      = let! p := bezier_eval (Bezier (firstn D ps ++ [p_default])) (fweight t a b) in Ret (Ok p).
    Proof.
      destruct (eval_entry D ks ps s t Hnew) as (k & Hk & Hsp & Ee).
      - rewrite fbk_clamped. discriminate.
      - exact fbk_moderate.
      - exact Ht.
      - unfold fknot. rewrite HC, fbk_low, fbk_high by lia. exact Hr.
      - assert (k = D) by lia. subst k. rewrite Ee.
        destruct (new_fields D ks ps s Hnew) as (F1 & F2 & F3).
        pose proof (equal_weights s t (fweight t a b)) as W. rewrite F1, F3 in W. rewrite W; [reflexivity|lia| |].
        + intros r j Hr' Hj. rewrite weight_fweight, F1. unfold knot. rewrite F2.
          rewrite fbk_low, fbk_high by lia. reflexivity.
        + destruct (fweight_unit t a b Ht Ha Hb bt_moderate Ba Bb Hr) as [A B]. now apply one_minus.
    Qed.

    Lemma fbezier_eval_quot : s_leb s_eps (s_sub t a) = true -> bspline_eval s t
      = let! p := bezier_eval (Bezier (firstn D ps ++ [p_default])) (s_div (s_sub t a) (s_sub b a)) in Ret (Ok p).
    Proof.
      intros L. rewrite fbezier_eval. f_equal. f_equal.
      destruct (sub_err t a Ht Ha bt_moderate Ba) as (N1 & N2 & _). destruct (sub_err b a Hb Ha Bb Ba) as (D1 & D2 & _).
      destruct eps_ok as [E1 E2]. rewrite leb_val in L by assumption.
      destruct (Rle_bool_spec (val s_eps) (val (s_sub t a))) as [L'|]; [|discriminate].
      assert (M : rnd (val t - val a) <= rnd (val b - val a)) by (apply rnd_le; lra). pose proof uro_pos.
      unfold fweight. rewrite !ltb_val by (auto; now apply abs_fin). rewrite abs_val.
      rewrite !Rlt_bool_false; [reflexivity| |lra].
      rewrite Rabs_pos_eq by (rewrite D2; lra). rewrite D2. lra.
    Qed.

    Lemma fbezier_eval_start : s_ltb (s_sub t a) s_eps = true -> bspline_eval s t
      = let! p := bezier_eval (Bezier (firstn D ps ++ [p_default])) (s_lit 0) in Ret (Ok p).
    Proof. intros L. rewrite fbezier_eval. unfold fweight. now rewrite L. Qed.
  End Spline.

  Lemma same_float (x y : float) : fin x -> fin y -> val x = val y -> val y <> 0 -> x = y.
  Proof. intros Hx Hy E N. apply B2R_inj; [| |exact E]; destruct x, y; try discriminate; try reflexivity; cbn in E, N; try congruence. Qed.

  Lemma funit_eval D (ps : list P) s (t : float) : length ps = (D + 1)%nat ->
    bspline_new D (repeat (s_lit 0) (D + 1) ++ repeat (s_lit 1) (D + 1)) ps = Ret (Ok s) ->
    fin t -> 2 * uro <= val t < 1 ->
    bspline_eval s t = let! p := bezier_eval (Bezier (firstn D ps ++ [p_default])) t in Ret (Ok p).
  Proof.
    intros HC Hnew Ht Hr. destruct (lit_small 0 ltac:(lia)) as [A0 V0]. destruct (lit_small 1 ltac:(lia)) as [A1 V1].
    pose proof fmax_ge. pose proof uro_pos.
    assert (Bt : Rabs (val t) <= fmax) by apply val_le_fmax.
    assert (S1 : s_sub t (s_lit 0) = t).
    { destruct (sub_ok t (s_lit 0) Ht A0) as [X Y]; [rewrite V0, Rminus_0_r; lra|].
      rewrite V0, Rminus_0_r, (rnd_float _ (val_float t)) in Y. apply same_float; auto. lra. }
    assert (S2 : s_sub (s_lit 1 : float) (s_lit 0) = s_lit 1).
    { destruct (sub_ok (s_lit 1) (s_lit 0) A1 A0) as [X Y]; [rewrite V0, Rminus_0_r, V1, Rabs_R1; lra|].
      rewrite V0, Rminus_0_r, (rnd_float _ (val_float _)) in Y. apply same_float; auto. lra. }
    assert (S3 : s_div t (s_lit 1) = t).
    { destruct (div_ok t (s_lit 1) Ht) as [X Y]; [lra|rewrite V1; unfold Rdiv; rewrite Rinv_1, Rmult_1_r; lra|].
      rewrite V1 in Y. unfold Rdiv in Y. rewrite Rinv_1, Rmult_1_r, (rnd_float _ (val_float t)) in Y.
      apply same_float; auto. lra. }
    rewrite (fbezier_eval_quot D (s_lit 0) (s_lit 1) t ps s HC Hnew A0 A1 Ht).
    - now rewrite S1, S2, S3.
    - rewrite V0, Rabs_R0. lra.
    - rewrite V1, Rabs_R1. lra.
    - rewrite V0, V1. lra.
    - rewrite S1. destruct eps_ok as [E1 E2]. rewrite leb_val by assumption. apply Rle_bool_true. lra.
  Qed.

  Lemma exact_at_last D (ps : list P) (t : R) i : length ps = (D + 1)%nat -> (i < p_dim (P := P))%nat ->
    exact_at (firstn D ps ++ [p_default]) t i = exact_at ps t i - t ^ D * val (cw (nth D ps p_default) i).
  Proof.
    intros HC Hi. unfold exact_at, bezier_poly. rewrite !map_length, app_length, firstn_length, HC. cbn [length].
    replace (Init.Nat.min D (D + 1) + 1 - 1)%nat with D by lia. replace (Init.Nat.min D (D + 1) + 1)%nat with (S D) by lia.
    replace (D + 1 - 1)%nat with D by lia. replace (D + 1)%nat with (S D) by lia. cbn [Rsum].
    assert (B : bernstein D D t = t ^ D).
    { unfold bernstein. rewrite binom_diag, Nat.sub_diag. simpl. ring. }
    rewrite B. set (f := fun q : P => val (cw q i)).
    assert (N : forall l j, (j < length l)%nat -> nth j (map f l) 0 = f (nth j l p_default)).
    { intros l j Hj. rewrite (nth_indep _ 0 (f p_default)) by (rewrite map_length; exact Hj). apply map_nth. }
    rewrite !N by (rewrite ?app_length, ?firstn_length; cbn [length]; lia).
    rewrite app_nth2 by (rewrite firstn_length; lia). rewrite firstn_length.
    replace (D - Init.Nat.min D (length ps))%nat with 0%nat by lia. cbn [nth]. assert (F0 : f p_default = 0).
    { unfold f. rewrite cw_default by exact Hi. now apply (lit_small 0). }
    rewrite F0. clear F0.
    rewrite (Rsum_ext _ (fun j => bernstein D j t * nth j (map f ps) 0)).
    - unfold f. ring.
    - intros j Hj. f_equal. rewrite !N by (rewrite ?app_length, ?firstn_length; cbn [length]; lia).
      rewrite app_nth1 by (rewrite firstn_length; lia). now rewrite nth_firstn_lt.
  Qed.
End Float.
