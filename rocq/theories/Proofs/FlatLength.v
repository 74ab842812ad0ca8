(** Proofs for C141: the length of a flattened curve. *)
From Coq Require Import Reals List Arith Lia Lra Psatz Bool.
From Verif Require Import Base.Outcome Base.Scalar Model.Point Model.Line Model.Quadratic Model.Cubic
  Inst.RealInst Spec.Sums Spec.Lawful Spec.Bernstein Spec.Metric Spec.Length Spec.Adaptive
  Proofs.OutcomeFacts Proofs.PointFacts Proofs.RealTac Proofs.Metric Proofs.ExactEval Proofs.LineFacts Proofs.Linearity
  Proofs.CurveCalc Proofs.ArclenFacts Proofs.LengthMore Proofs.Adaptive.
Import ListNotations.
Local Open Scope R_scope.

Lemma telescoped (x : nat -> R) m : x m = x 0%nat + Rsum (fun i => x (i + 1)%nat - x i) m.
Proof. induction m as [|m IH]; cbn [Rsum]; [lra|]. replace (m + 1)%nat with (S m) by lia. lra. Qed.

Section Flat.
  Context {E : Eps} {P : Type} {PT : Point R P} {LP : LawfulPoint P}.
  Notation D := (p_dim (P := P)).

  (** a bound for every inscribed polyline bounds the length *)
  Lemma arc_length_sup f (ps : list P) B : traces f ps -> ps <> [] ->
    (forall m, (0 < m)%nat -> polyline f m <= B) -> arc_length ps <= B.
  Proof.
    intros Hf Hne HB. destruct (Rle_dec (arc_length ps) B) as [|Hn]; [assumption|exfalso]. apply Rnot_le_lt in Hn.
    destruct (leg_bound_ex ps) as (L & HL).
    set (K := INR (length ps - 1) * INR (length ps - 2) * L).
    set (g := arc_length ps - B) in *. assert (Hg : 0 < g) by (unfold g; lra).
    assert (HK : 0 <= K) by (unfold K; apply Rmult_le_pos; [apply Rmult_le_pos; apply pos_INR|apply HL]).
    destruct (archimed_cor1 (g / (K + 1))) as (m & Hm & Hp); [apply Rdiv_lt_0_compat; lra|].
    pose proof (polyline_lower f ps m L Hf Hne Hp HL) as Hl. fold K in Hl. pose proof (HB m Hp) as Hu.
    assert (K / INR m < g).
    { apply Rle_lt_trans with (K * (g / (K + 1))); [apply Rmult_le_compat_l; lra|].
      apply (Rmult_lt_reg_r (K + 1)); [lra|]. replace (K * (g / (K + 1)) * (K + 1)) with (K * g) by (field; lra). nra. }
    unfold g in *. lra.
  Qed.
  (** a curve no faster than a function is no longer than what the function gains *)
  Lemma arc_length_pace f (ps : list P) (h : R -> R) : traces f ps -> ps <> [] ->
    (forall a b, 0 <= a <= b -> b <= 1 -> dist (f a) (f b) <= h b - h a) -> arc_length ps <= h 1 - h 0.
  Proof.
    intros Hf Hne Hh. apply (arc_length_sup f); [assumption..|]. intros m Hm. unfold polyline.
    assert (H0 : 0 < INR m) by (now apply lt_0_INR).
    pose proof (telescoped (fun i => h (INR i / INR m)) m) as T. cbv beta in T.
    replace (INR m / INR m) with 1 in T by (field; lra). replace (INR 0 / INR m) with 0 in T by (simpl; field; lra).
    apply Rle_trans with (Rsum (fun i => h (INR (i + 1) / INR m) - h (INR i / INR m)) m); [|lra].
    apply Rsum_le. intros i Hi.
    assert (A : INR (i + 1) <= INR m) by (apply le_INR; lia). assert (B : INR i <= INR (i + 1)) by (apply le_INR; lia).
    pose proof (pos_INR i). assert (C : 0 < / INR m) by now apply Rinv_0_lt_compat.
    apply Hh; [split|]; unfold Rdiv.
    - apply Rmult_le_pos; lra.
    - apply Rmult_le_compat_r; lra.
    - apply (Rmult_le_reg_r (INR m)); [exact H0|]. rewrite Rmult_assoc, Rinv_l by lra. lra.
  Qed.

  (** distances along a segment *)
  Lemma line_dist_params (s : line P) u v : dist (line_eval s u) (line_eval s v) = Rabs (u - v) * dist (l_start s) (l_end s).
  Proof.
    rewrite !dist_nrm, <- nrm_scal. rewrite <- (nrm_ext (fun i => (v - u) * (coord (l_start s) i - coord (l_end s) i))).
    - rewrite !nrm_scal. f_equal. rewrite <- Rabs_Ropp. f_equal. ring.
    - intros i Hi. rewrite !line_eval_coord by exact Hi. ring.
  Qed.
  Lemma foot_ends (s : line P) v : 0 <= v <= 1 ->
    dist (l_start s) (line_eval s v) = v * dist (l_start s) (l_end s) /\
    dist (line_eval s v) (l_end s) = (1 - v) * dist (l_start s) (l_end s).
  Proof.
    intros Hv. split.
    - rewrite <- (line_eval_0 s) at 1. rewrite line_dist_params, Rabs_left1 by lra. ring.
    - rewrite <- (line_eval_1 s) at 1. rewrite line_dist_params, Rabs_left1 by lra. ring.
  Qed.

  (** one piece *)
  Lemma quad_near_length (q : quad P) r : near (quad_baseline q) r (q_ctrl q) ->
    arc_length (quad_control_points q) <= dist (q_start q) (q_end q) + 2 * r.
  Proof.
    intros (v & Hv & Hd). eapply Rle_trans; [apply arc_length_polygon; discriminate|].
    cbn [quad_control_points polygon_length]. destruct (foot_ends (quad_baseline q) v Hv) as [A B].
    cbn [quad_baseline l_start l_end] in A, B. fold (quad_baseline q) in A, B.
    pose proof (dist_triangle (q_start q) (line_eval (quad_baseline q) v) (q_ctrl q)) as T1.
    pose proof (dist_triangle (q_ctrl q) (line_eval (quad_baseline q) v) (q_end q)) as T2.
    rewrite (dist_sym (line_eval (quad_baseline q) v) (q_ctrl q)) in T1. lra.
  Qed.
  Lemma quad_point_length (q : quad P) tol : 0 <= tol -> quad_is_a_point q tol = true ->
    arc_length (quad_control_points q) <= dist (q_start q) (q_end q) + 2 * tol.
  Proof.
    intros H0 H. apply quad_is_a_point_iff in H as [_ H]. rewrite Rabs_pos_eq in H by exact H0.
    eapply Rle_trans; [apply arc_length_polygon; discriminate|]. cbn [quad_control_points polygon_length].
    pose proof (dist_triangle (q_ctrl q) (q_start q) (q_end q)) as T. rewrite (dist_sym (q_ctrl q) (q_start q)) in T. lra.
  Qed.
  Lemma quad_linear_near (q : quad P) tol : quad_is_linear q tol = Ret true -> near (quad_baseline q) tol (q_ctrl q) /\ 0 <= tol.
  Proof.
    unfold quad_is_linear. rs. destruct (Rltb _ eps); [discriminate|]. unfold quad_are_points_colinear. intros H.
    apply bind_ret_inv in H as (d & Hd & H). revert H. rs. destruct (Rleb_spec d tol); [|discriminate].
    intros _. exact (line_distance_near _ _ _ _ Hd r).
  Qed.
  Theorem quad_piece_length (q : quad P) tol : 0 <= tol ->
    (if quad_is_a_point q tol then Ret true else quad_is_linear q tol) = Ret true ->
    dist (q_start q) (q_end q) <= arc_length (quad_control_points q) <= dist (q_start q) (q_end q) + 2 * tol.
  Proof.
    intros H0 H. split; [apply (arc_length_chord (quad_control_points q)); discriminate|].
    destruct (quad_is_a_point q tol) eqn:Ep; [now apply quad_point_length|]. apply quad_near_length, (quad_linear_near q tol H).
  Qed.

  Lemma cubic_linear_near (q : cubic P) tol : cubic_is_linear q tol = Ret true ->
    near (cubic_baseline q) tol (c_ctrl1 q) /\ near (cubic_baseline q) tol (c_ctrl2 q) /\ 0 <= tol.
  Proof.
    unfold cubic_is_linear. rs. destruct (Rltb _ eps); [discriminate|]. unfold cubic_are_points_colinear. intros H.
    apply bind_ret_inv in H as (d & Hd & H). revert H. rs. destruct (Rleb_spec d tol); [|discriminate].
    intros H. apply bind_ret_inv in H as (d2 & Hd2 & H). revert H. destruct (Rleb_spec d2 tol); [|discriminate].
    intros _. destruct (line_distance_near _ _ _ _ Hd r) as [Hn H0]. destruct (line_distance_near _ _ _ _ Hd2 r0) as [Hn2 _].
    tauto.
  Qed.
  (** the feet of the control points run along the chord in order, even when they are not in order *)
  Notation al t := (3 * (1 - t) * (1 - t) * t).
  Notation be t := (3 * (1 - t) * t * t).
  Lemma cubic_feet_forward v1 v2 a b : 0 <= v1 <= 1 -> 0 <= v2 <= 1 -> 0 <= a <= b -> b <= 1 ->
    0 <= (al b - al a) * v1 + (be b - be a) * v2 + (b * b * b - a * a * a).
  Proof.
    intros H1 H2 Ha Hb.
    assert (D00 : 0 <= b * b * b - a * a * a).
    { replace (b * b * b - a * a * a) with ((b - a) * (b * b + a * b + a * a)) by ring. apply Rmult_le_pos; nra. }
    assert (D10 : 0 <= al b - al a + (b * b * b - a * a * a)).
    { replace (al b - al a + (b * b * b - a * a * a)) with ((b - a) * (3 * ((1 - (a + b)) * (1 - (a + b))) + (b - a) * (b - a))) by ring.
      pose proof (Rle_0_sqr (1 - (a + b))) as S1. pose proof (Rle_0_sqr (b - a)) as S2. unfold Rsqr in S1, S2. apply Rmult_le_pos; lra. }
    assert (D01 : 0 <= be b - be a + (b * b * b - a * a * a)).
    { replace (be b - be a + (b * b * b - a * a * a)) with ((b - a) * (2 * (a * (1 - a)) + 2 * (b * (1 - b)) + a * (1 - b) + b * (1 - a))) by ring.
      apply Rmult_le_pos; nra. }
    assert (D11 : 0 <= al b - al a + (be b - be a) + (b * b * b - a * a * a)).
    { replace (al b - al a + (be b - be a) + (b * b * b - a * a * a))
        with ((b - a) * ((1 - b) * (1 - b) + (1 - a) * (1 - b) + (1 - a) * (1 - a))) by ring. apply Rmult_le_pos; nra. }
    replace ((al b - al a) * v1 + (be b - be a) * v2 + (b * b * b - a * a * a))
      with ((1 - v1) * (1 - v2) * (b * b * b - a * a * a) + v1 * (1 - v2) * (al b - al a + (b * b * b - a * a * a))
        + (1 - v1) * v2 * (be b - be a + (b * b * b - a * a * a)) + v1 * v2 * (al b - al a + (be b - be a) + (b * b * b - a * a * a))) by ring.
    assert (forall x y z, 0 <= x -> 0 <= y -> 0 <= z -> 0 <= x * y * z) by (intros; apply Rmult_le_pos; [apply Rmult_le_pos|]; assumption).
    repeat apply Rplus_le_le_0_compat; apply H; lra.
  Qed.
  Lemma cubic_near_length (q : cubic P) r : 0 <= r -> near (cubic_baseline q) r (c_ctrl1 q) -> near (cubic_baseline q) r (c_ctrl2 q) ->
    arc_length (cubic_control_points q) <= dist (c_start q) (c_end q) + 4 * r.
  Proof.
    intros H0 (v1 & Hv1 & Hd1) (v2 & Hv2 & Hd2). set (w := dist (c_start q) (c_end q)).
    set (f1 := line_eval (cubic_baseline q) v1) in *. set (f2 := line_eval (cubic_baseline q) v2) in *.
    assert (Hw : 0 <= w) by apply dist_nonneg.
    set (h := fun t => w * (al t * v1 + be t * v2 + t * t * t)
      + r * ((1 - (1 - t) * (1 - t) * (1 - t)) + 2 * (3 * t * t - 2 * t * t * t) + t * t * t)).
    replace (w + 4 * r) with (h 1 - h 0) by (unfold h; ring).
    apply (arc_length_pace (cubic_eval q)); [apply traces_cubic|discriminate|]. intros a b Ha Hb.
    pose proof (cubic_feet_forward v1 v2 a b Hv1 Hv2 Ha Hb) as G. set (gg := _ + _) in G.
    assert (EQ : dist (cubic_eval q a) (cubic_eval q b) <= gg * w + (Rabs (al b - al a) * r + Rabs (be b - be a) * r)).
    { rewrite dist_nrm.
      rewrite (nrm_ext _ (fun i => gg * (coord (c_start q) i - coord (c_end q) i)
        + ((al a - al b) * (coord (c_ctrl1 q) i - coord f1 i) + (be a - be b) * (coord (c_ctrl2 q) i - coord f2 i)))).
      - eapply Rle_trans; [apply minkowski|]. rewrite nrm_scal, (Rabs_pos_eq gg G). apply Rplus_le_compat.
        + apply Rle_refl.
        + eapply Rle_trans; [apply (minkowski (fun i => (al a - al b) * (coord (c_ctrl1 q) i - coord f1 i)))|].
          rewrite !nrm_scal, <- !dist_nrm. rewrite (Rabs_minus_sym (al b)), (Rabs_minus_sym (be b)).
          apply Rplus_le_compat; apply Rmult_le_compat_l; try apply Rabs_pos; assumption.
      - intros i Hi. rewrite !cubic_eval_coord by exact Hi. unfold f1, f2, gg. rewrite !line_eval_coord by exact Hi.
        cbn [cubic_baseline l_start l_end]. ring. }
    assert (P1 : 0 <= (1 - (1 - b) * (1 - b) * (1 - b)) - (1 - (1 - a) * (1 - a) * (1 - a))).
    { replace (1 - (1 - b) * (1 - b) * (1 - b) - (1 - (1 - a) * (1 - a) * (1 - a)))
        with ((b - a) * ((1 - b) * (1 - b) + (1 - a) * (1 - b) + (1 - a) * (1 - a))) by ring. apply Rmult_le_pos; nra. }
    assert (P2 : 0 <= (3 * b * b - 2 * b * b * b) - (3 * a * a - 2 * a * a * a)).
    { replace (3 * b * b - 2 * b * b * b - (3 * a * a - 2 * a * a * a))
        with ((b - a) * (2 * (a * (1 - a)) + 2 * (b * (1 - b)) + a * (1 - b) + b * (1 - a))) by ring. apply Rmult_le_pos; nra. }
    assert (P3 : 0 <= b * b * b - a * a * a).
    { replace (b * b * b - a * a * a) with ((b - a) * (b * b + a * b + a * a)) by ring. apply Rmult_le_pos; nra. }
    assert (A1 : Rabs (al b - al a) <= ((1 - (1 - b) * (1 - b) * (1 - b)) - (1 - (1 - a) * (1 - a) * (1 - a)))
        + ((3 * b * b - 2 * b * b * b) - (3 * a * a - 2 * a * a * a))).
    { replace (al b - al a) with (((1 - (1 - b) * (1 - b) * (1 - b)) - (1 - (1 - a) * (1 - a) * (1 - a)))
        - ((3 * b * b - 2 * b * b * b) - (3 * a * a - 2 * a * a * a))) by ring. apply Rabs_le. lra. }
    assert (A2 : Rabs (be b - be a) <= ((3 * b * b - 2 * b * b * b) - (3 * a * a - 2 * a * a * a)) + (b * b * b - a * a * a)).
    { replace (be b - be a) with (((3 * b * b - 2 * b * b * b) - (3 * a * a - 2 * a * a * a)) - (b * b * b - a * a * a)) by ring.
      apply Rabs_le. lra. }
    apply (Rmult_le_compat_r r _ _ H0) in A1. apply (Rmult_le_compat_r r _ _ H0) in A2.
    eapply Rle_trans; [exact EQ|]. eapply Rle_trans; [apply Rplus_le_compat_l, Rplus_le_compat; [exact A1|exact A2]|].
    right. unfold h, gg. ring.
  Qed.
  Theorem cubic_piece_length (q : cubic P) tol : 0 <= tol ->
    (if cubic_is_a_point q tol then Ret true else cubic_is_linear q tol) = Ret true ->
    dist (c_start q) (c_end q) <= arc_length (cubic_control_points q) <= dist (c_start q) (c_end q) + 4 * tol.
  Proof.
    intros H0 H. split; [apply (arc_length_chord (cubic_control_points q)); discriminate|].
    destruct (cubic_is_a_point q tol) eqn:Ep.
    - apply cubic_is_a_point_iff in Ep as (_ & A & B). rewrite Rabs_pos_eq in A, B by exact H0.
      eapply Rle_trans; [apply arc_length_polygon; discriminate|]. cbn [cubic_control_points polygon_length].
      pose proof (dist_triangle (c_ctrl1 q) (c_start q) (c_ctrl2 q)) as T1. pose proof (dist_triangle (c_start q) (c_end q) (c_ctrl2 q)) as T2.
      rewrite (dist_sym (c_ctrl1 q) (c_start q)) in T1. rewrite (dist_sym (c_ctrl2 q) (c_end q)). lra.
    - destruct (cubic_linear_near q tol H) as (A & B & _). now apply cubic_near_length.
  Qed.

  (** the whole curve *)
  Lemma flattened_sums {A : Type} (stop : A -> outcome bool) (halve : A -> A * A) (len chord : A -> R) e :
    (forall c, stop c = Ret true -> chord c <= len c <= chord c + e) ->
    (forall c, len (fst (halve c)) + len (snd (halve c)) = len c) ->
    forall d c l, flattened stop halve d c = Ret (Some l) ->
    let s := fold_right (fun q s => chord q + s) 0 l in s <= len c <= s + INR (length l) * e.
  Proof.
    intros Hs Hh. induction d as [|d IH]; intros c l H; cbn [flattened] in H; destruct (stop c) as [[]| |] eqn:Eb;
      cbn [bind] in H; try discriminate; try (injection H as <-; cbn; specialize (Hs c Eb); lra).
    destruct (flattened stop halve d (fst (halve c))) as [[l1|]| |] eqn:E1; cbn [bind] in H; try discriminate;
      destruct (flattened stop halve d (snd (halve c))) as [[l2|]| |] eqn:E2; cbn [bind] in H; try discriminate.
    injection H as <-. specialize (IH _ _ E1) as H1. specialize (IH _ _ E2) as H2. cbv zeta in H1, H2 |- *.
    rewrite <- (Hh c), app_length, plus_INR.
    assert (X : fold_right (fun q s => chord q + s) 0 (l1 ++ l2)
      = fold_right (fun q s => chord q + s) 0 l1 + fold_right (fun q s => chord q + s) 0 l2).
    { clear. induction l1 as [|x l1 IH]; cbn; [lra|]. rewrite IH. ring. }
    rewrite X. lra.
  Qed.
  Theorem quad_flat_length (c : quad P) tol d l : 0 <= tol ->
    flattened (fun q => if quad_is_a_point q tol then Ret true else quad_is_linear q tol)
      (fun q => quad_split q (/ 2)) d c = Ret (Some l) ->
    let s := fold_right (fun q s => dist (q_start q) (q_end q) + s) 0 l in
    s <= arc_length (quad_control_points c) <= s + INR (length l) * (2 * tol).
  Proof.
    intros H0. apply (flattened_sums _ _ (fun q => arc_length (quad_control_points q)) (fun q => dist (q_start q) (q_end q))).
    - intros q. now apply quad_piece_length.
    - intros q. apply quad_split_length. lra.
  Qed.
  Theorem cubic_flat_length (c : cubic P) tol d l : 0 <= tol ->
    flattened (fun q => if cubic_is_a_point q tol then Ret true else cubic_is_linear q tol)
      (fun q => cubic_split q (/ 2)) d c = Ret (Some l) ->
    let s := fold_right (fun q s => dist (c_start q) (c_end q) + s) 0 l in
    s <= arc_length (cubic_control_points c) <= s + INR (length l) * (4 * tol).
  Proof.
    intros H0. apply (flattened_sums _ _ (fun q => arc_length (cubic_control_points q)) (fun q => dist (c_start q) (c_end q))).
    - intros q. now apply cubic_piece_length.
    - intros q. apply cubic_split_length. lra.
  Qed.
End Flat.
