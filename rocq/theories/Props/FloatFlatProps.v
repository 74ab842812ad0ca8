(** C80, C81: distance to a segment, [is_linear] and [is_a_point] in IEEE-754
    arithmetic, for every binary format with at least 11 bits. *)
From Coq Require Import Reals List Arith ZArith Lia Lra.
From Flocq Require Import Core.Core IEEE754.BinarySingleNaN.
From Verif Require Import Base.Outcome Base.Scalar Model.Point Model.Line Model.Quadratic Model.Cubic
  Inst.FloatInst Spec.Sums Spec.Bernstein Spec.Rounding Spec.Componentwise
  Spec.FloatPoints Spec.FloatCurves
  Proofs.FloatFacts Proofs.FloatPoint Proofs.FloatNear Proofs.FloatCurve Proofs.FloatFlat Proofs.FloatFoot.
Import ListNotations.
Local Open Scope R_scope.

Section Flat.
  Context {F : Format} {P : Type} {PT : Point float P} {CP : CwPoint float P}.
  Notation D := (p_dim (P := P)).
  Notation ex p := (fun i => val (cw p i)).
  (** coordinates of magnitude at most M, with room for the squares *)
  Variable M : R.
  Hypotheses (HM : 0 <= M) (HD0 : (0 < D)%nat) (HD : 64 * INR (D + 1) * uro <= 1).
  Hypothesis Big : 64 * INR (D + 1) * ((M + 1) * (M + 1)) <= fmax.
  (** rounding error of a distance, and of the foot of a perpendicular *)
  Notation e := (sqrt (INR D) * ((6 * INR D + 35) * uro * M + 4 * sqrt eta)).
  Notation f := (sqrt (INR D) * ((16 * INR D + 30) * uro * M)).
  Notation len a b := (gap (P := P) (ex b) (ex a)).

  (** C80: always the distance to some point of the segment, so never too small *)
  Theorem C80_on_segment (a b p : P) : bounded M a -> bounded M b -> bounded M p ->
    exists d u, line_distance_to_point (Line a b) p = Ret d /\ fin d /\ 0 <= val d /\ 0 <= u <= 1 /\
      Rabs (val d - gap (P := P) (ex p) (exact_at [a; b] u)) <= e.
  Proof. exact (distance_on_segment M HM HD0 HD Big a b p). Qed.

  (** C80: the perpendicular from p meets the line before b: the distance to the segment *)
  Theorem C80_before_end (a b p : P) : bounded M a -> bounded M b -> bounded M p ->
    3 * uro <= len a b * len a b -> along a b p + f * len a b < len a b * len a b ->
    exists d, line_distance_to_point (Line a b) p = Ret d /\ fin d /\
      (exists u, 0 <= u <= 1 /\ gap (P := P) (ex p) (exact_at [a; b] u) - e <= val d) /\
      forall u, 0 <= u <= 1 -> val d <= gap (P := P) (ex p) (exact_at [a; b] u) + (e + f).
  Proof. intros A B C. exact (distance_accurate M HM HD0 HD Big a b p A B C). Qed.

  (** C80: it meets the line beyond b: the distance to a (C05 again) *)
  Theorem C80_beyond_end (a b p : P) : bounded M a -> bounded M b -> bounded M p ->
    3 * uro <= len a b * len a b -> len a b * len a b + f * len a b <= along a b p ->
    exists d, line_distance_to_point (Line a b) p = Ret d /\ fin d /\
      Rabs (val d - gap (P := P) (ex p) (ex a)) <= e.
  Proof. intros A B C. exact (distance_beyond M HM HD0 HD Big a b p A B C). Qed.

  (** C81: a curve [is_linear] accepts stays within the tolerance of its baseline *)
  Theorem C81_quad_linear (q : quad P) (tol : float) : (forall p, In p (quad_control_points q) -> bounded M p) ->
    fin tol -> quad_is_linear q tol = Ret true ->
    forall t, 0 <= t <= 1 -> exists u, 0 <= u <= 1 /\
      gap (P := P) (exact_at (quad_control_points q) t) (exact_at [q_start q; q_end q] u) <= val tol + e.
  Proof. exact (quad_flat M HM HD0 HD Big q tol). Qed.
  Theorem C81_cubic_linear (c : cubic P) (tol : float) : (forall p, In p (cubic_control_points c) -> bounded M p) ->
    fin tol -> cubic_is_linear c tol = Ret true ->
    forall t, 0 <= t <= 1 -> exists u, 0 <= u <= 1 /\
      gap (P := P) (exact_at (cubic_control_points c) t) (exact_at [c_start c; c_end c] u) <= val tol + e.
  Proof. exact (cubic_flat M HM HD0 HD Big c tol). Qed.

  (** C81: it accepts every curve whose baseline is not short and whose control points
      project clearly before the end and lie well within the tolerance *)
  Notation inside a b c r :=
    (along a b c + f * len a b < len a b * len a b /\
     exists u, 0 <= u <= 1 /\ gap (P := P) (ex c) (exact_at [a; b] u) <= r).
  Theorem C81_quad_linear_complete (q : quad P) (tol : float) :
    (forall p, In p (quad_control_points q) -> bounded M p) -> fin tol ->
    3 * uro <= len (q_start q) (q_end q) * len (q_start q) (q_end q) ->
    inside (q_start q) (q_end q) (q_ctrl q) (val tol - (e + f)) ->
    quad_is_linear q tol = Ret true.
  Proof. exact (quad_flat_complete M HM HD0 HD Big q tol). Qed.
  Theorem C81_cubic_linear_complete (c : cubic P) (tol : float) :
    (forall p, In p (cubic_control_points c) -> bounded M p) -> fin tol ->
    3 * uro <= len (c_start c) (c_end c) * len (c_start c) (c_end c) ->
    inside (c_start c) (c_end c) (c_ctrl1 c) (val tol - (e + f)) ->
    inside (c_start c) (c_end c) (c_ctrl2 c) (val tol - (e + f)) ->
    cubic_is_linear c tol = Ret true.
  Proof. exact (cubic_flat_complete M HM HD0 HD Big c tol). Qed.

  (** C81: a curve [is_a_point] accepts stays near its start *)
  Theorem C81_quad_point (q : quad P) (tol : float) : (forall p, In p (quad_control_points q) -> bounded M p) ->
    fin tol -> val tol * val tol <= fmax -> quad_is_a_point q tol = true ->
    forall t, 0 <= t <= 1 -> gap (P := P) (exact_at (quad_control_points q) t) (ex (q_start q))
      <= (1 + 3 * uro) * Rabs (val tol) + 2 * sqrt eta + e.
  Proof. intros B Ft Ht. exact (quad_point_sound M HM HD0 HD Big tol Ft Ht q B). Qed.
  Theorem C81_cubic_point (c : cubic P) (tol : float) : (forall p, In p (cubic_control_points c) -> bounded M p) ->
    fin tol -> val tol * val tol <= fmax -> cubic_is_a_point c tol = true ->
    forall t, 0 <= t <= 1 -> gap (P := P) (exact_at (cubic_control_points c) t) (ex (c_start c))
      <= 2 * ((1 + 3 * uro) * Rabs (val tol) + 2 * sqrt eta + e).
  Proof. intros B Ft Ht. exact (cubic_point_sound M HM HD0 HD Big tol Ft Ht c B). Qed.

  (** C81: and it accepts control points well within the tolerance of each other *)
  Notation close p q tol := (gap (P := P) (ex p) (ex q) + e + 3 * sqrt eta <= (1 - 2 * uro) * Rabs (val tol)).
  Theorem C81_quad_point_complete (q : quad P) (tol : float) :
    (forall p, In p (quad_control_points q) -> bounded M p) -> fin tol -> val tol * val tol <= fmax ->
    close (q_start q) (q_end q) tol -> close (q_start q) (q_ctrl q) tol -> quad_is_a_point q tol = true.
  Proof. intros B Ft Ht. exact (quad_point_complete M HM HD0 HD Big tol Ft Ht q B). Qed.
  Theorem C81_cubic_point_complete (c : cubic P) (tol : float) :
    (forall p, In p (cubic_control_points c) -> bounded M p) -> fin tol -> val tol * val tol <= fmax ->
    close (c_start c) (c_end c) tol -> close (c_start c) (c_ctrl1 c) tol -> close (c_end c) (c_ctrl2 c) tol ->
    cubic_is_a_point c tol = true.
  Proof. intros B Ft Ht. exact (cubic_point_complete M HM HD0 HD Big tol Ft Ht c B). Qed.
End Flat.

(** The hypotheses hold for the f64 segment from (0,0) to (4,1) with the query points
    (1,3) and (8,4), and for the curves through (0,0), (2,1), (3,1), (4,1). *)
Section Concrete.
  #[local] Existing Instance Binary64.
  Definition b0 : PointN float 2 := fpt2 (flt 0 0) (flt 0 0).
  Definition b1 : PointN float 2 := fpt2 (flt 2 0) (flt 1 0).
  Definition b2 : PointN float 2 := fpt2 (flt 3 0) (flt 1 0).
  Definition b3 : PointN float 2 := fpt2 (flt 4 0) (flt 1 0).
  Definition p1 : PointN float 2 := fpt2 (flt 1 0) (flt 3 0).
  Definition p2 : PointN float 2 := fpt2 (flt 8 0) (flt 4 0).

  Example b_bounded p : In p [b0; b1; b2; b3; p1; p2] -> bounded 8 p.
  Proof.
    intros [<-|[<-|[<-|[<-|[<-|[<-|[]]]]]]]; apply bounded_int2; try lia; rewrite Rabs_right by lra; lra.
  Qed.
  Lemma dim2 : INR (p_dim (P := PointN float 2)) = 2.
  Proof. simpl. ring. Qed.
  Lemma dim3 : INR (p_dim (P := PointN float 2) + 1) = 3.
  Proof. simpl. ring. Qed.
  Lemma dim_pos : (0 < p_dim (P := PointN float 2))%nat.
  Proof. cbn. lia. Qed.
  Lemma dims_ok : 64 * INR (p_dim (P := PointN float 2) + 1) * uro <= 1.
  Proof. pose proof uro_64. rewrite dim3. lra. Qed.
  Lemma big_ok : 64 * INR (p_dim (P := PointN float 2) + 1) * ((8 + 1) * (8 + 1)) <= fmax.
  Proof. pose proof fmax_64. rewrite dim3. lra. Qed.

  Lemma int_val (z : Z) : (Z.abs z <= 2048)%Z -> val (flt z 0) = IZR z.
  Proof. intros H. exact (proj2 (lit_small z H)). Qed.
  Lemma len_03 : gap (P := PointN float 2) (fun i => val (cw b3 i)) (fun i => val (cw b0 i)) = sqrt 17.
  Proof.
    unfold gap. f_equal. change (Rsum (fun i => (val (cw b3 i) - val (cw b0 i)) * (val (cw b3 i) - val (cw b0 i))) 2 = 17).
    cbn [Rsum]. change (cw b3 0) with (flt 4 0). change (cw b3 1) with (flt 1 0).
    change (cw b0 0) with (flt 0 0). change (cw b0 1) with (flt 0 0). rewrite !int_val by lia. ring.
  Qed.
  Lemma along_p1 : along b0 b3 p1 = 7.
  Proof.
    unfold along. change (Rsum (fun i => (val (cw p1 i) - val (cw b0 i)) * (val (cw b3 i) - val (cw b0 i))) 2 = 7).
    cbn [Rsum]. change (cw b3 0) with (flt 4 0). change (cw b3 1) with (flt 1 0).
    change (cw b0 0) with (flt 0 0). change (cw b0 1) with (flt 0 0).
    change (cw p1 0) with (flt 1 0). change (cw p1 1) with (flt 3 0). rewrite !int_val by lia. ring.
  Qed.
  Lemma along_p2 : along b0 b3 p2 = 36.
  Proof.
    unfold along. change (Rsum (fun i => (val (cw p2 i) - val (cw b0 i)) * (val (cw b3 i) - val (cw b0 i))) 2 = 36).
    cbn [Rsum]. change (cw b3 0) with (flt 4 0). change (cw b3 1) with (flt 1 0).
    change (cw b0 0) with (flt 0 0). change (cw b0 1) with (flt 0 0).
    change (cw p2 0) with (flt 8 0). change (cw p2 1) with (flt 4 0). rewrite !int_val by lia. ring.
  Qed.
  Lemma sqrt_le x y : 0 <= y -> x <= y * y -> sqrt x <= y.
  Proof. intros Hy H. rewrite <- (sqrt_square y) by exact Hy. now apply sqrt_le_1_alt. Qed.
  Lemma foot_small : sqrt (INR (p_dim (P := PointN float 2))) * ((16 * INR (p_dim (P := PointN float 2)) + 30) * uro * 8) * sqrt 17 <= 1.
  Proof.
    rewrite dim2. pose proof uro_64. pose proof uro_pos.
    pose proof (sqrt_le 2 2 ltac:(lra) ltac:(lra)) as A. pose proof (sqrt_le 17 5 ltac:(lra) ltac:(lra)) as B.
    pose proof (sqrt_pos 2). pose proof (sqrt_pos 17).
    apply Rle_trans with (2 * ((16 * 2 + 30) * uro * 8) * 5); [|lra].
    apply Rmult_le_compat; try lra; [apply Rmult_le_pos; [lra|]; lra|]. apply Rmult_le_compat_r; lra.
  Qed.

  Example C80_case : exists d, line_distance_to_point (Line b0 b3) p1 = Ret d /\ fin d /\
    (exists u, 0 <= u <= 1 /\ gap (P := PointN float 2) (fun i => val (cw p1 i)) (exact_at [b0; b3] u)
       - sqrt (INR 2) * ((6 * INR 2 + 35) * uro * 8 + 4 * sqrt eta) <= val d) /\
    forall u, 0 <= u <= 1 -> val d <= gap (P := PointN float 2) (fun i => val (cw p1 i)) (exact_at [b0; b3] u)
      + (sqrt (INR 2) * ((6 * INR 2 + 35) * uro * 8 + 4 * sqrt eta) + sqrt (INR 2) * ((16 * INR 2 + 30) * uro * 8)).
  Proof.
    pose proof uro_64.
    apply (C80_before_end 8 ltac:(lra) dim_pos dims_ok big_ok b0 b3 p1); try (apply b_bounded; cbn; tauto).
    - rewrite len_03, sqrt_sqrt by lra. lra.
    - rewrite len_03, sqrt_sqrt, along_p1 by lra. pose proof foot_small. lra.
  Qed.
  Example C80_case_beyond : exists d, line_distance_to_point (Line b0 b3) p2 = Ret d /\ fin d /\
    Rabs (val d - gap (P := PointN float 2) (fun i => val (cw p2 i)) (fun i => val (cw b0 i)))
      <= sqrt (INR 2) * ((6 * INR 2 + 35) * uro * 8 + 4 * sqrt eta).
  Proof.
    pose proof uro_64.
    apply (C80_beyond_end 8 ltac:(lra) dim_pos dims_ok big_ok b0 b3 p2); try (apply b_bounded; cbn; tauto).
    - rewrite len_03, sqrt_sqrt by lra. lra.
    - rewrite len_03, sqrt_sqrt, along_p2 by lra. pose proof foot_small. lra.
  Qed.

  Example C81_case : quad_is_linear (Quad b0 b1 b3) (flt 1 0) = Ret true /\
    cubic_is_linear (Cubic b0 b1 b2 b3) (flt 1 0) = Ret true /\
    quad_is_a_point (Quad b0 b1 b3) (flt 5 0) = true /\
    cubic_is_a_point (Cubic b0 b1 b2 b3) (flt 5 0) = true.
  Proof. repeat split; vm_compute; reflexivity. Qed.

  (** the completeness theorems apply to the same curves *)
  Lemma along_b1 : along b0 b3 b1 = 9.
  Proof.
    unfold along. change (Rsum (fun i => (val (cw b1 i) - val (cw b0 i)) * (val (cw b3 i) - val (cw b0 i))) 2 = 9).
    cbn [Rsum]. change (cw b3 0) with (flt 4 0). change (cw b3 1) with (flt 1 0).
    change (cw b0 0) with (flt 0 0). change (cw b0 1) with (flt 0 0).
    change (cw b1 0) with (flt 2 0). change (cw b1 1) with (flt 1 0). rewrite !int_val by lia. ring.
  Qed.
  Lemma errs_small :
    sqrt (INR (p_dim (P := PointN float 2))) * ((6 * INR (p_dim (P := PointN float 2)) + 35) * uro * 8 + 4 * sqrt eta)
    + sqrt (INR (p_dim (P := PointN float 2))) * ((16 * INR (p_dim (P := PointN float 2)) + 30) * uro * 8) <= / 1000000000.
  Proof.
    rewrite dim2. pose proof uro_64. pose proof uro_pos. pose proof (@sqrt_eta Binary64) as [S0 S1].
    pose proof (sqrt_le 2 2 ltac:(lra) ltac:(lra)) as A. pose proof (sqrt_pos 2).
    rewrite <- Rmult_plus_distr_l.
    apply Rle_trans with (2 * ((6 * 2 + 35) * uro * 8 + 4 * sqrt eta + (16 * 2 + 30) * uro * 8)); [|lra].
    apply Rmult_le_compat_r; lra.
  Qed.
  Example C81_case_complete : quad_is_linear (Quad b0 b1 b3) (flt 1 0) = Ret true.
  Proof.
    pose proof uro_64. pose proof errs_small as ES.
    apply (C81_quad_linear_complete 8 ltac:(lra) dim_pos dims_ok big_ok); cbn [q_start q_ctrl q_end].
    - intros p [<-|[<-|[<-|[]]]]; apply b_bounded; cbn; tauto.
    - vm_compute. reflexivity.
    - rewrite len_03, sqrt_sqrt by lra. lra.
    - split.
      + rewrite len_03, sqrt_sqrt, along_b1 by lra. pose proof foot_small. lra.
      + exists (1 / 2). split; [lra|]. rewrite (int_val 1) by lia.
        apply Rle_trans with (1 / 2); [|lra]. unfold gap. apply sqrt_le; [lra|].
        change (Rsum (fun i => (val (cw b1 i) - exact_at [b0; b3] (1 / 2) i) * (val (cw b1 i) - exact_at [b0; b3] (1 / 2) i)) 2
                <= 1 / 2 * (1 / 2)).
        cbn [Rsum]. unfold exact_at. cbn [map]. rewrite !line_poly.
        change (cw b3 0) with (flt 4 0). change (cw b3 1) with (flt 1 0).
        change (cw b0 0) with (flt 0 0). change (cw b0 1) with (flt 0 0).
        change (cw b1 0) with (flt 2 0). change (cw b1 1) with (flt 1 0). rewrite !int_val by lia. lra.
  Qed.
  Lemma gap_05 (p : PointN float 2) : In p [b1; b3] ->
    gap (P := PointN float 2) (fun i => val (cw b0 i)) (fun i => val (cw p i)) <= 9 / 2.
  Proof.
    intros H. unfold gap. apply sqrt_le; [lra|].
    change (Rsum (fun i => (val (cw b0 i) - val (cw p i)) * (val (cw b0 i) - val (cw p i))) 2 <= 9 / 2 * (9 / 2)).
    cbn [Rsum]. destruct H as [<-|[<-|[]]];
      change (cw b3 0) with (flt 4 0); change (cw b3 1) with (flt 1 0);
      change (cw b0 0) with (flt 0 0); change (cw b0 1) with (flt 0 0);
      change (cw b1 0) with (flt 2 0); change (cw b1 1) with (flt 1 0); rewrite !int_val by lia; lra.
  Qed.
  Example C81_case_point : quad_is_a_point (Quad b0 b1 b3) (flt 5 0) = true.
  Proof.
    pose proof uro_64. pose proof errs_small as ES. pose proof fmax_64. pose proof (@sqrt_eta Binary64) as [S0 S1].
    assert (F5 : 0 <= sqrt (INR (p_dim (P := PointN float 2))) * ((16 * INR (p_dim (P := PointN float 2)) + 30) * uro * 8)).
    { rewrite dim2. pose proof uro_pos. apply Rmult_le_pos; [apply sqrt_pos|lra]. }
    apply (C81_quad_point_complete 8 ltac:(lra) dim_pos dims_ok big_ok); cbn [q_start q_ctrl q_end];
      rewrite ?(int_val 5) by lia; try (rewrite Rabs_right by lra).
    - intros p [<-|[<-|[<-|[]]]]; apply b_bounded; cbn; tauto.
    - vm_compute. reflexivity.
    - lra.
    - pose proof (gap_05 b3 ltac:(cbn; tauto)). lra.
    - pose proof (gap_05 b1 ltac:(cbn; tauto)). lra.
  Qed.
End Concrete.

Print Assumptions C80_on_segment.
Print Assumptions C80_before_end.
Print Assumptions C80_beyond_end.
Print Assumptions C81_quad_linear.
Print Assumptions C81_cubic_linear.
Print Assumptions C81_quad_linear_complete.
Print Assumptions C81_cubic_linear_complete.
Print Assumptions C81_quad_point.
Print Assumptions C81_cubic_point.
Print Assumptions C81_quad_point_complete.
Print Assumptions C81_cubic_point_complete.
