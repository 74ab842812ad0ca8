(** Distance and bounding box of a line segment; fill loops. *)
From Coq Require Import Reals List Arith Lia Lra Psatz.
From Verif Require Import Base.Outcome Base.Scalar Model.Point Model.Line Inst.RealInst
  Spec.Sums Spec.Lawful Spec.Metric Proofs.OutcomeFacts Proofs.PointFacts Proofs.RealTac
  Proofs.Metric Proofs.ExactEval.
Import ListNotations.
Local Open Scope R_scope.

(** A loop writing [g i] to slot [i] for each [i] of the array. *)
Lemma fill_loop {A} (f : nat -> outcome A) (g : nat -> A) d n :
  (forall i, (i < n)%nat -> f i = Ret (g i)) ->
  for_in (range 0 n) (repeat d n) (fun i b => let! x := f i in set_idx b i x)
  = Ret (map g (seq 0 n)).
Proof.
  intros Hf.
  destruct (for_in_range_inv
    (fun i b => length b = n /\ forall j, (j < n)%nat -> nth j b d = if (j <? i)%nat then g j else d)
    0 n (repeat d n) (fun i b => let! x := f i in set_idx b i x)) as (b & Hb & Hlen & Hval).
  - lia.
  - split; [apply repeat_length|]. intros j Hj. simpl. apply nth_repeat.
  - intros i b Hi [Hlen Hb]. rewrite Hf by lia. simpl. rewrite set_idx_lt by lia.
    eexists. split; [reflexivity|]. split; [now rewrite length_replace_nth|].
    intros j Hj. rewrite nth_replace_nth by lia.
    destruct (Nat.eqb_spec j i), (Nat.ltb_spec j (i + 1)); try lia; subst; auto.
    + rewrite Hb by lia. destruct (Nat.ltb_spec j i); [auto|lia].
    + rewrite Hb by lia. destruct (Nat.ltb_spec j i); [lia|auto].
  - rewrite Hb. f_equal. apply nth_ext_iff with (d := d).
    + now rewrite map_length, seq_length.
    + intros i Hi. rewrite Hlen in Hi. rewrite Hval by lia.
      destruct (Nat.ltb_spec i n); [|lia].
      rewrite (nth_map_lt _ _ _ 0%nat) by now rewrite seq_length.
      now rewrite seq_nth.
Qed.


Section LineFacts.
  Context {E : Eps} {P : Type} {PT : Point R P} {LP : LawfulPoint P}.

  Lemma dot_loop_eq (v w : P) :
    dot_loop v w = Ret (Rsum (fun i => coord v i * coord w i) (p_dim (P := P))).
  Proof.
    unfold dot_loop.
    destruct (for_in_range_inv
      (fun i d => d = Rsum (fun i => coord v i * coord w i) i) 0 (p_dim (P := P)) (s_lit 0)
      (fun i dot => let! a := p_axis v i in let! b := p_axis w i in Ret (s_add dot (s_mul a b))))
      as (d & Hd & ->).
    - lia.
    - reflexivity.
    - intros i s Hi ->. rewrite !axis_lt by lia. simpl. eexists. split; [reflexivity|].
      rewrite Nat.add_1_r. reflexivity.
    - exact Hd.
  Qed.

  Definition sqd (s : line P) := dist (l_end s) (l_start s) * dist (l_end s) (l_start s).
  Definition proj (s : line P) p := inner (l_start s) p (l_end s) / sqd s.

  (** What [distance_to_point] computes. *)
  Lemma line_distance_value (s : line P) (p : P) :
    line_distance_to_point s p
    = Ret (if Rlt_dec (sqd s) eps then dist p (l_start s)
           else dist p (line_eval s (if Rlt_dec (proj s p) 1 then Rmax 0 (proj s p) else 0))).
  Proof.
    unfold line_distance_to_point. rs. rewrite sqlen_sub. fold (sqd s).
    unfold Rltb at 1. destruct (Rlt_dec (sqd s) eps) as [Hl|Hl].
    - rewrite sqrt_sqlen_sub, dist_sym. reflexivity.
    - rewrite dot_loop_eq. cbn [bind].
      assert (Ei : Rsum (fun i => coord (p_sub p (l_start s)) i
                                  * coord (p_sub (l_end s) (l_start s)) i) (p_dim (P := P))
                   = inner (l_start s) p (l_end s)).
      { unfold inner. apply Rsum_ext. intros i Hi. now coords. }
      rewrite Ei. rs. fold (proj s p). rewrite sqrt_sqlen_sub.
      f_equal. f_equal. unfold line_eval. f_equal. f_equal.
      unfold Rltb, Rmax. destruct (Rlt_dec (proj s p) 1) as [H1|H1].
      + destruct (Rlt_dec (proj s p) 0), (Rle_dec 0 (proj s p)); lra.
      + destruct (Rlt_dec 0 0); lra.
  Qed.

  (** Squared distance to a point of the segment. *)
  Lemma dist_line_sq (s : line P) p u :
    dist p (line_eval s u) * dist p (line_eval s u)
    = inner (l_start s) p p - 2 * u * inner (l_start s) p (l_end s) + u * u * sqd s.
  Proof.
    rewrite dist_nrm, nrm_sq. unfold sqd. rewrite dist_inner. unfold inner, sq.
    rewrite <- !Rsum_scal, <- Rsum_minus, <- Rsum_plus. apply Rsum_ext. intros i Hi.
    rewrite line_eval_coord by assumption. ring.
  Qed.

  Lemma sqd_nonneg s : 0 <= sqd s.
  Proof. unfold sqd. pose proof (dist_nonneg (l_end s) (l_start s)). nra. Qed.

  Lemma line_distance_on_segment (s : line P) p : exists u, 0 <= u <= 1 /\
    line_distance_to_point s p = Ret (dist p (line_eval s u)).
  Proof.
    rewrite line_distance_value. destruct (Rlt_dec (sqd s) eps).
    - exists 0. split; [lra|]. now rewrite line_eval_0.
    - eexists. split; [|reflexivity]. unfold Rmax.
      destruct (Rlt_dec (proj s p) 1); [|lra]. destruct (Rle_dec 0 (proj s p)); lra.
  Qed.

  Lemma line_distance_min (s : line P) p : eps <= sqd s -> proj s p < 1 ->
    exists d, line_distance_to_point s p = Ret d /\ is_min_dist (line_eval s) p d.
  Proof.
    intros Hl Hp. pose proof eps_pos. rewrite line_distance_value.
    destruct (Rlt_dec (sqd s) eps); [lra|]. destruct (Rlt_dec (proj s p) 1); [|lra].
    eexists. split; [reflexivity|]. split.
    - eexists. split; [|reflexivity]. unfold Rmax. destruct (Rle_dec 0 (proj s p)); lra.
    - intros u Hu. apply dist_le_sq. rewrite !dist_line_sq.
      assert (Ep : proj s p * sqd s = inner (l_start s) p (l_end s)).
      { unfold proj. field. lra. }
      rewrite <- Ep. set (q := proj s p) in *. set (l := sqd s) in *. unfold Rmax.
      destruct (Rle_dec 0 q).
      + assert (0 <= l * ((u - q) * (u - q))). { apply Rmult_le_pos; [lra|apply Rle_0_sqr]. } lra.
      + assert (0 <= l * (u * (u - 2 * q))). { apply Rmult_le_pos; [lra|]. apply Rmult_le_pos; lra. } lra.
  Qed.

  (** beyond the end: the result is the distance to the start *)
  Lemma line_distance_beyond (s : line P) p : eps <= sqd s -> 1 <= proj s p ->
    line_distance_to_point s p = Ret (dist p (l_start s)) /\
    is_min_dist (line_eval s) p (dist p (l_end s)).
  Proof.
    intros Hl Hp. pose proof eps_pos. rewrite line_distance_value.
    destruct (Rlt_dec (sqd s) eps); [lra|]. destruct (Rlt_dec (proj s p) 1); [lra|].
    rewrite line_eval_0. split; auto. split.
    - exists 1. split; [lra|]. now rewrite line_eval_1.
    - intros u Hu. rewrite <- (line_eval_1 s). apply dist_le_sq. rewrite !dist_line_sq.
      assert (Ep : proj s p * sqd s = inner (l_start s) p (l_end s)).
      { unfold proj. field. lra. }
      rewrite <- Ep. set (q := proj s p) in *. set (l := sqd s) in *.
      assert (0 <= l * ((1 - u) * (2 * q - 1 - u))).
      { apply Rmult_le_pos; [lra|]. apply Rmult_le_pos; lra. } lra.
  Qed.

  (** a degenerate segment: the result is the distance to the start *)
  Lemma line_distance_short (s : line P) p : sqd s < eps ->
    line_distance_to_point s p = Ret (dist p (l_start s)) /\
    forall u, 0 <= u <= 1 -> dist p (l_start s) <= dist p (line_eval s u) + sqrt eps.
  Proof.
    intros Hl. rewrite line_distance_value. destruct (Rlt_dec (sqd s) eps); [|lra].
    split; auto. intros u Hu. eapply Rle_trans; [apply (dist_triangle p (line_eval s u))|].
    apply Rplus_le_compat_l.
    rewrite <- (sqrt_square (dist _ _)) by apply dist_nonneg. apply sqrt_le_1_alt.
    rewrite (dist_sym (line_eval s u)), dist_line_sq.
    assert (inner (l_start s) (l_start s) (l_start s) = 0) as ->.
    { unfold inner. rewrite <- (Rsum_0 (p_dim (P := P))). apply Rsum_ext. intros; ring. }
    assert (inner (l_start s) (l_start s) (l_end s) = 0) as ->.
    { unfold inner. rewrite <- (Rsum_0 (p_dim (P := P))). apply Rsum_ext. intros; ring. }
    pose proof (sqd_nonneg s).
    assert (u * u <= 1) by nra. assert (0 <= (1 - u * u) * sqd s) by (apply Rmult_le_pos; lra). lra.
  Qed.

  Lemma line_bbox_value (s : line P) :
    line_bounding_box s
    = Ret (map (fun i => (Rmin (coord (l_start s) i) (coord (l_end s) i),
                          Rmax (coord (l_start s) i) (coord (l_end s) i)))
               (seq 0 (p_dim (P := P)))).
  Proof.
    unfold line_bounding_box.
    rewrite <- (fill_loop (fun i => let! s0 := p_axis (l_start s) i in
                                    let! e := p_axis (l_end s) i in
                                    Ret (if s_ltb s0 e then (s0, e) else (e, s0)))
                  _ (s_lit 0, s_lit 0)).
    - apply for_in_ext. intros i b Hi. apply in_range in Hi. rewrite !axis_lt by lia. simpl.
      destruct (Rltb _ _); reflexivity.
    - intros i Hi. rewrite !axis_lt by lia. simpl. unfold Rltb, Rmin, Rmax.
      set (x := coord _ i). set (y := coord (l_end s) i).
      destruct (Rlt_dec x y), (Rle_dec x y); try lra; auto.
      assert (x = y) by lra. subst x y. now rewrite H.
  Qed.
End LineFacts.
