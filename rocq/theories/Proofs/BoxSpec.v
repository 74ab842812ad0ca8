(** Bounding boxes against [Spec.Box], roots of quadratics, and counterexamples. *)
From Coq Require Import Reals List Arith Lia Lra Psatz Bool.
From Verif Require Import Base.Outcome Base.Scalar Model.Point Model.Line Model.Quadratic
  Model.Cubic Model.Bezier Inst.RealInst Spec.Sums Spec.Lawful Spec.Bernstein Spec.Metric Spec.Hull
  Spec.Box Spec.Points
  Proofs.OutcomeFacts Proofs.PointFacts Proofs.RealTac Proofs.Metric Proofs.ExactEval
  Proofs.LineFacts Proofs.BBoxFacts Proofs.BezierGeneric Proofs.BezierReal Proofs.Linearity.
Import ListNotations.
Local Open Scope R_scope.

Lemma nth_error_map_seq {A} (g : nat -> A) n i : (i < n)%nat ->
  nth_error (map g (seq 0 n)) i = Some (g i).
Proof.
  intros H. apply map_nth_error. rewrite (nth_error_nth' _ 0%nat) by now rewrite seq_length.
  now rewrite seq_nth.
Qed.

Section BoxSpec.
  Context {E : Eps} {P : Type} {PT : Point R P} {LP : LawfulPoint P}.

  Lemma line_box (s : line P) : exists bounds, line_bounding_box s = Ret bounds /\
    box_shape (P := P) bounds /\
    forall i, (i < p_dim (P := P))%nat ->
      box_contains (line_eval s) bounds i 0 /\ box_attained (line_eval s) bounds i.
  Proof.
    rewrite line_bbox_value. eexists. split; [reflexivity|]. split.
    { unfold box_shape. now rewrite map_length, seq_length. }
    intros i Hi. split.
    - do 2 eexists. rewrite nth_error_map_seq by assumption. split; [reflexivity|].
      intros t Ht. pose proof (line_eval_between s t i Hi Ht). lra.
    - do 2 eexists. rewrite nth_error_map_seq by assumption. split; [reflexivity|].
      split.
      + destruct (Rle_dec (coord (l_start s) i) (coord (l_end s) i)).
        * exists 0. split; [lra|]. rewrite line_eval_0, Rmin_left; auto.
        * exists 1. split; [lra|]. rewrite line_eval_1, Rmin_right; auto. lra.
      + destruct (Rle_dec (coord (l_start s) i) (coord (l_end s) i)).
        * exists 1. split; [lra|]. rewrite line_eval_1, Rmax_right; auto.
        * exists 0. split; [lra|]. rewrite line_eval_0, Rmax_left; auto. lra.
  Qed.

  Lemma quad_box (c : quad P) : exists bounds, quad_bounding_box c = Ret bounds /\
    box_shape (P := P) bounds /\
    forall i, (i < p_dim (P := P))%nat ->
      box_attained (quad_eval c) bounds i /\
      box_contains (quad_eval c) bounds i (eps / 8) /\
      (eps <= Rabs (2 * (coord (q_start c) i - 2 * coord (q_ctrl c) i + coord (q_end c) i)) ->
       box_contains (quad_eval c) bounds i 0).
  Proof.
    rewrite quad_bbox_value. eexists. split; [reflexivity|]. split.
    { unfold box_shape. now rewrite map_length, seq_length. }
    intros i Hi. destruct (quad_bbox_axis_spec c i Hi) as (lo & hi & Eb & Hlo & Hhi & Hex & Hsl).
    assert (Hn : nth_error (map (fun i => unret (0, 0) (quad_bbox_axis c i)) (seq 0 (p_dim (P:=P)))) i
                 = Some (lo, hi)) by now rewrite nth_error_map_seq, Eb.
    split; [|split].
    - exists lo, hi. split; auto.
      destruct Hlo as (t & Ht & ->), Hhi as (u & Hu & ->). split; eauto.
    - exists lo, hi. split; auto. intros t Ht. specialize (Hsl t Ht).
      pose proof (Rmin_l eps (Rabs (qa c i))). lra.
    - intros H. exists lo, hi. split; auto. intros t Ht. specialize (Hex H t Ht). lra.
  Qed.

  Lemma cubic_box (c : cubic P) : exists bounds, cubic_bounding_box c = Ret bounds /\
    box_shape (P := P) bounds /\
    forall i, (i < p_dim (P := P))%nat ->
      box_attained (cubic_eval c) bounds i /\
      box_contains (cubic_eval c) bounds i (3 * eps / 8) /\
      (eps <= Rabs (3 * (coord (c_end c) i - 3 * coord (c_ctrl2 c) i + 3 * coord (c_ctrl1 c) i
                         - coord (c_start c) i)) ->
       box_contains (cubic_eval c) bounds i 0).
  Proof.
    rewrite cubic_bbox_value. eexists. split; [reflexivity|]. split.
    { unfold box_shape. now rewrite map_length, seq_length. }
    intros i Hi. destruct (cubic_bbox_axis_spec c i Hi) as (lo & hi & Eb & Hlo & Hhi & Hex & Hsl).
    assert (Hn : nth_error (map (fun i => unret (0, 0) (cubic_bbox_axis c i)) (seq 0 (p_dim (P:=P)))) i
                 = Some (lo, hi)) by now rewrite nth_error_map_seq, Eb.
    split; [|split].
    - exists lo, hi. split; auto.
      destruct Hlo as (t & Ht & ->), Hhi as (u & Hu & ->). split; eauto.
    - exists lo, hi. split; auto.
    - intros H. exists lo, hi. split; auto. intros t Ht. specialize (Hex (or_introl H) t Ht). lra.
  Qed.
End BoxSpec.

(** ** Roots of quadratics *)
Section QuadRoots.
  Context {E : Eps}.

  Lemma quad_roots_iff (a b c : R) : eps <= Rabs a ->
    (0 <= b * b - 4 * a * c \/ b * b - 4 * a * c <= - eps) ->
    exists l, quad_real_roots a b c = Ret l /\ (length l <= 2)%nat /\
      forall t, In t l <-> a * (t * t) + b * t + c = 0.
  Proof.
    intros Ha Hd. destruct (quad_roots_ret a b c) as (l & El & Hl).
    exists l. split; auto. split; auto. intros t. split.
    - apply (quad_roots_sound a b c l t); auto. lra.
    - intros H. destruct (quad_roots_complete a b c t Ha H) as (l' & El' & Hin).
      rewrite El in El'. now injection El' as <-.
  Qed.

  Lemma quad_roots_order (a b c : R) : eps <= Rabs a -> 0 < b * b - 4 * a * c ->
    quad_real_roots a b c
    = Ret [(- b - sqrt (b * b - 4 * a * c)) / (2 * a); (- b + sqrt (b * b - 4 * a * c)) / (2 * a)].
  Proof.
    intros Ha Hd. unfold quad_real_roots. rs. rewrite Rltb_false by assumption.
    replace (b * b - a * c * 4) with (b * b - 4 * a * c) by ring.
    rewrite Rltb_true by assumption. rewrite (Rmult_comm a 2). reflexivity.
  Qed.

  (** inside the window: a value that is not a root *)
  Lemma quad_roots_spurious (a b c : R) : eps <= Rabs a ->
    - eps < b * b - 4 * a * c < 0 ->
    quad_real_roots a b c = Ret [- b / (2 * a)] /\
    forall t, a * (t * t) + b * t + c <> 0.
  Proof.
    intros Ha Hd. assert (Hne : a <> 0) by (apply abs_ge_eps_neq; lra). split.
    - unfold quad_real_roots. rs. rewrite Rltb_false by assumption.
      replace (b * b - a * c * 4) with (b * b - 4 * a * c) by ring.
      rewrite Rltb_false by lra. rewrite Rltb_true by (rewrite Rabs_left; lra).
      rewrite (Rmult_comm a 2). reflexivity.
    - intros t H. apply quad_formula in H; auto.
      pose proof (Rle_0_sqr (2 * a * t + b)) as Hs. unfold Rsqr in Hs. lra.
  Qed.
End QuadRoots.

(** ** Counterexamples *)
Section Counterexamples.
  Context {E : Eps}.

  Lemma P1_dim : p_dim (P := P1) = 1%nat. Proof. reflexivity. Qed.
  Lemma in1 : (0 < p_dim (P := P1))%nat. Proof. rewrite P1_dim. lia. Qed.
  Lemma coord_pt1 x : coord (pt1 x) 0 = x. Proof. reflexivity. Qed.
  Lemma dist_pt1 x y : dist (pt1 x) (pt1 y) = Rabs (x - y).
  Proof.
    unfold dist. rewrite P1_dim. cbn [Rsum]. rewrite !coord_pt1.
    replace (0 + (x - y) * (x - y)) with (Rsqr (x - y)) by (unfold Rsqr; ring). apply sqrt_Rsqr_abs.
  Qed.
  Lemma inner_pt1 o x y : inner (pt1 o) (pt1 x) (pt1 y) = (x - o) * (y - o).
  Proof. unfold inner. rewrite P1_dim. cbn [Rsum]. rewrite !coord_pt1. ring. Qed.
  Lemma sqd_pt1 x y : sqd (Line (pt1 x) (pt1 y)) = (y - x) * (y - x).
  Proof. unfold sqd. simpl. rewrite dist_pt1, <- Rabs_mult. apply Rabs_pos_eq, Rle_0_sqr. Qed.

  Lemma line_split_ce : exists (s : line P1) t u, 0 < t < 1 /\ 0 <= u <= 1 /\
    line_eval (fst (line_split s t)) u <> line_eval s (t * u) /\
    line_eval (snd (line_split s t)) (1 - u) <> line_eval s (t + (1 - u) * (1 - t)).
  Proof.
    exists (Line (pt1 0) (pt1 1)), (1/2), 1. split; [lra|]. split; [lra|].
    destruct (line_split_behaviour (Line (pt1 0) (pt1 1)) (1/2) 1) as [H1 _].
    destruct (line_split_behaviour (Line (pt1 0) (pt1 1)) (1/2) (1 - 1)) as [_ H2].
    rewrite H1, H2.
    split; intros H; apply (f_equal (fun p => coord p 0)) in H;
      rewrite !line_eval_coord in H by apply in1; cbn [l_start l_end] in H;
      rewrite !coord_pt1 in H; lra.
  Qed.

  Lemma line_distance_ce : exists (s : line P1) p d,
    line_distance_to_point s p = Ret d /\ is_min_dist (line_eval s) p 0 /\ 0 < d.
  Proof.
    pose proof eps_pos. set (L := 1 + eps).
    assert (HL : eps <= sqd (Line (pt1 0) (pt1 L))) by (rewrite sqd_pt1; unfold L; nra).
    exists (Line (pt1 0) (pt1 L)), (pt1 L), L.
    destruct (line_distance_beyond (Line (pt1 0) (pt1 L)) (pt1 L) HL) as [H1 H2].
    { unfold proj. cbn [l_start l_end]. rewrite inner_pt1, sqd_pt1.
      apply Req_le. unfold L. field. lra. }
    cbn [l_start l_end] in *. rewrite dist_pt1 in H1, H2. split; [|split].
    - rewrite H1. f_equal. rewrite Rabs_pos_eq; unfold L; lra.
    - rewrite Rabs_pos_eq in H2; [|lra]. replace (L - L) with 0 in H2 by ring. exact H2.
    - unfold L; lra.
  Qed.

  Lemma cubic_dd_ce : exists (c : cubic P1) t, 0 < t < 1 /\
    cubic_dd c t 0 <> p_axis (quad_eval (cubic_derivative c) t) 0.
  Proof.
    exists (Cubic (pt1 1) (pt1 0) (pt1 0) (pt1 0)), (1/2). split; [lra|].
    rewrite cubic_dd_correct_iff by apply in1. cbn [c_start]. rewrite coord_pt1. lra.
  Qed.

  Lemma quad_linear_ce : exists (c : quad P1) tol,
    eps <= dist (q_start c) (q_end c) * dist (q_start c) (q_end c) /\
    (exists u, 0 <= u <= 1 /\ dist (q_ctrl c) (line_eval (quad_baseline c) u) <= tol) /\
    quad_is_linear c tol = Ret false.
  Proof.
    pose proof eps_pos. set (L := 1 + eps).
    assert (HL : eps <= sqd (Line (pt1 0) (pt1 L))) by (rewrite sqd_pt1; unfold L; nra).
    exists (Quad (pt1 0) (pt1 L) (pt1 L)), 0. unfold quad_baseline. cbn [q_start q_end q_ctrl].
    split; [|split].
    - rewrite (dist_sym (pt1 0)). exact HL.
    - exists 1. split; [lra|]. rewrite line_eval_1. cbn [l_end]. rewrite dist_refl. lra.
    - unfold quad_is_linear. rs. cbn [q_start q_end]. rewrite sqlen_baseline, Rltb_false by assumption.
      unfold quad_are_points_colinear, quad_baseline. cbn [q_start q_end q_ctrl].
      destruct (line_distance_beyond (Line (pt1 0) (pt1 L)) (pt1 L) HL) as [H1 _].
      { unfold proj. cbn [l_start l_end]. rewrite inner_pt1, sqd_pt1.
        apply Req_le. unfold L. field. lra. }
      rewrite H1. cbn [bind l_start]. rs. rewrite dist_pt1, Rleb_false; auto.
      rewrite Rabs_pos_eq; unfold L; lra.
  Qed.

  Lemma cubic_linear_ce : exists (c : cubic P1) tol,
    eps <= dist (c_start c) (c_end c) * dist (c_start c) (c_end c) /\
    (exists u, 0 <= u <= 1 /\ dist (c_ctrl1 c) (line_eval (cubic_baseline c) u) <= tol) /\
    (exists u, 0 <= u <= 1 /\ dist (c_ctrl2 c) (line_eval (cubic_baseline c) u) <= tol) /\
    cubic_is_linear c tol = Ret false.
  Proof.
    pose proof eps_pos. set (L := 1 + eps).
    assert (HL : eps <= sqd (Line (pt1 0) (pt1 L))) by (rewrite sqd_pt1; unfold L; nra).
    exists (Cubic (pt1 0) (pt1 0) (pt1 L) (pt1 L)), 0.
    unfold cubic_baseline. cbn [c_start c_end c_ctrl1 c_ctrl2].
    split; [|split; [|split]].
    - rewrite (dist_sym (pt1 0)). exact HL.
    - exists 0. split; [lra|]. rewrite line_eval_0. cbn [l_start]. rewrite dist_refl. lra.
    - exists 1. split; [lra|]. rewrite line_eval_1. cbn [l_end]. rewrite dist_refl. lra.
    - unfold cubic_is_linear. rs. cbn [c_start c_end]. rewrite sqlen_baseline, Rltb_false by assumption.
      unfold cubic_are_points_colinear, cubic_baseline. cbn [c_start c_end c_ctrl1 c_ctrl2].
      destruct (line_distance_beyond (Line (pt1 0) (pt1 L)) (pt1 L) HL) as [H1 _].
      { unfold proj. cbn [l_start l_end]. rewrite inner_pt1, sqd_pt1.
        apply Req_le. unfold L. field. lra. }
      rewrite H1.
      destruct (line_distance_le (Line (pt1 0) (pt1 L)) (pt1 0) 0 HL) as (d & -> & Hd).
      { unfold proj. cbn [l_start l_end]. rewrite inner_pt1, sqd_pt1.
        replace ((0 - 0) * (L - 0) / ((L - 0) * (L - 0))) with 0; [lra|].
        unfold L. field. lra. }
      { apply (near_start (Line (pt1 0) (pt1 L))). lra. }
      cbn [bind l_start]. rs. rewrite Rleb_true by assumption. cbn [bind].
      rewrite dist_pt1, Rleb_false; auto. rewrite Rabs_pos_eq; unfold L; lra.
  Qed.

  (** a curve so flat that EPSILON hides its extremum *)
  Lemma quad_bbox_ce : exists (c : quad P1) lo hi, quad_bounding_box c = Ret [(lo, hi)] /\
    hi < coord (quad_eval c (1/2)) 0.
  Proof.
    pose proof eps_pos. set (x := eps / 8).
    exists (Quad (pt1 0) (pt1 x) (pt1 0)), 0, 0. split.
    - rewrite quad_bbox_value, P1_dim. cbn [seq map]. f_equal. f_equal.
      unfold quad_bbox_axis. rewrite !axis_lt by apply in1. cbn [bind].
      rewrite line_root_value.
      destruct (Rlt_dec _ eps) as [Hl|Hl].
      + cbn [bind]. cbn [av_extend bind filter quad_eval_roots q_start q_end].
        rewrite !coord_pt1. unfold av_push. cbn [length Nat.ltb Nat.leb bind app].
        rewrite sort_R. cbn [bind s_isort s_insert]. rs.
        rewrite Rleb_true by lra. reflexivity.
      + exfalso. apply Hl. unfold quad_derivative. cbn [q_start q_end q_ctrl l_start l_end].
        rewrite lp_add, lp_mul, !lp_mul, !lp_sub by apply in1. rs. rewrite !coord_pt1.
        unfold x. rewrite Rabs_left; lra.
    - rewrite quad_eval_coord by apply in1. cbn [q_start q_ctrl q_end]. rewrite !coord_pt1.
      unfold x. lra.
  Qed.

  Lemma cubic_bbox_ce : exists (c : cubic P1) lo hi, cubic_bounding_box c = Ret [(lo, hi)] /\
    hi < coord (cubic_eval c (1/2)) 0.
  Proof.
    pose proof eps_pos. set (x := eps / 12).
    exists (Cubic (pt1 0) (pt1 x) (pt1 x) (pt1 0)), 0, 0. split.
    - rewrite cubic_bbox_value, P1_dim. cbn [seq map]. f_equal. f_equal.
      unfold cubic_bbox_axis. rewrite !axis_lt by apply in1. cbn [bind].
      rewrite quad_roots_none.
      + cbn [bind]. cbn [av_extend bind filter cubic_eval_roots c_start c_end].
        rewrite !coord_pt1. unfold av_push. cbn [length Nat.ltb Nat.leb bind app].
        rewrite sort_R. cbn [bind s_isort s_insert]. rs.
        rewrite Rleb_true by lra. reflexivity.
      + unfold cubic_derivative. cbn [c_start c_end c_ctrl1 c_ctrl2 q_start q_ctrl q_end].
        rewrite !lp_add, !lp_mul, !lp_sub by apply in1. rs. rewrite !coord_pt1.
        apply Rabs_def1; unfold x; lra.
      + unfold cubic_derivative. cbn [c_start c_end c_ctrl1 c_ctrl2 q_start q_ctrl q_end].
        rewrite !lp_add, !lp_mul, !lp_sub by apply in1. rs. rewrite !coord_pt1.
        apply Rabs_def1; unfold x; lra.
    - rewrite cubic_eval_coord by apply in1. cbn [c_start c_ctrl1 c_ctrl2 c_end]. rewrite !coord_pt1.
      unfold x. lra.
  Qed.

  Lemma quad_roots_ce : exists a b c l, eps <= Rabs a /\ quad_real_roots a b c = Ret l /\
    exists t, In t l /\ a * (t * t) + b * t + c <> 0.
  Proof.
    pose proof eps_pos. set (a := 1 + eps).
    assert (Ha : eps <= Rabs a) by (rewrite Rabs_pos_eq; unfold a; lra).
    exists a, 0, (eps / (8 * a)), [- 0 / (2 * a)].
    destruct (quad_roots_spurious a 0 (eps / (8 * a)) Ha) as [H1 H2].
    { replace (0 * 0 - 4 * a * (eps / (8 * a))) with (- eps / 2) by (field; unfold a; lra). lra. }
    split; auto. split; auto. exists (- 0 / (2 * a)). split; [left; auto|apply H2].
  Qed.
End Counterexamples.
