(** The model commutes with affine maps, similarities and linear maps. *)
From Coq Require Import Reals List Arith Bool Lia Lra Psatz.
From Verif Require Import Base.Outcome Base.Scalar Model.Point Model.Line Model.Quadratic Model.Cubic
  Model.Bezier Model.BSpline Inst.RealInst Spec.Sums Spec.Lawful Spec.Metric Spec.Maps Spec.Points
  Proofs.OutcomeFacts Proofs.PointFacts Proofs.RealTac Proofs.Metric Proofs.ExactEval Proofs.LineFacts
  Proofs.BezierGeneric Proofs.BezierReal Proofs.BBoxFacts Proofs.BoxSpec Proofs.Transfer.
Import ListNotations.
Local Open Scope R_scope.

Section Affine.
  Context {E : Eps} {P Q : Type} {PT : Point R P} {QT : Point R Q} {LP : LawfulPoint P} {LQ : LawfulPoint Q}.
  Variable F : P -> Q.
  Hypothesis HF : affine_map F.

  Lemma aff_lerp t a b : F (lerp t a b) = lerp t (F a) (F b).
  Proof.
    destruct HF as (A & o & H). apply lp_ext. intros j Hj. rewrite lerp_coord, !H by exact Hj.
    rewrite (Rsum_ext _ (fun k => (1 - t) * (A j k * coord a k) + t * (A j k * coord b k))).
    - rewrite Rsum_plus, !Rsum_scal. ring.
    - intros k Hk. rewrite lerp_coord by exact Hk. ring.
  Qed.
  (** the other spelling used by the code *)
  Lemma step_lerp {X} {XT : Point R X} {LX : LawfulPoint X} (a b : X) t : p_add a (p_mul (p_sub b a) t) = lerp t a b.
  Proof. apply lp_ext. intros i Hi. rewrite lerp_coord by exact Hi. coords. ring. Qed.
  Lemma aff_step a b t : F (p_add a (p_mul (p_sub b a) t)) = p_add (F a) (p_mul (p_sub (F b) (F a)) t).
  Proof. rewrite !step_lerp. apply aff_lerp. Qed.

  Lemma line_eval_aff a b t : line_eval (Line (F a) (F b)) t = F (line_eval (Line a b) t).
  Proof. unfold line_eval. cbn [l_start l_end]. symmetry. apply aff_step. Qed.
  Lemma level_aff t i ps : casteljau_level t i (map F ps) = omap (map F) (casteljau_level t i ps).
  Proof.
    unfold casteljau_level. rewrite map_length. apply bind_same. intros m.
    apply for_in_map. intros j l. rewrite !idx_map. apply omap_bind. intros a. apply omap_bind. intros b.
    pose proof (aff_lerp t a b) as H. unfold lerp in H. rewrite <- H. apply set_idx_map.
  Qed.
  Lemma bezier_eval_aff ps t : bezier_eval (Bezier (map F ps)) t = omap F (bezier_eval (Bezier ps) t).
  Proof.
    unfold bezier_eval. cbn [bz_points]. rewrite map_length.
    rewrite (for_in_map (map F) _ ps (fun i p => casteljau_level t i p)).
    - apply omap_bind. intros p. apply idx_map.
    - intros i l. apply level_aff.
  Qed.
  Lemma bezier_split_aff ps t : bezier_split (Bezier (map F ps)) t
    = omap (fun lr => (Bezier (map F (bz_points (fst lr))), Bezier (map F (bz_points (snd lr))))) (bezier_split (Bezier ps) t).
  Proof.
    unfold bezier_split. cbn [bz_points]. rewrite map_length.
    set (h := fun st : list P * list P * list P => (map F (fst (fst st)), map F (snd (fst st)), map F (snd st))).
    change (map F ps, map F ps, map F ps) with (h (ps, ps, ps)).
    rewrite (for_in_map h _ _ (split_body t)).
    - apply omap_bind. intros [[l r] c]. reflexivity.
    - intros i [[l r] c]. unfold h, split_body. cbn [fst snd]. apply bind_same. intros i1.
      rewrite idx_map. apply omap_bind. intros c0. rewrite set_idx_map. apply omap_bind. intros l'.
      rewrite map_length. apply bind_same. intros k. rewrite idx_map. apply omap_bind. intros cr.
      rewrite set_idx_map. apply omap_bind. intros r'. rewrite level_aff. apply omap_bind. intros c'. reflexivity.
  Qed.
  Lemma quad_eval_aff a b c t : quad_eval (Quad (F a) (F b) (F c)) t = F (quad_eval (Quad a b c) t).
  Proof.
    pose proof (bezier_eval_aff [a; b; c] t) as H. cbn [map] in H. rewrite !bezier_eval_quad in H.
    cbn [omap] in H. congruence.
  Qed.
  Lemma cubic_eval_aff a b c d t : cubic_eval (Cubic (F a) (F b) (F c) (F d)) t = F (cubic_eval (Cubic a b c d) t).
  Proof.
    pose proof (bezier_eval_aff [a; b; c; d] t) as H. cbn [map] in H. rewrite !bezier_eval_cubic in H.
    cbn [omap] in H. congruence.
  Qed.
  Lemma quad_split_aff a b c t : quad_split (Quad (F a) (F b) (F c)) t
    = (let q := fst (quad_split (Quad a b c) t) in Quad (F (q_start q)) (F (q_ctrl q)) (F (q_end q)),
       let q := snd (quad_split (Quad a b c) t) in Quad (F (q_start q)) (F (q_ctrl q)) (F (q_end q))).
  Proof. unfold quad_split. cbn [q_start q_ctrl q_end fst snd]. rewrite !aff_step. reflexivity. Qed.
  Lemma cubic_split_aff a b c d t : cubic_split (Cubic (F a) (F b) (F c) (F d)) t
    = (let q := fst (cubic_split (Cubic a b c d) t) in Cubic (F (c_start q)) (F (c_ctrl1 q)) (F (c_ctrl2 q)) (F (c_end q)),
       let q := snd (cubic_split (Cubic a b c d) t) in Cubic (F (c_start q)) (F (c_ctrl1 q)) (F (c_ctrl2 q)) (F (c_end q))).
  Proof. unfold cubic_split. cbn [c_start c_ctrl1 c_ctrl2 c_end fst snd]. rewrite !aff_step. reflexivity. Qed.
End Affine.

Section Similar.
  Context {E : Eps} {P Q : Type} {PT : Point R P} {QT : Point R Q} {LP : LawfulPoint P} {LQ : LawfulPoint Q}.
  Variables (s : R) (F : P -> Q).
  Hypothesis HF : similarity s F.

  Lemma sim_pos : 0 < s. Proof. apply HF. Qed.
  Lemma sim_aff : affine_map F. Proof. apply HF. Qed.
  Lemma sim_dist p q : dist (F p) (F q) = s * dist p q. Proof. apply HF. Qed.
  Lemma sim_sqlen p q : p_sqlen (p_sub (F p) (F q)) = s * s * p_sqlen (p_sub p q).
  Proof. rewrite !sqlen_sub, sim_dist. ring. Qed.
  Lemma ltb_scale k x y : 0 < k -> Rltb (k * x) (k * y) = Rltb x y.
  Proof.
    intros Hk. destruct (Rltb_spec (k * x) (k * y)) as [H|H], (Rltb_spec x y) as [H'|H']; auto; exfalso.
    - apply H'. now apply Rmult_lt_reg_l with k.
    - apply H. now apply Rmult_lt_compat_l.
  Qed.
  Lemma leb_scale k x y : 0 < k -> Rleb (k * x) (k * y) = Rleb x y.
  Proof.
    intros Hk. destruct (Rleb_spec (k * x) (k * y)) as [H|H], (Rleb_spec x y) as [H'|H']; auto; exfalso.
    - apply H'. now apply Rmult_le_reg_l with k.
    - apply H. apply Rmult_le_compat_l; lra.
  Qed.
  Lemma ss_pos : 0 < s * s. Proof. pose proof sim_pos. nra. Qed.

  (** ** arclen *)
  Lemma arclen_loop_sim (f : R -> outcome P) (g : R -> outcome Q) n (w : nat -> R) :
    (forall t, g t = omap F (f t)) ->
    for_in (range 1 n) 0 (fun i a => let! p1 := g (w i) in let! p2 := g (w i + 1 / INR n) in
      Ret (a + sqrt (p_sqlen (p_sub p1 p2))))
    = omap (Rmult s) (for_in (range 1 n) 0 (fun i a => let! p1 := f (w i) in let! p2 := f (w i + 1 / INR n) in
      Ret (a + sqrt (p_sqlen (p_sub p1 p2))))).
  Proof.
    intros H. rewrite <- (Rmult_0_r s) at 1. apply for_in_map. intros i a. rewrite !H.
    apply omap_bind. intros p1. apply omap_bind. intros p2. cbn [omap]. f_equal.
    rewrite !sqrt_sqlen_sub, sim_dist. ring.
  Qed.
  Lemma quad_arclen_sim a b c n :
    quad_arclen (Quad (F a) (F b) (F c)) n = omap (Rmult s) (quad_arclen (Quad a b c) n).
  Proof.
    exact (arclen_loop_sim (fun t => Ret (quad_eval_casteljau (Quad a b c) t))
      (fun t => Ret (quad_eval_casteljau (Quad (F a) (F b) (F c)) t)) n (fun i => INR i * 1 / INR n)
      ltac:(intros t; cbn beta; rewrite !quad_casteljau_eval, quad_eval_aff by exact sim_aff; reflexivity)).
  Qed.
  Lemma cubic_arclen_sim a b c d n :
    cubic_arclen (Cubic (F a) (F b) (F c) (F d)) n = omap (Rmult s) (cubic_arclen (Cubic a b c d) n).
  Proof.
    exact (arclen_loop_sim (fun t => Ret (cubic_eval_casteljau (Cubic a b c d) t))
      (fun t => Ret (cubic_eval_casteljau (Cubic (F a) (F b) (F c) (F d)) t)) n (fun i => INR i * 1 / INR n)
      ltac:(intros t; cbn beta; rewrite !cubic_casteljau_eval, cubic_eval_aff by exact sim_aff; reflexivity)).
  Qed.
  Lemma bezier_arclen_sim ps n :
    bezier_arclen (Bezier (map F ps)) n = omap (Rmult s) (bezier_arclen (Bezier ps) n).
  Proof.
    exact (arclen_loop_sim (bezier_eval (Bezier ps)) (bezier_eval (Bezier (map F ps))) n (fun i => INR i * 1 / INR n)
      (bezier_eval_aff F sim_aff ps)).
  Qed.

  (** ** distance_to_point *)
  Definition st_sim (st : R * R) : R * R := (fst st, s * s * snd st).
  Lemma search_sim (f : R -> outcome P) (g : R -> outcome Q) first p :
    (forall t, g t = omap F (f t)) ->
    search_distance g (F first) (F p) = omap (Rmult s) (search_distance f first p).
  Proof.
    intros H. unfold search_distance. rewrite sim_sqlen.
    change (s_half, s * s * p_sqlen (p_sub p first)) with (st_sim (s_half, p_sqlen (p_sub p first))).
    rewrite (for_in_map st_sim _ _ (coarse_body f p)).
    - apply omap_bind. intros st. rewrite (for_in_map st_sim _ _ (fine_body f p)).
      + apply omap_bind. intros st'. cbn [st_sim snd omap]. f_equal. rs.
        rewrite sqrt_mult_alt, sqrt_square by (pose proof ss_pos; pose proof sim_pos; lra). reflexivity.
      + intros i st'. unfold fine_body. rewrite H. cbn [st_sim fst]. apply omap_bind. intros c.
        rewrite sim_sqlen. cbn [st_sim snd]. rs. rewrite ltb_scale by exact ss_pos. now destruct (Rltb _ _).
    - intros i st'. unfold coarse_body. rewrite H. apply omap_bind. intros c.
      rewrite sim_sqlen. cbn [st_sim snd]. rs. rewrite ltb_scale by exact ss_pos. now destruct (Rltb _ _).
  Qed.
  Lemma quad_distance_sim a b c p :
    quad_distance_to_point (Quad (F a) (F b) (F c)) (F p) = omap (Rmult s) (quad_distance_to_point (Quad a b c) p).
  Proof.
    unfold quad_distance_to_point. apply search_sim. intros t. rewrite quad_eval_aff by exact sim_aff. reflexivity.
  Qed.
  Lemma cubic_distance_sim a b c d p :
    cubic_distance_to_point (Cubic (F a) (F b) (F c) (F d)) (F p)
    = omap (Rmult s) (cubic_distance_to_point (Cubic a b c d) p).
  Proof.
    unfold cubic_distance_to_point. apply search_sim. intros t. rewrite cubic_eval_aff by exact sim_aff. reflexivity.
  Qed.
  Lemma bezier_distance_sim ps p :
    bezier_distance_to_point (Bezier (map F ps)) (F p) = omap (Rmult s) (bezier_distance_to_point (Bezier ps) p).
  Proof.
    unfold bezier_distance_to_point. cbn [bz_points]. rewrite idx_map. apply omap_bind. intros first.
    apply search_sim. intros t. apply bezier_eval_aff. exact sim_aff.
  Qed.

  (** ** line distance: where both lengths are on the same side of EPSILON *)
  Lemma inner_dist {X} {XT : Point R X} {LX : LawfulPoint X} (o p q : X) :
    inner o p q = (dist p o * dist p o + dist q o * dist q o - dist p q * dist p q) / 2.
  Proof.
    rewrite !dist_nrm, !nrm_sq. unfold inner, sq. rewrite <- Rsum_plus, <- Rsum_minus. unfold Rdiv.
    rewrite (Rmult_comm _ (/ 2)), <- Rsum_scal. apply Rsum_ext. intros. field.
  Qed.
  Lemma sim_inner o p q : inner (F o) (F p) (F q) = s * s * inner o p q.
  Proof. rewrite !inner_dist, !sim_dist. field. Qed.
  Lemma line_distance_sim a b p : (s * s * (dist a b * dist a b) < eps <-> dist a b * dist a b < eps) ->
    line_distance_to_point (Line (F a) (F b)) (F p) = omap (Rmult s) (line_distance_to_point (Line a b) p).
  Proof.
    intros H. rewrite !line_distance_value. cbn [omap]. f_equal.
    assert (Hs : sqd (Line (F a) (F b)) = s * s * sqd (Line a b)).
    { unfold sqd. cbn [l_start l_end]. rewrite !sim_dist. ring. }
    assert (Hq : sqd (Line a b) = dist a b * dist a b).
    { unfold sqd. cbn [l_start l_end]. now rewrite dist_sym. }
    assert (Hp : proj (Line (F a) (F b)) (F p) = proj (Line a b) p).
    { unfold proj. rewrite Hs. cbn [l_start l_end]. rewrite sim_inner.
      destruct (Req_dec (sqd (Line a b)) 0) as [Hz|Hz].
      - rewrite Hz, Rmult_0_r. unfold Rdiv. rewrite Rinv_0. ring.
      - pose proof sim_pos. field. split; lra. }
    rewrite Hp, Hs. cbn [l_start l_end].
    destruct (Rlt_dec (s * s * sqd (Line a b)) eps) as [H1|H1], (Rlt_dec (sqd (Line a b)) eps) as [H2|H2];
      rewrite Hq in H1, H2.
    - apply sim_dist.
    - exfalso. apply H2. now apply H.
    - exfalso. apply H1. now apply H.
    - rewrite line_eval_aff by exact sim_aff. apply sim_dist.
  Qed.

  (** ** is_linear, is_a_point *)
  Lemma eps_side x : (s * s * x < eps <-> x < eps) -> Rltb (s * s * x) eps = Rltb x eps.
  Proof.
    intros H. destruct (Rltb_spec (s * s * x) eps) as [H1|H1], (Rltb_spec x eps) as [H2|H2]; auto; exfalso; tauto.
  Qed.
  Lemma quad_is_linear_sim a b c tol : (s * s * (dist a c * dist a c) < eps <-> dist a c * dist a c < eps) ->
    quad_is_linear (Quad (F a) (F b) (F c)) (s * tol) = quad_is_linear (Quad a b c) tol.
  Proof.
    intros H. unfold quad_is_linear, quad_are_points_colinear, quad_baseline. cbn [q_start q_ctrl q_end].
    rewrite sim_sqlen, sqlen_sub. rs. rewrite (eps_side _ H). destruct (Rltb _ _); [reflexivity|].
    rewrite line_distance_sim by exact H. destruct (line_distance_to_point (Line a c) b); cbn [omap bind]; auto.
    rewrite leb_scale by exact sim_pos. reflexivity.
  Qed.
  Lemma cubic_is_linear_sim a b c d tol : (s * s * (dist a d * dist a d) < eps <-> dist a d * dist a d < eps) ->
    cubic_is_linear (Cubic (F a) (F b) (F c) (F d)) (s * tol) = cubic_is_linear (Cubic a b c d) tol.
  Proof.
    intros H. unfold cubic_is_linear, cubic_are_points_colinear, cubic_baseline. cbn [c_start c_ctrl1 c_ctrl2 c_end].
    rewrite sim_sqlen, sqlen_sub. rs. rewrite (eps_side _ H). destruct (Rltb _ _); [reflexivity|].
    rewrite !line_distance_sim by exact H.
    destruct (line_distance_to_point (Line a d) b); cbn [omap bind]; auto.
    rewrite leb_scale by exact sim_pos. destruct (Rleb _ _); auto.
    destruct (line_distance_to_point (Line a d) c); cbn [omap bind]; auto.
    rewrite leb_scale by exact sim_pos. reflexivity.
  Qed.
  Lemma quad_is_a_point_sim a b c tol :
    quad_is_a_point (Quad (F a) (F b) (F c)) (s * tol) = quad_is_a_point (Quad a b c) tol.
  Proof.
    unfold quad_is_a_point. cbn [q_start q_ctrl q_end]. rewrite !sim_sqlen. rs.
    replace (s * tol * (s * tol)) with (s * s * (tol * tol)) by ring. rewrite !leb_scale by exact ss_pos. reflexivity.
  Qed.
  Lemma cubic_is_a_point_sim a b c d tol :
    cubic_is_a_point (Cubic (F a) (F b) (F c) (F d)) (s * tol) = cubic_is_a_point (Cubic a b c d) tol.
  Proof.
    unfold cubic_is_a_point. cbn [c_start c_ctrl1 c_ctrl2 c_end]. rewrite !sim_sqlen. rs.
    replace (s * tol * (s * tol)) with (s * s * (tol * tol)) by ring. rewrite !leb_scale by exact ss_pos. reflexivity.
  Qed.
End Similar.

Section Linear.
  Context {E : Eps} {P Q : Type} {PT : Point R P} {QT : Point R Q} {LP : LawfulPoint P} {LQ : LawfulPoint Q}.
  Variable F : P -> Q.
  Hypothesis HF : linear_map F.

  Definition same (x : R) : R := x.
  Instance same_hom : SHom same. Proof. constructor; reflexivity. Qed.
  Instance same_eps : EHom same. Proof. constructor; reflexivity. Qed.
  Instance lin_hom : LHom same F.
  Proof.
    destruct HF as (A & H). constructor; intros; apply lp_ext; intros j Hj; unfold same; coords; rewrite ?H by exact Hj.
    - rewrite <- Rsum_plus. apply Rsum_ext. intros. coords. ring.
    - rewrite <- Rsum_minus. apply Rsum_ext. intros. coords. ring.
    - rewrite Rmult_comm, <- Rsum_scal. apply Rsum_ext. intros. coords. ring.
    - symmetry. rewrite <- (Rsum_0 (p_dim (P := P))). apply Rsum_ext. intros. coords. ring.
  Qed.
  Lemma map_same l : map same l = l.
  Proof. induction l as [|x l IH]; cbn [map]; [reflexivity|]. now rewrite IH. Qed.

  Lemma bspline_new_lin D ks ps : bspline_new D ks (map F ps)
    = omap (rmap (fun s => BSpline (bs_degree s) (bs_knots s) (bs_kind s) (map F (bs_points s)))) (bspline_new D ks ps).
  Proof.
    pose proof (bspline_new_hom same F D ks ps) as H. rewrite map_same in H. rewrite H.
    destruct (bspline_new D ks ps) as [[b|e]| |]; cbn [omap rmap]; auto. unfold smap. now rewrite map_same.
  Qed.
  Lemma bspline_eval_lin D ks k ps t :
    bspline_eval (BSpline D ks k (map F ps)) t = omap (rmap F) (bspline_eval (BSpline D ks k ps) t).
  Proof.
    pose proof (bspline_eval_hom same F (BSpline D ks k ps) t) as H. unfold smap in H.
    cbn [bs_degree bs_knots bs_kind bs_points] in H. rewrite map_same in H. exact H.
  Qed.
  Lemma bspline_derivative_lin D ks k ps :
    bspline_derivative (BSpline D ks k (map F ps))
    = omap (fun s => BSpline (bs_degree s) (bs_knots s) (bs_kind s) (map F (bs_points s)))
        (bspline_derivative (BSpline D ks k ps)).
  Proof.
    pose proof (bspline_derivative_hom same F (BSpline D ks k ps)) as H. unfold smap at 1 in H.
    cbn [bs_degree bs_knots bs_kind bs_points] in H. rewrite map_same in H. rewrite H.
    destruct (bspline_derivative (BSpline D ks k ps)); cbn [omap]; auto. unfold smap. now rewrite map_same.
  Qed.
  Lemma bspline_arclen_lin s D ks k ps n : 0 < s -> (forall p q, dist (F p) (F q) = s * dist p q) ->
    bspline_arclen (BSpline D ks k (map F ps)) n = omap (Rmult s) (bspline_arclen (BSpline D ks k ps) n).
  Proof.
    intros Hs Hd. unfold bspline_arclen. rs.
    assert (Hk : knot_domain (BSpline D ks k (map F ps)) = knot_domain (BSpline D ks k ps)).
    { pose proof (knot_domain_hom same F (BSpline D ks k ps)) as H. unfold smap in H.
      cbn [bs_degree bs_knots bs_kind bs_points] in H. rewrite map_same in H. rewrite H.
      destruct (knot_domain (BSpline D ks k ps)) as [[x y]| |]; reflexivity. }
    assert (He : forall t, eval_or_default (BSpline D ks k (map F ps)) t = omap F (eval_or_default (BSpline D ks k ps) t)).
    { intros t. unfold eval_or_default. rewrite bspline_eval_lin. apply omap_bind.
      intros [p|e]; cbn [rmap omap]; [reflexivity|]. f_equal. apply (g_default (g := F)). }
    rewrite Hk. apply bind_same. intros [lo hi]. rewrite <- (Rmult_0_r s) at 1. apply for_in_map. intros i a.
    rewrite !He. apply omap_bind. intros p1. apply omap_bind. intros p2. cbn [omap]. f_equal.
    rewrite !sqrt_sqlen_sub, Hd. ring.
  Qed.
End Linear.

(** ** Boxes move with the curve *)
Section Translate.
  Context {E : Eps} {P : Type} {PT : Point R P} {LP : LawfulPoint P}.
  Variables (v : nat -> R) (F : P -> P).
  Hypothesis HF : translation v F.

  Lemma trans_sub a b : p_sub (F a) (F b) = p_sub a b.
  Proof. apply lp_ext. intros i Hi. coords. rewrite !HF by exact Hi. ring. Qed.
  Lemma trans_aff : affine_map F.
  Proof.
    exists (fun j k => if (j =? k)%nat then 1 else 0), v. intros p j Hj. rewrite HF by exact Hj. f_equal.
    rewrite (Rsum_single _ _ j Hj).
    - rewrite Nat.eqb_refl. ring.
    - intros i _ Hi. destruct (Nat.eqb_spec j i); [congruence|ring].
  Qed.
  Lemma insert_shift x y l : s_insert (x + y) (map (fun z => z + y) l) = map (fun z => z + y) (s_insert x l).
  Proof.
    induction l as [|z l IH]; cbn [s_insert map]; auto. rs.
    destruct (Rleb_spec (x + y) (z + y)) as [H|H], (Rleb_spec x z) as [H'|H']; try lra; cbn [map]; auto.
    now rewrite IH.
  Qed.
  Lemma isort_shift y l : s_isort (map (fun z => z + y) l) = map (fun z => z + y) (s_isort l).
  Proof. induction l as [|x l IH]; cbn [s_isort map]; auto. rewrite IH. apply insert_shift. Qed.
  Lemma push_shift cap (y x : R) l :
    av_push cap (map (fun z => z + y) l) (x + y) = omap (map (fun z => z + y)) (av_push cap l x).
  Proof. unfold av_push. rewrite map_length. destruct (_ <? _)%nat; cbn [omap]; auto. now rewrite map_app. Qed.
  Definition shift2 (y : R) (b : R * R) : R * R := (fst b + y, snd b + y).
  Lemma ends_shift y l :
    (let! e := sort_by_partial_cmp (map (fun z => z + y) l) in
     let! lo := idx e 0 in let! hi := idx e (length e - 1) in Ret (lo, hi))
    = omap (shift2 y) (let! e := sort_by_partial_cmp l in
     let! lo := idx e 0 in let! hi := idx e (length e - 1) in Ret (lo, hi)).
  Proof.
    rewrite !sort_R, isort_shift. cbn [bind]. rewrite map_length, !idx_map.
    apply omap_bind. intros lo. apply omap_bind. intros hi. reflexivity.
  Qed.

  Lemma quad_bbox_axis_trans a b c i : (i < p_dim (P := P))%nat ->
    quad_bbox_axis (Quad (F a) (F b) (F c)) i = omap (shift2 (v i)) (quad_bbox_axis (Quad a b c) i).
  Proof.
    intros Hi. unfold quad_bbox_axis.
    assert (Hd : quad_derivative (Quad (F a) (F b) (F c)) = quad_derivative (Quad a b c)).
    { unfold quad_derivative. cbn [q_start q_ctrl q_end]. now rewrite !trans_sub. }
    rewrite Hd. apply bind_same. intros x. apply bind_same. intros y. apply bind_same. intros r.
    apply bind_same. intros e. rewrite !quad_eval_roots_value by exact Hi. cbn [bind].
    rewrite (map_ext _ (fun t => coord (quad_eval (Quad a b c) t) i + v i)).
    - rewrite <- (map_map (fun t => coord (quad_eval (Quad a b c) t) i) (fun z => z + v i)).
      cbn [q_start q_end]. rewrite !axis_lt, !HF by exact Hi. cbn [bind]. rewrite push_shift. apply omap_bind.
      intros l. rewrite push_shift. apply omap_bind. intros l'. apply ends_shift.
    - intros t. rewrite (quad_eval_aff F trans_aff), HF by exact Hi. reflexivity.
  Qed.
  Lemma cubic_bbox_axis_trans a b c d i : (i < p_dim (P := P))%nat ->
    cubic_bbox_axis (Cubic (F a) (F b) (F c) (F d)) i = omap (shift2 (v i)) (cubic_bbox_axis (Cubic a b c d) i).
  Proof.
    intros Hi. unfold cubic_bbox_axis.
    assert (Hd : cubic_derivative (Cubic (F a) (F b) (F c) (F d)) = cubic_derivative (Cubic a b c d)).
    { unfold cubic_derivative. cbn [c_start c_ctrl1 c_ctrl2 c_end]. now rewrite !trans_sub. }
    rewrite Hd. apply bind_same. intros x. apply bind_same. intros y. apply bind_same. intros z.
    apply bind_same. intros r. apply bind_same. intros e. rewrite !cubic_eval_roots_value by exact Hi. cbn [bind].
    rewrite (map_ext _ (fun t => coord (cubic_eval (Cubic a b c d) t) i + v i)).
    - rewrite <- (map_map (fun t => coord (cubic_eval (Cubic a b c d) t) i) (fun z => z + v i)).
      cbn [c_start c_end]. rewrite !axis_lt, !HF by exact Hi. cbn [bind]. rewrite push_shift. apply omap_bind.
      intros l. rewrite push_shift. apply omap_bind. intros l'. apply ends_shift.
    - intros t. rewrite (cubic_eval_aff F trans_aff), HF by exact Hi. reflexivity.
  Qed.

  Lemma fill_shift (f f' : nat -> outcome (R * R)) n :
    (forall i, (i < n)%nat -> exists b, f i = Ret b /\ f' i = Ret (shift2 (v i) b)) ->
    exists l l', for_in (range 0 n) (repeat (0, 0) n) (fun i b => let! x := f i in set_idx b i x) = Ret l /\
      for_in (range 0 n) (repeat (0, 0) n) (fun i b => let! x := f' i in set_idx b i x) = Ret l' /\
      moved_box v l l'.
  Proof.
    intros H. set (g := fun i => match f i with Ret b => b | _ => (0, 0) end).
    exists (map g (seq 0 n)), (map (fun i => shift2 (v i) (g i)) (seq 0 n)). split; [|split].
    - apply fill_loop. intros i Hi. destruct (H i Hi) as (b & Hb & _). unfold g. now rewrite Hb.
    - apply fill_loop. intros i Hi. destruct (H i Hi) as (b & Hb & Hb'). unfold g. now rewrite Hb, Hb'.
    - split; [now rewrite !map_length|]. intros i lo hi. rewrite !nth_error_map.
      destruct (nth_error (seq 0 n) i) as [k|] eqn:Ek; [|discriminate]. cbn [option_map].
      assert (k = i) as ->.
      { assert (Hi : (i < n)%nat) by (rewrite <- (seq_length n 0); apply nth_error_Some; congruence).
        apply (nth_error_nth _ _ 0%nat) in Ek. rewrite seq_nth in Ek by exact Hi. lia. }
      intros Hg. injection Hg as Hg. rewrite Hg. reflexivity.
  Qed.
  Lemma quad_box_trans a b c : exists l l', quad_bounding_box (Quad a b c) = Ret l /\
    quad_bounding_box (Quad (F a) (F b) (F c)) = Ret l' /\ moved_box v l l'.
  Proof.
    apply fill_shift. intros i Hi. destruct (quad_bbox_axis_spec (Quad a b c) i Hi) as (lo & hi & H & _).
    exists (lo, hi). split; [exact H|]. rewrite quad_bbox_axis_trans, H by exact Hi. reflexivity.
  Qed.
  Lemma cubic_box_trans a b c d : exists l l', cubic_bounding_box (Cubic a b c d) = Ret l /\
    cubic_bounding_box (Cubic (F a) (F b) (F c) (F d)) = Ret l' /\ moved_box v l l'.
  Proof.
    apply fill_shift. intros i Hi. destruct (cubic_bbox_axis_spec (Cubic a b c d) i Hi) as (lo & hi & H & _).
    exists (lo, hi). split; [exact H|]. rewrite cubic_bbox_axis_trans, H by exact Hi. reflexivity.
  Qed.
  Lemma line_box_trans a b : exists l l', line_bounding_box (Line a b) = Ret l /\
    line_bounding_box (Line (F a) (F b)) = Ret l' /\ moved_box v l l'.
  Proof.
    assert (G : forall (s : line P), line_bounding_box s = for_in (range 0 (p_dim (P := P))) (repeat (0, 0) (p_dim (P := P)))
      (fun i bd => let! x := (let! x := p_axis (l_start s) i in let! y := p_axis (l_end s) i in
         Ret (if Rltb x y then (x, y) else (y, x))) in set_idx bd i x)).
    { intros s. apply for_in_ext. intros i bd _. destruct (p_axis (l_start s) i); cbn [bind]; auto.
      destruct (p_axis (l_end s) i); cbn [bind]; auto. rs. now destruct (Rltb _ _). }
    rewrite !G. apply fill_shift. intros i Hi. cbn [l_start l_end]. rewrite !axis_lt, !HF by exact Hi. cbn [bind].
    eexists. split; [reflexivity|]. f_equal.
    destruct (Rltb_spec (coord a i + v i) (coord b i + v i)), (Rltb_spec (coord a i) (coord b i)); try lra; reflexivity.
  Qed.
End Translate.

(** ** A B-spline whose control points move: by linearity, the weights of the
    evaluation are those of the constant spline 1 *)
Section Weight.
  Context {E : Eps} {P : Type} {PT : Point R P} {LP : LawfulPoint P}.
  (** a point and a number, side by side *)
  Local Instance pair_point : Point R (P * P1) := {
    p_add := fun p q => (p_add (fst p) (fst q), p_add (snd p) (snd q));
    p_sub := fun p q => (p_sub (fst p) (fst q), p_sub (snd p) (snd q));
    p_mul := fun p s => (p_mul (fst p) s, p_mul (snd p) s);
    p_sqlen := fun p => p_sqlen (fst p);
    p_default := (p_default, p_default);
    p_dim := p_dim (P := P);
    p_axis := fun p => p_axis (fst p);
    p_eqb := fun p q => p_eqb (fst p) (fst q)
  }.
  Lemma fst_hom : LHom same (fst : P * P1 -> P). Proof. constructor; reflexivity. Qed.
  Lemma snd_hom : LHom same (snd : P * P1 -> P1). Proof. constructor; reflexivity. Qed.
  Definition mix (v : P) (p : P * P1) : P := p_add (fst p) (p_mul v (coord (snd p) 0)).
  Lemma coord_def : coord (p_default : P1) 0 = 0. Proof. reflexivity. Qed.
  Lemma mix_hom v : LHom same (mix v).
  Proof.
    assert (Ha : forall x y : P1, coord (p_add x y) 0 = coord x 0 + coord y 0) by (intros; apply lp_add; exact in1).
    assert (Hs : forall x y : P1, coord (p_sub x y) 0 = coord x 0 - coord y 0) by (intros; apply lp_sub; exact in1).
    assert (Hm : forall (x : P1) s, coord (p_mul x s) 0 = coord x 0 * s) by (intros; apply lp_mul; exact in1).
    constructor; intros; apply lp_ext; intros j Hj; unfold mix, same; cbn [p_add p_sub p_mul p_default pair_point fst snd];
      coords; rewrite ?Ha, ?Hs, ?Hm, ?coord_def; ring.
  Qed.
  Lemma bspline_eval_move (D : nat) (ks : list R) (k : KnotVectorKind) (ps : list P) (t : R) (v x : P) (w : P1) :
    bspline_eval (BSpline D ks k ps) t = Ret (Ok x) ->
    bspline_eval (BSpline D ks k (repeat (pt1 1) (length ps))) t = Ret (Ok w) ->
    bspline_eval (BSpline D ks k (map (fun p => p_add p v) ps)) t = Ret (Ok (p_add x (p_mul v (coord w 0)))).
  Proof.
    intros Hx Hw.
    set (qs := map (fun p => (p, pt1 1)) ps).
    pose proof (@bspline_eval_hom _ _ _ _ _ _ _ _ same fst same_hom fst_hom same_eps (BSpline D ks k qs) t) as H1.
    pose proof (@bspline_eval_hom _ _ _ _ _ _ _ _ same snd same_hom snd_hom same_eps (BSpline D ks k qs) t) as H2.
    pose proof (@bspline_eval_hom _ _ _ _ _ _ _ _ same (mix v) same_hom (mix_hom v) same_eps (BSpline D ks k qs) t) as H3.
    unfold smap in H1, H2, H3. cbn [bs_degree bs_knots bs_kind bs_points] in H1, H2, H3.
    rewrite map_same in H1, H2, H3. unfold same in H1, H2, H3.
    assert (E1 : map fst qs = ps).
    { unfold qs. rewrite map_map. cbn [fst]. apply map_id. }
    assert (E2 : map snd qs = repeat (pt1 1) (length ps)).
    { unfold qs. rewrite map_map. cbn [snd]. clear. induction ps as [|p l IH]; cbn [map length repeat]; congruence. }
    assert (E3 : map (mix v) qs = map (fun p => p_add p v) ps).
    { unfold qs. rewrite map_map. apply map_ext. intros p. unfold mix. cbn [fst snd]. rewrite coord_pt1.
      apply lp_ext. intros i Hi. coords. ring. }
    rewrite E1, Hx in H1. rewrite E2, Hw in H2. rewrite E3 in H3. rewrite H3.
    destruct (bspline_eval (BSpline D ks k qs) t) as [[q|e]| |]; cbn [omap rmap] in *; try discriminate.
    unfold mix. congruence.
  Qed.
End Weight.
