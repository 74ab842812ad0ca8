(** C94: shifting and stretching the knots of a B-spline. *)
From Coq Require Import Reals List Arith Bool Lia Lra Psatz.
From Verif Require Import Base.Outcome Base.Scalar Model.Point Model.BSpline Inst.RealInst
  Spec.Sums Spec.Lawful Spec.Maps Proofs.OutcomeFacts Proofs.PointFacts Proofs.RealTac Proofs.Transfer
  Proofs.BSplineGeneric Proofs.BSplineEval Proofs.BezierReal.
Import ListNotations.
Local Open Scope R_scope.

Lemma bind_omap {A B C} (f : A -> B) (x : outcome A) (k : B -> outcome C) :
  bind (omap f x) k = bind x (fun a => k (f a)).
Proof. destruct x; reflexivity. Qed.
Lemma bind_cong {A B} (x : outcome A) (k k' : A -> outcome B) : (forall a, x = Ret a -> k a = k' a) -> bind x k = bind x k'.
Proof. destruct x; simpl; auto. Qed.
Lemma omap_id {A} (x : outcome A) : omap (fun a => a) x = x.
Proof. destruct x; reflexivity. Qed.
Lemma for_result_cong {S E} is (s : S) (b b' : nat -> S -> outcome (result S E)) :
  (forall i s, b i s = b' i s) -> for_result is s b = for_result is s b'.
Proof.
  intros H. revert s. induction is as [|i is IH]; intros s; simpl; auto. rewrite H. apply bind_cong.
  intros [a|e] _; auto.
Qed.
Lemma for_in_cong {S} is (s : S) (b b' : nat -> S -> outcome S) :
  (forall i s, b i s = b' i s) -> for_in is s b = for_in is s b'.
Proof.
  intros H. revert s. induction is as [|i is IH]; intros s; simpl; auto. rewrite H. apply bind_cong. auto.
Qed.

Section Reparam.
  Context {E : Eps} {P : Type} {PT : Point R P} {LP : LawfulPoint P}.
  Variables s c : R.
  Hypothesis Hs : 0 < s.
  Let g (x : R) : R := s * x + c.

  (** [EPSILON] does not tell the two knot vectors apart *)
  Definition eps_blind (xs : list R) : Prop :=
    forall x y, In x xs -> In y xs -> (s * (x - y) < eps <-> x - y < eps).

  Lemma g_lt x y : Rltb (g x) (g y) = Rltb x y.
  Proof. unfold g. destruct (Rltb_spec x y), (Rltb_spec (s * x + c) (s * y + c)); auto; exfalso; nra. Qed.
  Lemma g_le x y : Rleb (g x) (g y) = Rleb x y.
  Proof. unfold g. destruct (Rleb_spec x y), (Rleb_spec (s * x + c) (s * y + c)); auto; exfalso; nra. Qed.
  Lemma g_eq x y : Reqb (g x) (g y) = Reqb x y.
  Proof. unfold g. destruct (Reqb_spec x y), (Reqb_spec (s * x + c) (s * y + c)); auto; exfalso; nra. Qed.
  Lemma g_sub' x y : g x - g y = s * (x - y).
  Proof. unfold g. ring. Qed.
  Lemma blind_ltb xs x y : eps_blind xs -> In x xs -> In y xs -> Rltb (g x - g y) eps = Rltb (x - y) eps.
  Proof.
    intros H Hx Hy. rewrite g_sub'. specialize (H x y Hx Hy).
    destruct (Rltb_spec (x - y) eps), (Rltb_spec (s * (x - y)) eps); auto; tauto.
  Qed.
  Lemma blind_abs xs x y : eps_blind xs -> In x xs -> In y xs -> Rltb (Rabs (g x - g y)) eps = Rltb (Rabs (x - y)) eps.
  Proof.
    intros H Hx Hy. rewrite g_sub'. pose proof (H x y Hx Hy) as A. pose proof (H y x Hy Hx) as B.
    assert (X : Rabs (s * (x - y)) < eps <-> Rabs (x - y) < eps).
    { split; intros K; apply Rabs_def2 in K; apply Rabs_def1; lra. }
    destruct (Rltb_spec (Rabs (x - y)) eps), (Rltb_spec (Rabs (s * (x - y))) eps); auto; tauto.
  Qed.

  Definition moved (b : bspline R P) : bspline R P :=
    BSpline (bs_degree b) (map g (bs_knots b)) (bs_kind b) (bs_points b).

  Lemma any_decreasing_g ks : any_decreasing (map g ks) = any_decreasing ks.
  Proof.
    induction ks as [|a [|b ks] IH]; auto.
    change (any_decreasing (map g (a :: b :: ks))) with (s_ltb (g b) (g a) || any_decreasing (map g (b :: ks))).
    change (any_decreasing (a :: b :: ks)) with (s_ltb b a || any_decreasing (b :: ks)). rewrite IH. rs. now rewrite g_lt.
  Qed.

  Lemma all_close_g xs r l : eps_blind xs -> In r xs -> (forall x, In x l -> In x xs) ->
    all_close (g r) (map g l) = all_close r l.
  Proof.
    intros Hb Hr. unfold all_close. induction l as [|x l IH]; intros Hl; cbn [map forallb]; auto. rs.
    rewrite (blind_abs xs) by (auto; apply Hl; now left). f_equal. apply IH. intros; apply Hl; now right.
  Qed.

  Lemma idx_In {A} (l : list A) i a : idx l i = Ret a -> In a l.
  Proof. unfold idx. destruct (nth_error l i) eqn:En; [|discriminate]. intros [= <-]. now apply nth_error_In in En. Qed.

  Lemma new_moved D ks (ps : list P) : eps_blind ks ->
    bspline_new D (map g ks) ps = omap (rmap moved) (bspline_new D ks ps).
  Proof.
    intros Hb. unfold bspline_new. rewrite map_length, any_decreasing_g.
    destruct (length ps <=? D)%nat; auto. destruct (length ks <? length ps + 1 + D)%nat; auto.
    destruct (length ps + 1 + D <? length ks)%nat; auto. destruct (any_decreasing ks); auto.
    rewrite idx_map. destruct (idx ks 0) as [f| |] eqn:Ef; cbn [omap bind]; auto.
    destruct (usub (length ks) D) as [kd| |]; cbn [omap bind]; auto.
    destruct (usub kd 1) as [from| |]; cbn [omap bind]; auto.
    destruct (usub (length ks) 1) as [km1| |]; cbn [omap bind]; auto.
    rewrite idx_map. destruct (idx ks km1) as [l| |] eqn:El; cbn [omap bind]; auto.
    rewrite firstn_map, skipn_map.
    rewrite (all_close_g ks f) by (eauto using idx_In; intros x Hx; rewrite <- (firstn_skipn (D + 1) ks); apply in_or_app; auto).
    rewrite (all_close_g ks l) by (eauto using idx_In; intros x Hx; rewrite <- (firstn_skipn from ks); apply in_or_app; auto).
    cbn [omap rmap]. reflexivity.
  Qed.

  Lemma domain_moved b : knot_domain (moved b) = omap (fun d => (g (fst d), g (snd d))) (knot_domain b).
  Proof.
    destruct b as [D ks k ps]. unfold knot_domain, moved. cbn [bs_kind].
    destruct k; unfold knot_domain_clamped, knot_domain_clamped_start, knot_domain_clamped_end, knot_domain_unclamped;
      cbn [bs_degree bs_knots bs_points]; rewrite ?map_length;
      repeat first [apply omap_bind; intros ? | rewrite idx_map; apply omap_bind; intros ? | apply bind_same; intros ?];
      reflexivity.
  Qed.

  Lemma search_loop_g ks t fuel : forall lo hi, search_loop fuel (map g ks) (g t) lo hi = search_loop fuel ks t lo hi.
  Proof.
    induction fuel as [|fuel IH]; intros lo hi; cbn [search_loop]; auto. destruct (lo <=? hi)%nat; auto.
    rewrite !idx_map, !bind_omap. apply bind_cong. intros km _. rs. rewrite g_le.
    match goal with |- bind ?x _ = bind ?y _ => assert (X : x = y) end.
    { destruct (Rleb km t); auto. rewrite ?idx_map, ?bind_omap. apply bind_cong. intros a _. now rewrite g_lt. }
    rewrite X. apply bind_cong. intros [|] _; auto. rewrite ?idx_map, ?bind_omap. apply bind_cong. intros km' _. rewrite g_lt.
    destruct (Rltb t km'); auto. apply bind_cong. intros; apply IH.
  Qed.

  Lemma search_unclamped_g ks t fuel : forall first count,
    search_unclamped_loop fuel (map g ks) (g t) first count = search_unclamped_loop fuel ks t first count.
  Proof.
    induction fuel as [|fuel IH]; intros first count; cbn [search_unclamped_loop]; auto. destruct (0 <? count)%nat; auto.
    rewrite !idx_map, !bind_omap. apply bind_cong. intros k1 _. rs. rewrite g_lt, map_length.
    match goal with |- bind ?x _ = bind ?y _ => assert (X : x = y) end.
    { destruct (Rltb t k1); auto. apply bind_cong. intros m _. destruct (_ =? m)%nat; auto.
      rewrite ?idx_map, ?bind_omap. apply bind_cong. intros a _. now rewrite g_eq. }
    rewrite X. apply bind_cong. intros [|] _; auto. rewrite ?idx_map, ?bind_omap. apply bind_cong. intros k0 _. rewrite g_le.
    destruct (Rleb k0 t); apply IH.
  Qed.

  Lemma span_moved b t : knot_span_start_for_t (moved b) (g t) = knot_span_start_for_t b t.
  Proof.
    destruct b as [D ks k ps]. unfold knot_span_start_for_t, moved. cbn [bs_kind].
    destruct k; unfold knot_span_start_for_t_unclamped, knot_span_start_for_t_clamped_start,
      knot_span_start_for_t_clamped_end, knot_span_start_for_t_clamped; cbn [bs_degree bs_knots bs_points]; rewrite ?map_length.
    - apply search_unclamped_g.
    - apply bind_cong. intros n _. apply bind_cong. intros m _. rewrite !idx_map, !bind_omap. apply bind_cong. intros km _.
      rs. rewrite g_eq. destruct (Reqb t km); auto. rewrite ?bind_omap. apply bind_cong. intros kp _.
      rewrite ?bind_omap. apply bind_cong. intros km' _. rewrite !g_lt. destruct (_ || _)%bool; auto.
      apply bind_cong. intros. apply search_loop_g.
    - apply bind_cong. intros n _. rewrite !idx_map, !bind_omap. apply bind_cong. intros km _.
      rs. rewrite g_eq. destruct (Reqb t km); auto. rewrite ?bind_omap. apply bind_cong. intros kp _.
      rewrite ?bind_omap. apply bind_cong. intros km' _. rewrite !g_lt. destruct (_ || _)%bool; auto.
      apply search_loop_g.
    - apply bind_cong. intros n _. rewrite !idx_map, !bind_omap. apply bind_cong. intros km _.
      rs. rewrite g_eq. destruct (Reqb t km); auto. apply search_loop_g.
  Qed.

  Lemma alpha_moved D ks t k r j : eps_blind (t :: ks) -> alpha_of (map g ks) D (g t) k r j = alpha_of ks D t k r j.
  Proof.
    intros Hb. unfold alpha_of. apply bind_cong. intros a _. rewrite !idx_map, !bind_omap. apply bind_cong. intros ka Ha.
    apply bind_cong. intros b _. rewrite !idx_map, !bind_omap. apply bind_cong. intros kb Hkb. rewrite ?bind_omap.
    apply bind_cong. intros ka' Ha'. rs. apply idx_In in Ha, Hkb, Ha'.
    rewrite (blind_ltb (t :: ks)) by (auto; simpl; auto). rewrite (blind_abs (t :: ks)) by (auto; simpl; auto).
    destruct (Rltb (t - ka) eps); auto. destruct (Rltb_spec (Rabs (kb - ka')) eps) as [|Hn]; auto.
    f_equal. rewrite !g_sub'. assert (kb - ka' <> 0).
    { intros Hz. apply Hn. rewrite Hz, Rabs_R0. apply eps_pos. }
    field. split; lra.
  Qed.

  Theorem eval_moved b t : eps_blind (t :: bs_knots b) -> bspline_eval (moved b) (g t) = bspline_eval b t.
  Proof.
    intros Hb. unfold bspline_eval. rewrite domain_moved, bind_omap. apply bind_cong. intros [lo hi] _.
    cbn [fst snd]. rs. rewrite !g_lt. destruct (_ || _)%bool; auto.
    unfold de_boor_iterative. rewrite span_moved. destruct b as [D ks k ps]. unfold moved. cbn [bs_degree bs_knots bs_points] in *.
    rewrite idx_map, bind_omap. apply bind_cong. intros kc _. rs. rewrite g_eq. destruct (Reqb t kc); auto.
    apply bind_cong. intros [k0|] _; auto.
    unfold de_boor_load. cbn [bs_degree bs_points]. apply bind_cong. intros d _.
    match goal with |- bind ?x _ = bind ?y _ => assert (X : x = y) end.
    { apply for_result_cong. intros r d'. apply for_result_cong. intros j d''. unfold de_boor_body. now rewrite alpha_moved. }
    rewrite X. reflexivity.
  Qed.

  Theorem derivative_moved D ks ps b : bspline_new D ks ps = Ret (Ok b) -> (1 <= D)%nat ->
    (forall i, (i + 1 < length ps)%nat -> nth (i + 1) ks 0 <> nth (i + D + 1) ks 0) ->
    exists d, bspline_derivative b = Ret d /\ bspline_derivative (moved b) =
      Ret (BSpline (bs_degree d) (map g (bs_knots d)) (bs_kind d) (map (fun p => p_mul p (/ s)) (bs_points d))).
  Proof.
    intros Hnew HD Hk. destruct (fields D ks ps b Hnew) as (F1 & F2 & F3).
    assert (W : well_formed b) by exact (new_wf D ks ps b Hnew).
    assert (W' : well_formed (moved b)).
    { unfold well_formed, moved in *. cbn [bs_degree bs_knots bs_points]. now rewrite map_length. }
    destruct (derivative_ok b W) as (q & Hq & Lq & Vq); [lia|].
    destruct (derivative_ok (moved b) W') as (q' & Hq' & Lq' & Vq'); [cbn; lia|].
    exists (BSpline (bs_degree b - 1) (bs_knots b) (bs_kind b) q). split; [exact Hq|].
    rewrite Hq'. cbn [bs_degree bs_knots bs_kind bs_points moved]. f_equal. f_equal.
    cbn [moved bs_points] in Lq'. apply (nth_ext _ _ p_default p_default); [rewrite map_length; lia|].
    intros i Hi. rewrite (nth_map_lt _ q i p_default) by lia. rewrite Vq, Vq' by (cbn; lia).
    destruct W as [W1 W2].
    unfold knot, cpoint. cbn [moved bs_degree bs_knots bs_points]. rs.
    rewrite !(nth_indep (map g (bs_knots b)) 0 (g 0)) by (rewrite map_length; lia). rewrite !map_nth, g_sub'.
    specialize (Hk i). rewrite <- F2, <- F3, <- F1 in Hk.
    assert (Hi' : (i + 1 < length (bs_points b))%nat) by lia. specialize (Hk Hi').
    apply lp_ext. intros j Hj. rewrite !lp_mul by exact Hj. rs. field. split; lra.
  Qed.
End Reparam.

Section Shift.
  Context {E : Eps} {P : Type} {PT : Point R P} {LP : LawfulPoint P}.

  Lemma blind_one xs : eps_blind 1 xs.
  Proof. intros x y _ _. rewrite Rmult_1_l. tauto. Qed.

  Theorem arclen_shifted c (b : bspline R P) n :
    bspline_arclen (moved 1 c b) n = bspline_arclen b n.
  Proof.
    unfold bspline_arclen. rewrite domain_moved, bind_omap. apply bind_cong. intros [lo hi] _. cbn [fst snd].
    apply for_in_cong. intros i a. rs.
    assert (X : forall t, eval_or_default (moved 1 c b) (1 * t + c) = eval_or_default b t).
    { intros t. unfold eval_or_default. now rewrite eval_moved by (lra || apply blind_one). }
    replace (1 * lo + c + INR i / INR n * (1 * hi + c - (1 * lo + c))) with (1 * (lo + INR i / INR n * (hi - lo)) + c) by ring.
    rewrite X. apply bind_cong. intros p1 _.
    replace (1 * (lo + INR i / INR n * (hi - lo)) + c + 1 / INR n)
      with (1 * (lo + INR i / INR n * (hi - lo) + 1 / INR n) + c) by ring.
    now rewrite X.
  Qed.
End Shift.
