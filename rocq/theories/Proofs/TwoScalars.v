(** C126-C127: scalars of the user's own. *)
From Coq Require Import ZArith List Arith Bool Lia.
From Verif Require Import Base.Outcome Base.Scalar Model.Point Model.Line Model.Quadratic Model.Cubic Model.Bezier
  Model.BSpline Model.Segment Model.Roots Model.TwoScalars Spec.Widening Proofs.OutcomeFacts Proofs.Interface.
Import ListNotations.
Local Open Scope scalar_scope.

Lemma for_break_cong {A : Type} is (s : A) f g : (forall i s, f i s = g i s) -> for_break is s f = for_break is s g.
Proof.
  intros H. revert s. induction is as [|i is IH]; intros s; cbn; [reflexivity|]. rewrite H. destruct (g i s) as [[a []]| |]; cbn; auto.
Qed.
Lemma for_result_cong {A E : Type} is (s : A) (f g : nat -> A -> outcome (result A E)) :
  (forall i s, f i s = g i s) -> for_result is s f = for_result is s g.
Proof.
  intros H. revert s. induction is as [|i is IH]; intros s; cbn; [reflexivity|]. rewrite H. destruct (g i s) as [[a|e]| |]; cbn; auto.
Qed.
Lemma bind_cong2 {A B : Type} (x y : outcome A) (f g : A -> outcome B) :
  x = y -> (forall a, f a = g a) -> bind x f = bind y g.
Proof. intros -> H. now apply bind_cong. Qed.

Ltac cong := repeat first
  [ reflexivity
  | apply bind_cong2; [|intros ?]
  | apply for_in_ext; intros ? ? ?
  | apply for_break_cong; intros ? ?
  | apply for_result_cong; intros ? ? ].

Section Wide.
  Context {T S P : Type} {NT : Scalar T} {SS : Scalar S} {MX : Mixed T S} {PT : Point S P} {PS : Scaled T P}.
  Hypothesis W : widening T S P.
  Notation SE := (with_eps SS (m_from (s_eps : T))).

  Lemma w_lit z : (Z.abs z <= 54)%Z -> m_from (s_lit z : T) = s_lit z :> S.
  Proof. exact (wd_lit _ _ _ W z). Qed.
  Ltac lits := unfold n_lit, n_of; rewrite ?(wd_add _ _ _ W), ?(wd_sub _ _ _ W), ?(wd_mul _ _ _ W), ?(wd_div _ _ _ W), ?(wd_scale _ _ _ W);
    rewrite ?w_lit by (cbn; lia).

  Lemma w_dot v1 v2 : dot_loop2 (T := T) v1 v2 = dot_loop (ST := SE) v1 v2 :> outcome S.
  Proof. unfold dot_loop2, dot_loop. lits. reflexivity. Qed.
  Lemma w_line_distance (l : line P) p :
    line_distance_to_point2 (T := T) l p = line_distance_to_point (ST := SE) l p.
  Proof.
    unfold line_distance_to_point2, line_distance_to_point. rewrite w_dot. lits. reflexivity.
  Qed.
  Lemma w_line_root a b : line_root2 (T := T) a b = line_root (ST := SE) a b :> outcome (list S).
  Proof. reflexivity. Qed.
  Lemma w_line_box (l : line P) : line_bounding_box2 (T := T) l = line_bounding_box l.
  Proof. unfold line_bounding_box2, line_bounding_box. now rewrite (wd_default _ _ _ W). Qed.

  Lemma w_in_unit (x : S) : in_unit2 (T := T) x = in_unit x.
  Proof. unfold in_unit2, in_unit. lits. reflexivity. Qed.
  Lemma w_filter (l : list S) : filter (in_unit2 (T := T)) l = filter in_unit l.
  Proof. induction l as [|x l IH]; cbn; [reflexivity|]. now rewrite w_in_unit, IH. Qed.

  Lemma w_search (f g : S -> outcome P) first point : (forall t, f t = g t) ->
    search_distance2 (T := T) f first point = search_distance g first point :> outcome S.
  Proof.
    intros H. unfold search_distance2, search_distance. rewrite (wd_half _ _ _ W).
    apply bind_cong2; [|intros st; apply bind_cong2; [|reflexivity]].
    - apply for_in_ext. intros i s Hi. apply in_seq in Hi. unfold coarse_body2, coarse_body, n_of, n_lit, nsteps in *.
      rewrite (wd_coarse _ _ _ W) by lia. cbn zeta. now rewrite H.
    - apply for_in_ext. intros i s Hi. apply in_seq in Hi. unfold fine_body2, fine_body. rewrite (wd_mul _ _ _ W).
      unfold n_of, n_lit, nsteps in *. rewrite (wd_fine _ _ _ W), (wd_32 _ _ _ W) by lia. cbn zeta. now rewrite H.
  Qed.

  Lemma w_quad_eval (c : quad P) t : quad_eval2 (T := T) c t = quad_eval c t.
  Proof. unfold quad_eval2, quad_eval. lits. reflexivity. Qed.
  Lemma w_quad_axis (c : quad P) t i : quad_axis2 (T := T) c t i = quad_axis c t i.
  Proof. unfold quad_axis2, quad_axis. lits. cong. lits. reflexivity. Qed.
  Lemma w_quad_derivative (c : quad P) : quad_derivative2 (T := T) c = quad_derivative c.
  Proof. unfold quad_derivative2, quad_derivative. lits. reflexivity. Qed.
  Lemma w_quad_roots a b c : quad_real_roots2 (T := T) a b c = quad_real_roots (ST := SE) a b c :> outcome (list S).
  Proof. unfold quad_real_roots2, quad_real_roots. lits. reflexivity. Qed.
  Lemma w_quad_distance (c : quad P) p : quad_distance_to_point2 (T := T) c p = quad_distance_to_point c p.
  Proof. apply w_search. intros t. now rewrite w_quad_eval. Qed.
  Lemma w_quad_colinear (c : quad P) tol :
    quad_are_points_colinear2 (T := T) c tol = quad_are_points_colinear (ST := SE) c tol.
  Proof. unfold quad_are_points_colinear2, quad_are_points_colinear. cbn zeta. now rewrite w_line_distance. Qed.
  Lemma w_quad_is_linear (c : quad P) tol : quad_is_linear2 (T := T) c tol = quad_is_linear (ST := SE) c tol.
  Proof. unfold quad_is_linear2, quad_is_linear. now rewrite w_quad_colinear. Qed.
  Lemma w_quad_box (c : quad P) : quad_bounding_box2 (T := T) c = quad_bounding_box (ST := SE) c.
  Proof.
    unfold quad_bounding_box2, quad_bounding_box. lits. apply for_in_ext. intros i b _.
    apply bind_cong2; [|reflexivity]. unfold quad_bbox_axis2, quad_bbox_axis. cbn zeta. rewrite w_quad_derivative. lits.
    apply bind_cong2; [reflexivity|intros a']. apply bind_cong2; [reflexivity|intros b'].
    rewrite w_line_root. apply bind_cong2; [reflexivity|intros r]. apply bind_cong2; [reflexivity|intros e].
    rewrite w_filter. reflexivity.
  Qed.

  Lemma w_cubic_eval (c : cubic P) t : cubic_eval2 (T := T) c t = cubic_eval c t.
  Proof. unfold cubic_eval2, cubic_eval. lits. reflexivity. Qed.
  Lemma w_cubic_axis (c : cubic P) t i : cubic_axis2 (T := T) c t i = cubic_axis c t i.
  Proof. unfold cubic_axis2, cubic_axis. lits. cong. lits. reflexivity. Qed.
  Lemma w_cubic_derivative (c : cubic P) : cubic_derivative2 (T := T) c = cubic_derivative c.
  Proof. unfold cubic_derivative2, cubic_derivative. lits. reflexivity. Qed.
  Lemma w_cubic_dd (c : cubic P) t i : cubic_dd2 (T := T) c t i = cubic_dd c t i.
  Proof. unfold cubic_dd2, cubic_dd. cbn zeta. lits. reflexivity. Qed.
  Lemma w_cubic_distance (c : cubic P) p : cubic_distance_to_point2 (T := T) c p = cubic_distance_to_point c p.
  Proof. apply w_search. intros t. now rewrite w_cubic_eval. Qed.
  Lemma w_cubic_colinear (c : cubic P) tol :
    cubic_are_points_colinear2 (T := T) c tol = cubic_are_points_colinear (ST := SE) c tol.
  Proof.
    unfold cubic_are_points_colinear2, cubic_are_points_colinear. cbn zeta. rewrite !w_line_distance. reflexivity.
  Qed.
  Lemma w_cubic_is_linear (c : cubic P) tol : cubic_is_linear2 (T := T) c tol =
    if p_sqlen (p_sub (c_start c) (c_end c)) <? s_eps then Ret false else cubic_are_points_colinear (ST := SE) c tol.
  Proof. unfold cubic_is_linear2. now rewrite w_cubic_colinear. Qed.
  Lemma w_cubic_box (c : cubic P) : cubic_bounding_box2 (T := T) c = cubic_bounding_box (ST := SE) c.
  Proof.
    unfold cubic_bounding_box2, cubic_bounding_box. lits. apply for_in_ext. intros i b _.
    apply bind_cong2; [|reflexivity]. unfold cubic_bbox_axis2, cubic_bbox_axis. cbn zeta. rewrite w_cubic_derivative. lits.
    apply bind_cong2; [reflexivity|intros a']. apply bind_cong2; [reflexivity|intros b']. apply bind_cong2; [reflexivity|intros c'].
    rewrite w_quad_roots. apply bind_cong2; [reflexivity|intros r]. apply bind_cong2; [reflexivity|intros e].
    rewrite w_filter. reflexivity.
  Qed.
  Lemma w_segment_eval (s : segment P) t : segment_eval2 (T := T) s t = segment_eval s t.
  Proof. destruct s; cbn; [reflexivity|apply w_quad_eval|apply w_cubic_eval]. Qed.

  Lemma w_level t i (p : list P) : casteljau_level2 (T := T) t i p = casteljau_level t i p.
  Proof. unfold casteljau_level2, casteljau_level. apply bind_cong; intros m. lits. reflexivity. Qed.
  Lemma w_bezier_eval (b : bezier P) t : bezier_eval2 (T := T) b t = bezier_eval b t.
  Proof. unfold bezier_eval2, bezier_eval. cbn zeta. apply bind_cong2; [|reflexivity]. apply for_in_ext. intros i s _. apply w_level. Qed.
  Lemma w_bezier_distance (b : bezier P) p : bezier_distance_to_point2 (T := T) b p = bezier_distance_to_point b p.
  Proof.
    unfold bezier_distance_to_point2, bezier_distance_to_point. apply bind_cong; intros f. apply w_search. apply w_bezier_eval.
  Qed.
  Lemma w_bezier_split (b : bezier P) t : bezier_split2 (T := T) b t = bezier_split b t.
  Proof.
    unfold bezier_split2, bezier_split. cbn zeta. apply bind_cong2; [|reflexivity]. apply for_in_ext. intros i [[l r] c] _.
    unfold split_body2, split_body. do 6 (apply bind_cong; intros ?). now rewrite w_level.
  Qed.
  Lemma w_bezier_derivative (b : bezier P) :
    m_from (s_of_usize (length (bz_points b) - 1) : T) = s_of_usize (length (bz_points b) - 1) :> S ->
    bezier_derivative2 (T := T) b = bezier_derivative b.
  Proof.
    intros H. unfold bezier_derivative2, bezier_derivative. cbn zeta. unfold usub at 1 3.
    destruct (1 <=? length (bz_points b))%nat; [|reflexivity]. cbn [bind]. apply bind_cong2; [|reflexivity].
    apply for_break_cong. intros i s. do 2 (apply bind_cong; intros ?). lits. now rewrite H.
  Qed.
End Wide.

Section Newtype.
  Context {T S P : Type} {NT : Scalar T} {SS : Scalar S} {MX : Mixed T S} {PT : Point S P} {PS : Scaled T P}.
  Hypothesis H : newtype T S P.
  Let W := nt_widening _ _ _ H.

  Ltac lits := unfold n_lit, n_of;
    rewrite ?(wd_add _ _ _ W), ?(wd_sub _ _ _ W), ?(wd_mul _ _ _ W), ?(wd_div _ _ _ W), ?(wd_scale _ _ _ W);
    rewrite ?(nt_sub _ _ _ H), ?(nt_mul _ _ _ H), ?(nt_div _ _ _ H), ?(nt_usize _ _ _ H), ?(nt_round_trip _ _ _ H), ?(nt_eps _ _ _ H);
    rewrite ?(nt_sub _ _ _ H), ?(nt_mul _ _ _ H), ?(nt_div _ _ _ H), ?(nt_usize _ _ _ H), ?(nt_round_trip _ _ _ H);
    rewrite ?(wd_lit _ _ _ W) by (cbn; lia).

  Lemma same_eps : with_eps SS (m_from (s_eps : T)) = SS.
  Proof. rewrite (nt_eps _ _ _ H). unfold with_eps. now destruct SS. Qed.

  Lemma nt_line (l : line P) p :
    line_distance_to_point2 (T := T) l p = line_distance_to_point l p /\
    line_bounding_box2 (T := T) l = line_bounding_box l.
  Proof. rewrite (w_line_distance W), same_eps, (w_line_box W). auto. Qed.

  Lemma nt_quad_dd (c : quad P) t i : quad_dd2 (T := T) c t i = quad_dd c t i.
  Proof. unfold quad_dd2, quad_dd. cbn zeta. cong. lits. reflexivity. Qed.
  Lemma nt_quad_arclen (c : quad P) n : quad_arclen2 (T := T) c n = quad_arclen c n.
  Proof. unfold quad_arclen2, quad_arclen. cbn zeta. lits. apply for_in_ext. intros i s _. now lits. Qed.
  Lemma nt_quad_solve (c : quad P) v i : quad_solve_t_for_axis2 (T := T) c v i = quad_solve_t_for_axis c v i.
  Proof.
    unfold quad_solve_t_for_axis2, quad_solve_t_for_axis. rewrite (w_quad_colinear W), same_eps. lits.
    apply bind_cong; intros [|]; [reflexivity|]. do 3 (apply bind_cong; intros ?). lits.
    rewrite (w_quad_roots W), same_eps. apply bind_cong; intros r. now rewrite (w_filter W).
  Qed.
  Lemma nt_quad (c : quad P) p t i n tol :
    quad_eval2 (T := T) c t = quad_eval c t /\ quad_axis2 (T := T) c t i = quad_axis c t i /\
    quad_derivative2 (T := T) c = quad_derivative c /\ quad_dd2 (T := T) c t i = quad_dd c t i /\
    quad_arclen2 (T := T) c n = quad_arclen c n /\ quad_distance_to_point2 (T := T) c p = quad_distance_to_point c p /\
    quad_is_linear2 (T := T) c tol = quad_is_linear c tol /\
    quad_solve_t_for_axis2 (T := T) c t i = quad_solve_t_for_axis c t i /\
    quad_bounding_box2 (T := T) c = quad_bounding_box c.
  Proof.
    rewrite (w_quad_eval W), (w_quad_axis W), (w_quad_derivative W), nt_quad_dd, nt_quad_arclen, (w_quad_distance W),
      (w_quad_is_linear W), nt_quad_solve, (w_quad_box W), same_eps. auto 12.
  Qed.

  Lemma nt_cubic_arclen (c : cubic P) n : cubic_arclen2 (T := T) c n = cubic_arclen c n.
  Proof. unfold cubic_arclen2, cubic_arclen. cbn zeta. lits. apply for_in_ext. intros i s _. now lits. Qed.
  Lemma nt_cubic_split (c : cubic P) t : cubic_split2 (T := T) c t = cubic_split c t.
  Proof. unfold cubic_split2, cubic_split. cbn zeta. lits. reflexivity. Qed.
  Lemma nt_cubic_is_linear (c : cubic P) tol : cubic_is_linear2 (T := T) c tol = cubic_is_linear c tol.
  Proof. rewrite (w_cubic_is_linear W), same_eps. reflexivity. Qed.
  Lemma nt_cubic (c : cubic P) p t i n tol :
    cubic_eval2 (T := T) c t = cubic_eval c t /\ cubic_axis2 (T := T) c t i = cubic_axis c t i /\
    cubic_split2 (T := T) c t = cubic_split c t /\
    cubic_derivative2 (T := T) c = cubic_derivative c /\ cubic_dd2 (T := T) c t i = cubic_dd c t i /\
    cubic_arclen2 (T := T) c n = cubic_arclen c n /\ cubic_distance_to_point2 (T := T) c p = cubic_distance_to_point c p /\
    cubic_is_linear2 (T := T) c tol = cubic_is_linear c tol /\
    cubic_bounding_box2 (T := T) c = cubic_bounding_box c.
  Proof.
    rewrite (w_cubic_eval W), (w_cubic_axis W), nt_cubic_split, (w_cubic_derivative W), (w_cubic_dd W), nt_cubic_arclen,
      (w_cubic_distance W), nt_cubic_is_linear, (w_cubic_box W), same_eps. auto 12.
  Qed.

  Lemma nt_segment (s : segment P) t tol :
    segment_eval2 (T := T) s t = segment_eval s t /\ segment_split2 (T := T) s t = segment_split s t /\
    segment_is_linear2 (T := T) s tol = segment_is_linear s tol.
  Proof.
    rewrite (w_segment_eval W). split; [reflexivity|].
    destruct s as [l|q|c]; cbn [segment_split2 segment_split segment_is_linear2 segment_is_linear].
    - auto.
    - split; [reflexivity|]. now rewrite (w_quad_is_linear W), same_eps.
    - rewrite nt_cubic_split, nt_cubic_is_linear. auto.
  Qed.

  Lemma nt_bezier (b : bezier P) p t n :
    bezier_eval2 (T := T) b t = bezier_eval b t /\ bezier_split2 (T := T) b t = bezier_split b t /\
    bezier_derivative2 (T := T) b = bezier_derivative b /\
    bezier_arclen2 (T := T) b n = bezier_arclen b n /\ bezier_distance_to_point2 (T := T) b p = bezier_distance_to_point b p.
  Proof.
    rewrite (w_bezier_eval W), (w_bezier_split W), (w_bezier_derivative W), (w_bezier_distance W); [|apply (nt_usize _ _ _ H)].
    repeat split. unfold bezier_arclen2, bezier_arclen. cbn zeta. lits. apply for_in_ext. intros i s _. lits.
    now rewrite (w_bezier_eval W), (bind_cong _ _ _ (fun a => f_equal (fun x => bind x _) (w_bezier_eval W b _))).
  Qed.

  Lemma nt_alpha ks D t k r j : alpha_of2 (T := T) ks D t k r j = alpha_of ks D t k r j :> outcome S.
  Proof. unfold alpha_of2, alpha_of. lits. reflexivity. Qed.
  Lemma nt_body ks D t k r j (d : list P) : de_boor_body2 (T := T) ks D t k r j d = de_boor_body ks D t k r j d.
  Proof.
    unfold de_boor_body2, de_boor_body. rewrite nt_alpha. apply bind_cong; intros a. destruct (s_is_nan a); [reflexivity|].
    do 3 (apply bind_cong; intros ?). now lits.
  Qed.
  Lemma nt_eval (s : bspline S P) t : bspline_eval2 (T := T) s t = bspline_eval s t.
  Proof.
    unfold bspline_eval2, bspline_eval, de_boor_iterative2, de_boor_iterative. apply bind_cong; intros dom.
    destruct (_ || _)%bool; [reflexivity|]. cbn zeta. apply bind_cong; intros kc. destruct (t =? kc); [reflexivity|].
    apply bind_cong; intros [k|]; [|reflexivity]. apply bind_cong; intros d. apply bind_cong2; [|reflexivity].
    apply for_result_cong. intros r d'. apply for_result_cong. intros j e. apply nt_body.
  Qed.
  Lemma nt_bspline (s : bspline S P) t n :
    bspline_eval2 (T := T) s t = bspline_eval s t /\ bspline_arclen2 (T := T) s n = bspline_arclen s n /\
    bspline_derivative2 (T := T) s = bspline_derivative s.
  Proof.
    split; [apply nt_eval|]. split.
    - unfold bspline_arclen2, bspline_arclen. cbn zeta. lits. apply bind_cong; intros dom. apply for_in_ext. intros i a _. lits.
      unfold eval_or_default2, eval_or_default. rewrite nt_eval. apply bind_cong; intros p1. now rewrite nt_eval.
    - unfold bspline_derivative2, bspline_derivative. cbn zeta. do 2 (apply bind_cong; intros ?). apply bind_cong2; [|reflexivity].
      apply for_break_cong. intros i new. do 4 (apply bind_cong; intros ?). now lits.
  Qed.

  Context {TN : ScalarTrans T} {TS : ScalarTrans S}.
  Lemma nt_cubic_roots a b c d : m_from (s_pi_f32 : T) = s_pi_f32 :> S ->
    cubic_real_roots2 (T := T) a b c d = roots_cubic a b c d :> outcome (list S).
  Proof. intros Hpi. unfold cubic_real_roots2, roots_cubic. cbn zeta. lits. rewrite !Hpi. reflexivity. Qed.
  Lemma nt_cubic_solve (c : cubic P) v i : m_from (s_pi_f32 : T) = s_pi_f32 :> S ->
    cubic_solve_t_for_axis2 (T := T) c v i = cubic_solve_t_for_axis c v i.
  Proof.
    intros Hpi. unfold cubic_solve_t_for_axis2, cubic_solve_t_for_axis. rewrite (w_cubic_colinear W), same_eps.
    apply bind_cong; intros [|]; [reflexivity|]. do 4 (apply bind_cong; intros ?). lits.
    rewrite nt_cubic_roots by exact Hpi. apply bind_cong; intros r. now rewrite (w_filter W).
  Qed.
End Newtype.
