(** The crate sees points through the trait only. *)
From Coq Require Import ZArith List Arith Bool Lia.
From Verif Require Import Base.Outcome Base.Scalar Model.Point Model.Line Model.Quadratic Model.Cubic Model.Bezier
  Model.BSpline Model.Segment Model.Coordinates Spec.Related Spec.Equality Spec.Interface Proofs.OutcomeFacts Proofs.Relational.
Import ListNotations.

Lemma bind_cong {A B : Type} (x : outcome A) (f g : A -> outcome B) : (forall a, f a = g a) -> bind x f = bind x g.
Proof. destruct x; cbn; auto. Qed.

Section Interchange.
  Context {T P Q : Type} {ST : Scalar T} {PT : Point T P} {QT : Point T Q} {R : P -> Q -> Prop}.
  Variable H : interchangeable R.

  Lemma ic_lin : lin eq R.
  Proof.
    constructor; try congruence; try apply H. intros p p' x x' Hp <-. now apply H.
  Qed.
  Lemma ic_dot p p' q q' : R p p' -> R q q' -> dot_loop p q = dot_loop p' q'.
  Proof.
    intros Hp Hq. unfold dot_loop. rewrite (ic_dim _ H). apply for_in_ext. intros i s _.
    now rewrite (ic_axis _ H _ _ i Hp), (ic_axis _ H _ _ i Hq).
  Qed.
  Lemma ic_sim : sim eq R.
  Proof.
    constructor; try congruence; try apply H; [exact ic_lin|]. intros. apply rel_eq_iff. now apply ic_dot.
  Qed.
  Let L := ic_lin.
  Let S := ic_sim.

  Lemma ic_line (l : line P) (m : line Q) (p : P) (q : Q) t i : related_lines R l m -> R p q ->
    R (line_eval l t) (line_eval m t) /\
    related_pairs (related_lines R) (related_lines R) (line_split l t) (line_split m t) /\
    R (line_derivative l) (line_derivative m) /\
    line_axis l t i = line_axis m t i /\
    line_distance_to_point l p = line_distance_to_point m q /\
    line_bounding_box l = line_bounding_box m.
  Proof.
    intros Hl Hp. split; [now apply (rel_line_eval L)|]. split; [now apply (rel_line_split L)|].
    split; [now apply (rel_line_derivative L)|]. pose proof Hl as [A B]. split; [|split].
    - unfold line_axis. now rewrite (ic_axis _ H _ _ i A), (ic_axis _ H _ _ i B).
    - apply rel_eq_iff. now apply (rel_line_distance S).
    - unfold line_bounding_box. rewrite (ic_dim _ H). apply for_in_ext. intros k s _.
      now rewrite (ic_axis _ H _ _ k A), (ic_axis _ H _ _ k B).
  Qed.

  Lemma ic_quad_roots (l : quad P) (m : quad Q) k rs : related_quads R l m ->
    quad_eval_roots l k rs = quad_eval_roots m k rs.
  Proof.
    intros Hl. induction rs as [|t rs IH]; cbn [quad_eval_roots]; [reflexivity|].
    rewrite (ic_axis _ H _ _ k (rel_quad_casteljau L l m t t Hl eq_refl)), IH. reflexivity.
  Qed.
  Lemma ic_quad_box (l : quad P) (m : quad Q) : related_quads R l m -> quad_bounding_box l = quad_bounding_box m.
  Proof.
    intros Hl. unfold quad_bounding_box. rewrite (ic_dim _ H). apply for_in_ext. intros k s _. f_equal.
    pose proof (rel_quad_derivative L l m Hl) as [D1 D2]. pose proof Hl as (A & B & C).
    unfold quad_bbox_axis. cbv zeta.
    rewrite (ic_axis _ H _ _ k (ic_add _ H _ _ _ _ (ic_mul _ H _ _ (s_lit (-1)%Z) D1) D2)), (ic_axis _ H _ _ k D1).
    rewrite (ic_axis _ H _ _ k A), (ic_axis _ H _ _ k C).
    apply bind_cong; intros ?. apply bind_cong; intros ?. apply bind_cong; intros ?. apply bind_cong; intros ?.
    now rewrite (ic_quad_roots l m k _ Hl).
  Qed.
  Lemma ic_quad (l : quad P) (m : quad Q) (p : P) (q : Q) t i n tol : related_quads R l m -> R p q ->
    R (quad_eval l t) (quad_eval m t) /\ R (quad_eval_casteljau l t) (quad_eval_casteljau m t) /\
    related_pairs (related_quads R) (related_quads R) (quad_split l t) (quad_split m t) /\
    related_lines R (quad_derivative l) (quad_derivative m) /\
    quad_axis l t i = quad_axis m t i /\ quad_dd l t i = quad_dd m t i /\
    quad_arclen l n = quad_arclen m n /\ quad_distance_to_point l p = quad_distance_to_point m q /\
    quad_is_linear l tol = quad_is_linear m tol /\ quad_is_a_point l tol = quad_is_a_point m tol /\
    quad_solve_t_for_axis l t i = quad_solve_t_for_axis m t i /\
    quad_bounding_box l = quad_bounding_box m.
  Proof.
    intros Hl Hp. split; [now apply (rel_quad_eval L)|]. split; [now apply (rel_quad_casteljau L)|].
    split; [now apply (rel_quad_split L)|]. split; [now apply (rel_quad_derivative L)|].
    pose proof Hl as (A & B & C).
    split; [unfold quad_axis; now rewrite (ic_axis _ H _ _ i A), (ic_axis _ H _ _ i B), (ic_axis _ H _ _ i C)|].
    split; [unfold quad_dd; now rewrite (ic_axis _ H _ _ i A), (ic_axis _ H _ _ i B), (ic_axis _ H _ _ i C)|].
    split; [apply rel_eq_iff; now apply (rel_quad_arclen S)|].
    split; [apply rel_eq_iff; now apply (rel_quad_distance S)|].
    split; [now apply (rel_quad_is_linear S)|].
    split; [now apply (rel_quad_is_a_point S)|].
    split; [|now apply ic_quad_box].
    unfold quad_solve_t_for_axis. rewrite (rel_quad_is_a_point S l m s_eps Hl).
    rewrite (ic_axis _ H _ _ i A), (ic_axis _ H _ _ i B), (ic_axis _ H _ _ i C).
    rewrite (ic_sqlen _ H _ _ (ic_sub _ H _ _ _ _ A C)).
    replace (quad_are_points_colinear l (s_lit 0%Z)) with (quad_are_points_colinear m (s_lit 0%Z)); [reflexivity|].
    unfold quad_are_points_colinear. f_equal. symmetry. apply rel_eq_iff. apply (rel_line_distance S); [split|]; assumption.
  Qed.

  Lemma ic_cubic_roots (l : cubic P) (m : cubic Q) k rs : related_cubics R l m ->
    cubic_eval_roots l k rs = cubic_eval_roots m k rs.
  Proof.
    intros Hl. induction rs as [|t rs IH]; cbn [cubic_eval_roots]; [reflexivity|].
    rewrite (ic_axis _ H _ _ k (rel_cubic_casteljau L l m t t Hl eq_refl)), IH. reflexivity.
  Qed.
  Lemma ic_cubic_box (l : cubic P) (m : cubic Q) : related_cubics R l m -> cubic_bounding_box l = cubic_bounding_box m.
  Proof.
    intros Hl. unfold cubic_bounding_box. rewrite (ic_dim _ H). apply for_in_ext. intros k s _. f_equal.
    pose proof (rel_cubic_derivative L l m Hl) as (D1 & D2 & D3). pose proof Hl as (A & B & C & D).
    unfold cubic_bbox_axis. cbv zeta.
    rewrite (ic_axis _ H _ _ k (ic_add _ H _ _ _ _ (ic_add _ H _ _ _ _ D1 (ic_mul _ H _ _ (s_lit (-2)%Z) D2)) D3)).
    rewrite (ic_axis _ H _ _ k (ic_add _ H _ _ _ _ (ic_mul _ H _ _ (s_lit (-2)%Z) D1) (ic_mul _ H _ _ (s_lit 2%Z) D2))).
    rewrite (ic_axis _ H _ _ k D1), (ic_axis _ H _ _ k A), (ic_axis _ H _ _ k D).
    apply bind_cong; intros ?. apply bind_cong; intros ?. apply bind_cong; intros ?. apply bind_cong; intros ?. apply bind_cong; intros ?.
    now rewrite (ic_cubic_roots l m k _ Hl).
  Qed.
  Lemma ic_cubic (l : cubic P) (m : cubic Q) (p : P) (q : Q) t i n tol : related_cubics R l m -> R p q ->
    R (cubic_eval l t) (cubic_eval m t) /\ R (cubic_eval_casteljau l t) (cubic_eval_casteljau m t) /\
    related_pairs (related_cubics R) (related_cubics R) (cubic_split l t) (cubic_split m t) /\
    related_quads R (cubic_derivative l) (cubic_derivative m) /\
    cubic_axis l t i = cubic_axis m t i /\ cubic_dd l t i = cubic_dd m t i /\
    cubic_arclen l n = cubic_arclen m n /\ cubic_distance_to_point l p = cubic_distance_to_point m q /\
    cubic_is_linear l tol = cubic_is_linear m tol /\ cubic_is_a_point l tol = cubic_is_a_point m tol /\
    cubic_bounding_box l = cubic_bounding_box m.
  Proof.
    intros Hl Hp. split; [now apply (rel_cubic_eval L)|]. split; [now apply (rel_cubic_casteljau L)|].
    split; [now apply (rel_cubic_split L)|]. split; [now apply (rel_cubic_derivative L)|].
    pose proof Hl as (A & B & C & D).
    split; [unfold cubic_axis; now rewrite (ic_axis _ H _ _ i A), (ic_axis _ H _ _ i B), (ic_axis _ H _ _ i C), (ic_axis _ H _ _ i D)|].
    split; [unfold cubic_dd; now rewrite (ic_axis _ H _ _ i A), (ic_axis _ H _ _ i B), (ic_axis _ H _ _ i C), (ic_axis _ H _ _ i D)|].
    split; [apply rel_eq_iff; now apply (rel_cubic_arclen S)|].
    split; [apply rel_eq_iff; now apply (rel_cubic_distance S)|].
    split; [now apply (rel_cubic_is_linear S)|].
    split; [now apply (rel_cubic_is_a_point S)|now apply ic_cubic_box].
  Qed.

  Lemma ic_bezier (l : bezier P) (m : bezier Q) (p : P) (q : Q) t n : related_beziers R l m -> R p q ->
    related R (bezier_eval l t) (bezier_eval m t) /\
    related (related_pairs (related_beziers R) (related_beziers R)) (bezier_split l t) (bezier_split m t) /\
    related (related_beziers R) (bezier_derivative l) (bezier_derivative m) /\
    bezier_arclen l n = bezier_arclen m n /\ bezier_distance_to_point l p = bezier_distance_to_point m q.
  Proof.
    intros Hl Hp. split; [now apply (rel_bezier_eval L)|]. split; [now apply (rel_bezier_split L)|].
    split; [now apply (rel_bezier_derivative L)|]. split; apply rel_eq_iff.
    - now apply (rel_bezier_arclen S).
    - now apply (rel_bezier_distance S).
  Qed.

  Lemma ic_segment (l : segment P) (m : segment Q) t tol : related_segments R l m ->
    R (segment_eval l t) (segment_eval m t) /\
    related_pairs (related_segments R) (related_segments R) (segment_split l t) (segment_split m t) /\
    segment_is_linear l tol = segment_is_linear m tol.
  Proof.
    destruct l as [l|l|l], m as [m|m|m]; cbn [related_segments]; try contradiction; intros Hl; cbn [segment_eval].
    - split; [now apply (rel_line_eval L)|]. split; [|reflexivity].
      pose proof (rel_line_split L l m t t Hl eq_refl) as HS. unfold segment_split.
      destruct (line_split l t), (line_split m t). exact HS.
    - split; [now apply (rel_quad_eval L)|]. split; [|now apply (rel_quad_is_linear S)].
      pose proof (rel_quad_split L l m t t Hl eq_refl) as HS. unfold segment_split.
      destruct (quad_split l t), (quad_split m t). exact HS.
    - split; [now apply (rel_cubic_eval L)|]. split; [|now apply (rel_cubic_is_linear S)].
      pose proof (rel_cubic_split L l m t t Hl eq_refl) as HS. unfold segment_split.
      destruct (cubic_split l t), (cubic_split m t). exact HS.
  Qed.

  Lemma ic_new D ks (ps : list P) (qs : list Q) : Forall2 R ps qs ->
    related (related_results (related_splines R)) (bspline_new D ks ps) (bspline_new D ks qs).
  Proof.
    intros Hp. unfold bspline_new. rewrite (Forall2_length Hp).
    repeat match goal with |- related _ (if ?b then _ else _) (if ?b then _ else _) => destruct b; [reflexivity|] end.
    repeat (apply rel_bind with (R := eq); [apply rel_eq|]; intros ? ? <-).
    repeat match goal with |- context [if ?b then _ else _] => destruct b end; cbn; repeat split; auto.
  Qed.
  Lemma ic_bspline (l : bspline T P) (m : bspline T Q) t n : related_splines R l m ->
    knot_domain l = knot_domain m /\
    related (related_results R) (bspline_eval l t) (bspline_eval m t) /\
    related (related_splines R) (bspline_derivative l) (bspline_derivative m) /\
    bspline_arclen l n = bspline_arclen m n.
  Proof.
    intros Hl. split; [now apply (rel_domain (RP := R))|]. split; [now apply (rel_bspline_eval L)|].
    split; [now apply (rel_bspline_derivative L)|]. apply rel_eq_iff. now apply (rel_bspline_arclen S).
  Qed.
End Interchange.

(** [PointN] with its own coordinates *)
Section Convert.
  Context {T U : Type} {ST : Scalar T} {CU : Coordinate T U} {N : nat}.
  Hypothesis F : faithful T U.

  Lemma map_map2 (f : U -> U -> U) (g : T -> T -> T) a b : (forall x y, u_into (f x y) = g (u_into x) (u_into y)) ->
    map2 g (map u_into a) (map u_into b) = map u_into (map2 f a b).
  Proof. intros Hf. revert b. induction a as [|x a IH]; intros [|y b]; cbn; auto. now rewrite Hf, IH. Qed.

  Lemma converted_ic : interchangeable (converted (T := T) (U := U) (N := N)).
  Proof.
    constructor; unfold converted; cbn.
    - reflexivity.
    - generalize N. intros n. induction n as [|n IH]; cbn; [reflexivity|]. now rewrite (into_default _ _ F), IH.
    - intros p p' q q' -> ->. apply map_map2, F.
    - intros p p' q q' -> ->. apply map_map2, F.
    - intros p p' t ->. rewrite !map_map. apply map_ext. intros x. symmetry. apply F.
    - intros p p' i E. unfold pu_axis, pn_axis. destruct (i <=? N); [|reflexivity]. rewrite E. unfold idx.
      rewrite nth_error_map. destruct (nth_error (pn_arr p) i); reflexivity.
    - intros p p' E. unfold pu_sqlen, pn_sqlen. rewrite E. generalize (s_lit (T := T) 0%Z). clear E.
      induction (pn_arr p) as [|x a IH]; intros s; cbn; [reflexivity|]. now rewrite (into_mul _ _ F), IH.
  Qed.
End Convert.

(** ** Equality of points with the user's own coordinates *)
Section EqU.
  Context {T U : Type} {ST : Scalar T} {CU : Coordinate T U} {N : nat}.
  Lemma arru_eqb_iff (a b : list U) : length a = length b ->
    (arru_eqb a b = true <-> Forall2 (fun x y => u_eqb x y = true) a b).
  Proof.
    revert b. induction a as [|x a IH]; intros [|y b]; cbn; intros L; try discriminate; [split; auto|].
    injection L as L. destruct (u_eqb x y) eqn:E; cbn [negb].
    - rewrite (IH b L). split; intros H; [now constructor|now inversion H].
    - split; [discriminate|]. intros H. inversion H; congruence.
  Qed.
  Lemma pu_eqb_iff (p q : PointN U N) :
    p_eqb p q = true <-> Forall2 (fun x y => u_eqb x y = true) (pn_arr p) (pn_arr q).
  Proof.
    apply arru_eqb_iff. pose proof (pn_len p) as A. pose proof (pn_len q) as B. apply Nat.eqb_eq in A, B. congruence.
  Qed.
End EqU.
