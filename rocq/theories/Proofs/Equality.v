(** Proofs for C104: equality of curves. *)
From Coq Require Import Reals ZArith List Arith Bool Lia Lra.
From Flocq Require Import Core.Core IEEE754.BinarySingleNaN.
From Verif Require Import Base.Outcome Base.Scalar Model.Point Model.Line Model.Quadratic Model.Cubic
  Model.Segment Model.BSpline Model.Equality Inst.RealInst Inst.FloatInst Spec.Rounding Spec.Lawful Spec.Points Spec.Componentwise
  Spec.Mirror Spec.Related Spec.Equality
  Proofs.FloatFacts Proofs.FloatNeg Proofs.Relational Proofs.Mirror Proofs.MirrorCE Proofs.Elevation.
Import ListNotations.

(** ** Exact arithmetic: two curves are equal iff they are the same function *)
Section Exact.
  Context {E : Eps} {P : Type} {PT : Point R P} {LP : LawfulPoint P}.
  Local Open Scope R_scope.

  Lemma line_eq_iff (l m : line P) : line_eqb l m = true <-> l = m.
  Proof.
    unfold line_eqb. rewrite andb_true_iff, !lp_eqb. destruct l, m; cbn. split; [now intros [-> ->]|].
    intros H. injection H. auto.
  Qed.
  Lemma quad_eq_iff (l m : quad P) : quad_eqb l m = true <-> l = m.
  Proof.
    unfold quad_eqb. rewrite !andb_true_iff, !lp_eqb. destruct l, m; cbn. split; [now intros [[-> ->] ->]|].
    intros H. injection H. auto.
  Qed.
  Lemma cubic_eq_iff (l m : cubic P) : cubic_eqb l m = true <-> l = m.
  Proof.
    unfold cubic_eqb. rewrite !andb_true_iff, !lp_eqb. destruct l, m; cbn. split; [now intros [[[-> ->] ->] ->]|].
    intros H. injection H. auto.
  Qed.
  Lemma segment_eq_iff (l m : segment P) : segment_eqb l m = true <-> l = m.
  Proof.
    destruct l, m; cbn [segment_eqb]; try (split; discriminate);
      rewrite ?line_eq_iff, ?quad_eq_iff, ?cubic_eq_iff; (split; [now intros ->|intros H; injection H; auto]).
  Qed.

  Theorem line_eq_function (l m : line P) : line_eqb l m = true <-> (forall t, 0 <= t <= 1 -> line_eval l t = line_eval m t).
  Proof.
    rewrite line_eq_iff. split; [now intros ->|]. intros H. apply (line_determined l m 0 1); [lra| |]; apply H; lra.
  Qed.
  Theorem quad_eq_function (l m : quad P) : quad_eqb l m = true <-> (forall t, 0 <= t <= 1 -> quad_eval l t = quad_eval m t).
  Proof.
    rewrite quad_eq_iff. split; [now intros ->|]. intros H. apply (quad_determined l m [0; / 2; 1]); [|simpl; lia|].
    - repeat constructor; simpl; lra.
    - intros t Ht. apply H. simpl in Ht. lra.
  Qed.
  Theorem cubic_eq_function (l m : cubic P) : cubic_eqb l m = true <-> (forall t, 0 <= t <= 1 -> cubic_eval l t = cubic_eval m t).
  Proof.
    rewrite cubic_eq_iff. split; [now intros ->|]. intros H. apply (cubic_determined l m [0; / 3; / 2; 1]); [|simpl; lia|].
    - repeat constructor; simpl; lra.
    - intros t Ht. apply H. simpl in Ht. lra.
  Qed.
  Theorem segment_eq_function (s s' : segment P) : segment_eqb s s' = true -> forall t, segment_eval s t = segment_eval s' t.
  Proof. rewrite segment_eq_iff. now intros ->. Qed.
End Exact.

(** ** Floats *)
Section Floats.
  Context {F : Format}.
  Lemma eqb_iff (x y : float) : s_eqb x y = true <-> feq x y /\ s_is_nan x = false.
  Proof.
    split.
    - intros H. split.
      + destruct x as [a|a| |a m e B] eqn:X, y as [b|b| |b m' e' B'] eqn:Y;
          try discriminate H; try (destruct b; discriminate H); try (destruct a; discriminate H).
        * right. eauto.
        * left. destruct a, b; try reflexivity; discriminate H.
        * left. rewrite eqb_val in H by reflexivity.
          destruct (Req_bool_spec (val (B754_finite a m e B : float)) (val (B754_finite b m' e' B' : float))) as [Q|]; [|discriminate].
          now apply B2R_inj.
      + now destruct x.
    - intros [[->|(a & b & -> & ->)] N]; [|reflexivity].
      destruct y as [b|b| |b m e B]; try reflexivity; [now destruct b|discriminate|].
      rewrite eqb_val by reflexivity. now apply Req_bool_true.
  Qed.
  Lemma eqb_sym (x y : float) : s_eqb x y = s_eqb y x.
  Proof.
    apply eq_true_iff_eq. rewrite !eqb_iff. split; intros [H N]; (split; [now apply feq_sym|]).
    - now rewrite <- (feq_nan x y H).
    - now rewrite <- (feq_nan y x H).
  Qed.

  Context {P : Type} {PT : Point float P} {CP : CwPoint float P}.
  Lemma point_iff (p q : P) : p_eqb p q = true <-> same_coords p q /\ no_nan p.
  Proof.
    rewrite cw_eqb. unfold same_coords, no_nan. split.
    - intros H. split; intros i Hi; now destruct (proj1 (eqb_iff _ _) (H i Hi)).
    - intros [A B] i Hi. apply eqb_iff. auto.
  Qed.
  Lemma same_refl p : same_coords (P := P) p p.
  Proof. intros i _. apply feq_refl. Qed.
  Lemma same_sym p q : same_coords (P := P) p q -> same_coords q p.
  Proof. intros H i Hi. now apply feq_sym, H. Qed.
  Lemma same_trans p q r : same_coords (P := P) p q -> same_coords q r -> same_coords p r.
  Proof. intros H K i Hi. apply feq_trans with (cw q i); auto. Qed.
  Lemma same_nan p q : same_coords (P := P) p q -> no_nan p -> no_nan q.
  Proof. intros H K i Hi. rewrite <- (feq_nan _ _ (H i Hi)). auto. Qed.
  Lemma point_refl (p : P) : p_eqb p p = true <-> no_nan p.
  Proof. rewrite point_iff. split; [tauto|]. split; [apply same_refl|assumption]. Qed.
  Lemma point_sym (p q : P) : p_eqb p q = p_eqb q p.
  Proof.
    apply eq_true_iff_eq. rewrite !point_iff. split; intros [H N]; (split; [now apply same_sym|eapply same_nan; eauto]).
  Qed.
  Lemma point_trans (p q r : P) : p_eqb p q = true -> p_eqb q r = true -> p_eqb p r = true.
  Proof. rewrite !point_iff. intros [A B] [C D]. split; [eapply same_trans; eauto|assumption]. Qed.

  Theorem segment_iff (s s' : segment P) : segment_eqb s s' = true <->
    related_segments same_coords s s' /\ forall p, In p (segment_points s) -> no_nan p.
  Proof.
    destruct s, s'; cbn [segment_eqb related_segments segment_points];
      unfold line_eqb, quad_eqb, cubic_eqb, related_lines, related_quads, related_cubics;
      try (split; [discriminate|tauto]); rewrite !andb_true_iff, !point_iff; cbn [In];
      (split; [intros H; split; [tauto|intros p; intuition subst; assumption]|]);
      intros [H N]; repeat split; try tauto; apply N; tauto.
  Qed.
  Theorem segment_refl (s : segment P) : segment_eqb s s = true <-> forall p, In p (segment_points s) -> no_nan p.
  Proof.
    rewrite segment_iff. split; [tauto|]. intros H. split; [|exact H].
    destruct s; cbn; repeat split; apply same_refl.
  Qed.
  Theorem segment_sym (s s' : segment P) : segment_eqb s s' = segment_eqb s' s.
  Proof.
    destruct s, s'; cbn [segment_eqb]; try reflexivity; unfold line_eqb, quad_eqb, cubic_eqb;
      repeat match goal with |- andb _ _ = andb _ _ => apply (f_equal2 andb) end; apply point_sym.
  Qed.
  Theorem segment_trans (s s' s'' : segment P) : segment_eqb s s' = true -> segment_eqb s' s'' = true -> segment_eqb s s'' = true.
  Proof.
    destruct s, s', s''; cbn [segment_eqb]; try discriminate; unfold line_eqb, quad_eqb, cubic_eqb; rewrite !andb_true_iff;
      intuition (eapply point_trans; eauto).
  Qed.
End Floats.

(** ** Equal curves behave alike *)
Section Alike.
  Context {F : Format} {P : Type} {PT : Point float P} {CP : CwPoint float P}.
  Let axes : nat -> bool := fun _ => false.
  Lemma mirrored_iff (p q : P) : mirrored axes p q <-> same_coords p q.
  Proof. split; intros H i Hi; apply feq_sym, (H i Hi). Qed.
  Lemma line_mirrored (l m : line P) : related_lines (mirrored axes) l m <-> related_lines same_coords l m.
  Proof. unfold related_lines. now rewrite !mirrored_iff. Qed.
  Lemma quad_mirrored (l m : quad P) : related_quads (mirrored axes) l m <-> related_quads same_coords l m.
  Proof. unfold related_quads. now rewrite !mirrored_iff. Qed.
  Lemma cubic_mirrored (l m : cubic P) : related_cubics (mirrored axes) l m <-> related_cubics same_coords l m.
  Proof. unfold related_cubics. now rewrite !mirrored_iff. Qed.
  Lemma axis_mirrored x y i : related (fun x y : float => feq y (flip (axes i) x)) x y -> related feq x y.
  Proof. destruct x, y; cbn; try tauto. apply feq_sym. Qed.
  Lemma box_mirrored' (b b' : list (float * float)) : box_mirrored axes b b' -> same_bounds b b'.
  Proof.
    intros [L H]. unfold same_bounds. revert b' L H. induction b as [|x b IH]; intros [|x' b'] L H; try discriminate; constructor.
    - destruct (H 0%nat x x' eq_refl eq_refl) as [A B]. split; now apply feq_sym.
    - apply IH; [cbn in L; lia|]. intros i y y' Hy Hy'. exact (H (S i) y y' Hy Hy').
  Qed.
  Lemma boxes_mirrored x y : related (box_mirrored (F := F) axes) x y -> related same_bounds x y.
  Proof. destruct x, y; cbn; try tauto. apply box_mirrored'. Qed.
  Let L := mirror_lin (P := P) axes.

  Theorem segment_alike (s s' : segment P) (t t' : float) : segment_eqb s s' = true -> feq t t' ->
    same_coords (segment_eval s t) (segment_eval s' t') /\
    same_coords (segment_start s) (segment_start s') /\ same_coords (segment_end s) (segment_end s') /\
    related_lines same_coords (segment_baseline s) (segment_baseline s') /\
    related_pairs (related_segments same_coords) (related_segments same_coords) (segment_split s t) (segment_split s' t') /\
    forall tol, segment_is_linear s tol = segment_is_linear s' tol.
  Proof.
    intros H Ht. apply segment_iff in H as [H _]. destruct s as [l|l|l], s' as [m|m|m]; try contradiction H;
      cbn [related_segments] in H; cbn [segment_eval segment_start segment_end segment_baseline segment_split segment_is_linear].
    - apply line_mirrored in H. split; [apply mirrored_iff, (rel_line_eval L); auto|].
      rewrite <- line_mirrored. split; [now apply mirrored_iff; apply H|]. split; [now apply mirrored_iff; apply H|]. split; [exact H|].
      split; [|reflexivity]. pose proof (rel_line_split L l m t t' H Ht) as [A B].
      destruct (line_split l t), (line_split m t'). split; cbn; now apply line_mirrored.
    - apply quad_mirrored in H. split; [apply mirrored_iff, (rel_quad_eval L); auto|].
      split; [now apply mirrored_iff; apply H|]. split; [now apply mirrored_iff; apply H|].
      split; [split; apply mirrored_iff; apply H|].
      split; [|intros tol; apply (quad_lengths_mirror axes l m (q_start l) (q_start m) 0 tol H); apply H].
      pose proof (rel_quad_split L l m t t' H Ht) as [A B].
      destruct (quad_split l t), (quad_split m t'). split; cbn; now apply quad_mirrored.
    - apply cubic_mirrored in H. split; [apply mirrored_iff, (rel_cubic_eval L); auto|].
      split; [now apply mirrored_iff; apply H|]. split; [now apply mirrored_iff; apply H|].
      split; [split; apply mirrored_iff; apply H|].
      split; [|intros tol; apply (cubic_lengths_mirror axes l m (c_start l) (c_start m) 0 tol H); apply H].
      pose proof (rel_cubic_split L l m t t' H Ht) as [A B].
      destruct (cubic_split l t), (cubic_split m t'). split; cbn; now apply cubic_mirrored.
  Qed.

  Lemma line_parts (l m : line P) : line_eqb l m = true -> related_lines same_coords l m /\ no_nan (l_start l) /\ no_nan (l_end l).
  Proof.
    intros H. destruct (proj1 (segment_iff (Linear l) (Linear m)) H) as [A N]. split; [exact A|].
    split; apply N; cbn; tauto.
  Qed.
  Lemma quad_parts (l m : quad P) : quad_eqb l m = true -> related_quads same_coords l m.
  Proof. intros H. exact (proj1 (proj1 (segment_iff (Quadratic l) (Quadratic m)) H)). Qed.
  Lemma cubic_parts (l m : cubic P) : cubic_eqb l m = true -> related_cubics same_coords l m.
  Proof. intros H. exact (proj1 (proj1 (segment_iff (CubicSeg l) (CubicSeg m)) H)). Qed.

  Theorem line_alike (l m : line P) (p q : P) t i : line_eqb l m = true -> p_eqb p q = true ->
    same_coords (line_derivative l) (line_derivative m) /\
    related feq (line_axis l t i) (line_axis m t i) /\
    related feq (line_distance_to_point l p) (line_distance_to_point m q) /\
    related same_bounds (line_bounding_box l) (line_bounding_box m).
  Proof.
    intros H Hp. apply line_parts in H as (H & N1 & N2). apply line_mirrored in H.
    apply point_iff in Hp as [Hp _]. apply mirrored_iff in Hp.
    destruct (line_mirror axes l m p q t i H Hp) as (_ & _ & A & B & C).
    split; [now apply mirrored_iff|]. split; [now apply (axis_mirrored _ _ i)|]. split; [exact C|].
    apply boxes_mirrored. now apply line_box_mirror.
  Qed.
  Theorem quad_alike (l m : quad P) (p q : P) t i n tol : quad_eqb l m = true -> p_eqb p q = true ->
    same_coords (quad_eval_casteljau l t) (quad_eval_casteljau m t) /\
    related_lines same_coords (quad_derivative l) (quad_derivative m) /\
    related feq (quad_axis l t i) (quad_axis m t i) /\
    related feq (quad_dd l t i) (quad_dd m t i) /\
    related feq (quad_arclen l n) (quad_arclen m n) /\
    related feq (quad_distance_to_point l p) (quad_distance_to_point m q) /\
    quad_is_a_point l tol = quad_is_a_point m tol /\
    related same_bounds (quad_bounding_box l) (quad_bounding_box m).
  Proof.
    intros H Hp. apply quad_parts in H. apply quad_mirrored in H.
    apply point_iff in Hp as [Hp _]. apply mirrored_iff in Hp.
    destruct (quad_points_mirror axes l m t i H) as (_ & A & _ & B & C & D).
    destruct (quad_lengths_mirror axes l m p q n tol H Hp) as (A' & B' & _ & D').
    split; [now apply mirrored_iff|]. split; [now apply line_mirrored|]. split; [now apply (axis_mirrored _ _ i)|].
    split; [now apply (axis_mirrored _ _ i)|]. split; [exact A'|]. split; [exact B'|]. split; [exact D'|].
    apply boxes_mirrored. now apply quad_box_mirror.
  Qed.
  Theorem cubic_alike (l m : cubic P) (p q : P) t i n tol : cubic_eqb l m = true -> p_eqb p q = true ->
    same_coords (cubic_eval_casteljau l t) (cubic_eval_casteljau m t) /\
    related_quads same_coords (cubic_derivative l) (cubic_derivative m) /\
    related feq (cubic_axis l t i) (cubic_axis m t i) /\
    related feq (cubic_dd l t i) (cubic_dd m t i) /\
    related feq (cubic_arclen l n) (cubic_arclen m n) /\
    related feq (cubic_distance_to_point l p) (cubic_distance_to_point m q) /\
    cubic_is_a_point l tol = cubic_is_a_point m tol /\
    related same_bounds (cubic_bounding_box l) (cubic_bounding_box m).
  Proof.
    intros H Hp. apply cubic_parts in H. apply cubic_mirrored in H.
    apply point_iff in Hp as [Hp _]. apply mirrored_iff in Hp.
    destruct (cubic_points_mirror axes l m t i H) as (_ & A & _ & B & C & D).
    destruct (cubic_lengths_mirror axes l m p q n tol H Hp) as (A' & B' & _ & D').
    split; [now apply mirrored_iff|]. split; [now apply quad_mirrored|]. split; [now apply (axis_mirrored _ _ i)|].
    split; [now apply (axis_mirrored _ _ i)|]. split; [exact A'|]. split; [exact B'|]. split; [exact D'|].
    apply boxes_mirrored. now apply cubic_box_mirror.
  Qed.
End Alike.

Lemma error_iff e f : error_eqb e f = true <-> e = f.
Proof. split; [destruct e, f; try reflexivity; discriminate|intros ->; now destruct f]. Qed.
Lemma kind_iff e f : kind_eqb e f = true <-> e = f.
Proof. split; [destruct e, f; try reflexivity; discriminate|intros ->; now destruct f]. Qed.
