(** Two runs on inputs related coordinate by coordinate stay related. *)
From Coq Require Import ZArith List Arith Bool Lia.
From Verif Require Import Base.Outcome Base.Scalar Model.Point Model.Line Model.Quadratic Model.Cubic Model.Bezier
  Model.BSpline Spec.Related.
Import ListNotations.

Lemma Forall2_length {A B : Type} {R : A -> B -> Prop} {l m} : Forall2 R l m -> length l = length m.
Proof. induction 1; cbn; congruence. Qed.

Section Loops.
  Context {A B C D : Type} (R : A -> B -> Prop) (S : C -> D -> Prop).

  Lemma rel_bind x y (f : A -> outcome C) (g : B -> outcome D) :
    related R x y -> (forall a b, R a b -> related S (f a) (g b)) -> related S (bind x f) (bind y g).
  Proof. destruct x, y; cbn; auto; try tauto. Qed.
  Lemma rel_idx l m i : Forall2 R l m -> related R (idx l i) (idx m i).
  Proof.
    intros H. revert i. induction H as [|a b l m Hab H IH]; intros [|i]; cbn; auto. apply IH.
  Qed.
  Lemma rel_replace l m i a b : Forall2 R l m -> R a b -> Forall2 R (replace_nth l i a) (replace_nth m i b).
  Proof. intros H Hab. revert i. induction H as [|u v l m Huv H IH]; intros [|i]; cbn; auto. Qed.
  Lemma rel_set l m i a b : Forall2 R l m -> R a b -> related (Forall2 R) (set_idx l i a) (set_idx m i b).
  Proof.
    intros H Hab. unfold set_idx. rewrite (Forall2_length H). destruct (i <? length m); cbn; [|exact I].
    now apply rel_replace.
  Qed.
  Lemma rel_repeat n a b : R a b -> Forall2 R (repeat a n) (repeat b n).
  Proof. intros H. induction n; cbn; auto. Qed.
  Lemma rel_for is s s' (f : nat -> A -> outcome A) (g : nat -> B -> outcome B) :
    R s s' -> (forall i a b, In i is -> R a b -> related R (f i a) (g i b)) -> related R (for_in is s f) (for_in is s' g).
  Proof.
    revert s s'. induction is as [|i is IH]; intros s s' Hs H; cbn; [exact Hs|].
    pose proof (H i s s' (or_introl eq_refl) Hs) as K. destruct (f i s), (g i s'); cbn in *; try tauto.
    apply IH; auto.
  Qed.
  Lemma rel_break is s s' (f : nat -> A -> outcome (A * bool)) (g : nat -> B -> outcome (B * bool)) :
    R s s' -> (forall i a b, R a b -> related (related_pairs R eq) (f i a) (g i b)) ->
    related R (for_break is s f) (for_break is s' g).
  Proof.
    revert s s'. induction is as [|i is IH]; intros s s' Hs H; cbn; [exact Hs|].
    pose proof (H i s s' Hs) as K. destruct (f i s) as [[a u]| |], (g i s') as [[b v]| |]; cbn in *; try tauto.
    destruct K as [K E]. cbn in K, E. subst v. destruct u; cbn; auto.
  Qed.
  Lemma rel_for_result {E : Type} is s s' (f : nat -> A -> outcome (result A E)) (g : nat -> B -> outcome (result B E)) :
    R s s' -> (forall i a b, R a b -> related (related_results R) (f i a) (g i b)) ->
    related (related_results R) (for_result is s f) (for_result is s' g).
  Proof.
    revert s s'. induction is as [|i is IH]; intros s s' Hs H; cbn; [exact Hs|].
    pose proof (H i s s' Hs) as K. destruct (f i s) as [[a|e]| |], (g i s') as [[b|e']| |]; cbn in *; try tauto; auto.
  Qed.
End Loops.

Lemma rel_refl {A : Type} (R : A -> A -> Prop) (x : outcome A) : (forall a, R a a) -> related R x x.
Proof. destruct x; cbn; auto. Qed.
Lemma rel_eq {A : Type} (x : outcome A) : related eq x x.
Proof. now apply rel_refl. Qed.
Lemma rel_weaken {A B : Type} (R S : A -> B -> Prop) x y :
  (forall a b, R a b -> S a b) -> related R x y -> related S x y.
Proof. destruct x, y; cbn; auto. Qed.
Lemma rel_eq_iff {A : Type} (x y : outcome A) : related eq x y <-> x = y.
Proof. split; [|intros ->; apply rel_eq]. destruct x, y; cbn; congruence || tauto. Qed.

(** what has to be known of the point operations: computing points ... *)
Record lin {T P Q : Type} {ST : Scalar T} {PT : Point T P} {QT : Point T Q} (RT : T -> T -> Prop) (RP : P -> Q -> Prop)
  : Prop := {
  sim_refl : forall x, RT x x;
  sim_add : forall x x' y y', RT x x' -> RT y y' -> RT (s_add x y) (s_add x' y');
  sim_sub : forall x x' y y', RT x x' -> RT y y' -> RT (s_sub x y) (s_sub x' y');
  sim_mul : forall x x' y y', RT x x' -> RT y y' -> RT (s_mul x y) (s_mul x' y');
  sim_neg : forall x x', RT x x' -> RT (s_neg x) (s_neg x');
  sim_padd : forall p p' q q', RP p p' -> RP q q' -> RP (p_add p q) (p_add p' q');
  sim_psub : forall p p' q q', RP p p' -> RP q q' -> RP (p_sub p q) (p_sub p' q');
  sim_pmul : forall p p' x x', RP p p' -> RT x x' -> RP (p_mul p x) (p_mul p' x');
  sim_pdefault : RP p_default p_default
}.
(** ... and lengths *)
Record sim {T P Q : Type} {ST : Scalar T} {PT : Point T P} {QT : Point T Q} (RT : T -> T -> Prop) (RP : P -> Q -> Prop)
  : Prop := {
  sim_lin : lin RT RP;
  sim_sqrt : forall x x', RT x x' -> RT (s_sqrt x) (s_sqrt x');
  sim_div : forall x x' y y', RT x x' -> RT y y' -> s_ltb y s_eps = false -> RT (s_div x y) (s_div x' y');
  sim_ltb : forall x x' y y', RT x x' -> RT y y' -> s_ltb x y = s_ltb x' y';
  sim_leb : forall x x' y y', RT x x' -> RT y y' -> s_leb x y = s_leb x' y';
  sim_psqlen : forall p p', RP p p' -> RT (p_sqlen p) (p_sqlen p');
  sim_pdot : forall p p' q q', RP p p' -> RP q q' -> related RT (dot_loop p q) (dot_loop p' q')
}.

Section Lin.
  Context {T P Q : Type} {ST : Scalar T} {PT : Point T P} {QT : Point T Q} {RT : T -> T -> Prop} {RP : P -> Q -> Prop}.
  Variable S : lin RT RP.

  Ltac rel :=
    repeat first
      [ assumption | apply (sim_refl _ _ S) | apply (sim_padd _ _ S) | apply (sim_psub _ _ S) | apply (sim_pmul _ _ S)
      | apply (sim_add _ _ S) | apply (sim_sub _ _ S) | apply (sim_mul _ _ S) | apply (sim_neg _ _ S)
      | apply (sim_pdefault _ _ S) ].

  Lemma rel_line_eval l m t t' : related_lines RP l m -> RT t t' -> RP (line_eval l t) (line_eval m t').
  Proof. intros (A & B) Ht. unfold line_eval. rel. Qed.
  Lemma rel_line_split l m t t' : related_lines RP l m -> RT t t' ->
    related_pairs (related_lines RP) (related_lines RP) (line_split l t) (line_split m t').
  Proof. intros (A & B) Ht. repeat split; cbn; rel. Qed.
  Lemma rel_line_derivative l m : related_lines RP l m -> RP (line_derivative l) (line_derivative m).
  Proof. intros (A & B). unfold line_derivative. rel. Qed.
  Lemma rel_quad_eval l m t t' : related_quads RP l m -> RT t t' -> RP (quad_eval l t) (quad_eval m t').
  Proof. intros (A & B & C) Ht. unfold quad_eval. rel. Qed.
  Lemma rel_quad_casteljau l m t t' : related_quads RP l m -> RT t t' ->
    RP (quad_eval_casteljau l t) (quad_eval_casteljau m t').
  Proof. intros (A & B & C) Ht. unfold quad_eval_casteljau. rel. Qed.
  Lemma rel_quad_split l m t t' : related_quads RP l m -> RT t t' ->
    related_pairs (related_quads RP) (related_quads RP) (quad_split l t) (quad_split m t').
  Proof. intros (A & B & C) Ht. repeat split; cbn; rel. Qed.
  Lemma rel_quad_derivative l m : related_quads RP l m -> related_lines RP (quad_derivative l) (quad_derivative m).
  Proof. intros (A & B & C). split; cbn; rel. Qed.
  Lemma rel_cubic_eval l m t t' : related_cubics RP l m -> RT t t' -> RP (cubic_eval l t) (cubic_eval m t').
  Proof. intros (A & B & C & D) Ht. unfold cubic_eval. rel. Qed.
  Lemma rel_cubic_casteljau l m t t' : related_cubics RP l m -> RT t t' ->
    RP (cubic_eval_casteljau l t) (cubic_eval_casteljau m t').
  Proof. intros (A & B & C & D) Ht. unfold cubic_eval_casteljau. rel. Qed.
  Lemma rel_cubic_split l m t t' : related_cubics RP l m -> RT t t' ->
    related_pairs (related_cubics RP) (related_cubics RP) (cubic_split l t) (cubic_split m t').
  Proof. intros (A & B & C & D) Ht. repeat split; cbn; rel. Qed.
  Lemma rel_cubic_derivative l m : related_cubics RP l m -> related_quads RP (cubic_derivative l) (cubic_derivative m).
  Proof. intros (A & B & C & D). repeat split; cbn; rel. Qed.
  Lemma rel_level t t' i l m : Forall2 RP l m -> RT t t' ->
    related (Forall2 RP) (casteljau_level t i l) (casteljau_level t' i m).
  Proof.
    intros H Ht. unfold casteljau_level. rewrite (Forall2_length H). apply rel_bind with (R := eq); [apply rel_eq|].
    intros k _ <-. apply rel_for; [exact H|]. intros j a b _ Hab.
    apply rel_bind with (R := RP); [now apply rel_idx|]. intros p q Hp.
    apply rel_bind with (R := RP); [now apply rel_idx|]. intros p' q' Hp'. apply rel_set; [exact Hab|rel].
  Qed.
  Lemma rel_bezier_eval l m t t' : related_beziers RP l m -> RT t t' -> related RP (bezier_eval l t) (bezier_eval m t').
  Proof.
    intros H Ht. unfold bezier_eval. rewrite (Forall2_length H). apply rel_bind with (R := Forall2 RP).
    - apply rel_for; [exact H|]. intros i a b _ Hab. now apply rel_level.
    - intros a b Hab. now apply rel_idx.
  Qed.
  Lemma rel_bezier_split l m t t' : related_beziers RP l m -> RT t t' ->
    related (related_pairs (related_beziers RP) (related_beziers RP)) (bezier_split l t) (bezier_split m t').
  Proof.
    intros H Ht. unfold bezier_split. rewrite (Forall2_length H).
    apply rel_bind with (R := related_pairs (related_pairs (Forall2 RP) (Forall2 RP)) (Forall2 RP)).
    - apply rel_for; [repeat split; exact H|]. intros i [[a1 a2] a3] [[b1 b2] b3] _ [[H1 H2] H3]. cbn in H1, H2, H3.
      unfold split_body. apply rel_bind with (R := eq); [apply rel_eq|]. intros k _ <-.
      apply rel_bind with (R := RP); [now apply rel_idx|]. intros p q Hp.
      apply rel_bind with (R := Forall2 RP); [now apply rel_set|]. intros l1 l2 Hl.
      rewrite (Forall2_length H2). apply rel_bind with (R := eq); [apply rel_eq|]. intros r _ <-.
      apply rel_bind with (R := RP); [now apply rel_idx|]. intros p' q' Hp'.
      apply rel_bind with (R := Forall2 RP); [now apply rel_set|]. intros l3 l4 Hl'.
      apply rel_bind with (R := Forall2 RP); [now apply rel_level|]. intros l5 l6 Hl''. cbn. repeat split; assumption.
    - intros [[a1 a2] a3] [[b1 b2] b3] [[H1 H2] H3]. cbn in *. split; assumption.
  Qed.
  Lemma rel_bezier_derivative l m : related_beziers RP l m ->
    related (related_beziers RP) (bezier_derivative l) (bezier_derivative m).
  Proof.
    intros H. unfold bezier_derivative. rewrite (Forall2_length H). apply rel_bind with (R := eq); [apply rel_eq|].
    intros k _ <-. apply rel_bind with (R := Forall2 RP); [|intros a b Hab; exact Hab].
    apply rel_break; [apply rel_repeat; rel|]. intros i a b Hab.
    apply rel_bind with (R := RP); [now apply rel_idx|]. intros p q Hp.
    apply rel_bind with (R := RP); [now apply rel_idx|]. intros p' q' Hp'.
    apply rel_bind with (R := Forall2 RP); [apply rel_set; [exact Hab|rel]|]. intros l1 l2 Hl.
    apply rel_bind with (R := eq); [apply rel_eq|]. intros r _ <-. now split.
  Qed.
  Lemma rel_domain (s : bspline T P) (s' : bspline T Q) : related_splines RP s s' -> knot_domain s = knot_domain s'.
  Proof.
    destruct s as [d k kd p], s' as [d' k' kd' p']. intros (E1 & E2 & E3 & H). cbn in E1, E2, E3, H. subst d' k' kd'.
    destruct kd; unfold knot_domain, knot_domain_unclamped; cbn; rewrite ?(Forall2_length H); reflexivity.
  Qed.
  Lemma rel_span (s : bspline T P) (s' : bspline T Q) t : related_splines RP s s' ->
    knot_span_start_for_t s t = knot_span_start_for_t s' t.
  Proof.
    destruct s as [d k kd p], s' as [d' k' kd' p']. intros (E1 & E2 & E3 & H). cbn in E1, E2, E3, H. subst d' k' kd'.
    destruct kd; unfold knot_span_start_for_t, knot_span_start_for_t_clamped, knot_span_start_for_t_clamped_start,
      knot_span_start_for_t_clamped_end; cbn; rewrite ?(Forall2_length H); reflexivity.
  Qed.
  Lemma rel_load (s : bspline T P) (s' : bspline T Q) k : related_splines RP s s' ->
    related (Forall2 RP) (de_boor_load s k) (de_boor_load s' k).
  Proof.
    intros (E1 & E2 & E3 & H). unfold de_boor_load. rewrite E1. apply rel_for; [apply rel_repeat; rel|].
    intros i a b _ Hab. apply rel_bind with (R := eq); [apply rel_eq|]. intros j _ <-.
    apply rel_bind with (R := RP); [now apply rel_idx|]. intros p q Hp. now apply rel_set.
  Qed.
  Lemma rel_de_boor (s : bspline T P) (s' : bspline T Q) t : related_splines RP s s' ->
    related (related_results RP) (de_boor_iterative s t) (de_boor_iterative s' t).
  Proof.
    intros Hs. pose proof Hs as (E1 & E2 & E3 & H). unfold de_boor_iterative. cbv zeta. rewrite (Forall2_length H), E1, E2.
    apply rel_bind with (R := eq); [apply rel_eq|]. intros kc _ <-. destruct (s_eqb t kc).
    - apply rel_bind with (R := eq); [apply rel_eq|]. intros j _ <-.
      apply rel_bind with (R := RP); [now apply rel_idx|]. intros p q Hp. exact Hp.
    - rewrite (rel_span s s' t Hs). apply rel_bind with (R := eq); [apply rel_eq|]. intros [k|] _ <-; [|reflexivity].
      apply rel_bind with (R := Forall2 RP); [now apply rel_load|]. intros d d' Hd.
      apply rel_bind with (R := related_results (Forall2 RP)).
      + apply rel_for_result; [exact Hd|]. intros r a b Hab. apply rel_for_result; [exact Hab|]. clear a b Hab.
        intros j a b Hab. unfold de_boor_body. apply rel_bind with (R := eq); [apply rel_eq|]. intros al _ <-.
        destruct (s_is_nan al); [reflexivity|].
        apply rel_bind with (R := eq); [apply rel_eq|]. intros j' _ <-.
        apply rel_bind with (R := RP); [now apply rel_idx|]. intros p q Hp.
        apply rel_bind with (R := RP); [now apply rel_idx|]. intros p' q' Hp'.
        apply rel_bind with (R := Forall2 RP); [apply rel_set; [exact Hab|rel]|]. intros u v Huv. exact Huv.
      + intros [a|e] [b|e'] Hab; cbn in Hab; try contradiction.
        * apply rel_bind with (R := RP); [now apply rel_idx|]. intros p q Hp. exact Hp.
        * exact Hab.
  Qed.
  Lemma rel_bspline_eval (s : bspline T P) (s' : bspline T Q) t : related_splines RP s s' ->
    related (related_results RP) (bspline_eval s t) (bspline_eval s' t).
  Proof.
    intros Hs. unfold bspline_eval. rewrite (rel_domain s s' Hs). apply rel_bind with (R := eq); [apply rel_eq|].
    intros dm _ <-. destruct (_ || _); [reflexivity|]. now apply rel_de_boor.
  Qed.
  Lemma rel_eval_or_default (s : bspline T P) (s' : bspline T Q) t : related_splines RP s s' ->
    related RP (eval_or_default s t) (eval_or_default s' t).
  Proof.
    intros Hs. unfold eval_or_default. apply rel_bind with (R := related_results RP); [now apply rel_bspline_eval|].
    intros [a|e] [b|e'] Hab; cbn in *; try contradiction; rel.
  Qed.
  Lemma rel_bspline_derivative (s : bspline T P) (s' : bspline T Q) : related_splines RP s s' ->
    related (related_splines RP) (bspline_derivative s) (bspline_derivative s').
  Proof.
    intros (E1 & E2 & E3 & H). unfold bspline_derivative. cbv zeta. rewrite (Forall2_length H), E1, E2, E3.
    apply rel_bind with (R := eq); [apply rel_eq|]. intros c _ <-.
    apply rel_bind with (R := eq); [apply rel_eq|]. intros d _ <-.
    apply rel_bind with (R := Forall2 RP); [|intros a b Hab; now repeat split].
    apply rel_break; [apply rel_repeat; rel|]. intros i a b Hab.
    apply rel_bind with (R := RP); [now apply rel_idx|]. intros p q Hp.
    apply rel_bind with (R := RP); [now apply rel_idx|]. intros p' q' Hp'.
    apply rel_bind with (R := eq); [apply rel_eq|]. intros u _ <-.
    apply rel_bind with (R := eq); [apply rel_eq|]. intros v _ <-.
    apply rel_bind with (R := Forall2 RP); [apply rel_set; [exact Hab|rel]|]. intros l1 l2 Hl.
    apply rel_bind with (R := eq); [apply rel_eq|]. intros r _ <-. now split.
  Qed.
End Lin.

Section Sim.
  Context {T P Q : Type} {ST : Scalar T} {PT : Point T P} {QT : Point T Q} {RT : T -> T -> Prop} {RP : P -> Q -> Prop}.
  Variable S' : sim RT RP.
  Let S := sim_lin _ _ S'.
  Ltac rel :=
    repeat first
      [ assumption | apply (sim_refl _ _ S) | apply (sim_padd _ _ S) | apply (sim_psub _ _ S) | apply (sim_pmul _ _ S)
      | apply (sim_psqlen _ _ S') | apply (sim_add _ _ S) | apply (sim_sub _ _ S) | apply (sim_mul _ _ S)
      | apply (sim_neg _ _ S) | apply (sim_sqrt _ _ S') | apply (sim_pdefault _ _ S) ].

  Lemma rel_line_distance l m p q : related_lines RP l m -> RP p q ->
    related RT (line_distance_to_point l p) (line_distance_to_point m q).
  Proof.
    intros (A & B) Hp. unfold line_distance_to_point. cbv zeta.
    assert (L : RT (p_sqlen (p_sub (l_end l) (l_start l))) (p_sqlen (p_sub (l_end m) (l_start m)))) by rel.
    rewrite (sim_ltb _ _ S' _ _ _ s_eps L (sim_refl _ _ S _)).
    destruct (s_ltb (p_sqlen (p_sub (l_end m) (l_start m))) s_eps) eqn:E; [cbn; rel|].
    apply rel_bind with (R := RT); [apply (sim_pdot _ _ S'); rel|]. intros a b Hab.
    assert (L' : RT (s_div a (p_sqlen (p_sub (l_end l) (l_start l)))) (s_div b (p_sqlen (p_sub (l_end m) (l_start m))))).
    { apply (sim_div _ _ S'); [exact Hab|exact L|]. rewrite <- E. apply (sim_ltb _ _ S'); rel. }
    rewrite (sim_ltb _ _ S' _ _ _ (s_lit 1) L' (sim_refl _ _ S _)).
    set (u := if s_ltb (s_div b _) _ then _ else _). set (v := if s_ltb (s_div b _) _ then s_div b _ else _).
    assert (Huv : RT u v) by (clear E; unfold u, v; destruct (s_ltb _ (s_lit 1)); [exact L'|rel]).
    rewrite (sim_ltb _ _ S' _ _ _ (s_lit 0) Huv (sim_refl _ _ S _)).
    cbn. destruct (s_ltb v (s_lit 0)); rel.
  Qed.

  Lemma rel_quad_arclen l m n : related_quads RP l m -> related RT (quad_arclen l n) (quad_arclen m n).
  Proof.
    intros H. unfold quad_arclen. apply rel_for; [rel|]. intros i a b _ Hab. cbn [related].
    apply (sim_add _ _ S); [exact Hab|]. apply (sim_sqrt _ _ S'), (sim_psqlen _ _ S'), (sim_psub _ _ S); apply (rel_quad_casteljau S); rel.
  Qed.

  Lemma rel_search (f : T -> outcome P) (g : T -> outcome Q) p q a b :
    (forall t t', RT t t' -> related RP (f t) (g t')) -> RP p q -> RP a b ->
    related RT (search_distance f a p) (search_distance g b q).
  Proof.
    intros Hf Hp Ha. unfold search_distance.
    apply rel_bind with (R := related_pairs RT RT).
    { apply rel_for; [split; cbn; rel|]. intros i st st' _ [H1 H2]. unfold coarse_body.
      apply rel_bind with (R := RP); [apply Hf; rel|]. intros c c' Hc.
      assert (L : RT (p_sqlen (p_sub c p)) (p_sqlen (p_sub c' q))) by rel.
      rewrite (sim_ltb _ _ S' _ _ _ _ L H2). destruct (s_ltb _ _); split; cbn; rel. }
    intros st st' Hst. apply rel_bind with (R := related_pairs RT RT); [|intros u v [_ H]; cbn; rel].
    apply rel_for; [exact Hst|]. clear st st' Hst. intros i st st' _ [H1 H2]. unfold fine_body.
    apply rel_bind with (R := RP); [apply Hf; rel|]. intros c c' Hc.
    assert (L : RT (p_sqlen (p_sub c p)) (p_sqlen (p_sub c' q))) by rel.
    rewrite (sim_ltb _ _ S' _ _ _ _ L H2). destruct (s_ltb _ _); split; cbn; rel.
  Qed.
  Lemma rel_quad_distance l m p q : related_quads RP l m -> RP p q ->
    related RT (quad_distance_to_point l p) (quad_distance_to_point m q).
  Proof.
    intros H Hp. apply rel_search; [|exact Hp|apply H]. intros t t' Ht. cbn. now apply (rel_quad_eval S).
  Qed.
  Lemma rel_quad_is_linear l m tol : related_quads RP l m -> quad_is_linear l tol = quad_is_linear m tol.
  Proof.
    intros (A & B & C). unfold quad_is_linear. apply rel_eq_iff.
    assert (L : RT (p_sqlen (p_sub (q_start l) (q_end l))) (p_sqlen (p_sub (q_start m) (q_end m)))) by rel.
    rewrite (sim_ltb _ _ S' _ _ _ s_eps L (sim_refl _ _ S _)). destruct (s_ltb _ _); [reflexivity|].
    unfold quad_are_points_colinear. apply rel_bind with (R := RT).
    - apply rel_line_distance; [split; assumption|assumption].
    - intros a b Hab. cbn. apply (sim_leb _ _ S'); rel.
  Qed.
  Lemma rel_quad_is_a_point l m tol : related_quads RP l m -> quad_is_a_point l tol = quad_is_a_point m tol.
  Proof.
    intros (A & B & C). unfold quad_is_a_point. f_equal; apply (sim_leb _ _ S'); rel.
  Qed.

  Lemma rel_cubic_arclen l m n : related_cubics RP l m -> related RT (cubic_arclen l n) (cubic_arclen m n).
  Proof.
    intros H. unfold cubic_arclen. apply rel_for; [rel|]. intros i a b _ Hab. cbn [related].
    apply (sim_add _ _ S); [exact Hab|]. apply (sim_sqrt _ _ S'), (sim_psqlen _ _ S'), (sim_psub _ _ S); apply (rel_cubic_casteljau S); rel.
  Qed.
  Lemma rel_cubic_distance l m p q : related_cubics RP l m -> RP p q ->
    related RT (cubic_distance_to_point l p) (cubic_distance_to_point m q).
  Proof.
    intros H Hp. apply rel_search; [|exact Hp|apply H]. intros t t' Ht. cbn. now apply (rel_cubic_eval S).
  Qed.
  Lemma rel_cubic_is_linear l m tol : related_cubics RP l m -> cubic_is_linear l tol = cubic_is_linear m tol.
  Proof.
    intros (A & B & C & D). unfold cubic_is_linear. apply rel_eq_iff.
    assert (L : RT (p_sqlen (p_sub (c_start l) (c_end l))) (p_sqlen (p_sub (c_start m) (c_end m)))) by rel.
    rewrite (sim_ltb _ _ S' _ _ _ s_eps L (sim_refl _ _ S _)). destruct (s_ltb _ _); [reflexivity|].
    unfold cubic_are_points_colinear. apply rel_bind with (R := RT).
    - apply rel_line_distance; [split; assumption|assumption].
    - intros a b Hab. rewrite (sim_leb _ _ S' _ _ _ tol Hab (sim_refl _ _ S _)). destruct (s_leb b tol); [|reflexivity].
      apply rel_bind with (R := RT).
      + apply rel_line_distance; [split; assumption|assumption].
      + intros c d Hcd. cbn. apply (sim_leb _ _ S'); rel.
  Qed.
  Lemma rel_cubic_is_a_point l m tol : related_cubics RP l m -> cubic_is_a_point l tol = cubic_is_a_point m tol.
  Proof.
    intros (A & B & C & D). unfold cubic_is_a_point. f_equal; [f_equal|]; apply (sim_leb _ _ S'); rel.
  Qed.

  Lemma rel_bezier_arclen l m n : related_beziers RP l m -> related RT (bezier_arclen l n) (bezier_arclen m n).
  Proof.
    intros H. unfold bezier_arclen. apply rel_for; [rel|]. intros i a b _ Hab.
    apply rel_bind with (R := RP); [apply (rel_bezier_eval S); rel|]. intros p q Hp.
    apply rel_bind with (R := RP); [apply (rel_bezier_eval S); rel|]. intros p' q' Hp'. cbn. rel.
  Qed.
  Lemma rel_bezier_distance l m p q : related_beziers RP l m -> RP p q ->
    related RT (bezier_distance_to_point l p) (bezier_distance_to_point m q).
  Proof.
    intros H Hp. unfold bezier_distance_to_point. apply rel_bind with (R := RP); [now apply rel_idx|]. intros a b Hab.
    apply rel_search; [|exact Hp|exact Hab]. intros t t' Ht. now apply (rel_bezier_eval S).
  Qed.

  (** B-splines: the knots are the same, so are the spans and the weights *)
  Lemma rel_bspline_arclen (s : bspline T P) (s' : bspline T Q) n : related_splines RP s s' ->
    related RT (bspline_arclen s n) (bspline_arclen s' n).
  Proof.
    intros Hs. unfold bspline_arclen. cbv zeta. rewrite (rel_domain s s' Hs). apply rel_bind with (R := eq); [apply rel_eq|].
    intros dm _ <-. apply rel_for; [rel|]. intros i a b _ Hab.
    apply rel_bind with (R := RP); [now apply (rel_eval_or_default S)|]. intros p q Hp.
    apply rel_bind with (R := RP); [now apply (rel_eval_or_default S)|]. intros p' q' Hp'. cbn. rel.
  Qed.
End Sim.
