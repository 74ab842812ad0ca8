(** Two formats give the same results on data coarse enough for both. *)
From Coq Require Import Reals ZArith List Arith Lia Lra.
From Flocq Require Import Core.Core IEEE754.BinarySingleNaN.
From Verif Require Import Base.Outcome Base.Scalar Model.Point Model.Line Model.Quadratic Model.Cubic Model.Bezier
  Inst.FloatInst Spec.Componentwise Spec.Rounding Spec.FloatPoints Spec.FloatCurves Spec.Bernstein Spec.Scaling Spec.Exact
  Spec.TwoFormats Proofs.BezierGeneric Proofs.FloatFacts Proofs.FloatPoint Proofs.FloatBoxCubic Proofs.FloatExact Proofs.Unique Props.FloatExactProps.
Import ListNotations.
Local Open Scope R_scope.

Section Two.
  Context {F G : Format} {P Q : Type} {PT : Point (@float F) P} {QT : Point (@float G) Q}
          {CP : CwPoint (@float F) P} {CQ : CwPoint (@float G) Q}.
  Hypothesis Hdim : p_dim (P := P) = p_dim (P := Q).
  Variables (g b : Z) (M : R).
  Hypotheses (Hg : (g <= 0)%Z) (Hb : (b <= 0)%Z) (HM : 1 <= M).
  Variables (t : @float F) (u : @float G).
  Hypotheses (Ft : fin t) (Fu : fin u) (Gt : on_grid b t) (Rt : 0 <= val t <= 1) (Etu : val t = val u).

  Lemma Gu : on_grid b u.
  Proof. destruct Gt as [z Hz]. exists z. now rewrite <- Etu. Qed.
  Lemma Ru : 0 <= val u <= 1.
  Proof. now rewrite <- Etu. Qed.

  Lemma coarse_same (p : P) (q : Q) : coarse_point g M p -> same_point p q -> coarse_point g M q.
  Proof.
    intros C S i Hi. rewrite <- Hdim in Hi. destruct (C i Hi) as (A & (z & B) & D). destruct (S i Hi) as (X & Y & Z).
    split; [exact Y|]. split; [exists z|]; rewrite <- Z; assumption.
  Qed.
  Lemma coarse_same_all (ps : list P) (qs : list Q) : Forall2 same_point ps qs ->
    (forall p, In p ps -> coarse_point g M p) -> forall q, In q qs -> coarse_point g M q.
  Proof.
    induction 1 as [|p q ps qs S _ IH]; intros C y Hy; [easy|]. destruct Hy as [<-|Hy].
    - apply coarse_same with p; [apply C; now left|exact S].
    - apply IH; [|exact Hy]. intros x Hx. apply C. now right.
  Qed.
  Lemma exact_same (ps : list P) (qs : list Q) s i : (i < p_dim (P := P))%nat -> Forall2 same_point ps qs ->
    exact_at ps s i = exact_at qs s i.
  Proof.
    intros Hi H. unfold exact_at. f_equal. induction H as [|p q ps qs S _ IH]; [reflexivity|]. cbn. f_equal; [|exact IH].
    now destruct (S i Hi) as (_ & _ & ->).
  Qed.
  Lemma same_of (p : P) (q : Q) : (forall i, (i < p_dim (P := P))%nat -> exists r, is (cw p i) r /\ is (cw q i) r) -> same_point p q.
  Proof. intros H i Hi. destruct (H i Hi) as (r & (A & B) & (C & D)). repeat split; auto. now rewrite B, D. Qed.

  (** curves with the same values have the same coordinates *)
  Lemma same_lists (ps : list P) (qs : list Q) : length ps = length qs ->
    (forall i, (i < p_dim (P := P))%nat -> (forall p, In p ps -> fin (cw p i)) /\ (forall q, In q qs -> fin (cw q i)) /\
       forall s, exact_at ps s i = exact_at qs s i) -> Forall2 same_point ps qs.
  Proof.
    intros L H.
    assert (X : forall i, (i < p_dim (P := P))%nat -> map (fun p => val (cw p i)) ps = map (fun q => val (cw q i)) qs).
    { intros i Hi. destruct (H i Hi) as (_ & _ & V).
      apply poly_unique with (map (fun k => 0 + 1 * INR k) (seq 0 (length ps))).
      - now rewrite !map_length.
      - apply scaled_nodup. lra.
      - now rewrite !map_length, seq_length.
      - intros s _. apply V. }
    assert (Y : forall i, (i < p_dim (P := P))%nat -> (forall p, In p ps -> fin (cw p i)) /\ (forall q, In q qs -> fin (cw q i))).
    { intros i Hi. destruct (H i Hi) as (A & B & _). now split. }
    clear H. revert qs L X Y. induction ps as [|p ps IH]; intros [|q qs] L X Y; try discriminate; constructor.
    - intros i Hi. destruct (Y i Hi) as [A B]. specialize (X i Hi). injection X as X _.
      split; [apply A; now left|]. split; [apply B; now left|exact X].
    - apply IH; [now injection L| |].
      + intros i Hi. specialize (X i Hi). now injection X.
      + intros i Hi. destruct (Y i Hi) as [A B]. split; intros x Hx; [apply A|apply B]; now right.
  Qed.

  Lemma same_length (ps : list P) (qs : list Q) : Forall2 same_point ps qs -> length qs = length ps.
  Proof. induction 1; cbn; congruence. Qed.

  (** both sides are the exact value *)
  Lemma same_eval (ps : list P) (qs : list Q) (p : P) (q : Q) : Forall2 same_point ps qs ->
    (forall i, (i < p_dim (P := P))%nat -> is (cw p i) (exact_at ps (val t) i)) ->
    (forall i, (i < p_dim (P := Q))%nat -> is (cw q i) (exact_at qs (val u) i)) -> same_point p q.
  Proof.
    intros S A B. apply same_of. intros i Hi. exists (exact_at ps (val t) i). split; [now apply A|].
    rewrite (exact_same ps qs) by auto. rewrite Etu. apply B. now rewrite <- Hdim.
  Qed.

  Lemma line_two_exact (c : line P) (d : line Q) : @room F (g + b) (2 * M) -> @room G (g + b) (2 * M) ->
    coarse_point g M (l_start c) -> coarse_point g M (l_end c) ->
    same_point (l_start c) (l_start d) -> same_point (l_end c) (l_end d) -> same_point (line_eval c t) (line_eval d u).
  Proof.
    intros RF RG A B S1 S2. apply (same_eval [l_start c; l_end c] [l_start d; l_end d]);
      [constructor; [exact S1|constructor; [exact S2|constructor]]| |];
      intros i Hi.
    - now apply (C109_line g b M).
    - apply (C109_line g b M); auto using Gu, Ru; eauto using coarse_same.
  Qed.

  Lemma quad_two_exact (c : quad P) (d : quad Q) : @room F (g + 2 * b) (2 * M) -> @room G (g + 2 * b) (2 * M) ->
    (forall p, In p (quad_control_points c) -> coarse_point g M p) ->
    Forall2 same_point (quad_control_points c) (quad_control_points d) ->
    same_point (quad_eval c t) (quad_eval d u) /\ same_point (quad_eval_casteljau c t) (quad_eval_casteljau d u).
  Proof.
    intros RF RG C S. pose proof (coarse_same_all _ _ S C) as D.
    split; apply (same_eval _ _ _ _ S); intros i Hi.
    - now apply (C109_quad g b M t i).
    - apply (C109_quad g b M u i); auto using Gu, Ru.
    - now apply (C109_quad g b M t i).
    - apply (C109_quad g b M u i); auto using Gu, Ru.
  Qed.
  Lemma cubic_two_exact (c : cubic P) (d : cubic Q) : @room F (g + 3 * b) (3 * M) -> @room G (g + 3 * b) (3 * M) ->
    (forall p, In p (cubic_control_points c) -> coarse_point g M p) ->
    Forall2 same_point (cubic_control_points c) (cubic_control_points d) ->
    same_point (cubic_eval c t) (cubic_eval d u) /\ same_point (cubic_eval_casteljau c t) (cubic_eval_casteljau d u).
  Proof.
    intros RF RG C S. pose proof (coarse_same_all _ _ S C) as D.
    split; apply (same_eval _ _ _ _ S); intros i Hi.
    - now apply (C109_cubic g b M t i).
    - apply (C109_cubic g b M u i); auto using Gu, Ru.
    - now apply (C109_cubic g b M t i).
    - apply (C109_cubic g b M u i); auto using Gu, Ru.
  Qed.
  Lemma bezier_two_exact (ps : list P) (qs : list Q) n : length ps = S n ->
    @room F (g + Z.of_nat n * b) M -> @room G (g + Z.of_nat n * b) M ->
    (forall p, In p ps -> coarse_point g M p) -> Forall2 same_point ps qs ->
    exists p q, bezier_eval (Bezier ps) t = Ret p /\ bezier_eval (Bezier qs) u = Ret q /\ same_point p q.
  Proof.
    intros L RF RG C S. pose proof (coarse_same_all _ _ S C) as D.
    assert (L' : length qs = Datatypes.S n) by (rewrite <- L; now apply same_length).
    assert (Ep := bezier_eval_closed ps t p_default ltac:(now intros ->)).
    assert (Eq := bezier_eval_closed qs u p_default ltac:(now intros ->)).
    eexists. eexists. split; [exact Ep|]. split; [exact Eq|]. apply (same_eval _ _ _ _ S); intros i Hi.
    - destruct (C109_bezier g b M t i Hg Hb HM Ft Gt Rt Hi ps n L RF C) as (p' & Ep' & X). rewrite Ep in Ep'. injection Ep' as <-. exact X.
    - destruct (C109_bezier g b M u i Hg Hb HM Fu Gu Ru Hi qs n L' RG D) as (q' & Eq' & X). rewrite Eq in Eq'. injection Eq' as <-. exact X.
  Qed.

  Lemma quad_split_two (c : quad P) (d : quad Q) : @room F (g + 2 * b) (2 * M) -> @room G (g + 2 * b) (2 * M) ->
    (forall p, In p (quad_control_points c) -> coarse_point g M p) ->
    Forall2 same_point (quad_control_points c) (quad_control_points d) ->
    Forall2 same_point (quad_control_points (fst (quad_split c t))) (quad_control_points (fst (quad_split d u))) /\
    Forall2 same_point (quad_control_points (snd (quad_split c t))) (quad_control_points (snd (quad_split d u))).
  Proof.
    intros RF RG C S. pose proof (coarse_same_all _ _ S C) as D.
    destruct (quad_split c t) as [l r] eqn:E1. destruct (quad_split d u) as [l' r'] eqn:E2. cbn [fst snd].
    split; (apply same_lists; [reflexivity|]); intros i Hi;
      assert (Hj : (i < p_dim (P := Q))%nat) by (rewrite <- Hdim; exact Hi);
      destruct (C109_quad_split g b M t i Hg Hb HM Ft Gt Rt Hi c l r RF C E1) as (X1 & X2);
      destruct (C109_quad_split g b M u i Hg Hb HM Fu Gu Ru Hj d l' r' RG D E2) as (Y1 & Y2).
    - split; [intros p Hp; apply X1, in_or_app; now left|]. split; [intros p Hp; apply Y1, in_or_app; now left|].
      intros s. rewrite (proj1 (X2 s)), (proj1 (Y2 s)), Etu. now apply exact_same.
    - split; [intros p Hp; apply X1, in_or_app; now right|]. split; [intros p Hp; apply Y1, in_or_app; now right|].
      intros s. rewrite (proj2 (X2 s)), (proj2 (Y2 s)), Etu. now apply exact_same.
  Qed.
  Lemma cubic_split_two (c : cubic P) (d : cubic Q) : @room F (g + 3 * b) (2 * M) -> @room G (g + 3 * b) (2 * M) ->
    (forall p, In p (cubic_control_points c) -> coarse_point g M p) ->
    Forall2 same_point (cubic_control_points c) (cubic_control_points d) ->
    Forall2 same_point (cubic_control_points (fst (cubic_split c t))) (cubic_control_points (fst (cubic_split d u))) /\
    Forall2 same_point (cubic_control_points (snd (cubic_split c t))) (cubic_control_points (snd (cubic_split d u))).
  Proof.
    intros RF RG C S. pose proof (coarse_same_all _ _ S C) as D.
    destruct (cubic_split c t) as [l r] eqn:E1. destruct (cubic_split d u) as [l' r'] eqn:E2. cbn [fst snd].
    split; (apply same_lists; [reflexivity|]); intros i Hi;
      assert (Hj : (i < p_dim (P := Q))%nat) by (rewrite <- Hdim; exact Hi);
      destruct (C109_cubic_split g b M t i Hb Ft Gt Rt Hi c l r RF C E1) as (X1 & X2);
      destruct (C109_cubic_split g b M u i Hb Fu Gu Ru Hj d l' r' RG D E2) as (Y1 & Y2).
    - split; [intros p Hp; apply X1, in_or_app; now left|]. split; [intros p Hp; apply Y1, in_or_app; now left|].
      intros s. rewrite (proj1 (X2 s)), (proj1 (Y2 s)), Etu. now apply exact_same.
    - split; [intros p Hp; apply X1, in_or_app; now right|]. split; [intros p Hp; apply Y1, in_or_app; now right|].
      intros s. rewrite (proj2 (X2 s)), (proj2 (Y2 s)), Etu. now apply exact_same.
  Qed.
  Lemma bezier_split_two (ps : list P) (qs : list Q) n : length ps = S n ->
    @room F (g + Z.of_nat n * b) M -> @room G (g + Z.of_nat n * b) M ->
    (forall p, In p ps -> coarse_point g M p) -> Forall2 same_point ps qs ->
    exists l r l' r', bezier_split (Bezier ps) t = Ret (Bezier l, Bezier r) /\ bezier_split (Bezier qs) u = Ret (Bezier l', Bezier r') /\
      Forall2 same_point l l' /\ Forall2 same_point r r'.
  Proof.
    intros L RF RG C S. pose proof (coarse_same_all _ _ S C) as D.
    assert (L' : length qs = Datatypes.S n) by (rewrite <- L; now apply same_length).
    destruct (bezier_split_closed ps t p_default) as (l & r & Es & Ll & Lr & _).
    destruct (bezier_split_closed qs u p_default) as (l' & r' & Es' & Ll' & Lr' & _).
    exists l, r, l', r'. split; [exact Es|]. split; [exact Es'|].
    split; (apply same_lists; [congruence|]); intros i Hi;
      assert (Hj : (i < p_dim (P := Q))%nat) by (rewrite <- Hdim; exact Hi);
      destruct (C109_bezier_split g b M t i Hg Hb HM Ft Gt Rt Hi ps n L RF C) as (x1 & x2 & E1 & X1 & X2);
      rewrite Es in E1; injection E1 as <- <-;
      destruct (C109_bezier_split g b M u i Hg Hb HM Fu Gu Ru Hj qs n L' RG D) as (y1 & y2 & E2 & Y1 & Y2);
      rewrite Es' in E2; injection E2 as <- <-.
    - split; [intros p Hp; apply X1, in_or_app; now left|]. split; [intros p Hp; apply Y1, in_or_app; now left|].
      intros s. rewrite (proj1 (X2 s)), (proj1 (Y2 s)), Etu. now apply exact_same.
    - split; [intros p Hp; apply X1, in_or_app; now right|]. split; [intros p Hp; apply Y1, in_or_app; now right|].
      intros s. rewrite (proj2 (X2 s)), (proj2 (Y2 s)), Etu. now apply exact_same.
  Qed.
End Two.
