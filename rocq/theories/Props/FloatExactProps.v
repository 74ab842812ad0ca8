(** C109: floating-point results without rounding error. *)
From Coq Require Import Reals ZArith List Arith Lia Lra.
From Flocq Require Import Core.Core IEEE754.BinarySingleNaN.
From Verif Require Import Base.Outcome Base.Scalar Model.Point Model.Line Model.Quadratic Model.Cubic Model.Bezier
  Inst.FloatInst Spec.Componentwise Spec.Rounding Spec.FloatPoints Spec.FloatCurves Spec.Bernstein Spec.Scaling Spec.Exact
  Proofs.FloatFacts Proofs.FloatPoint Proofs.FloatBoxCubic Proofs.FloatExact.
Import ListNotations.
Local Open Scope R_scope.

Section C109.
  Context {F : Format} {P : Type} {PT : Point float P} {CP : CwPoint float P}.

  (** Control points are multiples of 2^g of magnitude at most M, [t] is one of 2^b in
      [0, 1], and all multiples of the finest grid that can come up are floats. *)
  Section Curves.
  Variables (g b : Z) (M : R) (t : float) (i : nat).
  Hypotheses (Hg : (g <= 0)%Z) (Hb : (b <= 0)%Z) (HM : 1 <= M).
  Hypotheses (Ft : fin t) (Gt : on_grid b t) (Rt : 0 <= val t <= 1) (Hi : (i < p_dim (P := P))%nat).

  Theorem C109_line (c : line P) : room (g + b) (2 * M) -> coarse_point g M (l_start c) -> coarse_point g M (l_end c) ->
    is (cw (line_eval c t) i) (exact_at [l_start c; l_end c] (val t) i).
  Proof. intros R A B. destruct (line_exact g b M t i Hb Ft Gt Rt Hi c R A B) as (X & Y & _). now split. Qed.

  Theorem C109_quad (c : quad P) : room (g + 2 * b) (2 * M) -> (forall p, In p (quad_control_points c) -> coarse_point g M p) ->
    is (cw (quad_eval c t) i) (exact_at (quad_control_points c) (val t) i) /\
    is (cw (quad_eval_casteljau c t) i) (exact_at (quad_control_points c) (val t) i) /\
    exists x, quad_axis c t i = Ret x /\ is x (exact_at (quad_control_points c) (val t) i).
  Proof.
    intros R H. assert (A := H _ (or_introl eq_refl)). assert (B := H _ (or_intror (or_introl eq_refl))).
    assert (C := H _ (or_intror (or_intror (or_introl eq_refl)))).
    destruct (quad_exact g b M t i Hg Hb HM Ft Gt Rt Hi c A B C R) as (X & Y & _).
    destruct (quad_casteljau_exact g b M t i Hb Ft Gt Rt Hi c A B C R) as (X' & Y' & _).
    destruct (quad_axis_exact g b M t i Hg Hb HM Ft Gt Rt Hi c A B C R) as (x & E & X'' & Y'' & _).
    split; [now split|]. split; [now split|]. exists x. split; [exact E|now split].
  Qed.
  (** both pieces follow the curve exactly, and are again multiples of a grid *)
  Theorem C109_quad_split (c l r : quad P) : room (g + 2 * b) (2 * M) ->
    (forall p, In p (quad_control_points c) -> coarse_point g M p) -> quad_split c t = (l, r) ->
    (forall p, In p (quad_control_points l ++ quad_control_points r) ->
       fin (cw p i) /\ on_grid (g + 2 * b) (cw p i) /\ Rabs (val (cw p i)) <= M) /\
    forall s, exact_at (quad_control_points l) s i = exact_at (quad_control_points c) (val t * s) i /\
              exact_at (quad_control_points r) s i = exact_at (quad_control_points c) (val t + s * (1 - val t)) i.
  Proof.
    intros R H E. assert (A := H _ (or_introl eq_refl)). assert (B := H _ (or_intror (or_introl eq_refl))).
    assert (C := H _ (or_intror (or_intror (or_introl eq_refl)))).
    pose proof (quad_split_exact g b M t i Hg Hb HM Ft Gt Rt Hi c A B C R) as X. rewrite E in X. destruct X as [X Y].
    split; [|exact Y]. intros p Hp. destruct (X p Hp) as (X1 & _ & X3 & X4). auto.
  Qed.

  Theorem C109_cubic (c : cubic P) : room (g + 3 * b) (3 * M) -> (forall p, In p (cubic_control_points c) -> coarse_point g M p) ->
    is (cw (cubic_eval c t) i) (exact_at (cubic_control_points c) (val t) i) /\
    is (cw (cubic_eval_casteljau c t) i) (exact_at (cubic_control_points c) (val t) i) /\
    exists x, cubic_axis c t i = Ret x /\ is x (exact_at (cubic_control_points c) (val t) i).
  Proof.
    intros R H. assert (A := H _ (or_introl eq_refl)). assert (B := H _ (or_intror (or_introl eq_refl))).
    assert (C := H _ (or_intror (or_intror (or_introl eq_refl)))). assert (D := H _ (or_intror (or_intror (or_intror (or_introl eq_refl))))).
    assert (R' : room (g + 3 * b) (2 * M)) by (apply room_lower with (g + 3 * b)%Z (3 * M); [exact R|lia|lra]).
    destruct (cubic_exact g b M t i Hg Hb HM Ft Gt Rt Hi c A B C D R) as (X & Y & _).
    destruct (cubic_casteljau_exact g b M t i Hb Ft Gt Rt Hi c A B C D R') as (X' & Y' & _).
    destruct (cubic_axis_exact g b M t i Hg Hb HM Ft Gt Rt Hi c A B C D R) as (x & E & X'' & Y'' & _).
    split; [now split|]. split; [now split|]. exists x. split; [exact E|now split].
  Qed.
  Theorem C109_cubic_split (c l r : cubic P) : room (g + 3 * b) (2 * M) ->
    (forall p, In p (cubic_control_points c) -> coarse_point g M p) -> cubic_split c t = (l, r) ->
    (forall p, In p (cubic_control_points l ++ cubic_control_points r) ->
       fin (cw p i) /\ on_grid (g + 3 * b) (cw p i) /\ Rabs (val (cw p i)) <= M) /\
    forall s, exact_at (cubic_control_points l) s i = exact_at (cubic_control_points c) (val t * s) i /\
              exact_at (cubic_control_points r) s i = exact_at (cubic_control_points c) (val t + s * (1 - val t)) i.
  Proof.
    intros R H E. assert (A := H _ (or_introl eq_refl)). assert (B := H _ (or_intror (or_introl eq_refl))).
    assert (C := H _ (or_intror (or_intror (or_introl eq_refl)))). assert (D := H _ (or_intror (or_intror (or_intror (or_introl eq_refl))))).
    pose proof (cubic_split_exact g b M t i Hb Ft Gt Rt Hi c A B C D R) as X. rewrite E in X. destruct X as [X Y].
    split; [|exact Y]. intros p Hp. destruct (X p Hp) as (X1 & _ & X3 & X4). auto.
  Qed.

  Theorem C109_bezier (ps : list P) n : length ps = S n -> room (g + Z.of_nat n * b) M ->
    (forall p, In p ps -> coarse_point g M p) ->
    exists p, bezier_eval (Bezier ps) t = Ret p /\ is (cw p i) (exact_at ps (val t) i).
  Proof.
    intros Hn R H. destruct (bezier_exact g b M t i Hg Hb HM Ft Gt Rt Hi ps n Hn R H) as (p & E & X & Y & _).
    exists p. split; [exact E|now split].
  Qed.
  Theorem C109_bezier_split (ps : list P) n : length ps = S n -> room (g + Z.of_nat n * b) M ->
    (forall p, In p ps -> coarse_point g M p) ->
    exists l r, bezier_split (Bezier ps) t = Ret (Bezier l, Bezier r) /\
      (forall p, In p (l ++ r) -> fin (cw p i) /\ on_grid (g + Z.of_nat n * b) (cw p i) /\ Rabs (val (cw p i)) <= M) /\
      forall s, exact_at l s i = exact_at ps (val t * s) i /\ exact_at r s i = exact_at ps (val t + s * (1 - val t)) i.
  Proof.
    intros Hn R H. destruct (bezier_split_exact g b M t i Hg Hb HM Ft Gt Rt Hi ps n Hn R H) as (l & r & E & X & Y).
    exists l, r. split; [exact E|]. split; [|exact Y]. intros p Hp. destruct (X p Hp) as (X1 & _ & X3 & X4). auto.
  Qed.
  End Curves.

  (** the derivative curve is the exact one *)
  Section Derivatives.
  Variables (g : Z) (M : R) (i : nat).
  Hypotheses (Hi : (i < p_dim (P := P))%nat).
  Theorem C109_line_derivative (c : line P) : room g (2 * M) -> coarse_point g M (l_start c) -> coarse_point g M (l_end c) ->
    is (cw (line_derivative c) i) (val (cw (l_end c) i) - val (cw (l_start c) i)).
  Proof. intros R A B. destruct (line_derivative_exact g M i Hi c R A B) as (X & Y & _). now split. Qed.
  Theorem C109_quad_derivative (c : quad P) s : room g (4 * M) -> (forall p, In p (quad_control_points c) -> coarse_point g M p) ->
    let l := quad_derivative c in
    fin (cw (l_start l) i) /\ fin (cw (l_end l) i) /\
    derivable_pt_lim (fun s => exact_at (quad_control_points c) s i) s (exact_at [l_start l; l_end l] s i).
  Proof.
    intros R H l. destruct (quad_derivative_exact g M i Hi c s R H) as ((X & _) & (Y & _) & Z). auto.
  Qed.
  Theorem C109_cubic_derivative (c : cubic P) s : room g (6 * M) -> (forall p, In p (cubic_control_points c) -> coarse_point g M p) ->
    let q := cubic_derivative c in
    (forall p, In p (quad_control_points q) -> fin (cw p i)) /\
    derivable_pt_lim (fun s => exact_at (cubic_control_points c) s i) s (exact_at (quad_control_points q) s i).
  Proof.
    intros R H q. destruct (cubic_derivative_exact g M i Hi c s R H) as (X & Z).
    split; [|exact Z]. intros p Hp. destruct (X p Hp) as (Y & _). exact Y.
  Qed.
  Theorem C109_bezier_derivative (ps : list P) n s : length ps = S n -> (1 <= n)%nat -> (Z.of_nat n <= 2 ^ fprec)%Z ->
    room g (2 * INR n * M) -> (forall p, In p ps -> coarse_point g M p) ->
    exists qs, bezier_derivative (Bezier ps) = Ret (Bezier qs) /\ (forall p, In p qs -> fin (cw p i)) /\
      derivable_pt_lim (fun s => exact_at ps s i) s (exact_at qs s i).
  Proof.
    intros Hn N1 N2 R H. destruct (bezier_derivative_exact g M i Hi ps n s Hn N1 N2 R H) as (qs & E & X & Z).
    exists qs. split; [exact E|]. split; [|exact Z]. intros p Hp. destruct (X p Hp) as (Y & _). exact Y.
  Qed.
  End Derivatives.
End C109.

Section Pixels.
  Local Existing Instance Binary64.
  (** f64: integer control points up to a million and parameters k/256 *)
  Lemma room_pixels : room (0 + 3 * -8) (3 * 1048576).
  Proof. unfold room, least. cbn [fprec femax Binary64]. split; [lia|]. split.
    - change (0 + 3 * -8 + 53)%Z with 29%Z. cbn. lra.
    - apply Rle_trans with (bpow radix2 29); [cbn; lra|apply bpow_le; lia].
  Qed.
  Example C109_pixels (c : cubic (PointN float 2)) (k : Z) : (0 <= k <= 256)%Z ->
    (forall p, In p (cubic_control_points c) -> forall i, (i < 2)%nat ->
       fin (cw p i) /\ (exists z : Z, val (cw p i) = IZR z) /\ Rabs (val (cw p i)) <= 1048576) ->
    forall i, (i < 2)%nat ->
    is (cw (cubic_eval c (flt k (-8))) i) (exact_at (cubic_control_points c) (IZR k / 256) i).
  Proof.
    intros Hk H i Hi.
    assert (E : bpow radix2 (-8) = / 256) by reflexivity.
    assert (K : 0 <= IZR k <= 256) by (split; apply IZR_le; lia).
    destruct (flt_ok k (-8)) as [Fk Vk]; [cbn; lia|cbn; lia| |].
    { rewrite E. rewrite Rabs_pos_eq by lra. pose proof fmax_ge. lra. }
    replace (IZR k / 256) with (val (flt k (-8))) by (rewrite Vk, E; reflexivity).
    apply (C109_cubic 0 (-8) 1048576); auto; try lia; try lra.
    - exists k. exact Vk.
    - rewrite Vk, E. lra.
    - exact room_pixels.
    - intros p Hp j Hj. destruct (H p Hp j Hj) as (A & (z & B) & C). split; [exact A|]. split; [|exact C].
      exists z. rewrite B. cbn. ring.
  Qed.
End Pixels.

Section Half.
  Local Existing Instance Binary32.
  (** f32: degree 8, integer control points up to 1024, cut in the middle *)
  Example C109_half (ps : list (PointN float 2)) : length ps = 9%nat ->
    (forall p, In p ps -> forall i, (i < 2)%nat ->
       fin (cw p i) /\ (exists z : Z, val (cw p i) = IZR z) /\ Rabs (val (cw p i)) <= 1024) ->
    forall i, (i < 2)%nat ->
    (exists l r, bezier_split (Bezier ps) (flt 1 (-1)) = Ret (Bezier l, Bezier r) /\
       forall s, exact_at l s i = exact_at ps (s / 2) i /\ exact_at r s i = exact_at ps ((1 + s) / 2) i) /\
    (exists qs, bezier_derivative (Bezier ps) = Ret (Bezier qs) /\
       derivable_pt_lim (fun s => exact_at ps s i) (1 / 3) (exact_at qs (1 / 3) i)).
  Proof.
    intros Hl H i Hi.
    assert (E : bpow radix2 (-1) = / 2) by reflexivity.
    destruct (flt_ok 1 (-1)) as [Fk Vk]; [cbn; lia|cbn; lia| |].
    { rewrite E. rewrite Rabs_pos_eq by lra. pose proof fmax_ge. lra. }
    rewrite E in Vk.
    assert (G : forall p, In p ps -> coarse_point 0 1024 p).
    { intros p Hp j Hj. destruct (H p Hp j Hj) as (A & (z & B) & C). split; [exact A|]. split; [|exact C].
      exists z. rewrite B. cbn. ring. }
    assert (R : forall g B, (- 8 <= g <= 0)%Z -> B <= 65536 -> room g B).
    { intros g B Hg HB. assert (65536 = bpow radix2 16) as E16 by reflexivity. rewrite E16 in HB.
      unfold room, least. cbn [fprec femax Binary32]. split; [lia|].
      split; (eapply Rle_trans; [exact HB|apply bpow_le; lia]). }
    split.
    - destruct (C109_bezier_split 0 (-1) 1024 (flt 1 (-1)) i) with (ps := ps) (n := 8%nat) as (l & r & S & _ & X); auto; try lia; try lra.
      + exists 1%Z. rewrite Vk, E. reflexivity.
      + apply R; [lia|lra].
      + exists l, r. split; [exact S|]. intros s. destruct (X s) as [X1 X2]. rewrite X1, X2, Vk. split; f_equal; field.
    - destruct (C109_bezier_derivative 0 1024 i) with (ps := ps) (n := 8%nat) (s := 1 / 3) as (qs & S & _ & X); auto; try lia; try lra.
      + cbn. lia.
      + apply R; [lia|]. cbn. lra.
      + exists qs. split; [exact S|exact X].
  Qed.
End Half.

Print Assumptions C109_line.
Print Assumptions C109_quad.
Print Assumptions C109_quad_split.
Print Assumptions C109_cubic.
Print Assumptions C109_cubic_split.
Print Assumptions C109_bezier.
Print Assumptions C109_bezier_split.
Print Assumptions C109_line_derivative.
Print Assumptions C109_quad_derivative.
Print Assumptions C109_cubic_derivative.
Print Assumptions C109_bezier_derivative.
