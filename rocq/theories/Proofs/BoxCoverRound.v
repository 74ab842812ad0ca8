(** Boxes of the pieces after repeated halving in IEEE arithmetic. *)
From Coq Require Import Reals ZArith List Arith Lia Lra Psatz Bool.
From Flocq Require Import Core.Core IEEE754.BinarySingleNaN.
From Verif Require Import Base.Outcome Base.Scalar Model.Point Model.Line Model.Quadratic Model.Cubic
  Inst.FloatInst Spec.Sums Spec.Bernstein Spec.Rounding Spec.Componentwise Spec.FloatCurves Spec.FloatBoxes Spec.Subdivision Spec.Boxes
  Proofs.PointFacts Proofs.Metric Proofs.FloatFacts Proofs.ExactEval Proofs.FloatNear Spec.FloatPoints Proofs.FloatNorm Proofs.FloatCurve
  Proofs.FloatFlat Proofs.FloatBoxQuad Proofs.AdaptiveRound Proofs.BoxCover.
Import ListNotations.
Local Open Scope R_scope.

Section Generic.
  Context {A : Type}.
  Variables (n : nat) (eval : A -> R -> nat -> R) (good : R -> R -> A -> Prop) (halve : A -> A * A).
  Variables M dN dW er : R.
  Hypotheses (HdN : 0 <= dN)
    (Hhalf : forall N W c, good N W c -> N + dN <= M ->
      good (N + dN) (W / 2 + dW) (fst (halve c)) /\ good (N + dN) (W / 2 + dW) (snd (halve c)) /\
      forall s i, 0 <= s <= 1 -> (i < n)%nat ->
        Rabs (eval (fst (halve c)) s i - eval c (s / 2) i) <= er /\
        Rabs (eval (snd (halve c)) s i - eval c (/ 2 + s / 2) i) <= er).

  Lemma halved_round k : forall N W c, good N W c -> N + INR k * dN <= M ->
    exists l, halved (fun c => Ret (halve c)) k c = Ret l /\ length l = (2 ^ k)%nat /\
      forall i q, nth_error l i = Some q -> good (N + INR k * dN) ((W - 2 * dW) / 2 ^ k + 2 * dW) q /\
        forall u j, 0 <= u <= 1 -> (j < n)%nat -> Rabs (eval q u j - eval c ((INR i + u) / 2 ^ k) j) <= INR k * er.
  Proof.
    induction k as [|k IH]; intros N W c G HN.
    - exists [c]. split; [reflexivity|]. split; [reflexivity|]. intros [|[|i]] q; try discriminate. intros [= <-].
      cbn [INR pow]. split.
      + replace (N + 0 * dN) with N by ring. replace ((W - 2 * dW) / 1 + 2 * dW) with W by field. exact G.
      + intros u j _ _. replace ((0 + u) / 1) with u by field. rewrite Rminus_diag_eq, Rabs_R0 by reflexivity. lra.
    - rewrite S_INR in *. pose proof (pos_INR k) as Pk. assert (P0 : 0 <= INR k * dN) by nra.
      assert (Pw : 2 ^ k <> 0) by (apply pow_nonzero; lra).
      destruct (Hhalf N W c G ltac:(lra)) as (G1 & G2 & HE).
      destruct (IH _ _ _ G1 ltac:(lra)) as (l & El & Ll & Hl). destruct (IH _ _ _ G2 ltac:(lra)) as (r & Er & Lr & Hr).
      exists (l ++ r). cbn [halved bind]. rewrite El, Er. cbn [bind]. split; [reflexivity|].
      split; [rewrite app_length; cbn [Nat.pow]; lia|].
      assert (E1 : N + dN + INR k * dN = N + (INR k + 1) * dN) by ring.
      assert (E2 : (W / 2 + dW - 2 * dW) / 2 ^ k + 2 * dW = (W - 2 * dW) / 2 ^ S k + 2 * dW) by (cbn [pow]; field; exact Pw).
      rewrite E1, E2 in Hl, Hr. intros i q Hq. destruct (Nat.lt_ge_cases i (2 ^ k)) as [Hi|Hi].
      + rewrite nth_error_app1 in Hq by lia. destruct (Hl i q Hq) as [Gq Hb]. split; [exact Gq|]. intros u j Hu Hj.
        pose proof (part_of k i u Hi Hu) as Hp. destruct (HE _ j Hp Hj) as [X _]. specialize (Hb u j Hu Hj).
        replace ((INR i + u) / 2 ^ S k) with ((INR i + u) / 2 ^ k / 2) by (cbn [pow]; field; exact Pw).
        pose proof (Rabs_triang (eval q u j - eval (fst (halve c)) ((INR i + u) / 2 ^ k) j)
          (eval (fst (halve c)) ((INR i + u) / 2 ^ k) j - eval c ((INR i + u) / 2 ^ k / 2) j)) as Y.
        match type of Y with Rabs ?z <= _ => replace z with (eval q u j - eval c ((INR i + u) / 2 ^ k / 2) j) in Y by ring end.
        lra.
      + rewrite nth_error_app2 in Hq by lia. rewrite Ll in Hq. destruct (Hr _ q Hq) as [Gq Hb]. split; [exact Gq|]. intros u j Hu Hj.
        assert (Hi' : (i - 2 ^ k < 2 ^ k)%nat) by (rewrite <- Lr; apply nth_error_Some; congruence).
        pose proof (part_of k (i - 2 ^ k) u Hi' Hu) as Hp. destruct (HE _ j Hp Hj) as [_ X]. specialize (Hb u j Hu Hj).
        replace ((INR i + u) / 2 ^ S k) with (/ 2 + (INR (i - 2 ^ k) + u) / 2 ^ k / 2).
        2:{ rewrite minus_INR, pow_INR by lia. change (INR 2) with (1 + 1). replace (1 + 1) with 2 by ring. cbn [pow]. field. exact Pw. }
        set (v := (INR (i - 2 ^ k) + u) / 2 ^ k) in *.
        pose proof (Rabs_triang (eval q u j - eval (snd (halve c)) v j) (eval (snd (halve c)) v j - eval c (/ 2 + v / 2) j)) as Y.
        match type of Y with Rabs ?z <= _ => replace z with (eval q u j - eval c (/ 2 + v / 2) j) in Y by ring end.
        lra.
  Qed.
End Generic.

Section Quad.
  Context {F : Format} {P : Type} {PT : Point float P} {CP : CwPoint float P}.
  Notation D := (p_dim (P := P)).
  Variables M : R.
  Hypotheses (HM : 0 <= M) (HB : 4 * M <= uro * fmax).
  Hypothesis Big : 64 * INR (D + 1) * ((M + 1) * (M + 1)) <= fmax.
  Variable h : float.
  Hypotheses (Fh : fin h) (Vh : val h = / 2).
  Notation step := (6 * uro * M + 2 * eta).

  Lemma quad_spread W (q : quad P) N t i : quad_good N W q -> (i < D)%nat -> 0 <= t <= 1 ->
    Rabs (exact_at (quad_control_points q) t i - val (cw (q_ctrl q) i)) <= W.
  Proof.
    intros G Hi Ht. destruct (G i Hi) as (_ & _ & _ & L1 & L2). unfold exact_at.
    cbn [map quad_control_points]. rewrite quad_poly.
    set (a := val (cw (q_start q) i)) in *. set (b := val (cw (q_ctrl q) i)) in *. set (c := val (cw (q_end q) i)) in *.
    match goal with |- Rabs ?z <= _ => replace z with ((1 - t) * (1 - t) * (a - b) + t * t * (c - b)) by ring end.
    rewrite (Rabs_minus_sym b a) in L1.
    eapply Rle_trans; [apply Rabs_triang|]. rewrite !Rabs_mult, !(Rabs_pos_eq t), !(Rabs_pos_eq (1 - t)) by lra.
    
    assert (X1 : (1 - t) * (1 - t) * Rabs (a - b) <= (1 - t) * (1 - t) * W) by (apply Rmult_le_compat_l; [apply Rle_0_sqr|exact L1]).
    assert (X2 : t * t * Rabs (c - b) <= t * t * W) by (apply Rmult_le_compat_l; [apply Rle_0_sqr|exact L2]).
    assert (W0 : 0 <= W) by (pose proof (Rabs_pos (a - b)); lra).
    assert (X3 : ((1 - t) * (1 - t) + t * t) * W <= 1 * W) by (apply Rmult_le_compat_r; [exact W0|nra]). lra.
  Qed.

  Theorem quad_boxes_round (q : quad P) N W k : (forall p, In p (quad_control_points q) -> bounded N p) ->
    (forall i, (i < D)%nat -> Rabs (val (cw (q_ctrl q) i) - val (cw (q_start q) i)) <= W /\
                              Rabs (val (cw (q_end q) i) - val (cw (q_ctrl q) i)) <= W) ->
    N + INR k * (2 * step) <= M ->
    let slack := uro / 4 + 54 * uro * M + 9 * eta + INR k * (11 * uro * M + 3 * eta) in
    exists bs, boxes_of (fun c => Ret (quad_split c h)) quad_bounding_box k q bs /\ length bs = (2 ^ k)%nat /\
      covered D (exact_at (quad_control_points q)) (map real_box bs) slack slack
        (2 * (W / 2 ^ k) + 8 * step + 2 * (11 * uro * M + 3 * eta)).
  Proof.
    intros B HW HN slack. pose proof (step_pos M HM) as S0.
    assert (S1 : 0 <= 2 * step) by lra.
    destruct (halved_round D (fun q => exact_at (quad_control_points q)) quad_good (fun q => quad_split q h) M (2 * step) (2 * step)
      (11 * uro * M + 3 * eta) S1 (fun N W q => quad_half M HM Big h Fh Vh N W q) k N W q) as (l & El & Ll & Hl); [|exact HN|].
    - intros i Hi. destruct (HW i Hi) as [L1 L2].
      assert (B1 := B (q_start q) ltac:(cbn; auto) i Hi). assert (B2 := B (q_ctrl q) ltac:(cbn; auto) i Hi).
      assert (B3 := B (q_end q) ltac:(cbn; auto) i Hi). exact (conj B1 (conj B2 (conj B3 (conj L1 L2)))).
    - apply (pieces_covered D (fun q => exact_at (quad_control_points q)) quad_bounding_box real_box _ q k l
        (uro / 4 + 54 * uro * M + 9 * eta) (uro / 4 + 54 * uro * M + 9 * eta)
        (2 * (W / 2 ^ k) + 8 * step + 2 * (11 * uro * M + 3 * eta)) (INR k * (11 * uro * M + 3 * eta)) El Ll).
      intros i p Hp. destruct (Hl i p Hp) as [G Hb]. split; [exact Hb|].
      pose proof (good_bounded M _ _ p G HN) as Bp.
      destruct (quad_box_float M HM HB p) as (b & Eb & _ & He); [apply Bp; cbn; auto|apply Bp; cbn; auto|apply Bp; cbn; auto|].
      exists b. split; [exact Eb|]. intros j Hj. destruct (He j Hj) as (lo & hi & En & (_ & _ & Hh) & (t & Ht & Et) & (u & Hu & Eu)).
      exists (val lo), (val hi). split; [unfold real_box; now rewrite nth_error_map, En|]. split; [exact Hh|].
      split; [apply Hh; lra|].
      pose proof (quad_spread _ p _ t j G Hj Ht) as X. pose proof (quad_spread _ p _ u j G Hj Hu) as Y.
      assert (Sh : (W - 2 * (2 * step)) / 2 ^ k <= W / 2 ^ k).
      { unfold Rdiv. apply Rmult_le_compat_r; [|lra]. apply Rlt_le, Rinv_0_lt_compat, pow_lt. lra. }
      apply Rabs_le_inv in X, Y, Et, Eu. unfold exact_at in X, Y. cbn [map quad_control_points] in X, Y. lra.
  Qed.
End Quad.

Section Two.
  Context {F : Format} {P : Type} {PT : Point float P} {CP : CwPoint float P}.
  Notation D := (p_dim (P := P)).
  Variables M N : R.
  Hypotheses (HM : 0 <= M) (HB : 4 * M <= uro * fmax).
  Hypothesis Big : 64 * INR (D + 1) * ((M + 1) * (M + 1)) <= fmax.
  Variable h : float.
  Hypotheses (Fh : fin h) (Vh : val h = / 2).
  Notation step := (6 * uro * M + 2 * eta).
  Notation legs W q := (forall i, (i < D)%nat ->
    Rabs (val (cw (q_ctrl q) i) - val (cw (q_start q) i)) <= W /\ Rabs (val (cw (q_end q) i) - val (cw (q_ctrl q) i)) <= W).
  Notation slack k := (uro / 4 + 54 * uro * M + 9 * eta + INR k * (11 * uro * M + 3 * eta)).
  Notation width W k := (2 * (W / 2 ^ k) + 8 * step + 2 * (11 * uro * M + 3 * eta)).

  Theorem two_quads_round (a b : quad P) W W' k k' bs bs' :
    (forall p, In p (quad_control_points a) -> bounded N p) -> (forall p, In p (quad_control_points b) -> bounded N p) ->
    legs W a -> legs W' b -> N + INR k * (2 * step) <= M -> N + INR k' * (2 * step) <= M ->
    boxes_of (fun c => Ret (quad_split c h)) quad_bounding_box k a bs ->
    boxes_of (fun c => Ret (quad_split c h)) quad_bounding_box k' b bs' ->
    let f := exact_at (quad_control_points a) in let g := exact_at (quad_control_points b) in
    (forall t u d, 0 <= t <= 1 -> 0 <= u <= 1 -> (forall i, (i < D)%nat -> Rabs (f t i - g u i) <= d) ->
       exists x y, In x bs /\ In y bs' /\ ~ apart D (real_box x) (real_box y) (d + (slack k + slack k'))) /\
    (forall m, (forall t u, 0 <= t <= 1 -> 0 <= u <= 1 -> exists i, (i < D)%nat /\
         width W k + width W' k' + (slack k + slack k') + m < Rabs (f t i - g u i)) ->
       forall x y, In x bs -> In y bs' -> apart D (real_box x) (real_box y) m).
  Proof.
    intros Ba Bb La Lb Ka Kb Hb Hb' f g.
    destruct (quad_boxes_round M HM HB Big h Fh Vh a N W k Ba La Ka) as (l & El & _ & Hc).
    destruct (quad_boxes_round M HM HB Big h Fh Vh b N W' k' Bb Lb Kb) as (l' & El' & _ & Hc').
    rewrite (boxes_unique _ _ _ _ _ _ Hb El), (boxes_unique _ _ _ _ _ _ Hb' El'). split.
    - intros t u d Ht Hu Hd. destruct (near_boxes _ _ _ _ _ _ _ _ _ _ _ Hc Hc' t u d Ht Hu Hd) as (x & y & X & Y & Z).
      apply in_map_iff in X. destruct X as (x' & <- & X). apply in_map_iff in Y. destruct Y as (y' & <- & Y). eauto.
    - intros m Hd x y Hx Hy.
      destruct (far_boxes _ _ _ _ _ _ _ _ _ _ _ Hc Hc' m (real_box x) (real_box y) (in_map _ _ _ Hx) (in_map _ _ _ Hy)) as [Z|(t & u & Ht & Hu & Z)]; [exact Z|].
      exfalso. destruct (Hd t u Ht Hu) as (i & Hi & X). specialize (Z i Hi). fold f g in Z. lra.
  Qed.
End Two.
