(** C140 in IEEE-754 arithmetic, for every binary format with at least 11 bits. *)
From Coq Require Import Reals List Arith ZArith Lia Lra.
From Flocq Require Import Core.Core IEEE754.BinarySingleNaN.
From Verif Require Import Base.Outcome Base.Scalar Model.Point Model.Line Model.Quadratic
  Inst.FloatInst Spec.Sums Spec.Bernstein Spec.Rounding Spec.Componentwise Spec.FloatPoints Spec.FloatCurves Spec.Boxes
  Proofs.FloatFacts Proofs.FloatBound Proofs.FloatPoint Proofs.FloatNear Proofs.FloatNorm Proofs.FloatCurve Proofs.FloatFlat Proofs.FloatSplineEval
  Proofs.ExactEval Proofs.BoxCoverRound.
Import ListNotations.
Local Open Scope R_scope.

Section Round.
  Context {F : Format} {P : Type} {PT : Point float P} {CP : CwPoint float P}.
  Notation D := (p_dim (P := P)).
  (** coordinates of magnitude at most N, growing to at most M over the halvings *)
  Variables M N : R.
  Hypotheses (HM : 0 <= M) (HB : 4 * M <= uro * fmax).
  Hypothesis Big : 64 * INR (D + 1) * ((M + 1) * (M + 1)) <= fmax.
  Variable h : float.
  Hypotheses (Fh : fin h) (Vh : val h = / 2).
  Notation step := (6 * uro * M + 2 * eta).
  (** on every axis neighbouring control points are at most W apart *)
  Notation legs W q := (forall i, (i < D)%nat ->
    Rabs (val (cw (q_ctrl q) i) - val (cw (q_start q) i)) <= W /\ Rabs (val (cw (q_end q) i) - val (cw (q_ctrl q) i)) <= W).
  Notation slack k := (uro / 4 + 54 * uro * M + 9 * eta + INR k * (11 * uro * M + 3 * eta)).
  Notation width W k := (2 * (W / 2 ^ k) + 8 * step + 2 * (11 * uro * M + 3 * eta)).

  (** C140: the computed boxes of the computed pieces contain the exact curve up to rounding, and shrink *)
  Theorem C140_quad_round (q : quad P) W k : (forall p, In p (quad_control_points q) -> bounded N p) ->
    legs W q -> N + INR k * (2 * step) <= M ->
    exists bs, boxes_of (fun c => Ret (quad_split c h)) quad_bounding_box k q bs /\ length bs = (2 ^ k)%nat /\
      covered D (exact_at (quad_control_points q)) (map real_box bs) (slack k) (slack k) (width W k).
  Proof. exact (quad_boxes_round M HM HB Big h Fh Vh q N W k). Qed.

  (** C140: curves that meet keep boxes within the slack of each other at every depth; curves
      further apart than that and the widths of the boxes have none *)
  Theorem C140_two_quads_round (a b : quad P) W W' k k' bs bs' :
    (forall p, In p (quad_control_points a) -> bounded N p) -> (forall p, In p (quad_control_points b) -> bounded N p) ->
    legs W a -> legs W' b -> N + INR k * (2 * step) <= M -> N + INR k' * (2 * step) <= M ->
    boxes_of (fun c => Ret (quad_split c h)) quad_bounding_box k a bs ->
    boxes_of (fun c => Ret (quad_split c h)) quad_bounding_box k' b bs' ->
    let f := exact_at (quad_control_points a) in let g := exact_at (quad_control_points b) in
    (forall t u d, 0 <= t <= 1 -> 0 <= u <= 1 -> (forall i, (i < D)%nat -> Rabs (f t i - g u i) <= d) ->
       exists x y, In x bs /\ In y bs' /\ ~ apart D (real_box x) (real_box y) (d + (slack k + slack k'))) /\
    (forall m, (forall t u, 0 <= t <= 1 -> 0 <= u <= 1 -> exists i, (i < D)%nat /\
         width W k + width W' k' + (slack k + slack k') + m < Rabs (f t i - g u i)) ->
       forall x y, In x bs -> In y bs' -> apart D (real_box x) (real_box y) m).
  Proof. exact (two_quads_round M N HM HB Big h Fh Vh a b W W' k k' bs bs'). Qed.
End Round.

(** f64: two arches of height 2, one 1 above the other, so that their boxes overlap; after six
    rounds all 4096 pairs of boxes have gaps of 1/8 *)
Section Concrete.
  #[local] Existing Instance Binary64.
  Notation P2 := (PointN float 2).
  Definition farch (y : Z) : quad P2 :=
    Quad (fpt2 (flt 0 0) (flt y 0)) (fpt2 (flt 4 0) (flt (4 + y) 0)) (fpt2 (flt 8 0) (flt y 0)).
  Lemma flt_int z : (Z.abs z <= 2048)%Z -> val (flt z 0) = IZR z.
  Proof. intros H. exact (proj2 (lit_small z H)). Qed.
  Lemma farch_values y : (0 <= y <= 4)%Z ->
    let v p i := val (cw p i) in
    v (q_start (farch y)) 0%nat = 0 /\ v (q_ctrl (farch y)) 0%nat = 4 /\ v (q_end (farch y)) 0%nat = 8 /\
    v (q_start (farch y)) 1%nat = IZR y /\ v (q_ctrl (farch y)) 1%nat = 4 + IZR y /\ v (q_end (farch y)) 1%nat = IZR y.
  Proof.
    intros Hy v. unfold v. refine (conj _ (conj _ (conj _ (conj _ (conj _ _))))).
    - apply (flt_int 0); lia.
    - apply (flt_int 4); lia.
    - apply (flt_int 8); lia.
    - apply (flt_int y); lia.
    - rewrite <- (plus_IZR 4). apply (flt_int (4 + y)); lia.
    - apply (flt_int y); lia.
  Qed.
  Lemma farch_bounded y p : (0 <= y <= 4)%Z -> In p (quad_control_points (farch y)) -> bounded 8 p.
  Proof.
    intros Hy. assert (0 <= IZR y <= 4) by (split; apply IZR_le; lia).
    intros [<-|[<-|[<-|[]]]]; apply bounded_int2; try lia; rewrite Rabs_right; rewrite ?plus_IZR; lra.
  Qed.
  Lemma farch_legs y i : (0 <= y <= 4)%Z -> (i < p_dim (P := P2))%nat ->
    Rabs (val (cw (q_ctrl (farch y)) i) - val (cw (q_start (farch y)) i)) <= 4 /\
    Rabs (val (cw (q_end (farch y)) i) - val (cw (q_ctrl (farch y)) i)) <= 4.
  Proof.
    intros Hy Hi. destruct (farch_values y Hy) as (A & B & C & A' & B' & C').
    destruct i as [|[|i]]; [rewrite A, B, C|rewrite A', B', C'|cbn in Hi; lia]; split; apply Rabs_le; lra.
  Qed.
  Lemma farch_at y t : (0 <= y <= 4)%Z ->
    exact_at (quad_control_points (farch y)) t 0 = 8 * t /\ exact_at (quad_control_points (farch y)) t 1 = IZR y + 8 * t * (1 - t).
  Proof.
    intros Hy. destruct (farch_values y Hy) as (A & B & C & A' & B' & C'). unfold exact_at. cbn [map quad_control_points].
    rewrite !quad_poly, A, B, C, A', B', C'. split; ring.
  Qed.
  Example C140_round_case : exists bs bs',
    boxes_of (fun c => Ret (quad_split c (flt 1 (-1)))) quad_bounding_box 6 (farch 0) bs /\
    boxes_of (fun c => Ret (quad_split c (flt 1 (-1)))) quad_bounding_box 6 (farch 1) bs' /\
    forall x y, In x bs -> In y bs' -> apart 2 (real_box x) (real_box y) (1 / 8).
  Proof.
    assert (H : fin (flt 1 (-1)) /\ val (flt 1 (-1)) = / 2) by (apply flt_pow; lia). destruct H as [Fh Vh].
    pose proof uro_64 as U. pose proof uro_pos. pose proof (@eta_uro Binary64) as EU. pose proof eta_pos. pose proof fmax_64 as FX.
    assert (UE : uro = / 9007199254740992) by reflexivity.
    assert (FM2 : 340282346638528859811704183484516925440 <= fmax) by (vm_compute fmax; lra).
    assert (UF : 4 * 9 <= uro * fmax) by (rewrite UE; lra).
    assert (Big : 64 * INR (p_dim (P := P2) + 1) * ((9 + 1) * (9 + 1)) <= fmax).
    { replace (INR (p_dim (P := P2) + 1)) with 3 by (simpl; ring). lra. }
    assert (HN : 8 + INR 6 * (2 * (6 * uro * 9 + 2 * eta)) <= 9) by (replace (INR 6) with 6 by (simpl; ring); lra).
    assert (Y0 : (0 <= 0 <= 4)%Z) by lia. assert (Y1 : (0 <= 1 <= 4)%Z) by lia.
    destruct (C140_quad_round 9 8 ltac:(lra) UF Big _ Fh Vh (farch 0) 4 6 (fun p => farch_bounded 0 p Y0) (fun i => farch_legs 0 i Y0) HN) as (bs & E & _).
    destruct (C140_quad_round 9 8 ltac:(lra) UF Big _ Fh Vh (farch 1) 4 6 (fun p => farch_bounded 1 p Y1) (fun i => farch_legs 1 i Y1) HN) as (bs' & E' & _).
    exists bs, bs'. split; [exact E|]. split; [exact E'|].
    apply (proj2 (C140_two_quads_round 9 8 ltac:(lra) UF Big _ Fh Vh (farch 0) (farch 1) 4 4 6 6 bs bs'
      (fun p => farch_bounded 0 p Y0) (fun p => farch_bounded 1 p Y1) (fun i => farch_legs 0 i Y0) (fun i => farch_legs 1 i Y1) HN HN E E')).
    intros t u Ht Hu.
    assert (X : exists i, (i < 2)%nat /\ 1 / 2 <= Rabs (exact_at (quad_control_points (farch 0)) t i - exact_at (quad_control_points (farch 1)) u i)).
    { destruct (farch_at 0 t Y0) as [A B]. destruct (farch_at 1 u Y1) as [A' B'].
      destruct (Rle_dec (1 / 2) (Rabs (8 * t - 8 * u))) as [L|L].
      - exists 0%nat. split; [lia|]. rewrite A, A'. exact L.
      - exists 1%nat. split; [lia|]. rewrite B, B'. apply Rnot_le_lt in L. apply Rabs_def2 in L.
        rewrite Rabs_left1; [|nra]. nra. }
    destruct X as (i & Hi & X). exists i. split; [exact Hi|]. eapply Rlt_le_trans; [|exact X].
    replace (INR 6) with 6 by (simpl; ring). replace (4 / 2 ^ 6) with (/ 16) by (simpl; field). lra.
  Qed.
End Concrete.

Print Assumptions C140_quad_round.
Print Assumptions C140_two_quads_round.
