(** C140: bounding boxes of halved pieces, and whether two curves meet; exact arithmetic. *)
From Coq Require Import Reals List Arith Lia Lra.
From Verif Require Import Base.Outcome Base.Scalar Model.Point Model.Line Model.Quadratic Model.Cubic
  Inst.RealInst Spec.Sums Spec.Lawful Spec.Length Spec.Subdivision Spec.Boxes Spec.Points
  Proofs.PointFacts Proofs.RealTac Proofs.ExactEval Proofs.BoxSpec Proofs.BoxCover.
Import ListNotations.
Local Open Scope R_scope.

Section Cover.
  Context {E : Eps} {P : Type} {PT : Point R P} {LP : LawfulPoint P}.
  Notation D := (p_dim (P := P)).

  (** C140: the boxes of the pieces after [k] rounds of [split(1/2)] contain the curve
      and shrink with 2^k *)
  Theorem C140_quad (c : quad P) k L : leg_bound (quad_control_points c) L ->
    exists bs, boxes_of (fun c => Ret (quad_split c (/ 2))) quad_bounding_box k c bs /\ length bs = (2 ^ k)%nat /\
      covered D (fun t => coord (quad_eval c t)) bs (eps / 8) 0 (2 * (L / 2 ^ k)).
  Proof. exact (quad_boxes c k L). Qed.
  Theorem C140_cubic (c : cubic P) k L : leg_bound (cubic_control_points c) L ->
    exists bs, boxes_of (fun c => Ret (cubic_split c (/ 2))) cubic_bounding_box k c bs /\ length bs = (2 ^ k)%nat /\
      covered D (fun t => coord (cubic_eval c t)) bs (3 * eps / 8) 0 (3 * (L / 2 ^ k)).
  Proof. exact (cubic_boxes c k L). Qed.

  (** C140: curves that meet, or come within a distance, have boxes that are no further
      apart at every depth; curves further apart than the boxes are wide have none *)
  Theorem C140_two_quads (a : quad P) (b : quad P) k k' L L' bs bs' :
    leg_bound (quad_control_points a) L -> leg_bound (quad_control_points b) L' ->
    boxes_of (fun c => Ret (quad_split c (/ 2))) quad_bounding_box k a bs ->
    boxes_of (fun c => Ret (quad_split c (/ 2))) quad_bounding_box k' b bs' ->
    (forall t u, 0 <= t <= 1 -> 0 <= u <= 1 -> exists x y, In x bs /\ In y bs' /\
       ~ apart D x y (dist (quad_eval a t) (quad_eval b u) + eps / 4)) /\
    (forall d m, 0 <= m -> (forall t u, 0 <= t <= 1 -> 0 <= u <= 1 -> d <= dist (quad_eval a t) (quad_eval b u)) ->
       sqrt (INR D) * (2 * (L / 2 ^ k) + 2 * (L' / 2 ^ k') + m) < d ->
       forall x y, In x bs -> In y bs' -> apart D x y m).
  Proof. exact (two_quads a b k k' L L' bs bs'). Qed.

  Theorem C140_two_cubics (a : cubic P) (b : cubic P) k k' L L' bs bs' :
    leg_bound (cubic_control_points a) L -> leg_bound (cubic_control_points b) L' ->
    boxes_of (fun c => Ret (cubic_split c (/ 2))) cubic_bounding_box k a bs ->
    boxes_of (fun c => Ret (cubic_split c (/ 2))) cubic_bounding_box k' b bs' ->
    (forall t u, 0 <= t <= 1 -> 0 <= u <= 1 -> exists x y, In x bs /\ In y bs' /\
       ~ apart D x y (dist (cubic_eval a t) (cubic_eval b u) + 3 * eps / 4)) /\
    (forall d m, 0 <= m -> (forall t u, 0 <= t <= 1 -> 0 <= u <= 1 -> d <= dist (cubic_eval a t) (cubic_eval b u)) ->
       sqrt (INR D) * (3 * (L / 2 ^ k) + 3 * (L' / 2 ^ k') + m) < d ->
       forall x y, In x bs -> In y bs' -> apart D x y m).
  Proof. exact (two_cubics a b k k' L L' bs bs'). Qed.

  Theorem C140_quad_cubic (a : quad P) (b : cubic P) k k' L L' bs bs' :
    leg_bound (quad_control_points a) L -> leg_bound (cubic_control_points b) L' ->
    boxes_of (fun c => Ret (quad_split c (/ 2))) quad_bounding_box k a bs ->
    boxes_of (fun c => Ret (cubic_split c (/ 2))) cubic_bounding_box k' b bs' ->
    (forall t u, 0 <= t <= 1 -> 0 <= u <= 1 -> exists x y, In x bs /\ In y bs' /\
       ~ apart D x y (dist (quad_eval a t) (cubic_eval b u) + eps / 2)) /\
    (forall d m, 0 <= m -> (forall t u, 0 <= t <= 1 -> 0 <= u <= 1 -> d <= dist (quad_eval a t) (cubic_eval b u)) ->
       sqrt (INR D) * (2 * (L / 2 ^ k) + 3 * (L' / 2 ^ k') + m) < d ->
       forall x y, In x bs -> In y bs' -> apart D x y m).
  Proof. exact (quad_cubic a b k k' L L' bs bs'). Qed.
End Cover.

(** two parabolas, one 3/8 above the other: after six rounds all 4096 pairs of boxes have gaps of 1/16 *)
Definition arch (y : R) : quad P2 := Quad (pt2 0 y) (pt2 1 (1 + y)) (pt2 2 y).
Example arch_legs {E : Eps} y : leg_bound (quad_control_points (arch y)) (3 / 2).
Proof.
  assert (Q : forall a b c d, (a - c) * (a - c) + (b - d) * (b - d) = 2 -> dist (pt2 a b) (pt2 c d) <= 3 / 2).
  { intros a b c d H. unfold dist. change (p_dim (P := P2)) with 2%nat. cbn [Rsum].
    change (coord (pt2 a b) 0) with a. change (coord (pt2 a b) 1) with b.
    change (coord (pt2 c d) 0) with c. change (coord (pt2 c d) 1) with d.
    rewrite <- (sqrt_square (3 / 2)) by lra. apply sqrt_le_1_alt. lra. }
  split; [lra|]. intros [|[|[|k]]] p q; cbn; intros Hp Hq; try discriminate;
    injection Hp as <-; injection Hq as <-; apply Q; ring.
Qed.
Example arch_apart {E : Eps} t u : 0 <= t <= 1 -> 0 <= u <= 1 ->
  1 / 4 <= dist (quad_eval (arch 0) t) (quad_eval (arch (3 / 8)) u).
Proof.
  intros Ht Hu. unfold dist. rewrite <- (sqrt_square (1 / 4)) by lra. apply sqrt_le_1_alt.
  change (p_dim (P := P2)) with 2%nat. cbn [Rsum].
  assert (X : forall y v, coord (quad_eval (arch y) v) 0 = 2 * v).
  { intros y v. rewrite quad_eval_coord by (change (p_dim (P := P2)) with 2%nat; lia).
    cbn [q_start q_ctrl q_end arch]. change (coord (pt2 0 y) 0) with 0. change (coord (pt2 1 (1 + y)) 0) with 1.
    change (coord (pt2 2 y) 0) with 2. ring. }
  assert (Y : forall y v, coord (quad_eval (arch y) v) 1 = y + 2 * v * (1 - v)).
  { intros y v. rewrite quad_eval_coord by (change (p_dim (P := P2)) with 2%nat; lia).
    cbn [q_start q_ctrl q_end arch]. change (coord (pt2 0 y) 1) with y. change (coord (pt2 1 (1 + y)) 1) with (1 + y).
    change (coord (pt2 2 y) 1) with y. ring. }
  rewrite !X, !Y. set (e := 2 * t - 2 * u). set (k := 1 - t - u).
  replace (0 + 2 * t * (1 - t) - (3 / 8 + 2 * u * (1 - u))) with (e * k - 3 / 8) by (unfold e, k; field).
  assert (Hk : -1 <= k <= 1) by (unfold k; lra).
  pose proof (Rle_0_sqr (e + k * (e * k - 3 / 8))) as S. unfold Rsqr in S.
  assert (S' : 9 / 64 <= (1 + k * k) * (e * e + (e * k - 3 / 8) * (e * k - 3 / 8))) by lra.
  assert (0 <= e * e + (e * k - 3 / 8) * (e * k - 3 / 8)) by nra.
  assert (k * k <= 1) by nra.
  nra.
Qed.
Example C140_ex {E : Eps} : exists bs bs',
  boxes_of (fun c => Ret (quad_split c (/ 2))) quad_bounding_box 6 (arch 0) bs /\
  boxes_of (fun c => Ret (quad_split c (/ 2))) quad_bounding_box 6 (arch (3 / 8)) bs' /\
  length bs = 64%nat /\ forall x y, In x bs -> In y bs' -> apart 2 x y (1 / 16).
Proof.
  destruct (C140_quad _ 6 _ (arch_legs 0)) as (bs & B & Hl & _). destruct (C140_quad _ 6 _ (arch_legs (3 / 8))) as (bs' & B' & _).
  exists bs, bs'. split; [exact B|]. split; [exact B'|]. split; [exact Hl|].
  apply (proj2 (C140_two_quads _ _ 6 6 _ _ bs bs' (arch_legs 0) (arch_legs (3 / 8)) B B') (1 / 4) (1 / 16)); [lra|exact arch_apart|].
  change (p_dim (P := P2)) with 2%nat. cbn [INR].
  assert (S : sqrt (1 + 1) <= 3 / 2) by (rewrite <- (sqrt_square (3 / 2)) by lra; apply sqrt_le_1_alt; lra).
  apply Rle_lt_trans with (3 / 2 * (5 / 32)); [|lra].
  apply Rmult_le_compat; try lra; try apply sqrt_pos.
Qed.

Print Assumptions C140_quad.
Print Assumptions C140_cubic.
Print Assumptions C140_two_quads.
Print Assumptions C140_two_cubics.
Print Assumptions C140_quad_cubic.
