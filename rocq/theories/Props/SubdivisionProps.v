(** C76: repeated halving of quadratic, cubic and N-point curves, exact arithmetic. *)
From Coq Require Import Reals List Arith Lia Lra.
From Verif Require Import Base.Outcome Base.Scalar Model.Point Model.Line Model.Quadratic Model.Cubic
  Model.Bezier Inst.RealInst Spec.Sums Spec.Lawful Spec.Bernstein Spec.Length Spec.Subdivision Spec.Points
  Proofs.PointFacts Proofs.RealTac Proofs.BoxSpec Proofs.Subdivision.
Import ListNotations.
Local Open Scope R_scope.

Section Subdivision.
  Context {E : Eps} {P : Type} {PT : Point R P} {LP : LawfulPoint P}.

  (** C76: [k] rounds of [split(1/2)] give 2^k pieces; piece [i] is the curve over
      [i/2^k, (i+1)/2^k], its control polygon has legs 2^k times shorter and bends
      4^k times smaller *)
  Theorem C76_quad (c : quad P) k L S : leg_bound (quad_control_points c) L -> bend_bound (quad_control_points c) S ->
    exists l, halved (fun c => Ret (quad_split c (/ 2))) k c = Ret l /\ length l = (2 ^ k)%nat /\
      forall i q, nth_error l i = Some q ->
        (forall u, quad_eval q u = quad_eval c ((INR i + u) / 2 ^ k)) /\
        leg_bound (quad_control_points q) (L / 2 ^ k) /\ bend_bound (quad_control_points q) (S / 4 ^ k).
  Proof. exact (quad_pieces c k L S). Qed.
  Theorem C76_cubic (c : cubic P) k L S : leg_bound (cubic_control_points c) L -> bend_bound (cubic_control_points c) S ->
    exists l, halved (fun c => Ret (cubic_split c (/ 2))) k c = Ret l /\ length l = (2 ^ k)%nat /\
      forall i q, nth_error l i = Some q ->
        (forall u, cubic_eval q u = cubic_eval c ((INR i + u) / 2 ^ k)) /\
        leg_bound (cubic_control_points q) (L / 2 ^ k) /\ bend_bound (cubic_control_points q) (S / 4 ^ k).
  Proof. exact (cubic_pieces c k L S). Qed.
  Theorem C76_bezier (ps : list P) k L S : ps <> [] -> leg_bound ps L -> bend_bound ps S ->
    exists l, halved (fun c => bezier_split c (/ 2)) k (Bezier ps) = Ret l /\ length l = (2 ^ k)%nat /\
      forall i q, nth_error l i = Some q -> length (bz_points q) = length ps /\
        (forall u, bezier_eval q u = bezier_eval (Bezier ps) ((INR i + u) / 2 ^ k)) /\
        leg_bound (bz_points q) (L / 2 ^ k) /\ bend_bound (bz_points q) (S / 4 ^ k).
  Proof. exact (bezier_pieces ps k L S). Qed.

  (** C76: a recursion that stops at [is_a_point(tol)] stops, one that also stops at
      [is_linear(tol)] at the latest there; one that stops at [is_linear] alone may
      not: below sqrt(EPSILON) no piece is ever linear, whatever the tolerance *)
  Theorem C76_quad_flat (c : quad P) k L tol : leg_bound (quad_control_points c) L ->
    exists l, halved (fun c => Ret (quad_split c (/ 2))) k c = Ret l /\ forall q, In q l ->
      (2 * L <= 2 ^ k * tol -> quad_is_a_point q tol = true) /\
      (L <= 2 ^ k * tol -> eps <= dist (q_start q) (q_end q) * dist (q_start q) (q_end q) -> quad_is_linear q tol = Ret true) /\
      ((2 * L) ^ 2 < 4 ^ k * eps -> quad_is_linear q tol = Ret false).
  Proof. exact (quad_flat c k L tol). Qed.
  Theorem C76_cubic_flat (c : cubic P) k L tol : leg_bound (cubic_control_points c) L ->
    exists l, halved (fun c => Ret (cubic_split c (/ 2))) k c = Ret l /\ forall q, In q l ->
      (3 * L <= 2 ^ k * tol -> cubic_is_a_point q tol = true) /\
      (2 * L <= 2 ^ k * tol -> eps <= dist (c_start q) (c_end q) * dist (c_start q) (c_end q) -> cubic_is_linear q tol = Ret true) /\
      ((3 * L) ^ 2 < 4 ^ k * eps -> cubic_is_linear q tol = Ret false).
  Proof. exact (cubic_flat c k L tol). Qed.

  (** C76: the curve runs within S/2/4^k (3S/2/4^k) of the chords [baseline], parameter by parameter *)
  Theorem C76_quad_chords (c : quad P) k S : bend_bound (quad_control_points c) S ->
    exists l, halved (fun c => Ret (quad_split c (/ 2))) k c = Ret l /\ length l = (2 ^ k)%nat /\
      forall i q u, nth_error l i = Some q -> 0 <= u <= 1 ->
        dist (quad_eval c ((INR i + u) / 2 ^ k)) (line_eval (quad_baseline q) u) <= S / 2 / 4 ^ k.
  Proof. exact (quad_chords c k S). Qed.
  Theorem C76_cubic_chords (c : cubic P) k S : bend_bound (cubic_control_points c) S ->
    exists l, halved (fun c => Ret (cubic_split c (/ 2))) k c = Ret l /\ length l = (2 ^ k)%nat /\
      forall i q u, nth_error l i = Some q -> 0 <= u <= 1 ->
        dist (cubic_eval c ((INR i + u) / 2 ^ k)) (line_eval (cubic_baseline q) u) <= 3 * S / 2 / 4 ^ k.
  Proof. exact (cubic_chords c k S). Qed.
  Theorem C76_bend_bound_exists (ps : list P) : exists S, bend_bound ps S.
  Proof. exact (bend_bound_ex ps). Qed.
End Subdivision.

Example C76_ex {E : Eps} : leg_bound (quad_control_points (Quad (pt1 0) (pt1 1) (pt1 3))) 2 /\
  bend_bound (quad_control_points (Quad (pt1 0) (pt1 1) (pt1 3))) (1 / 2) /\ 2 * 2 <= 2 ^ 9 * / 100.
Proof.
  split; [|split; [|simpl; lra]].
  - split; [lra|]. intros [|[|[|k]]] p q; cbn; intros Hp Hq; try discriminate;
      injection Hp as <-; injection Hq as <-; rewrite dist_pt1, Rabs_left; lra.
  - split; [lra|]. intros [|[|[|k]]] p q r; cbn; intros Hp Hq Hr; try discriminate; [|destruct k; discriminate].
    injection Hp as <-. injection Hq as <-. injection Hr as <-.
    change (dist (pt1 ((0 + 3) * (1 / 2))) (pt1 1) <= 1 / 2). rewrite dist_pt1, Rabs_pos_eq; lra.
Qed.
(** in f64, after 29 rounds no piece of this curve is linear for any tolerance *)
Example C76_ex_eps : (2 * 2) ^ 2 < 4 ^ 29 * @eps Eps64.
Proof. cbn [eps Eps64]. lra. Qed.

Print Assumptions C76_quad.
Print Assumptions C76_cubic.
Print Assumptions C76_bezier.
Print Assumptions C76_quad_flat.
Print Assumptions C76_cubic_flat.
Print Assumptions C76_quad_chords.
Print Assumptions C76_cubic_chords.
Print Assumptions C76_bend_bound_exists.
