(** C142: pieces between stationary parameters, exact arithmetic. *)
From Coq Require Import Reals List Arith Lia Lra.
From Verif Require Import Base.Outcome Base.Scalar Model.Point Model.Line Model.Quadratic Model.Cubic
  Inst.RealInst Spec.Sums Spec.Lawful Spec.Points Spec.Monotone
  Proofs.PointFacts Proofs.RealTac Proofs.ExactEval Proofs.BoxSpec Proofs.MonotonePieces.
Import ListNotations.
Local Open Scope R_scope.

Section Pieces.
  Context {E : Eps} {P : Type} {PT : Point R P} {LP : LawfulPoint P}.
  Notation D := (p_dim (P := P)).

  (** C142: a piece with no zero of the derivative inside runs one way on that axis, and
      its box is that of its end points, with no slack *)
  Theorem C142_quad (c p : quad P) i x y : (i < D)%nat -> x < y ->
    (forall u, quad_eval p u = quad_eval c (x + u * (y - x))) ->
    (forall t, x < t < y -> coord (line_eval (quad_derivative c) t) i <> 0) ->
    monotone (fun t => coord (quad_eval p t) i) /\
    exists bounds, quad_bounding_box p = Ret bounds /\ spans bounds i (coord (q_start p) i) (coord (q_end p) i).
  Proof. exact (quad_between c p i x y). Qed.
  Theorem C142_cubic (c p : cubic P) i x y : (i < D)%nat -> x < y ->
    (forall u, cubic_eval p u = cubic_eval c (x + u * (y - x))) ->
    (forall t, x < t < y -> coord (quad_eval (cubic_derivative c) t) i <> 0) ->
    monotone (fun t => coord (cubic_eval p t) i) /\
    exists bounds, cubic_bounding_box p = Ret bounds /\ spans bounds i (coord (c_start p) i) (coord (c_end p) i).
  Proof. exact (cubic_between c p i x y). Qed.

  (** C142: [split] at the zeros of the derivative gives such pieces *)
  Theorem C142_quad_cut (c p : quad P) i r : (i < D)%nat -> 0 <= r <= 1 -> coord (line_eval (quad_derivative c) r) i = 0 ->
    p = fst (quad_split c r) \/ p = snd (quad_split c r) ->
    monotone (fun t => coord (quad_eval p t) i) /\
    exists bounds, quad_bounding_box p = Ret bounds /\ spans bounds i (coord (q_start p) i) (coord (q_end p) i).
  Proof. exact (quad_cut c p i r). Qed.
  Theorem C142_cubic_cut (c p : cubic P) i r r' : (i < D)%nat -> 0 <= r < r' -> r' <= 1 ->
    coord (quad_eval (cubic_derivative c) r) i = 0 -> coord (quad_eval (cubic_derivative c) r') i = 0 ->
    p = fst (cubic_split c r) \/ p = fst (cubic_split (snd (cubic_split c r)) ((r' - r) / (1 - r))) \/ p = snd (cubic_split c r') ->
    monotone (fun t => coord (cubic_eval p t) i) /\
    exists bounds, cubic_bounding_box p = Ret bounds /\ spans bounds i (coord (c_start p) i) (coord (c_end p) i).
  Proof. exact (cubic_cut c p i r r'). Qed.
End Pieces.

(** 0, 3, -2, 1: up to 1 at t = 1/4, down to 0 at t = 3/4, up to 1; the middle piece *)
Definition wave : cubic P1 := Cubic (pt1 0) (pt1 3) (pt1 (-2)) (pt1 1).
Example C142_wave {E : Eps} : exists bounds,
  cubic_bounding_box (fst (cubic_split (snd (cubic_split wave (1 / 4))) ((3 / 4 - 1 / 4) / (1 - 1 / 4)))) = Ret bounds /\
  nth_error bounds 0 = Some (0, 1).
Proof.
  assert (I0 : (0 < p_dim (P := P1))%nat) by (unfold P1; cbn; lia).
  assert (Z : forall t, coord (quad_eval (cubic_derivative wave) t) 0 = 48 * ((t - 1 / 4) * (t - 3 / 4))).
  { intros t. rewrite quad_eval_coord by exact I0. unfold cubic_derivative, wave. cbn [q_start q_ctrl q_end c_start c_ctrl1 c_ctrl2 c_end].
    rewrite !lp_mul, !lp_sub by exact I0. rewrite !coord_pt1. rs. field. }
  destruct (C142_cubic_cut wave _ 0 (1 / 4) (3 / 4) I0 ltac:(lra) ltac:(lra)
    ltac:(rewrite Z; field) ltac:(rewrite Z; field) (or_intror (or_introl eq_refl))) as [_ (bounds & Eb & Sb)].
  exists bounds. split; [exact Eb|]. rewrite Sb. set (p := fst _) in *.
  assert (V : forall u, coord (cubic_eval p u) 0 = coord (cubic_eval wave (1 / 4 + u / 2)) 0).
  { intros u. unfold p. rewrite (proj1 (cubic_split_spec (snd (cubic_split wave (1 / 4))) _ u)), (proj2 (cubic_split_spec wave (1 / 4) _)).
    do 2 f_equal. field. }
  assert (W : forall t, coord (cubic_eval wave t) 0 = 9 * ((1 - t) * (1 - t)) * t - 6 * (1 - t) * (t * t) + t * (t * t)).
  { intros t. rewrite cubic_eval_coord by exact I0. unfold wave. cbn [c_start c_ctrl1 c_ctrl2 c_end]. rewrite !coord_pt1. ring. }
  assert (A : coord (c_start p) 0 = 1).
  { transitivity (coord (cubic_eval p 0) 0); [rewrite cubic_eval_coord by exact I0; ring|]. rewrite V, W. field. }
  assert (B : coord (c_end p) 0 = 0).
  { transitivity (coord (cubic_eval p 1) 0); [rewrite cubic_eval_coord by exact I0; ring|]. rewrite V, W. field. }
  rewrite A, B, Rmin_right, Rmax_left by lra. reflexivity.
Qed.

Print Assumptions C142_quad.
Print Assumptions C142_cubic.
Print Assumptions C142_quad_cut.
Print Assumptions C142_cubic_cut.
