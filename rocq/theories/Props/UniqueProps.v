(** C115: [split] and [derivative] can be undone; exact arithmetic. *)
From Coq Require Import Reals List Arith Lia Lra.
From Verif Require Import Base.Outcome Base.Scalar Model.Point Model.Line Model.Quadratic Model.Cubic Model.Bezier
  Inst.RealInst Spec.Lawful Spec.Points Proofs.PointFacts Proofs.Unique.
Import ListNotations.
Local Open Scope R_scope.

Section Undo.
  Context {E : Eps} {P : Type} {PT : Point R P} {LP : LawfulPoint P}.

  (** cutting the left part at 1/t, or the right part at t/(t-1), gives the curve back *)
  Theorem C115_quad (c : quad P) t : (t <> 0 -> fst (quad_split (fst (quad_split c t)) (1 / t)) = c) /\
    (t <> 1 -> snd (quad_split (snd (quad_split c t)) (t / (t - 1))) = c).
  Proof. exact (quad_undo c t). Qed.
  Theorem C115_cubic (c : cubic P) t : (t <> 0 -> fst (cubic_split (fst (cubic_split c t)) (1 / t)) = c) /\
    (t <> 1 -> snd (cubic_split (snd (cubic_split c t)) (t / (t - 1))) = c).
  Proof. exact (cubic_undo c t). Qed.
  Theorem C115_bezier_left (ps l r : list P) t : t <> 0 -> ps <> [] -> bezier_split (Bezier ps) t = Ret (Bezier l, Bezier r) ->
    exists x, bezier_split (Bezier l) (1 / t) = Ret (Bezier ps, Bezier x).
  Proof. exact (bezier_undo_left ps l r t). Qed.
  Theorem C115_bezier_right (ps l r : list P) t : t <> 1 -> ps <> [] -> bezier_split (Bezier ps) t = Ret (Bezier l, Bezier r) ->
    exists x, bezier_split (Bezier r) (t / (t - 1)) = Ret (Bezier x, Bezier ps).
  Proof. exact (bezier_undo_right ps l r t). Qed.

  (** the derivative and the start determine the curve *)
  Theorem C115_quad_derivative (c d : quad P) : quad_derivative c = quad_derivative d -> q_start c = q_start d -> c = d.
  Proof. exact (quad_from_derivative c d). Qed.
  Theorem C115_cubic_derivative (c d : cubic P) : cubic_derivative c = cubic_derivative d -> c_start c = c_start d -> c = d.
  Proof. exact (cubic_from_derivative c d). Qed.
  Theorem C115_bezier_derivative (ps qs ds : list P) p : (2 <= length ps)%nat -> (2 <= length qs)%nat ->
    bezier_derivative (Bezier ps) = Ret (Bezier ds) -> bezier_derivative (Bezier qs) = Ret (Bezier ds) ->
    hd_error ps = Some p -> hd_error qs = Some p -> ps = qs.
  Proof. exact (bezier_from_derivative ps qs ds p). Qed.

  (** so does any piece of the curve, however short *)
  Theorem C115_piece (ps qs : list P) a b : a < b -> length ps = length qs ->
    (forall t, a <= t <= b -> bezier_eval (Bezier ps) t = bezier_eval (Bezier qs) t) -> ps = qs.
  Proof. exact (bezier_everywhere ps qs a b). Qed.
End Undo.

Section Cases.
  Context {E : Eps}.
  (** the left half of the parabola 0, 1, 0 is 0, 1/2, 1/2; its part up to 2 is the parabola *)
  Example C115_half : fst (quad_split (Quad (pt1 0) (pt1 1) (pt1 0)) (1/2)) = Quad (pt1 0) (pt1 (1/2)) (pt1 (1/2)) /\
    fst (quad_split (Quad (pt1 0) (pt1 (1/2)) (pt1 (1/2))) 2) = Quad (pt1 0) (pt1 1) (pt1 0).
  Proof. split; unfold quad_split; cbn; f_equal; apply pn_eq; cbn; f_equal; lra. Qed.
  (** the left part at 0 is a single point: it says little about the curve *)
  Example C115_at_0 : exists (ps qs l r r' : list P1), ps <> qs /\ ps <> [] /\ qs <> [] /\
    bezier_split (Bezier ps) 0 = Ret (Bezier l, Bezier r) /\ bezier_split (Bezier qs) 0 = Ret (Bezier l, Bezier r').
  Proof.
    exists [pt1 0; pt1 1], [pt1 0; pt1 2], [pt1 0; pt1 0], [pt1 0; pt1 1], [pt1 0; pt1 2].
    split; [intros H; injection H as H; lra|]. repeat (split; [discriminate|]).
    split; unfold bezier_split; cbn; repeat f_equal; apply pn_eq; cbn; f_equal; lra.
  Qed.
  (** without the start the derivative does not determine the curve *)
  Example C115_start : quad_derivative (Quad (pt1 0) (pt1 1) (pt1 0)) = quad_derivative (Quad (pt1 5) (pt1 6) (pt1 5)).
  Proof. unfold quad_derivative. cbn. f_equal; apply pn_eq; cbn; f_equal; lra. Qed.
End Cases.

Print Assumptions C115_quad.
Print Assumptions C115_cubic.
Print Assumptions C115_bezier_left.
Print Assumptions C115_bezier_right.
Print Assumptions C115_quad_derivative.
Print Assumptions C115_cubic_derivative.
Print Assumptions C115_bezier_derivative.
Print Assumptions C115_piece.
