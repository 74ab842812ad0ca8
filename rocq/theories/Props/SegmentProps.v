(** C51, C52: [BezierSegment]; C58: quadratic root finding. *)
From Coq Require Import Reals List Arith Lia Lra.
From Verif Require Import Base.Outcome Base.Scalar Model.Point Model.Line Model.Quadratic Model.Cubic
  Model.Bezier Model.Segment Inst.RealInst Spec.Sums Spec.Lawful Spec.Bernstein Spec.Metric Spec.Points Spec.Segments
  Proofs.PointFacts Proofs.BoxSpec Proofs.CurveMisc.
Import ListNotations.
Local Open Scope R_scope.

Section Generic.
  Context {T P : Type} {ST : Scalar T} {PT : Point T P}.

  (** C52, first half: over any scalar type *)
  Theorem C52_split_keeps_kind (s : segment P) t :
    same_kind s (fst (segment_split s t)) /\ same_kind s (snd (segment_split s t)).
  Proof. exact (segment_split_kind s t). Qed.
End Generic.

Section Segment.
  Context {E : Eps} {P : Type} {PT : Point R P} {LP : LawfulPoint P}.

  (** C51 *)
  Theorem C51_eval (s : segment P) t i : (i < p_dim (P := P))%nat ->
    coord (segment_eval s t) i = curve_coord (segment_points s) t i.
  Proof. exact (segment_spec s t i). Qed.
  Theorem C51_ends (s : segment P) :
    segment_start s = segment_eval s 0 /\ segment_end s = segment_eval s 1 /\
    segment_baseline s = Line (segment_start s) (segment_end s).
  Proof. exact (segment_ends s). Qed.
  Theorem C51_is_linear (s : segment P) tol : 0 <= tol -> segment_is_linear s tol = Ret true ->
    forall t, 0 <= t <= 1 -> exists u, 0 <= u <= 1 /\
      dist (segment_eval s t) (line_eval (segment_baseline s) u) <= tol.
  Proof. exact (segment_linear_sound s tol). Qed.

  (** [true] when the control points between the ends (none for a line) are within the
      tolerance of the baseline and project before its end, see C16 *)
  Theorem C51_is_linear_complete (s : segment P) tol :
    let b := Line (segment_start s) (segment_end s) in
    let n := dist (l_end b) (l_start b) * dist (l_end b) (l_start b) in
    (forall p, In p (removelast (tl (segment_points s))) ->
       eps <= n /\ inner (l_start b) p (l_end b) / n < 1 /\
       exists u, 0 <= u <= 1 /\ dist p (line_eval b u) <= tol) ->
    segment_is_linear s tol = Ret true.
  Proof. exact (segment_linear_complete s tol). Qed.

  (** C52, second half.  Full statement: without the hypothesis that the segment
      is curved.  False: [C52_split_refuted], inherited from [LineSegment::split]. *)
  Theorem C52_split_partial (s : segment P) t u : (forall l, s <> Linear l) ->
    segment_eval (fst (segment_split s t)) u = segment_eval s (t * u) /\
    segment_eval (snd (segment_split s t)) u = segment_eval s (t + u * (1 - t)).
  Proof. exact (segment_split_curved s t u). Qed.
  Theorem C52_split_linear_partial (s : line P) t u :
    segment_eval (fst (segment_split (Linear s) t)) u = line_eval s (- (t * u)) /\
    segment_eval (snd (segment_split (Linear s) t)) u = line_eval s (- t + u * (1 + t)).
  Proof. exact (segment_split_linear s t u). Qed.
End Segment.

Theorem C52_split_refuted {E : Eps} : exists (s : segment P1) t u, 0 < t < 1 /\ 0 <= u <= 1 /\
  segment_eval (fst (segment_split s t)) u <> segment_eval s (t * u).
Proof. exact segment_split_ce. Qed.

Example C51_ex {E : Eps} : segment_is_linear (Linear (Line (pt1 0) (pt1 3))) (-1) = Ret true.
Proof. apply C51_is_linear_complete. intros p []. Qed.
Example C52_ex {E : Eps} : let s := Quadratic (Quad (pt1 0) (pt1 1) (pt1 4)) in
  (forall l, s <> Linear l) /\ coord (segment_eval (fst (segment_split s (1/2))) 1) 0 = 3/2.
Proof. split; [discriminate|]. cbn. lra. Qed.

(** C58 *)
Section Roots.
  Context {E : Eps}.
  Theorem C58_roots (a b c : R) : eps <= Rabs a ->
    (0 <= b * b - 4 * a * c \/ b * b - 4 * a * c <= - eps) ->
    exists l, quad_real_roots a b c = Ret l /\ (length l <= 2)%nat /\
      forall t, In t l <-> a * (t * t) + b * t + c = 0.
  Proof. exact (quad_roots_iff a b c). Qed.
  Theorem C58_order (a b c : R) : eps <= Rabs a -> 0 < b * b - 4 * a * c ->
    quad_real_roots a b c
    = Ret [(- b - sqrt (b * b - 4 * a * c)) / (2 * a); (- b + sqrt (b * b - 4 * a * c)) / (2 * a)].
  Proof. exact (quad_roots_order a b c). Qed.
  Theorem C58_linear (a b c : R) : Rabs a < eps -> eps <= Rabs b ->
    quad_real_roots a b c = Ret [- c / b].
  Proof. exact (BBoxFacts.quad_roots_linear a b c). Qed.
  Theorem C58_constant (a b c : R) : Rabs a < eps -> Rabs b < eps -> quad_real_roots a b c = Ret [].
  Proof. exact (BBoxFacts.quad_roots_none a b c). Qed.
  (** inside the EPSILON window of the discriminant a non-root is returned *)
  Theorem C58_window (a b c : R) : eps <= Rabs a -> - eps < b * b - 4 * a * c < 0 ->
    quad_real_roots a b c = Ret [- b / (2 * a)] /\ forall t, a * (t * t) + b * t + c <> 0.
  Proof. exact (quad_roots_spurious a b c). Qed.
  Theorem C58_unconditional_soundness_refuted : exists a b c l, eps <= Rabs a /\
    quad_real_roots a b c = Ret l /\ exists t, In t l /\ a * (t * t) + b * t + c <> 0.
  Proof. exact quad_roots_ce. Qed.
End Roots.

Example C58_ex : @eps Eps64 <= Rabs 1 /\ 0 < (-3) * (-3) - 4 * 1 * 2.
Proof.
  split; [|lra]. rewrite Rabs_pos_eq by lra. cbn [eps Eps64].
  apply Rle_trans with (/ 1); [|lra]. apply Rinv_le_contravar; [lra|]. apply pow_R1_Rle. lra.
Qed.

Print Assumptions C51_eval.
Print Assumptions C51_ends.
Print Assumptions C51_is_linear.
Print Assumptions C51_is_linear_complete.
Print Assumptions C52_split_keeps_kind.
Print Assumptions C52_split_partial.
Print Assumptions C52_split_linear_partial.
Print Assumptions C52_split_refuted.
Print Assumptions C58_roots.
Print Assumptions C58_order.
Print Assumptions C58_linear.
Print Assumptions C58_constant.
Print Assumptions C58_window.
Print Assumptions C58_unconditional_soundness_refuted.
