(** C83-C84: the same curve with one more control point, and curves determined by
    finitely many of their points. *)
From Coq Require Import Reals List ZArith Arith Lia Lra.
From Verif Require Import Base.Outcome Base.Scalar Model.Point Model.Line Model.Quadratic Model.Cubic
  Model.Bezier Inst.RealInst Spec.Sums Spec.Lawful Spec.Points Spec.Elevation Proofs.PointFacts Proofs.RealTac
  Proofs.BoxSpec Proofs.Elevation.
Import ListNotations.
Local Open Scope R_scope.

Section Raise.
  Context {E : Eps} {P : Type} {PT : Point R P} {LP : LawfulPoint P}.

  (** C83, any number of control points *)
  Theorem C83_eval (ps qs : list P) t : ps <> [] -> raised ps qs ->
    bezier_eval (Bezier qs) t = bezier_eval (Bezier ps) t.
  Proof. exact (raised_eval ps qs t). Qed.
  Theorem C83_split (ps qs : list P) t : ps <> [] -> raised ps qs ->
    exists l r l' r', bezier_split (Bezier ps) t = Ret (Bezier l, Bezier r) /\
      bezier_split (Bezier qs) t = Ret (Bezier l', Bezier r') /\ raised l l' /\ raised r r'.
  Proof. exact (raised_split ps qs t). Qed.
  Theorem C83_derivative (ps qs : list P) : (2 <= length ps)%nat -> raised ps qs ->
    exists ds es, bezier_derivative (Bezier ps) = Ret (Bezier ds) /\
      bezier_derivative (Bezier qs) = Ret (Bezier es) /\ raised ds es.
  Proof. exact (raised_derivative ps qs). Qed.
  Theorem C83_arclen (ps qs : list P) m : ps <> [] -> raised ps qs ->
    bezier_arclen (Bezier qs) m = bezier_arclen (Bezier ps) m.
  Proof. exact (raised_arclen ps qs m). Qed.
  Theorem C83_distance (ps qs : list P) p : ps <> [] -> raised ps qs ->
    bezier_distance_to_point (Bezier qs) p = bezier_distance_to_point (Bezier ps) p.
  Proof. exact (raised_distance ps qs p). Qed.

  (** a segment as a quadratic curve *)
  Theorem C83_quad_eval (a b : P) (c : quad P) t : raised [a; b] (quad_control_points c) ->
    quad_eval c t = line_eval (Line a b) t.
  Proof. exact (raised_quad_eval a b c t). Qed.
  Theorem C83_quad_box (a b : P) (c : quad P) : raised [a; b] (quad_control_points c) ->
    quad_bounding_box c = line_bounding_box (Line a b).
  Proof. exact (raised_quad_box a b c). Qed.

  (** a quadratic curve as a cubic one *)
  Theorem C83_cubic_eval (q : quad P) (c : cubic P) t : raised (quad_control_points q) (cubic_control_points c) ->
    cubic_eval c t = quad_eval q t.
  Proof. exact (raised_cubic_eval q c t). Qed.
  Theorem C83_cubic_split (q : quad P) (c : cubic P) t : raised (quad_control_points q) (cubic_control_points c) ->
    let (l, r) := quad_split q t in let (l', r') := cubic_split c t in
    raised (quad_control_points l) (cubic_control_points l') /\
    raised (quad_control_points r) (cubic_control_points r').
  Proof. exact (raised_cubic_split q c t). Qed.
  Theorem C83_cubic_derivative (q : quad P) (c : cubic P) : raised (quad_control_points q) (cubic_control_points c) ->
    raised [l_start (quad_derivative q); l_end (quad_derivative q)] (quad_control_points (cubic_derivative c)).
  Proof. exact (raised_cubic_derivative q c). Qed.
  Theorem C83_cubic_arclen (q : quad P) (c : cubic P) m : raised (quad_control_points q) (cubic_control_points c) ->
    cubic_arclen c m = quad_arclen q m.
  Proof. exact (raised_cubic_arclen q c m). Qed.
  Theorem C83_cubic_distance (q : quad P) (c : cubic P) p : raised (quad_control_points q) (cubic_control_points c) ->
    cubic_distance_to_point c p = quad_distance_to_point q p.
  Proof. exact (raised_cubic_distance q c p). Qed.
  Theorem C83_cubic_box (q : quad P) (c : cubic P) : raised (quad_control_points q) (cubic_control_points c) ->
    cubic_bounding_box c = quad_bounding_box q.
  Proof. exact (raised_cubic_box q c). Qed.

  (** C84 *)
  Theorem C84_bezier (ps qs : list P) (ts : list R) : length ps = length qs -> NoDup ts ->
    (length ps <= length ts)%nat ->
    (forall t, In t ts -> bezier_eval (Bezier ps) t = bezier_eval (Bezier qs) t) -> ps = qs.
  Proof. exact (bezier_determined ps qs ts). Qed.
  Theorem C84_line (l m : line P) s t : s <> t ->
    line_eval l s = line_eval m s -> line_eval l t = line_eval m t -> l = m.
  Proof. exact (line_determined l m s t). Qed.
  Theorem C84_quad (c d : quad P) ts : NoDup ts -> (3 <= length ts)%nat ->
    (forall t, In t ts -> quad_eval c t = quad_eval d t) -> c = d.
  Proof. exact (quad_determined c d ts). Qed.
  Theorem C84_cubic (c d : cubic P) ts : NoDup ts -> (4 <= length ts)%nat ->
    (forall t, In t ts -> cubic_eval c t = cubic_eval d t) -> c = d.
  Proof. exact (cubic_determined c d ts). Qed.
  (** curves of different degree that meet often enough are raised from one another *)
  Theorem C84_raised (ps qs : list P) (ts : list R) : ps <> [] -> length qs = S (length ps) -> NoDup ts ->
    (length qs <= length ts)%nat ->
    (forall t, In t ts -> bezier_eval (Bezier qs) t = bezier_eval (Bezier ps) t) -> raised ps qs.
  Proof. exact (raised_of_eval ps qs ts). Qed.
  Theorem C84_quad_cubic (q : quad P) (c : cubic P) ts : NoDup ts -> (4 <= length ts)%nat ->
    (forall t, In t ts -> cubic_eval c t = quad_eval q t) -> raised (quad_control_points q) (cubic_control_points c).
  Proof. exact (quad_cubic_determined q c ts). Qed.
End Raise.

(** ** Concrete cases *)
Lemma raised_pt1 {E : Eps} (x y z : R) :
  raised [pt1 x; pt1 y; pt1 z] [pt1 x; pt1 ((x + 2 * y) / 3); pt1 ((2 * y + z) / 3); pt1 z].
Proof.
  split; [reflexivity|]. intros j i Hj Hi. change (p_dim (P := P1)) with 1%nat in Hi.
  replace i with 0%nat by lia. cbn [length] in *.
  destruct j as [|[|[|[|j]]]]; [| | | |lia]; cbn [nth Nat.sub]; rewrite ?coord_pt1;
    rewrite !INR_IZR_INZ; cbn [Z.of_nat Pos.of_succ_nat Pos.succ]; lra.
Qed.
(** the parabola 0, 1, 0 as a cubic curve: the box is [0, 1/2], seen at the parameter 1/2 *)
Example C83_ex {E : Eps} :
  raised (quad_control_points (Quad (pt1 0) (pt1 1) (pt1 0)))
         (cubic_control_points (Cubic (pt1 0) (pt1 (2 / 3)) (pt1 (2 / 3)) (pt1 0))) /\
  quad_eval (Quad (pt1 0) (pt1 1) (pt1 0)) (1 / 2) = pt1 (1 / 2).
Proof.
  split.
  - replace (pt1 (2 / 3)) with (pt1 ((0 + 2 * 1) / 3)) at 1 by (f_equal; lra).
    replace (pt1 (2 / 3)) with (pt1 ((2 * 1 + 0) / 3)) by (f_equal; lra). exact (raised_pt1 0 1 0).
  - unfold quad_eval. cbn [q_start q_ctrl q_end]. pext. change (p_dim (P := P1)) with 1%nat in Hi.
    replace i with 0%nat by lia. rewrite !coord_pt1. lra.
Qed.
(** two parameters are not enough for a quadratic curve *)
Example C84_sharp {E : Eps} : exists c d : quad P1, c <> d /\
  forall t, In t [0; 1] -> quad_eval c t = quad_eval d t.
Proof.
  exists (Quad (pt1 0) (pt1 1) (pt1 0)), (Quad (pt1 0) (pt1 5) (pt1 0)). split.
  - intros H. injection H as H. lra.
  - intros t Ht. unfold quad_eval. cbn [q_start q_ctrl q_end]. pext. change (p_dim (P := P1)) with 1%nat in Hi.
    replace i with 0%nat by lia. rewrite !coord_pt1. destruct Ht as [<-|[<-|[]]]; lra.
Qed.
(** distinct parameters *)
Example C84_ex : NoDup [0; 1 / 3; 2 / 3; 1] /\ (4 <= length [0; 1 / 3; 2 / 3; 1])%nat.
Proof. split; [|simpl; lia]. repeat constructor; simpl; intros H; lra. Qed.

Print Assumptions C83_eval.
Print Assumptions C83_split.
Print Assumptions C83_derivative.
Print Assumptions C83_arclen.
Print Assumptions C83_distance.
Print Assumptions C83_quad_eval.
Print Assumptions C83_quad_box.
Print Assumptions C83_cubic_eval.
Print Assumptions C83_cubic_split.
Print Assumptions C83_cubic_derivative.
Print Assumptions C83_cubic_arclen.
Print Assumptions C83_cubic_distance.
Print Assumptions C83_cubic_box.
Print Assumptions C84_bezier.
Print Assumptions C84_line.
Print Assumptions C84_quad.
Print Assumptions C84_cubic.
Print Assumptions C84_raised.
Print Assumptions C84_quad_cubic.
