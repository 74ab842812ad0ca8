(** C123: the iterators of points and Bezier curves, and point types whose iterator yields another
    number of items than DIM. *)
From Coq Require Import Reals ZArith List Arith Lia Lra.
From Verif Require Import Base.Outcome Base.Scalar Model.Point Model.Line Model.Quadratic Model.Cubic Model.Bezier
  Model.Iterators Inst.RealInst Spec.Sums Spec.Lawful Spec.Points Spec.Maps
  Proofs.PointFacts Proofs.RealTac Proofs.Equivariance Proofs.Iterators.
Import ListNotations.

Section Points.
  Context {T : Type} {ST : Scalar T} {N : nat}.
  (** the items of a point are its N coordinates in order *)
  Theorem C123_items (p : PointN T N) i : length (pn_into_iter p) = N /\ pn_axis p i = idx (pn_into_iter p) i.
  Proof. exact (pn_items p i). Qed.
  (** the sum of squares written with the iterator is squared_length *)
  Theorem C123_sum_squares (p : PointN T N) : pn_sum_squares p = pn_sqlen p.
  Proof. exact (pn_sum_sqlen p). Qed.
  (** scaling and adding in place agree with the operators *)
  Theorem C123_mut_mul (p : PointN T N) s : pn_iter_mut (fun _ x => s_mul x s) p = Ret (pn_arr (pn_mul p s)).
  Proof. exact (pn_mut_mul p s). Qed.
  Theorem C123_mut_add (p q : PointN T N) :
    pn_iter_mut (fun i x => s_add x (nth i (pn_into_iter q) (s_lit 0))) p = Ret (pn_arr (pn_add p q)).
  Proof. exact (pn_mut_add p q). Qed.
End Points.

(** a loop over [&mut] reaches every entry once, in place *)
Theorem C123_iter_mut {A} (f : nat -> A -> A) (a : list A) : exists l, iter_mut f a = Ret l /\ length l = length a /\
  forall i x, nth_error a i = Some x -> nth_error l i = Some (f i x).
Proof. exact (iter_mut_spec f a). Qed.
Theorem C123_bezier_mut {P} (g : P -> P) (ps : list P) :
  bezier_iter_mut (fun _ => g) (Bezier ps) = Ret (Bezier (map g (bezier_into_iter (Bezier ps)))).
Proof. exact (bezier_mut g ps). Qed.

Section Boxes.
  Context {T P : Type} {ST : Scalar T} {PT : Point T P} (items : P -> nat).
  Local Notation zero := (s_lit (T := T) 0, s_lit (T := T) 0).

  (** with DIM items these are the functions of C01-C122 *)
  Theorem C123_dim (l : line P) (c : quad P) (k : cubic P) (p : P) : (forall q, items q = p_dim (P := P)) ->
    it_line_bounding_box items l = line_bounding_box l /\ it_quad_bounding_box items c = quad_bounding_box c /\
    it_cubic_bounding_box items k = cubic_bounding_box k /\
    it_line_distance_to_point items l p = line_distance_to_point l p.
  Proof. exact (items_dim items l c k p). Qed.

  (** fewer items: the box is right on the axes seen, and (0, 0) on the others *)
  Theorem C123_line_short (l : line P) bs : items (l_start l) <= p_dim (P := P) -> line_bounding_box l = Ret bs ->
    it_line_bounding_box items l = Ret (firstn (items (l_start l)) bs ++ repeat zero (p_dim (P := P) - items (l_start l))).
  Proof. exact (line_box_short items l bs). Qed.
  Theorem C123_quad_short (c : quad P) a bs :
    a = p_add (p_mul (l_start (quad_derivative c)) (s_lit (-1))) (l_end (quad_derivative c)) ->
    items a <= p_dim (P := P) -> quad_bounding_box c = Ret bs ->
    it_quad_bounding_box items c = Ret (firstn (items a) bs ++ repeat zero (p_dim (P := P) - items a)).
  Proof. exact (quad_box_short items c a bs). Qed.
  Theorem C123_cubic_short (c : cubic P) a bs :
    a = p_add (p_add (q_start (cubic_derivative c)) (p_mul (q_ctrl (cubic_derivative c)) (s_lit (-2)))) (q_end (cubic_derivative c)) ->
    items a <= p_dim (P := P) -> cubic_bounding_box c = Ret bs ->
    it_cubic_bounding_box items c = Ret (firstn (items a) bs ++ repeat zero (p_dim (P := P) - items a)).
  Proof. exact (cubic_box_short items c a bs). Qed.

  (** more items: no box is ever returned *)
  Theorem C123_line_long (l : line P) bs : p_dim (P := P) < items (l_start l) -> it_line_bounding_box items l <> Ret bs.
  Proof. exact (line_box_long items l bs). Qed.
  Theorem C123_quad_long (c : quad P) a bs :
    a = p_add (p_mul (l_start (quad_derivative c)) (s_lit (-1))) (l_end (quad_derivative c)) ->
    p_dim (P := P) < items a -> it_quad_bounding_box items c <> Ret bs.
  Proof. exact (quad_box_long items c a bs). Qed.
  Theorem C123_cubic_long (c : cubic P) a bs :
    a = p_add (p_add (q_start (cubic_derivative c)) (p_mul (q_ctrl (cubic_derivative c)) (s_lit (-2)))) (q_end (cubic_derivative c)) ->
    p_dim (P := P) < items a -> it_cubic_bounding_box items c <> Ret bs.
  Proof. exact (cubic_box_long items c a bs). Qed.
End Boxes.

Local Open Scope R_scope.
Section Distance.
  Context {E : Eps} {P : Type} {PT : Point R P} {LP : LawfulPoint P} (items : P -> nat).

  (** fewer items: the distance to some point of the segment, so never too small *)
  Theorem C123_distance_short (s : line P) p : (forall q, (items q <= p_dim (P := P))%nat) ->
    exists u, 0 <= u <= 1 /\ it_line_distance_to_point items s p = Ret (dist p (line_eval s u)).
  Proof. exact (it_distance_short items s p). Qed.
  Theorem C123_distance_long (s : line P) p : (forall q, (p_dim (P := P) < items q)%nat) ->
    eps <= p_sqlen (p_sub (l_end s) (l_start s)) -> it_line_distance_to_point items s p = Panic.
  Proof. exact (it_distance_long items s p). Qed.

  (** moving every control point in place by an affine map moves the curve by it *)
  Theorem C123_bezier_affine (F : P -> P) (ps : list P) t : affine_map F ->
    (let! b := bezier_iter_mut (fun _ => F) (Bezier ps) in bezier_eval b t) = omap F (bezier_eval (Bezier ps) t).
  Proof. intros H. rewrite bezier_mut. exact (bezier_eval_aff F H ps t). Qed.
End Distance.

(** points of the plane that yield only their first coordinate *)
Example C123_ex {E : Eps} : it_line_bounding_box (fun _ : P2 => 1%nat) (Line (pt2 1 2) (pt2 3 5)) = Ret [(1, 3); (0, 0)] /\
  line_bounding_box (Line (pt2 1 2) (pt2 3 5)) = Ret [(1, 3); (2, 5)].
Proof.
  split; unfold it_line_bounding_box, line_bounding_box; cbn; unfold Rltb; destruct (Rlt_dec 1 3); try lra; cbn; auto.
  destruct (Rlt_dec 2 5); try lra; reflexivity.
Qed.

Print Assumptions C123_items.
Print Assumptions C123_sum_squares.
Print Assumptions C123_mut_mul.
Print Assumptions C123_mut_add.
Print Assumptions C123_iter_mut.
Print Assumptions C123_bezier_mut.
Print Assumptions C123_dim.
Print Assumptions C123_line_short.
Print Assumptions C123_quad_short.
Print Assumptions C123_cubic_short.
Print Assumptions C123_line_long.
Print Assumptions C123_quad_long.
Print Assumptions C123_cubic_long.
Print Assumptions C123_distance_short.
Print Assumptions C123_distance_long.
Print Assumptions C123_bezier_affine.
