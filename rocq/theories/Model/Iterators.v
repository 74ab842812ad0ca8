(** The [IntoIterator] instances of point_generic.rs and bezier.rs, and the loops of the crate
    over [point.into_iter().enumerate()] for a user type whose iterator yields any number of
    items, independent of [DIM] (Model/Point.v takes it to be [DIM]). *)
From Coq Require Import ZArith List Arith Bool.
From Verif Require Import Base.Outcome Base.Scalar Model.Point Model.Line Model.Quadratic Model.Cubic Model.Bezier.
Import ListNotations.
Local Open Scope scalar_scope.
Local Open Scope point_scope.

(** [IntoIterator for PointN] (point_generic.rs:128-135): the array by value, first entry first *)
Definition pn_into_iter {T : Type} {N : nat} (p : PointN T N) : list T := pn_arr p.
(** [IntoIterator for Bezier] (bezier.rs:36-43) *)
Definition bezier_into_iter {P : Type} (b : bezier P) : list P := bz_points b.

(** [for (i, x) in a.iter_mut().enumerate() { *x = f(i, *x) }] over an array: the references are
    handed out in order, each entry once *)
Definition iter_mut {A : Type} (f : nat -> A -> A) (a : list A) : outcome (list A) :=
  for_in (range 0 (length a)) a (fun i a => let! x := idx a i in set_idx a i (f i x)).

(** [IntoIterator for &mut Bezier] (bezier.rs:45-52) driven by such a loop *)
Definition bezier_iter_mut {P : Type} (f : nat -> P -> P) (b : bezier P) : outcome (bezier P) :=
  let! ps := iter_mut f (bz_points b) in Ret (Bezier ps).
(** [IntoIterator for &mut PointN] (point_generic.rs:137-144); the array after the loop *)
Definition pn_iter_mut {T : Type} {N : nat} (f : nat -> T -> T) (p : PointN T N) : outcome (list T) :=
  iter_mut f (pn_arr p).

(** [p.into_iter().map(|x| x * x).sum::<f64>()], as in cubic_bezier.rs:421 *)
Definition pn_sum_squares {T : Type} {ST : Scalar T} {N : nat} (p : PointN T N) : T :=
  fold_left s_add (map (fun x => x * x) (pn_into_iter p)) (s_lit 0).

Section Items.
  Context {T P : Type} {ST : Scalar T} {PT : Point T P}.
  (** how many items [into_iter] of a point yields *)
  Context (items : P -> nat).

  (** line.rs:59-62 *)
  Definition it_dot_loop (v1 v2 : P) : outcome T :=
    for_in (range 0 (items v1)) (s_lit 0) (fun i dot =>
      let! a := p_axis v1 i in
      let! b := p_axis v2 i in
      Ret (dot + a * b)).

  (** line.rs:51-79 *)
  Definition it_line_distance_to_point (self : line P) (p : P) : outcome T :=
    let l2 := p_sqlen (l_end self -^ l_start self) in
    if l2 <? s_eps then
      Ret (s_sqrt (p_sqlen (l_start self -^ p)))
    else
      let v1 := p -^ l_start self in
      let v2 := l_end self -^ l_start self in
      let! dot := it_dot_loop v1 v2 in
      let t := s_lit 0 in
      let t := if dot / l2 <? s_lit 1 then dot / l2 else t in
      let t := if t <? s_lit 0 then s_lit 0 else t in
      let projection := l_start self +^ (l_end self -^ l_start self) *^ t in
      Ret (s_sqrt (p_sqlen (p -^ projection))).

  (** line.rs:102-116; the array has [DIM] entries *)
  Definition it_line_bounding_box (self : line P) : outcome (list (T * T)) :=
    for_in (range 0 (items (l_start self))) (repeat (s_lit 0, s_lit 0) p_dim) (fun i bounds =>
      let! s := p_axis (l_start self) i in
      let! e := p_axis (l_end self) i in
      if s <? e then set_idx bounds i (s, e) else set_idx bounds i (e, s)).

  (** quadratic_bezier.rs:295-328: the loop runs over the items of [a] (302) *)
  Definition it_quad_bounding_box (self : quad P) : outcome (list (T * T)) :=
    let derivative := quad_derivative self in
    let a := l_start derivative *^ s_lit (-1) +^ l_end derivative in
    for_in (range 0 (items a)) (repeat (s_lit 0, s_lit 0) p_dim) (fun dim bounds =>
      let! b := quad_bbox_axis self dim in
      set_idx bounds dim b).

  (** cubic_bezier.rs:366-409: the loop runs over the items of [a] (377) *)
  Definition it_cubic_bounding_box (self : cubic P) : outcome (list (T * T)) :=
    let derivative := cubic_derivative self in
    let a := q_start derivative +^ q_ctrl derivative *^ s_lit (-2) +^ q_end derivative in
    for_in (range 0 (items a)) (repeat (s_lit 0, s_lit 0) p_dim) (fun dim bounds =>
      let! b := cubic_bbox_axis self dim in
      set_idx bounds dim b).
End Items.
