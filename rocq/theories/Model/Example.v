(** Model of examples/plotters_cubic_bezier.rs: the data handed to the plotting library.
    Colours, captions, fonts and the drawing itself are not modelled. *)
From Coq Require Import ZArith List Arith.
From Verif Require Import Base.Outcome Base.Scalar Model.Point Model.Cubic.
Import ListNotations.
Local Open Scope scalar_scope.

Section Example_.
  Context {T : Type} {ST : Scalar T}.

  (** A decimal literal n/d with n and d small: IEEE division rounds the exact quotient, as
      the compiler rounds the literal. *)
  Definition dec (n d : Z) : T := s_lit n / s_lit d.

  (** lines 11-16 *)
  Definition ex_cpoints : list (T * T) :=
    [(s_lit 0, dec 177 100); (dec 11 10, s_lit (-1)); (dec 43 10, s_lit 3); (dec 32 10, s_lit (-4))].
  (** lines 19-25 *)
  Definition ex_chull : list (T * T) :=
    [(s_lit 0, dec 177 100); (dec 11 10, s_lit (-1)); (dec 32 10, s_lit (-4)); (dec 43 10, s_lit 3); (s_lit 0, dec 177 100)].
  (** lines 27-32 *)
  Definition ex_bezier : cubic (PointN T 2) :=
    Cubic (@mkPointN T 2 [s_lit 0; dec 177 100] eq_refl) (@mkPointN T 2 [dec 11 10; s_lit (-1)] eq_refl)
          (@mkPointN T 2 [dec 43 10; s_lit 3] eq_refl) (@mkPointN T 2 [dec 32 10; s_lit (-4)] eq_refl).

  (** what is drawn: the chart area, the labelled points, the curve, the box and the hull *)
  Record plot := Plot { pl_x : T * T; pl_y : T * T; pl_points : list (T * T); pl_curve : list (T * T);
                        pl_box : list (T * T); pl_hull : list (T * T) }.

  (** lines 41-47: [push] onto a growing vector *)
  Definition ex_graph (nsteps : nat) : outcome (list (T * T)) :=
    for_in (range 0 nsteps) [] (fun i graph =>
      let t := s_of_usize i * s_lit 1 / s_of_usize nsteps in
      let p := cubic_eval_casteljau ex_bezier t in
      let! x := p_axis p 0 in
      let! y := p_axis p 1 in
      Ret (graph ++ [(x, y)])).

  (** lines 9-118, with nsteps = 1000 at line 41 *)
  Definition ex_main : outcome plot :=
    let! bounds := cubic_bounding_box ex_bezier in
    let! b0 := idx bounds 0 in
    let! b1 := idx bounds 1 in
    let xmin := fst b0 in let xmax := snd b0 in
    let ymin := fst b1 in let ymax := snd b1 in
    let! graph := ex_graph 1000 in
    Ret (Plot (fst b0 - s_lit 2, xmin + s_lit 6) (ymin - s_lit 1, ymax + s_lit 3) ex_cpoints graph
           [(xmin, ymin); (xmin, ymax); (xmax, ymax); (xmax, ymin); (xmin, ymin)] ex_chull).
End Example_.
