(** The crate's own unit tests, run on the f64 model.

    This is validation of the model, not proof about the code: every test of the
    crate is transcribed and computed with the IEEE instance, and each passes
    (the Run files next to this one).  A test returns [Ret true] when no
    assertion fails; a panic of the code under test is [Panic]. *)
From Coq Require Import ZArith List Arith Bool.
From Verif Require Import Base.Outcome Base.Scalar Model.Point Model.Line Model.Quadratic
  Model.Cubic Model.Bezier Model.BSpline Inst.FloatInst Spec.Points Spec.Circle Spec.Rounding.
Import ListNotations.
Local Open Scope scalar_scope.
Local Open Scope point_scope.
Local Existing Instance Binary64.

Definition f64 : Type := float (F := Binary64).
Definition lit (z : Z) : f64 := s_lit z.
(** the decimal literal m / 10^k: the quotient of two exact floats, rounded once *)
Definition dec (m : Z) (k : Z) : f64 := lit m / lit (10 ^ k).
Definition P2 (x y : f64) : PointN f64 2 := pt [x; y].
Definition P3 (x y z : f64) : PointN f64 3 := pt [x; y; z].

(** [for t in 0..=n { assert!(check(t as f64 * 1f64 / (n as f64))) }] *)
Definition for_steps (n : nat) (check : f64 -> outcome bool) : outcome bool :=
  for_in (range_incl 0 n) true (fun i ok =>
    let! b := check (s_of_usize i * lit 1 / s_of_usize n) in Ret (ok && b)).
Definition close {P} {PT : Point f64 P} (p q : P) : bool := p_sqlen (p -^ q) <? s_eps.
Definition assert_all (l : list bool) : outcome bool := Ret (forallb (fun b => b) l).

(** the control points shared by many tests *)
Definition pa := P2 (lit 0) (dec 177 2).
Definition pb := P2 (dec 11 1) (lit (-1)).
Definition pc := P2 (dec 43 1) (lit 3).
Definition pd := P2 (dec 32 1) (lit (-4)).
Definition pe := P2 (dec 29 1) (lit 0).
Definition pf := P2 (dec 23 1) (dec 177 2).

(** line.rs:126-134 *)
Definition line_segment_interpolation : outcome bool :=
  let line := Line (P2 (lit 0) (dec 177 2)) (P2 (dec 43 1) (lit 3)) in
  let mid := line_eval line s_half in
  assert_all [p_sqlen (mid -^ l_start line) - p_sqlen (mid -^ l_end line) <? s_eps].

(** line.rs:138-152 *)
Definition line_segment_distance_to_point : outcome bool :=
  let line := Line (P3 (lit 0) (lit 1) (lit 0)) (P3 (lit 3) (lit 1) (lit 0)) in
  let p1 := P3 (lit 0) (lit 5) (lit 0) in
  let! d := line_distance_to_point line p1 in
  let p2 := P3 (dec 15 1) (lit 2) (lit 0) in
  assert_all
    [d - s_abs (lit 4) <? s_eps;
     s_abs (s_sqrt (p_sqlen (p1 -^ l_start line)) - lit 4) <? s_eps;
     s_abs (s_sqrt (p_sqlen (p1 -^ l_end line)) - lit 5) <? s_eps;
     s_abs (s_sqrt (p_sqlen (p2 -^ line_eval line s_half)) - lit 1) <? s_eps].

(** quadratic_bezier.rs:425-442 *)
Definition quad_eval_equivalence : outcome bool :=
  let bezier := Quad pa pc pd in
  for_steps 1000 (fun t => Ret (close (quad_eval_casteljau bezier t) (quad_eval bezier t))).

(** quadratic_bezier.rs:445-467 *)
Definition quad_split_equivalence : outcome bool :=
  let bezier := Quad pa pc pd in
  let (left, right) := quad_split bezier s_half in
  for_steps 1000 (fun t => assert_all
    [close (quad_eval bezier (t / lit 2)) (quad_eval left t);
     close (quad_eval bezier ((t * s_half) + s_half)) (quad_eval right t)]).

Definition in_bounds (bounds : list (f64 * f64)) (p : PointN f64 2) : outcome bool :=
  for_in (range 0 2) true (fun i ok =>
    let! a := p_axis p i in
    let! b := idx bounds i in
    Ret (ok && ((a >=? fst b - dec 1 2) && (a <=? snd b + dec 1 2)))).

(** quadratic_bezier.rs:470-492 *)
Definition quad_bounding_box_contains : outcome bool :=
  let bezier := Quad pa (P2 (dec 43 1) (lit (-3))) (P2 (dec 32 1) (lit 4)) in
  let! bounds := quad_bounding_box bezier in
  for_steps 100 (fun t => in_bounds bounds (quad_eval_casteljau bezier t)).

Definition far := P2 (dec (-51) 1) (dec (-56) 1).
Definition near := P2 (dec 51 1) (dec 56 1).

(** quadratic_bezier.rs:495-503 *)
Definition quad_distance : outcome bool :=
  let curve := Quad pa pc pd in
  let! a := quad_distance_to_point curve far in
  let! b := quad_distance_to_point curve near in
  assert_all [a >? b].

(** cubic_bezier.rs:418-475 *)
Definition circle_approximation_error : outcome bool :=
  let c := dec 551915024494 12 in
  let max_error := dec 19608 6 * dec 1 2 in
  for_steps 1000 (fun t => assert_all
    (map (fun q => s_abs (radial (cubic_eval q t)) <=? max_error) (quadrants c))).

(** cubic_bezier.rs:478-522; the constant PI of [core::f64::consts] *)
Definition circle_circumference_approximation : outcome bool :=
  let c := dec 551915024494 12 in
  let max_error := dec 1 2 in
  let pi := flt 884279719003555 (-48) in
  let tau := lit 2 * pi in
  let! a1 := cubic_arclen (quadrant_1 c) 1000 in
  let! a2 := cubic_arclen (quadrant_2 c) 1000 in
  let! a3 := cubic_arclen (quadrant_3 c) 1000 in
  let! a4 := cubic_arclen (quadrant_4 c) 1000 in
  let circumference := a1 + a2 + a3 + a4 in
  assert_all [tau + max_error >? circumference; tau - max_error <? circumference].

(** cubic_bezier.rs:525-543 *)
Definition cubic_eval_equivalence_casteljau : outcome bool :=
  let bezier := Cubic pa pb pc pd in
  for_steps 1000 (fun t => Ret (close (cubic_eval_casteljau bezier t) (cubic_eval bezier t))).

(** cubic_bezier.rs:546-569 *)
Definition cubic_split_equivalence : outcome bool :=
  let bezier := Cubic pa pe pc pd in
  let (left, right) := cubic_split bezier s_half in
  for_steps 1000 (fun t => assert_all
    [close (cubic_eval bezier (t / lit 2)) (cubic_eval left t);
     close (cubic_eval bezier ((t * s_half) + s_half)) (cubic_eval right t)]).

(** cubic_bezier.rs:572-596 *)
Definition cubic_bounding_box_contains : outcome bool :=
  let bezier := Cubic pa pe (P2 (dec 43 1) (lit (-3))) (P2 (dec 32 1) (lit 4)) in
  let! bounds := cubic_bounding_box bezier in
  for_steps 100 (fun t => in_bounds bounds (cubic_eval_casteljau bezier t)).

(** cubic_bezier.rs:599-611 *)
Definition cubic_distance : outcome bool :=
  let curve := Cubic pa pb pc pd in
  let! a := cubic_distance_to_point curve far in
  let! b := cubic_distance_to_point curve near in
  assert_all [a >? b].

(** bezier.rs:264-284 *)
Definition bezier_eval_endpoints : outcome bool :=
  let last := P2 (dec 89 1) (dec 17 1) in
  let curve := Bezier [pa; pb; pc; pd; P2 (dec 73 1) (dec 27 1); last] in
  let! start := bezier_eval curve (lit 0) in
  let! fin := bezier_eval curve (lit 1) in
  assert_all [close start pa; close fin last].

(** bezier.rs:287-301 *)
Definition bezier_distance : outcome bool :=
  let bezier := Bezier [pa; pe; pc; pd] in
  let! a := bezier_distance_to_point bezier far in
  let! b := bezier_distance_to_point bezier near in
  assert_all [a >? b].

(** bezier.rs:304-329 *)
Definition bezier_split_equivalence : outcome bool :=
  let bezier := Bezier [pa; pe; pc; pd] in
  let! lr := bezier_split bezier s_half in
  for_steps 1000 (fun t =>
    let! a := bezier_eval bezier (t / lit 2) in
    let! b := bezier_eval (fst lr) t in
    let! c := bezier_eval bezier ((t * s_half) + s_half) in
    let! d := bezier_eval (snd lr) t in
    assert_all [close a b; close c d]).

(** bezier.rs:334-358 *)
Definition equivalence_cubic_specialization : outcome bool :=
  for_steps 1000 (fun t =>
    let! g := bezier_eval (Bezier [pa; pb; pc; pd]) t in
    Ret (close (cubic_eval (Cubic pa pb pc pd) t) g)).

(** bezier.rs:362-383 *)
Definition equivalence_quadratic_specialization : outcome bool :=
  for_steps 1000 (fun t =>
    let! g := bezier_eval (Bezier [pa; pb; pd]) t in
    Ret (close (quad_eval (Quad pa pb pd) t) g)).

(** The B-spline tests.  [unwrap] and [panic!] in a test fail it. *)
Definition unwrap {A E} (r : result A E) : outcome A :=
  match r with Ok a => Ret a | Err _ => Panic end.
Definition kind_eqb (a b : KnotVectorKind) : bool :=
  match a, b with
  | Unclamped, Unclamped | ClampedStart, ClampedStart | ClampedEnd, ClampedEnd
  | Clamped, Clamped => true
  | _, _ => false
  end.
Definition violates {A} (r : result A BSplineError) : bool :=
  match r with Err KnotDomainViolation => true | _ => false end.
Definition is_ok {A E} (r : result A E) : bool := match r with Ok _ => true | Err _ => false end.

(** construct the curve, check its kind, and evaluate it at 101 parameters of its
    reported domain *)
Definition walk (D : nat) (knots : list f64) (points : list (PointN f64 2)) (kind : KnotVectorKind)
  : outcome (bspline f64 (PointN f64 2) * f64 * f64 * bool) :=
  let! r := bspline_new D knots points in
  let! curve := unwrap r in
  let! dom := knot_domain curve in
  let (kmin, kmax) := dom in
  let! ok := for_in (range_incl 0 100) true (fun i ok =>
    let t := kmin + (s_of_usize i / s_of_usize 100) * (kmax - kmin) in
    let! r := bspline_eval curve t in
    let! _ := unwrap r in Ret ok) in
  Ret (curve, kmin, kmax, ok && kind_eqb (bs_kind curve) kind).

Definition ints (l : list Z) : list f64 := map lit l.
Definition l0 := P2 (lit 0) (lit 0).
Definition l1 := P2 (lit 10) (lit 10).
Definition l2 := P2 (lit 20) (lit 0).

(** bspline.rs:496-530, 575-611 *)
Definition clamped_ends (D : nat) (knots : list Z) (points : list (PointN f64 2))
  (first last : PointN f64 2) : outcome bool :=
  let! w := walk D (ints knots) points Clamped in
  let '(curve, _, _, ok) := w in
  let! r0 := bspline_eval curve (lit 0) in
  let! start := unwrap r0 in
  let! r1 := bspline_eval curve (lit 1) in
  let! fin := unwrap r1 in
  assert_all [ok; p_eqb start first; p_eqb fin last].

Definition degree_1_clamped := clamped_ends 1 [0; 0; 1; 1]%Z [l0; l1] l0 l1.
Definition degree_2_clamped := clamped_ends 2 [0; 0; 0; 1; 1; 1]%Z [l0; l1; l2] l0 l2.

(** bspline.rs:533-572, 614-653 *)
Definition unclamped_mid (D : nat) (knots : list Z) (points : list (PointN f64 2)) (at_mid : f64)
  : outcome bool :=
  let! w := walk D (ints knots) points Unclamped in
  let '(curve, _, _, ok) := w in
  let! r := bspline_eval curve at_mid in
  let! mid := unwrap r in
  assert_all [ok; s_sqrt (p_sqlen (l1 -^ mid)) - s_sqrt (p_sqlen (l0 -^ mid)) <? s_eps].

Definition degree_1_unclamped := unclamped_mid 1 [0; 1; 2; 3]%Z [l0; l1] (dec 15 1).
Definition degree_2_unclamped := unclamped_mid 2 [0; 1; 2; 3; 4; 5]%Z [l0; l1; l2] (dec 25 1).

(** bspline.rs:656-704, 758-808; [above] is a parameter beyond the domain *)
Definition clamped_walk (D : nat) (knots : list Z) (points : list (PointN f64 2)) (above : f64)
  (kmin' kmax' : Z) (first last : PointN f64 2) : outcome bool :=
  let! w := walk D (ints knots) points Clamped in
  let '(curve, kmin, kmax, ok) := w in
  let! below := bspline_eval curve (dec (-1) 1) in
  let! above := bspline_eval curve above in
  let! ra := bspline_eval curve kmin in
  let! rb := bspline_eval curve kmax in
  let! a := unwrap ra in
  let! b := unwrap rb in
  assert_all [ok; kmin =? lit kmin'; kmax =? lit kmax'; violates below; violates above;
              p_eqb a first; p_eqb b last].

Definition degree_3_clamped :=
  clamped_walk 3 [0; 0; 0; 0; 1; 2; 2; 2; 2]%Z [pa; pb; pc; pd; pf] (dec 21 1) 0 2 pa pf.
Definition degree_4_clamped :=
  clamped_walk 4 [0; 0; 0; 0; 0; 3; 3; 3; 3; 3]%Z [pa; pb; pc; pd; pf] (dec 31 1) 0 3 pa pf.

(** bspline.rs:707-755 *)
Definition degree_3_unclamped : outcome bool :=
  let! w := walk 3 (ints [0; 1; 2; 3; 4; 5; 6; 7; 8]%Z) [pa; pb; pc; pd; pf] Unclamped in
  let '(curve, kmin, kmax, ok) := w in
  let! below := bspline_eval curve (dec (-1) 1) in
  let! above := bspline_eval curve (dec 81 1) in
  let! ra := bspline_eval curve kmin in
  let! rb := bspline_eval curve kmax in
  assert_all [ok; kmin =? lit 3; kmax =? lit 5; violates below; violates above; is_ok ra; is_ok rb].

(** bspline.rs:811-857 *)
Definition degree_4_unclamped : outcome bool :=
  let! w := walk 4 (ints [0; 1; 2; 3; 4; 5; 6; 7; 8; 9; 10]%Z) [pa; pb; pc; pd; pf; l0] Unclamped in
  let '(curve, kmin, kmax, ok) := w in
  let! below := bspline_eval curve (dec (-1) 1) in
  let! above := bspline_eval curve (dec 91 1) in
  assert_all [ok; kmin =? lit 4; kmax =? lit 6; violates below; violates above].
