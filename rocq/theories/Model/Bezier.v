(** Model of src/bezier.rs: Bezier curves with any number of control points. *)
From Coq Require Import ZArith List Arith Bool.
From Verif Require Import Base.Outcome Base.Scalar Model.Point Model.Line Model.Quadratic.
Import ListNotations.
Local Open Scope scalar_scope.
Local Open Scope point_scope.

(** [struct Bezier<P, const N: usize> { control_points: [P; N] }]
    (bezier.rs:19-25) and [new] (62-64).  The const generic N is the length of
    the list. *)
Record bezier (P : Type) := Bezier { bz_points : list P }.
Arguments Bezier {P} bz_points.
Arguments bz_points {P} b : rename.

Section Bezier.
  Context {T P : Type} {ST : Scalar T} {PT : Point T P}.

  (** bezier.rs:66-68 *)
  Definition bezier_control_points (self : bezier P) : list P := bz_points self.

  (** bezier.rs:78-80 and 134-137: one level of De Casteljau's algorithm in place *)
  Definition casteljau_level (t : T) (i : nat) (p : list P) : outcome (list P) :=
    let! m := usub (length p) i in
    for_in (range 0 m) p (fun j p =>
      let! a := idx p j in
      let! b := idx p (j + 1) in
      set_idx p j (a *^ ((- t) + s_lit 1) +^ b *^ t)).

  (** bezier.rs:72-83; also the trait method [Spline::eval] (bezier.rs:31-33) *)
  Definition bezier_eval (self : bezier P) (t : T) : outcome P :=
    let p := bz_points self in
    let! p := for_in (range_incl 1 (length p)) p (fun i p => casteljau_level t i p) in
    idx p 0.

  (** bezier.rs:89-118 *)
  Definition bezier_distance_to_point (self : bezier P) (point : P) : outcome T :=
    let! first := idx (bz_points self) 0 in
    search_distance (bezier_eval self) first point.

  (** bezier.rs:128-138: one iteration; state is (left, right, casteljau_points) *)
  Definition split_body (t : T) (i : nat) (st : list P * list P * list P)
    : outcome (list P * list P * list P) :=
    let '(lft, rgt, cp) := st in
    let! im1 := usub i 1 in
    let! c0 := idx cp 0 in
    let! lft := set_idx lft im1 c0 in
    let! r := usub (length rgt) i in
    let! cr := idx cp r in
    let! rgt := set_idx rgt r cr in
    let! cp := casteljau_level t i cp in
    Ret (lft, rgt, cp).

  (** bezier.rs:120-148 *)
  Definition bezier_split (self : bezier P) (t : T) : outcome (bezier P * bezier P) :=
    let ps := bz_points self in
    let! st := for_in (range_incl 1 (length ps)) (ps, ps, ps) (split_body t) in
    let '(lft, rgt, _) := st in
    Ret (Bezier lft, Bezier rgt).

  (** bezier.rs:156-166.  [{N - 1}] does not compile for N = 0; modelled as [Panic]. *)
  Definition bezier_derivative (self : bezier P) : outcome (bezier P) :=
    let ps := bz_points self in
    let! nm1 := usub (length ps) 1 in
    let! new_points :=
      for_break (range 0 (length ps)) (repeat p_default nm1) (fun i new_points =>
        let! a := idx ps (i + 1) in
        let! b := idx ps i in
        let! new_points := set_idx new_points i ((a -^ b) *^ s_of_usize nm1) in
        let! last := usub (length ps) 2 in
        Ret (new_points, (i =? last)%nat)) in
    Ret (Bezier new_points).

  (** bezier.rs:241-252 *)
  Definition bezier_arclen (self : bezier P) (nsteps : nat) : outcome T :=
    let stepsize := s_lit 1 / s_of_usize nsteps in
    for_in (range 1 nsteps) (s_lit 0) (fun i arclen =>
      let t := s_of_usize i * s_lit 1 / s_of_usize nsteps in
      let! p1 := bezier_eval self t in
      let! p2 := bezier_eval self (t + stepsize) in
      Ret (arclen + s_sqrt (p_sqlen (p1 -^ p2)))).
End Bezier.
