(** The loops of src/point_generic.rs as written, over array indices.  The other
    files use the closed forms of Model/Point.v; Props/PointProps.v proves that the
    loops return exactly those. *)
From Coq Require Import ZArith List Arith Bool.
From Verif Require Import Base.Outcome Base.Scalar Model.Point.
Import ListNotations.
Local Open Scope scalar_scope.

Section Loops.
  Context {T : Type} {ST : Scalar T} {N : nat}.

  (** point_generic.rs:51-57 *)
  Definition add_loop (self other : PointN T N) : outcome (list T) :=
    for_in (range 0 N) (pn_arr self) (fun i res =>
      let! a := idx (pn_arr self) i in
      let! b := idx (pn_arr other) i in
      set_idx res i (a + b)).

  (** point_generic.rs:68-74 *)
  Definition add_scalar_loop (self : PointN T N) (rhs : T) : outcome (list T) :=
    for_in (range 0 N) (pn_arr self) (fun i res =>
      let! a := idx (pn_arr self) i in
      set_idx res i (a + rhs)).

  (** point_generic.rs:83-89 *)
  Definition sub_loop (self other : PointN T N) : outcome (list T) :=
    for_in (range 0 N) (pn_arr self) (fun i res =>
      let! a := idx (pn_arr self) i in
      let! b := idx (pn_arr other) i in
      set_idx res i (a - b)).

  (** point_generic.rs:100-106 *)
  Definition sub_scalar_loop (self : PointN T N) (rhs : T) : outcome (list T) :=
    for_in (range 0 N) (pn_arr self) (fun i res =>
      let! a := idx (pn_arr self) i in
      set_idx res i (a - rhs)).

  (** point_generic.rs:119-125: reads the array it writes *)
  Definition mul_loop (self : PointN T N) (rhs : T) : outcome (list T) :=
    let res := pn_arr self in
    for_in (range 0 (length res)) res (fun i res =>
      let! a := idx res i in
      set_idx res i (a * rhs)).

  (** point_generic.rs:35-42: [Err] is the early [return] *)
  Definition eq_loop (self other : PointN T N) : outcome bool :=
    let! r := for_result (range 0 N) tt (fun i _ =>
      let! a := idx (pn_arr self) i in
      let! b := idx (pn_arr other) i in
      Ret (if negb (a =? b) then Err false else Ok tt)) in
    match r with
    | Err early => Ret early
    | Ok _ => Ret true
    end.

  (** point_generic.rs:169-175 *)
  Definition squared_length_loop (self : PointN T N) : outcome T :=
    for_in (range 0 N) (s_lit 0) (fun i sqr_dist =>
      let! a := idx (pn_arr self) i in
      let! a' := idx (pn_arr self) i in
      Ret (sqr_dist + a * a')).
End Loops.
