(** [PointN<U, N>] for a coordinate type [U] of the user's own: point_generic.rs asks only
    for the operators below, and [Point::Scalar] is [NativeFloat] whatever [U] is
    (point_generic.rs:161).  Model/Point.v is the case [U = NativeFloat]. *)
From Coq Require Import ZArith List Arith Bool.
From Verif Require Import Base.Outcome Base.Scalar Model.Point.
Import ListNotations.
Local Open Scope scalar_scope.

(** the bounds of point_generic.rs:146-160 that the bodies use *)
Class Coordinate (T U : Type) := {
  u_add : U -> U -> U;          (* Add<U, Output = U> *)
  u_sub : U -> U -> U;          (* Sub<U, Output = U> *)
  u_mul : U -> U -> U;          (* Mul<U, Output = U> *)
  u_scale : U -> T -> U;        (* Mul<NativeFloat, Output = U> *)
  u_eqb : U -> U -> bool;       (* PartialOrd's == *)
  u_default : U;                (* Default *)
  u_into : U -> T               (* Into<NativeFloat> *)
}.

Section PointU.
  Context {T U : Type} {ST : Scalar T} {CU : Coordinate T U} {N : nat}.

  (** point_generic.rs:45-58 *)
  Definition pu_add (p q : PointN U N) : PointN U N :=
    mkPointN (map2 u_add (pn_arr p) (pn_arr q)) (map2_len _ _ _ (pn_len p) (pn_len q)).
  (** point_generic.rs:77-90 *)
  Definition pu_sub (p q : PointN U N) : PointN U N :=
    mkPointN (map2 u_sub (pn_arr p) (pn_arr q)) (map2_len _ _ _ (pn_len p) (pn_len q)).
  (** point_generic.rs:109-126, at [NativeFloat] *)
  Definition pu_mul (p : PointN U N) (s : T) : PointN U N :=
    mkPointN (map (fun x => u_scale x s) (pn_arr p)) (map_len _ _ (pn_len p)).
  (** point_generic.rs:25-29 *)
  Definition pu_default : PointN U N := mkPointN (repeat u_default N) (repeat_len _).
  (** point_generic.rs:31-43 *)
  Fixpoint arru_eqb (a b : list U) : bool :=
    match a, b with
    | x :: a', y :: b' => if negb (u_eqb x y) then false else arru_eqb a' b'
    | _, _ => true
    end.
  Definition pu_eqb (p q : PointN U N) : bool := arru_eqb (pn_arr p) (pn_arr q).
  (** point_generic.rs:164-167 *)
  Definition pu_axis (p : PointN U N) (index : nat) : outcome T :=
    if (index <=? N)%nat then let! x := idx (pn_arr p) index in Ret (u_into x) else Panic.
  (** point_generic.rs:169-175: the product is taken in [U] *)
  Definition pu_sqlen (p : PointN U N) : T :=
    fold_left (fun sqr_dist x => sqr_dist + u_into (u_mul x x)) (pn_arr p) (s_lit 0).

  (** point_generic.rs:146-176 *)
  #[global] Instance PointU_Point : Point T (PointN U N) := {
    p_add := pu_add;
    p_sub := pu_sub;
    p_mul := pu_mul;
    p_eqb := pu_eqb;
    p_default := pu_default;
    p_dim := N;
    p_axis := pu_axis;
    p_sqlen := pu_sqlen
  }.
End PointU.
