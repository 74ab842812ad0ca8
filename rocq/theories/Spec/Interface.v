(** Two point types that cannot be told apart through the trait [Point]. *)
From Coq Require Import ZArith List Bool.
From Verif Require Import Base.Outcome Base.Scalar Model.Point Model.Coordinates.

Record interchangeable {T P Q : Type} {ST : Scalar T} {PT : Point T P} {QT : Point T Q} (R : P -> Q -> Prop) : Prop := {
  ic_dim : p_dim (P := P) = p_dim (P := Q);
  ic_default : R p_default p_default;
  ic_add : forall p p' q q', R p p' -> R q q' -> R (p_add p q) (p_add p' q');
  ic_sub : forall p p' q q', R p p' -> R q q' -> R (p_sub p q) (p_sub p' q');
  ic_mul : forall p p' t, R p p' -> R (p_mul p t) (p_mul p' t);
  ic_axis : forall p p' i, R p p' -> p_axis p i = p_axis p' i;
  ic_sqlen : forall p p', R p p' -> p_sqlen p = p_sqlen p'
}.

(** coordinates that convert to floats without changing any result *)
Record faithful (T U : Type) {ST : Scalar T} {CU : Coordinate T U} : Prop := {
  into_add : forall x y : U, u_into (u_add x y) = s_add (u_into x) (u_into y);
  into_sub : forall x y : U, u_into (u_sub x y) = s_sub (u_into x) (u_into y);
  into_mul : forall x y : U, u_into (u_mul x y) = s_mul (u_into x) (u_into y);
  into_scale : forall (x : U) t, u_into (u_scale x t) = s_mul (u_into x) t;
  into_default : u_into u_default = s_lit 0%Z
}.
(** the point with the converted coordinates *)
Definition converted {T U : Type} {CU : Coordinate T U} {N : nat} (p : PointN U N) (q : PointN T N) : Prop :=
  pn_arr q = map u_into (pn_arr p).
