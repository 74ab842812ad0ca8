(** Points whose operations act coordinate by coordinate with the scalar's own
    operations, whatever these are.  This is what "a point type" means for
    floating-point statements; [PointN T N] is such a type for every scalar type
    and dimension (Proofs/FloatPoint.v). *)
From Coq Require Import ZArith List Arith.
From Verif Require Import Base.Outcome Base.Scalar Model.Point.

Class CwPoint (T P : Type) {ST : Scalar T} {PT : Point T P} := {
  cw : P -> nat -> T;
  cw_add : forall (p q : P) i, i < p_dim (P := P) -> cw (p_add p q) i = s_add (cw p i) (cw q i);
  cw_sub : forall (p q : P) i, i < p_dim (P := P) -> cw (p_sub p q) i = s_sub (cw p i) (cw q i);
  cw_mul : forall (p : P) (s : T) i, i < p_dim (P := P) -> cw (p_mul p s) i = s_mul (cw p i) s;
  cw_default : forall i, i < p_dim (P := P) -> cw p_default i = s_lit 0;
  cw_axis : forall (p : P) i,
    p_axis p i = if i <? p_dim (P := P) then Ret (cw p i) else Panic;
  cw_eqb : forall p q : P, p_eqb p q = true <->
    (forall i, i < p_dim (P := P) -> s_eqb (cw p i) (cw q i) = true);
  cw_sqlen : forall p : P,
    p_sqlen p = fold_left (fun acc i => s_add acc (s_mul (cw p i) (cw p i)))
                          (seq 0 (p_dim (P := P))) (s_lit 0)
}.
