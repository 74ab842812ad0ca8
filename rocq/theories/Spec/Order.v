(** The order of floats, coordinate by coordinate. *)
From Coq Require Import List Arith.
From Verif Require Import Base.Scalar Model.Point Inst.FloatInst Spec.Componentwise.

Section Order.
  Context {F : Format} {P : Type} {PT : Point float P} {CP : CwPoint float P}.

  (** [x <= y], or one of them is NaN *)
  Definition not_above (x y : float) : Prop := s_ltb y x = false.
  Definition point_not_above (p q : P) : Prop :=
    forall i, i < p_dim (P := P) -> not_above (cw p i) (cw q i).
End Order.
