(** One coordinate of two points, possibly of different types and dimensions. *)
From Verif Require Import Base.Scalar Model.Point Spec.Componentwise.

Definition same_coord {T P Q : Type} {ST : Scalar T} {PT : Point T P} {QT : Point T Q} {CP : CwPoint T P} {CQ : CwPoint T Q}
  (i j : nat) (p : P) (q : Q) : Prop := cw p i = cw q j.
