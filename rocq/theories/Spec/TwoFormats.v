(** Points whose coordinates are held in two floating-point formats. *)
From Coq Require Import Reals List Arith.
From Verif Require Import Base.Scalar Model.Point Inst.FloatInst Spec.Rounding Spec.Componentwise.
Import ListNotations.
Local Open Scope R_scope.

Section TwoFormats.
  Context {F G : Format} {P Q : Type} {PT : Point (@float F) P} {QT : Point (@float G) Q}
          {CP : CwPoint (@float F) P} {CQ : CwPoint (@float G) Q}.

  (** every coordinate of [p] is within [d] of the one of [q] *)
  Definition close_points (d : R) (p : P) (q : Q) : Prop :=
    forall i, (i < p_dim (P := P))%nat -> Rabs (val (cw p i) - val (cw q i)) <= d.

  (** no number of the format G is nearer to the number [x] of the format F than [y] *)
  Definition nearest (x : @float F) (y : @float G) : Prop :=
    fin y /\ forall z : @float G, fin z -> Rabs (val x - val y) <= Rabs (val x - val z).
  (** [q] is [p] with each coordinate stored in the format G *)
  Definition stored (p : P) (q : Q) : Prop :=
    forall i, (i < p_dim (P := P))%nat -> nearest (cw p i) (cw q i).
  (** [p] and [q] have the same finite coordinates *)
  Definition same_point (p : P) (q : Q) : Prop :=
    forall i, (i < p_dim (P := P))%nat -> fin (cw p i) /\ fin (cw q i) /\ val (cw p i) = val (cw q i).
End TwoFormats.
