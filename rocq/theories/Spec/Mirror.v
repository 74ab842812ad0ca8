(** Mirroring in coordinate hyperplanes, in floating point. *)
From Coq Require Import List Arith.
From Flocq Require Import IEEE754.BinarySingleNaN.
From Verif Require Import Base.Scalar Model.Point Inst.FloatInst Spec.Componentwise.

Section Mirror.
  Context {F : Format} {P : Type} {PT : Point float P} {CP : CwPoint float P}.

  (** the same float, up to the sign of zero *)
  Definition feq (x y : float) : Prop :=
    x = y \/ exists a b, x = B754_zero a /\ y = B754_zero b.
  Definition flip (m : bool) (x : float) : float := if m then s_neg x else x.

  (** [q] is [p] with the coordinates selected by [axes] negated *)
  Definition mirrored (axes : nat -> bool) (p q : P) : Prop :=
    forall i, i < p_dim (P := P) -> feq (cw q i) (flip (axes i) (cw p i)).
  (** the bounds of one axis, mirrored *)
  Definition bounds_mirrored (m : bool) (b b' : float * float) : Prop :=
    if m then feq (fst b') (s_neg (snd b)) /\ feq (snd b') (s_neg (fst b))
    else feq (fst b') (fst b) /\ feq (snd b') (snd b).
  Definition box_mirrored (axes : nat -> bool) (box box' : list (float * float)) : Prop :=
    length box = length box' /\
    forall i b b', nth_error box i = Some b -> nth_error box' i = Some b' -> bounds_mirrored (axes i) b b'.
  Definition no_nan (p : P) : Prop := forall i, i < p_dim (P := P) -> s_is_nan (cw p i) = false.
End Mirror.
