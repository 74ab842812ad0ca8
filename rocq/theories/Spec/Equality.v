(** What equality of floating-point curves should mean. *)
From Coq Require Import List Arith.
From Flocq Require Import IEEE754.BinarySingleNaN.
From Verif Require Import Base.Scalar Model.Point Model.Line Model.Quadratic Model.Cubic Model.Segment
  Inst.FloatInst Spec.Componentwise Spec.Mirror Spec.Related.

Section Equality.
  Context {F : Format} {P : Type} {PT : Point float P} {CP : CwPoint float P}.
  (** the same coordinates up to the sign of zero; a NaN is the same as a NaN *)
  Definition same_coords (p q : P) : Prop := forall i, i < p_dim (P := P) -> feq (cw p i) (cw q i).
  Definition same_bounds (box box' : list (float * float)) : Prop :=
    Forall2 (fun b b' => feq (fst b) (fst b') /\ feq (snd b) (snd b')) box box'.

  Definition segment_points (s : segment P) : list P :=
    match s with
    | Linear l => l_start l :: l_end l :: nil
    | Quadratic q => q_start q :: q_ctrl q :: q_end q :: nil
    | CubicSeg c => c_start c :: c_ctrl1 c :: c_ctrl2 c :: c_end c :: nil
    end.
End Equality.

(** the same variant, with related curves *)
Definition related_segments {P Q : Type} (R : P -> Q -> Prop) (s : segment P) (s' : segment Q) : Prop :=
  match s, s' with
  | Linear l, Linear m => related_lines R l m
  | Quadratic l, Quadratic m => related_quads R l m
  | CubicSeg l, CubicSeg m => related_cubics R l m
  | _, _ => False
  end.
