(** Two runs of the same code on related inputs: both return related values, or
    both panic. *)
From Coq Require Import List Arith.
From Verif Require Import Base.Outcome Model.Line Model.Quadratic Model.Cubic Model.Bezier Model.BSpline.

Definition related {A B : Type} (R : A -> B -> Prop) (x : outcome A) (y : outcome B) : Prop :=
  match x, y with
  | Ret a, Ret b => R a b
  | Panic, Panic => True
  | Stuck, Stuck => True
  | _, _ => False
  end.
Definition related_results {A B E : Type} (R : A -> B -> Prop) (x : result A E) (y : result B E) : Prop :=
  match x, y with
  | Ok a, Ok b => R a b
  | Err e, Err f => e = f
  | _, _ => False
  end.
Definition related_pairs {A B C D : Type} (R : A -> B -> Prop) (S : C -> D -> Prop) (x : A * C) (y : B * D) : Prop :=
  R (fst x) (fst y) /\ S (snd x) (snd y).

Section Curves.
  Context {P Q : Type} (R : P -> Q -> Prop).
  Definition related_lines (l : line P) (m : line Q) : Prop :=
    R (l_start l) (l_start m) /\ R (l_end l) (l_end m).
  Definition related_quads (l : quad P) (m : quad Q) : Prop :=
    R (q_start l) (q_start m) /\ R (q_ctrl l) (q_ctrl m) /\ R (q_end l) (q_end m).
  Definition related_cubics (l : cubic P) (m : cubic Q) : Prop :=
    R (c_start l) (c_start m) /\ R (c_ctrl1 l) (c_ctrl1 m) /\ R (c_ctrl2 l) (c_ctrl2 m) /\ R (c_end l) (c_end m).
  Definition related_beziers (l : bezier P) (m : bezier Q) : Prop := Forall2 R (bz_points l) (bz_points m).
  (** over the same knots *)
  Definition related_splines {T : Type} (l : bspline T P) (m : bspline T Q) : Prop :=
    bs_degree l = bs_degree m /\ bs_knots l = bs_knots m /\ bs_kind l = bs_kind m /\
    Forall2 R (bs_points l) (bs_points m).
End Curves.
