(** Rectangles and closed polygons of the plane, as lists of corners. *)
From Coq Require Import Reals List.
Import ListNotations.
Local Open Scope R_scope.

Definition between (r : R * R) (x : R) : Prop := fst r <= x <= snd r.
Definition in_area (rx ry : R * R) (p : R * R) : Prop := between rx (fst p) /\ between ry (snd p).

(** [p] is on the left of the directed edge from [a] to [b], or on its line *)
Definition left_of (a b p : R * R) : Prop :=
  0 <= (fst b - fst a) * (snd p - snd a) - (snd b - snd a) * (fst p - fst a).
(** [p] is on the left of every edge of a counterclockwise path *)
Fixpoint inside (path : list (R * R)) (p : R * R) : Prop :=
  match path with
  | a :: rest => match rest with b :: _ => left_of a b p /\ inside rest p | [] => True end
  | [] => True
  end.
