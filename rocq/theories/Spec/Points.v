(** Concrete points for examples. *)
From Coq Require Import Reals List Arith.
From Verif Require Import Base.Outcome Base.Scalar Model.Point Inst.RealInst.
Import ListNotations.

Definition pt {T : Type} (l : list T) : PointN T (length l) := mkPointN l (Nat.eqb_refl _).

Definition P1 := PointN R 1.
Definition P2 := PointN R 2.
Definition pt1 (x : R) : P1 := pt [x].
Definition pt2 (x y : R) : P2 := pt [x; y].
