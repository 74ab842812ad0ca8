(** Repeated halving of a curve. *)
From Coq Require Import Reals List.
From Verif Require Import Base.Outcome Model.Point Inst.RealInst Spec.Sums Spec.Lawful.
Import ListNotations.
Local Open Scope R_scope.

(** the pieces after [k] rounds, in order *)
Fixpoint halved {A : Type} (halve : A -> outcome (A * A)) (k : nat) (c : A) : outcome (list A) :=
  match k with
  | O => Ret [c]
  | S k => let! h := halve c in
           let! l := halved halve k (fst h) in
           let! r := halved halve k (snd h) in
           Ret (l ++ r)
  end.

(** [S] bounds the distance of every inner control point from the middle of its neighbours *)
Definition bend_bound {P : Type} {PT : Point R P} {LP : LawfulPoint P} (ps : list P) (S : R) : Prop :=
  0 <= S /\ forall k a b c, nth_error ps k = Some a -> nth_error ps (k + 1) = Some b -> nth_error ps (k + 2) = Some c ->
    dist (p_mul (p_add a c) (1 / 2)) b <= S.
