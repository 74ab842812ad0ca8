(** Adaptive flattening: halve a curve until a test accepts the piece. *)
From Coq Require Import Reals List.
From Verif Require Import Base.Outcome.
Import ListNotations.
Local Open Scope R_scope.

(** the accepted pieces in order; [None] when a piece is still refused after [depth] halvings *)
Fixpoint flattened {A : Type} (stop : A -> outcome bool) (halve : A -> A * A) (depth : nat) (c : A)
  : outcome (option (list A)) :=
  let! b := stop c in
  if b then Ret (Some [c])
  else match depth with
       | O => Ret None
       | S d => let! l := flattened stop halve d (fst (halve c)) in
                let! r := flattened stop halve d (snd (halve c)) in
                Ret (match l, r with Some l, Some r => Some (l ++ r) | _, _ => None end)
       end.

(** the curves of a list run, one after the other, through the part of [c] over [x, y] *)
Inductive tiles {A P : Type} (eval : A -> R -> P) (c : A) : R -> R -> list A -> Prop :=
| tiles_one x y q : x < y -> (forall u, eval q u = eval c (x + u * (y - x))) -> tiles eval c x y [q]
| tiles_app x y z l r : tiles eval c x y l -> tiles eval c y z r -> tiles eval c x z (l ++ r).
