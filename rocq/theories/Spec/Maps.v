(** Maps between point types, possibly of different dimension. *)
From Coq Require Import Reals List.
From Verif Require Import Base.Outcome Model.Point Spec.Sums Spec.Lawful.
Local Open Scope R_scope.

(** a function applied to what is returned; panics and errors stay what they are *)
Definition omap {A B} (f : A -> B) (x : outcome A) : outcome B :=
  match x with Ret a => Ret (f a) | Panic => Panic | Stuck => Stuck end.
Definition rmap {A B E} (f : A -> B) (x : result A E) : result B E :=
  match x with Ok a => Ok (f a) | Err e => Err e end.

Section Maps.
  Context {P Q : Type} {PT : Point R P} {QT : Point R Q} {LP : LawfulPoint P} {LQ : LawfulPoint Q}.
  Definition affine_map (F : P -> Q) : Prop :=
    exists (A : nat -> nat -> R) (b : nat -> R), forall p j, (j < p_dim (P := Q))%nat ->
      coord (F p) j = Rsum (fun k => A j k * coord p k) (p_dim (P := P)) + b j.
  Definition linear_map (F : P -> Q) : Prop :=
    exists A : nat -> nat -> R, forall p j, (j < p_dim (P := Q))%nat ->
      coord (F p) j = Rsum (fun k => A j k * coord p k) (p_dim (P := P)).
  (** affine, and every distance is multiplied by [s]; [s = 1]: rotations,
      reflections, translations, embeddings in more dimensions *)
  Definition similarity (s : R) (F : P -> Q) : Prop :=
    0 < s /\ affine_map F /\ forall p q, dist (F p) (F q) = s * dist p q.
End Maps.

Definition translation {P : Type} {PT : Point R P} {LP : LawfulPoint P} (v : nat -> R) (F : P -> P) : Prop :=
  forall p i, (i < p_dim (P := P))%nat -> coord (F p) i = coord p i + v i.
(** box [l'] is box [l] moved by [v] *)
Definition moved_box (v : nat -> R) (l l' : list (R * R)) : Prop :=
  length l' = length l /\
  forall i lo hi, nth_error l i = Some (lo, hi) -> nth_error l' i = Some (lo + v i, hi + v i).
