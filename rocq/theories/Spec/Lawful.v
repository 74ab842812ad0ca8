(** What "a type of points" means in exact arithmetic: the trait's operations
    are those of R^dim.  User types implementing [Point] are covered as soon as
    they satisfy these laws; [PointN R N] does (Proofs/PointFacts.v). *)
From Coq Require Import Reals List Arith.
From Verif Require Import Base.Outcome Base.Scalar Model.Point Inst.RealInst Spec.Sums.
Local Open Scope R_scope.

Class LawfulPoint (P : Type) {PT : Point R P} := {
  coord : P -> nat -> R;
  lp_ext : forall p q : P,
    (forall i, (i < p_dim (P := P))%nat -> coord p i = coord q i) -> p = q;
  lp_add : forall (p q : P) i, (i < p_dim (P := P))%nat ->
    coord (p_add p q) i = coord p i + coord q i;
  lp_sub : forall (p q : P) i, (i < p_dim (P := P))%nat ->
    coord (p_sub p q) i = coord p i - coord q i;
  lp_mul : forall (p : P) (s : R) i, (i < p_dim (P := P))%nat ->
    coord (p_mul p s) i = coord p i * s;
  lp_default : forall i, (i < p_dim (P := P))%nat -> coord (p_default (P := P)) i = 0;
  lp_axis : forall (p : P) i,
    p_axis p i = if (i <? p_dim (P := P))%nat then Ret (coord p i) else Panic;
  lp_sqlen : forall p : P,
    p_sqlen p = Rsum (fun i => coord p i * coord p i) (p_dim (P := P));
  lp_eqb : forall p q : P, p_eqb p q = true <-> p = q
}.

(** Euclidean distance *)
Definition dist {P : Type} {PT : Point R P} {LP : LawfulPoint P} (p q : P) : R :=
  sqrt (Rsum (fun i => (coord p i - coord q i) * (coord p i - coord q i)) (p_dim (P := P))).
