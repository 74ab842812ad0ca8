(** The exact curve through the values of floating-point control points. *)
From Coq Require Import Reals List Arith.
From Verif Require Import Base.Outcome Base.Scalar Model.Point Inst.RealInst Inst.FloatInst Spec.Sums Spec.Bernstein
  Spec.Rounding Spec.Componentwise.
Import ListNotations.
Local Open Scope R_scope.

Section FloatCurves.
  Context {F : Format} {P : Type} {PT : Point float P} {CP : CwPoint float P}.

  (** coordinate i of the Bezier curve with control points ps at t, in exact arithmetic *)
  Definition exact_at (ps : list P) (t : R) (i : nat) : R :=
    bezier_poly (map (fun q => val (cw q i)) ps) t.

  (** the point of R^dim with exactly the coordinates of p *)
  Lemma exact_len (p : P) : (length (map (fun i => val (cw p i)) (seq 0 (p_dim (P := P)))) =? p_dim (P := P))%nat = true.
  Proof. rewrite map_length, seq_length. apply Nat.eqb_refl. Qed.
  Definition exact_point (p : P) : PointN R (p_dim (P := P)) :=
    mkPointN (map (fun i => val (cw p i)) (seq 0 (p_dim (P := P)))) (exact_len p).

  (** Euclidean distance of two coordinate vectors *)
  Definition gap (a b : nat -> R) : R :=
    sqrt (Rsum (fun i => (a i - b i) * (a i - b i)) (p_dim (P := P))).

  (** inner product of p - a with b - a: where p projects on the line through a and b *)
  Definition along (a b p : P) : R :=
    Rsum (fun i => (val (cw p i) - val (cw a i)) * (val (cw b i) - val (cw a i))) (p_dim (P := P)).

  (** length of the polyline through the exact curve points at 1/n, 2/n, ..., 1 *)
  Definition tail_length (ps : list P) (n : nat) : R :=
    Rsum (fun k => gap (exact_at ps (INR (k + 1) / INR n)) (exact_at ps (INR (k + 2) / INR n))) (n - 1).
End FloatCurves.
