(** C01, C02: points. *)
From Coq Require Import Reals List Arith ZArith Lia Lra.
From Verif Require Import Base.Outcome Base.Scalar Model.Point Inst.RealInst
  Spec.Sums Spec.Lawful Spec.Points Model.PointLoops Proofs.PointFacts Proofs.PointGeneric Proofs.PointLoops.
Import ListNotations.

(** C01.  Over any scalar type, hence also for floats with NaN and rounding. *)
Theorem C01_add {T} {ST : Scalar T} {N} (p q : PointN T N) i x y :
  p_axis p i = Ret x -> p_axis q i = Ret y -> p_axis (p_add p q) i = Ret (s_add x y).
Proof. exact (add_axis p q i x y). Qed.
Print Assumptions C01_add.

Theorem C01_sub {T} {ST : Scalar T} {N} (p q : PointN T N) i x y :
  p_axis p i = Ret x -> p_axis q i = Ret y -> p_axis (p_sub p q) i = Ret (s_sub x y).
Proof. exact (sub_axis p q i x y). Qed.
Print Assumptions C01_sub.

Theorem C01_mul {T} {ST : Scalar T} {N} (p : PointN T N) s i x :
  p_axis p i = Ret x -> p_axis (p_mul p s) i = Ret (s_mul x s).
Proof. exact (mul_axis p s i x). Qed.
Print Assumptions C01_mul.

Theorem C01_add_scalar {T} {ST : Scalar T} {N} (p : PointN T N) s i x :
  p_axis p i = Ret x -> p_axis (pn_add_scalar p s) i = Ret (s_add x s).
Proof. exact (add_scalar_axis p s i x). Qed.
Print Assumptions C01_add_scalar.

Theorem C01_sub_scalar {T} {ST : Scalar T} {N} (p : PointN T N) s i x :
  p_axis p i = Ret x -> p_axis (pn_sub_scalar p s) i = Ret (s_sub x s).
Proof. exact (sub_scalar_axis p s i x). Qed.
Print Assumptions C01_sub_scalar.

Theorem C01_default {T} {ST : Scalar T} {N} i :
  (i < N)%nat -> p_axis (p_default : PointN T N) i = Ret (s_lit 0).
Proof. exact (default_axis i). Qed.
Print Assumptions C01_default.

(** a point is nothing but its coordinates *)
Theorem C01_extensional {T} {ST : Scalar T} {N} (p q : PointN T N) :
  (forall i, p_axis p i = p_axis q i) -> p = q.
Proof. exact (point_ext p q). Qed.
Print Assumptions C01_extensional.

Theorem C01_eq {T} {ST : Scalar T} {N} (p q : PointN T N) :
  p_eqb p q = true <->
  (forall i x y, p_axis p i = Ret x -> p_axis q i = Ret y -> s_eqb x y = true).
Proof. exact (eqb_iff p q). Qed.
Print Assumptions C01_eq.

(** over the reals: the squared Euclidean norm *)
Theorem C01_squared_length {E : Eps} {N} (p : PointN R N) :
  p_sqlen p = Rsum (fun i => coord p i * coord p i)%R N.
Proof. exact (lp_sqlen p). Qed.
Print Assumptions C01_squared_length.

(** every [PointN R N] is a lawful point type, so the exact theorems of the
    other files apply to it, for every N *)
Theorem C01_lawful {E : Eps} {N} : LawfulPoint (PointN R N).
Proof. exact PointN_lawful. Qed.
Print Assumptions C01_lawful.

Local Open Scope R_scope.
Example C01_ex {E : Eps} :
  p_axis (p_add (pt2 1 2) (pt2 10 20)) 1 = Ret (2 + 20) /\ p_sqlen (pt2 3 4) = 25.
Proof. split; [reflexivity|]. cbn. lra. Qed.

(** The index loops of point_generic.rs, as written, never panic and return the
    points the theorems speak about. *)
Section Loops.
  Context {T : Type} {ST : Scalar T} {N : nat}.
  Theorem C01_arithmetic_loops (p q : PointN T N) (x : T) :
    add_loop p q = Ret (pn_arr (p_add p q)) /\
    sub_loop p q = Ret (pn_arr (p_sub p q)) /\
    mul_loop p x = Ret (pn_arr (p_mul p x)) /\
    add_scalar_loop p x = Ret (pn_arr (pn_add_scalar p x)) /\
    sub_scalar_loop p x = Ret (pn_arr (pn_sub_scalar p x)).
  Proof.
    exact (conj (add_loop_eq p q) (conj (sub_loop_eq p q) (conj (mul_loop_eq p x)
      (conj (add_scalar_loop_eq p x) (sub_scalar_loop_eq p x))))).
  Qed.
  Theorem C01_eq_loop (p q : PointN T N) : eq_loop p q = Ret (p_eqb p q).
  Proof. exact (eq_loop_eq p q). Qed.
  Theorem C01_squared_length_loop (p : PointN T N) : squared_length_loop p = Ret (p_sqlen p).
  Proof. exact (squared_length_loop_eq p). Qed.
End Loops.
Print Assumptions C01_arithmetic_loops.
Print Assumptions C01_eq_loop.
Print Assumptions C01_squared_length_loop.

(** C02 *)
Theorem C02_axis {T} {ST : Scalar T} {N} (a : list T) (H : (length a =? N)%nat = true) i x :
  p_axis (mkPointN a H) i = Ret x <-> nth_error a i = Some x.
Proof. exact (axis_new a H i x). Qed.
Print Assumptions C02_axis.

Theorem C02_axis_total {T} {ST : Scalar T} {N} (p : PointN T N) i :
  (i < N)%nat -> exists x, p_axis p i = Ret x.
Proof. exact (axis_total p i). Qed.
Print Assumptions C02_axis_total.

Theorem C02_axis_panics {T} {ST : Scalar T} {N} (p : PointN T N) i :
  p_axis p i = Panic <-> (N <= i)%nat.
Proof. exact (axis_panic_iff p i). Qed.
Print Assumptions C02_axis_panics.

Example C02_ex {E : Eps} :
  p_axis (pt2 5 7) 1 = Ret 7 /\ p_axis (pt2 5 7) 2 = Panic /\ p_axis (pt2 5 7) 3 = Panic.
Proof. repeat split. Qed.
