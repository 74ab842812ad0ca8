(** C108: the floating-point numbers of the model are Rust's f64 and f32, and
    [EPSILON] is the gap after 1. *)
From Coq Require Import Reals.
From Verif Require Import Base.Scalar Inst.FloatInst Spec.Rounding Proofs.FloatRange.
Local Open Scope R_scope.

(** no float lies strictly between 1 and 1 + EPSILON, and the latter is one *)
Theorem C108_epsilon {F : Format} : fin (s_eps : float) /\ 0 < val s_eps /\
  (forall x : float, fin x -> 1 < val x -> 1 + val s_eps <= val x) /\
  is (s_add (s_lit 1) s_eps) (1 + val s_eps).
Proof. exact eps_gap. Qed.

Section F64.
  Local Existing Instance Binary64.
  (** f64::EPSILON, f64::MAX and the least positive f64 *)
  Theorem C108_f64 : is (s_eps : float) (/ 2 ^ 52) /\
    (forall x : float, Rabs (val x) <= (2 - / 2 ^ 52) * 2 ^ 1023) /\ (exists x : float, is x ((2 - / 2 ^ 52) * 2 ^ 1023)) /\
    (forall x : float, fin x -> val x <> 0 -> / 2 ^ 1074 <= Rabs (val x)) /\ (exists x : float, is x (/ 2 ^ 1074)).
  Proof. exact range_f64. Qed.
End F64.

Section F32.
  Local Existing Instance Binary32.
  (** f32::EPSILON, f32::MAX and the least positive f32 *)
  Theorem C108_f32 : is (s_eps : float) (/ 2 ^ 23) /\
    (forall x : float, Rabs (val x) <= (2 - / 2 ^ 23) * 2 ^ 127) /\ (exists x : float, is x ((2 - / 2 ^ 23) * 2 ^ 127)) /\
    (forall x : float, fin x -> val x <> 0 -> / 2 ^ 149 <= Rabs (val x)) /\ (exists x : float, is x (/ 2 ^ 149)).
  Proof. exact range_f32. Qed.
End F32.

Print Assumptions C108_epsilon.
Print Assumptions C108_f64.
Print Assumptions C108_f32.
