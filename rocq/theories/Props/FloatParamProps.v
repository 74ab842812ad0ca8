(** C69, the parameters: the loop of arclen takes t = i * 1 / n and t + 1 / n for
    i = 1, ..., n - 1 (quadratic_bezier.rs:152-154 and its copies). *)
From Coq Require Import Reals List Arith ZArith Lia Lra.
From Flocq Require Import Core.Core IEEE754.BinarySingleNaN.
From Verif Require Import Base.Scalar Inst.FloatInst Spec.Rounding Spec.FloatPoints
  Proofs.FloatFacts Proofs.FloatPoint Proofs.FloatNear Proofs.FloatLength Proofs.FloatCurve.
Local Open Scope R_scope.

Theorem C69_parameters {F : Format} n i (t : float := s_div (s_mul (s_of_usize i) (s_lit 1)) (s_of_usize n))
  (t' : float := s_add t (s_div (s_lit 1) (s_of_usize n))) :
  4 * INR n * uro <= 1 -> (1 <= i < n)%nat ->
  fin t /\ 0 <= val t <= 1 /\ Rabs (val t - INR i / INR n) <= 3 * uro /\
  fin t' /\ 0 <= val t' <= 1 /\ Rabs (val t' - INR (i + 1) / INR n) <= 3 * uro.
Proof.
  intros Hn Hi. destruct (par_ok n ltac:(lia) Hn i ltac:(lia)) as (A & B & C).
  destruct (par_next_ok n ltac:(lia) Hn i ltac:(lia)) as (A' & B' & C'). tauto.
Qed.

(** the last parameter for ten steps in f64, 9/10 + 1/10, does not exceed 1 *)
Example C69_parameters_ex : let F := Binary64 in
  val (s_add (s_div (s_mul (s_of_usize 9) (s_lit 1)) (s_of_usize 10)) (s_div (s_lit 1) (s_of_usize 10))) <= 1.
Proof.
  intros F. subst F. refine (proj2 (proj1 (proj2 (proj2 (proj2 (proj2 (C69_parameters 10 9 _ _))))))); [|lia]. pose proof uro_64 as U. pose proof (@uro_pos Binary64). cbn [INR]. lra.
Qed.
Print Assumptions C69_parameters.
