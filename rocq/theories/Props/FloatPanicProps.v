(** C112: B-splines with finite floating-point knots: their kind, the parameters for
    which [eval] panics, and a panic of [arclen]. *)
From Coq Require Import Reals ZArith List Arith Lia Lra.
From Flocq Require Import IEEE754.BinarySingleNaN.
From Verif Require Import Base.Outcome Base.Scalar Model.Point Model.BSpline
  Inst.FloatInst Spec.Rounding Spec.Probes Spec.Componentwise Spec.FloatPoints Spec.FloatSplines
  Proofs.FloatFacts Proofs.FloatSplineEval Proofs.FloatPanic.
Import ListNotations.
Local Open Scope R_scope.

Section Float.
  Context {F : Format} {P : Type} {PT : Point float P} {CP : CwPoint float P}.
  Variables (D : nat) (ks : list float) (ps : list P) (s : bspline float P).
  Hypothesis Hnew : bspline_new D ks ps = Ret (Ok s).
  Hypothesis Hfin : forall x, In x ks -> fin x.
  Local Notation C := (length ps).
  Local Notation U i := (fknot ks i).

  (** EPSILON is 2u; clamped at an end iff the outer D+1 knots there lie within
      EPSILON, except that differences between (1 - 2u) EPSILON and EPSILON can go
      either way *)
  Theorem C112_kind_start :
    (U D - U 0 <= 2 * uro * (1 - 2 * uro) -> bs_kind s = Clamped \/ bs_kind s = ClampedStart) /\
    (bs_kind s = Clamped \/ bs_kind s = ClampedStart -> U D - U 0 < 2 * uro).
  Proof.
    exact (conj (fun H => proj2 (proj1 (fkind_spec D ks ps s Hnew Hfin)) (proj1 (close_bounds _) H))
                (fun H => proj2 (close_bounds _) (proj1 (proj1 (fkind_spec D ks ps s Hnew Hfin)) H))).
  Qed.
  Theorem C112_kind_end :
    (U (C + D) - U C <= 2 * uro * (1 - 2 * uro) -> bs_kind s = Clamped \/ bs_kind s = ClampedEnd) /\
    (bs_kind s = Clamped \/ bs_kind s = ClampedEnd -> U (C + D) - U C < 2 * uro).
  Proof.
    exact (conj (fun H => proj2 (proj2 (fkind_spec D ks ps s Hnew Hfin)) (proj1 (close_bounds _) H))
                (fun H => proj2 (close_bounds _) (proj1 (proj2 (fkind_spec D ks ps s Hnew Hfin)) H))).
  Qed.

  Theorem C112_clamped_start_panics t : fin t -> bs_kind s = ClampedStart ->
    (bspline_eval s t = Panic <-> U (C + 1) <= val t < U (C + D) /\ val t <> U C).
  Proof. exact (clamped_start_fpanic D ks ps s Hnew Hfin t). Qed.
  Theorem C112_clamped_end_panics t : fin t -> bs_kind s = ClampedEnd ->
    (bspline_eval s t = Panic <-> U 0 <= val t < U D).
  Proof. exact (clamped_end_fpanic D ks ps s Hnew Hfin t). Qed.
  Theorem C112_unclamped_panics t : fin t -> bs_kind s = Unclamped ->
    (bspline_eval s t = Panic <-> U D <= val t < U C /\
       forall j, (probe (C + D + 1) j <= C)%nat -> U (probe (C + D + 1) j + 1) <= val t).
  Proof. exact (unclamped_fpanic D ks ps s Hnew Hfin t). Qed.

  Theorem C112_arclen_panics n : moderate ks -> bs_kind s = ClampedEnd ->
    (0 < n)%nat -> (Z.of_nat n <= 2 ^ fprec)%Z -> bspline_arclen s n = Panic.
  Proof. exact (arclen_fpanic D ks ps s Hnew Hfin n). Qed.
End Float.

(** f64 knots 0,0,0,1,2,3 at 2.5 and 0,1,2,3,3,3 at 1 *)
Section Example_.
  Local Existing Instance Binary64.
  Definition k_start : list float := [flt 0 0; flt 0 0; flt 0 0; flt 1 0; flt 2 0; flt 3 0].
  Definition k_end : list float := [flt 0 0; flt 1 0; flt 2 0; flt 3 0; flt 3 0; flt 3 0].
  Example C112_ex (p q r : PointN float 2) :
    (exists s, bspline_new 2 k_start [p; q; r] = Ret (Ok s) /\ bs_kind s = ClampedStart /\
       bspline_eval s (flt 5 (-1)) = Panic) /\
    (exists s, bspline_new 2 k_end [p; q; r] = Ret (Ok s) /\ bs_kind s = ClampedEnd /\
       bspline_eval s (flt 1 0) = Panic).
  Proof.
    destruct (kind_is_spec 2 k_start [p; q; r] ClampedStart) as (s1 & N1 & K1); [vm_compute; reflexivity|].
    destruct (kind_is_spec 2 k_end [p; q; r] ClampedEnd) as (s2 & N2 & K2); [vm_compute; reflexivity|].
    assert (F1 : forall x, In x k_start -> fin x) by (intros x H; repeat (destruct H as [<-|H]; [vm_compute; reflexivity|]); destruct H).
    assert (F2 : forall x, In x k_end -> fin x) by (intros x H; repeat (destruct H as [<-|H]; [vm_compute; reflexivity|]); destruct H).
    split; [exists s1; split; [exact N1|]; split; [exact K1|]|exists s2; split; [exact N2|]; split; [exact K2|]].
    - apply (C112_clamped_start_panics _ _ _ _ N1 F1); [vm_compute; reflexivity|exact K1|].
      split; [split; [apply le_of|apply lt_of]; vm_compute; reflexivity|].
      apply Rgt_not_eq. apply lt_of; vm_compute; reflexivity.
    - apply (C112_clamped_end_panics _ _ _ _ N2 F2); [vm_compute; reflexivity|exact K2|].
      split; [apply le_of|apply lt_of]; vm_compute; reflexivity.
  Qed.
End Example_.

Print Assumptions C112_kind_start.
Print Assumptions C112_kind_end.
Print Assumptions C112_clamped_start_panics.
Print Assumptions C112_clamped_end_panics.
Print Assumptions C112_unclamped_panics.
Print Assumptions C112_arclen_panics.
