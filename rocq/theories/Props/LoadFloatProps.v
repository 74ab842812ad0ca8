(** C124 in IEEE-754 arithmetic: [loaded_eval] (Model/RepairsLoad.v), the code with only
    bspline.rs:262 changed; and the repaired functions of Model/Repairs.v over any scalar. *)
From Coq Require Import Reals List Arith ZArith Lia Lra.
From Flocq Require Import IEEE754.BinarySingleNaN.
From Verif Require Import Base.Outcome Base.Scalar Model.Point Model.BSpline Model.Repairs Model.RepairsLoad Inst.FloatInst
  Spec.Points Spec.Basis Spec.Rounding Spec.Componentwise Spec.FloatPoints Spec.FloatSplines
  Proofs.FloatFacts Proofs.FloatPoint Proofs.FloatSpline Proofs.FloatSplineEval Proofs.RepairFloat Proofs.LoadFloat Proofs.RepairTotal
  Props.FloatSplineProps.
Import ListNotations.
Local Open Scope R_scope.

(** C66 with the spline itself on the right: no term is missing *)
Theorem C124_load_round {F : Format} {P : Type} {PT : Point float P} {CP : CwPoint float P} D ks (ps : list P) s t M :
  bspline_new D ks ps = Ret (Ok s) -> bs_kind s <> Unclamped ->
  moderate ks -> fin t -> fknot ks D <= val t < fknot ks (length ps) -> clear_of ks (val t) ->
  (forall p, In p ps -> bounded M p) -> 6 * INR D * uro <= 1 -> 4 * M <= fmax ->
  exists p, loaded_eval s t = Ret (Ok p) /\
    forall i, (i < p_dim (P := P))%nat -> fin (cw p i) /\
      Rabs (val (cw p i) - fspline_coord D ks ps (val t) i) <= 15 * INR D * uro * M + 5 * INR D * eta.
Proof. exact (loaded_error D ks ps s t M). Qed.

(** C42 and C48 for every kind: no panic, whatever the scalar type and the parameter *)
Theorem C124_total {T P : Type} {ST : Scalar T} {PT : Point T P} D ks (ps : list P) (s : bspline T P) :
  bspline_new D ks ps = Ret (Ok s) ->
  (forall t, exists r, fixed_eval s t = Ret r /\ forall e, r = Err e -> e = KnotDomainViolation \/ e = EvaluationAlphaIsNaN) /\
  (forall n, exists a, fixed_bspline_arclen s n = Ret a).
Proof. exact (fixed_total D ks ps s). Qed.

Section Concrete.
  Local Existing Instance Binary64.

  (** the curve of C66_case at 3/4, where the code leaves out the last control point *)
  Example C124_load_round_case : exists s p, bspline_new 2 kn cp = Ret (Ok s) /\
    loaded_eval s (flt 3 (-2)) = Ret (Ok p) /\ Rabs (val (cw p 0) - 7 / 8) <= 30 * uro + 10 * eta.
  Proof.
    destruct kn_new as (s & E). pose proof uro_small. pose proof fmax_ge.
    destruct kn_values as (V0 & V1 & V2 & V3).
    destruct (C124_load_round 2 kn cp s (flt 3 (-2)) 1 E) as (p & Ep & B).
    - rewrite (kn_clamped s E). discriminate.
    - exact kn_moderate.
    - vm_compute. reflexivity.
    - exact kn_domain.
    - exact kn_clear.
    - exact cp_bounded.
    - cbn [INR]. lra.
    - lra.
    - exists s, p. repeat split; auto. destruct (B 0%nat ltac:(cbn; lia)) as [_ B0].
      assert (G : fspline_coord 2 kn cp (val (flt 3 (-2))) 0 = 7 / 8).
      { destruct (BSplineGeneric.new_fields 2 kn cp s E) as (E1 & E2 & E3). pose proof (BSplineGeneric.new_wf 2 kn cp s E) as Hwf.
        pose proof (new_fsorted 2 kn cp s E (fun x Hx => proj1 (kn_moderate x Hx))) as Hs.
        pose proof (gideal_value s (flt 3 (-2)) 3 Hwf) as G. rewrite E1, E2, E3 in G. rewrite <- G.
        - cbn [gideal]. rewrite E1, E2. unfold BSplineGeneric.cpoint. rewrite E3. unfold fknot.
          cbn [Nat.add Nat.sub nth kn cp].
          change (cw (fpt1 (flt 0 0)) 0) with (flt 0 0). change (cw (fpt1 (flt 1 0)) 0) with (flt 1 0).
          rewrite V0, V2, V1, V3. lra.
        - exact Hs.
        - cbn. lia.
        - unfold fknot. cbn [Nat.add nth kn]. lra.
        - cbn. lia.
        - unfold fknot. cbn [Nat.add nth kn]. lra. }
      rewrite G in B0. eapply Rle_trans; [exact B0|]. cbn [INR]. lra.
  Qed.

  (** NaN as the parameter of a spline of degree 2 *)
  Example C124_total_case : exists s r a, bspline_new 2 kn cp = Ret (Ok s) /\
    fixed_eval s (B754_nan : float) = Ret r /\ fixed_bspline_arclen s 7 = Ret a.
  Proof.
    destruct kn_new as (s & E). destruct (C124_total 2 kn cp s E) as [A B].
    destruct (A (B754_nan : float)) as (r & Er & _). destruct (B 7%nat) as (a & Ea). exists s, r, a. auto.
  Qed.
End Concrete.

Print Assumptions C124_load_round.
Print Assumptions C124_total.
