(** C124 in IEEE-754 arithmetic: the repaired evaluation of Model/Repairs.v (which is
    not the code) against the true curve, for every kind of spline. *)
From Coq Require Import Reals List Arith ZArith Lia Lra.
From Flocq Require Import IEEE754.BinarySingleNaN.
From Verif Require Import Base.Outcome Base.Scalar Model.Point Model.BSpline Model.Repairs Inst.FloatInst
  Spec.Points Spec.Basis Spec.Rounding Spec.Componentwise Spec.FloatPoints Spec.FloatSplines
  Proofs.FloatFacts Proofs.FloatPoint Proofs.FloatSpline Proofs.FloatSplineEval Proofs.BSplineGeneric Proofs.RepairFloat Props.FloatSplineProps.
Import ListNotations.
Local Open Scope R_scope.

Section Floats.
  Context {F : Format} {P : Type} {PT : Point float P} {CP : CwPoint float P}.
  Variables (D : nat) (ks : list float) (ps : list P) (s : bspline float P).
  Hypothesis Hnew : bspline_new D ks ps = Ret (Ok s).
  Hypothesis Hm : moderate ks.
  Local Notation C := (length ps).
  Local Notation U := (fknot ks).

  (** against the curve itself, without the hypotheses of C66 that the kind is clamped
      and that the parameter is clear of the knots *)
  Theorem C124_float_error t M : fin t -> U D <= val t < U C ->
    (forall p, In p ps -> bounded M p) -> 6 * INR D * uro <= 1 -> 4 * M <= fmax ->
    exists p, fixed_eval s t = Ret (Ok p) /\
      forall i, (i < p_dim (P := P))%nat -> fin (cw p i) /\
        Rabs (val (cw p i) - fspline_coord D ks ps (val t) i) <= 15 * INR D * uro * M + 5 * INR D * eta.
  Proof. exact (fixed_eval_error D ks ps s Hnew Hm t M). Qed.

  (** both ends of a curve clamped there, up to the sign of a zero *)
  Theorem C124_float_first t : fin t -> val t = U D -> U 0 = U D -> U D < U (D + 1) ->
    (forall p, In p ps -> fin_point p) ->
    exists p, fixed_eval s t = Ret (Ok p) /\ same_point p (nth 0 ps p_default).
  Proof. exact (fixed_eval_first D ks ps s Hnew Hm t). Qed.
  Theorem C124_float_last t : fin t -> val t = U C -> U C = U (C + D) -> U (C - 1) < U C ->
    (forall p, In p ps -> fin_point p) ->
    exists p, fixed_eval s t = Ret (Ok p) /\ same_point p (nth (C - 1) ps p_default).
  Proof. exact (fixed_eval_last D ks ps s Hnew Hm t). Qed.

  (** outside of the closed domain *)
  Theorem C124_float_domain t : fin t -> ~ (U D <= val t <= U C) -> fixed_eval s t = Ret (Err KnotDomainViolation).
  Proof. exact (fixed_eval_out D ks ps s Hnew Hm t). Qed.
End Floats.

Section Concrete.
  Local Existing Instance Binary64.

  (** the spline of C66_case at 3/4: the curve is 7/8 there, the code returns about 5/8 *)
  Example kn_curve : fspline_coord 2 kn cp (3 / 4) 0 = 7 / 8.
  Proof.
    destruct kn_new as (s & E). destruct kn_values as (V0 & V1 & V2 & V3).
    destruct (BSplineGeneric.new_fields 2 kn cp s E) as (E1 & E2 & E3). pose proof (BSplineGeneric.new_wf 2 kn cp s E) as Hwf.
    pose proof (new_fsorted 2 kn cp s E (fun x Hx => proj1 (kn_moderate x Hx))) as Hs.
    pose proof (gideal_value s (flt 3 (-2)) 3 Hwf) as G. rewrite E1, E2, E3 in G.
    rewrite <- V3. rewrite <- G.
    - cbn [gideal]. rewrite E1, E2. unfold cpoint. rewrite E3. unfold fknot.
      cbn [Nat.add Nat.sub nth kn cp]. rewrite V0, V1, V2, V3.
      change (cw (fpt1 (flt 0 0)) 0) with (flt 0 0). change (cw (fpt1 (flt 1 0)) 0) with (flt 1 0).
      rewrite V0, V2. lra.
    - exact Hs.
    - cbn. lia.
    - unfold fknot. cbn [Nat.add nth kn]. rewrite V1, V2, V3. lra.
    - cbn. lia.
    - unfold fknot. cbn [Nat.add nth kn]. rewrite V2, V3. lra.
  Qed.
  Example C124_float_error_case : exists s p, bspline_new 2 kn cp = Ret (Ok s) /\
    fixed_eval s (flt 3 (-2)) = Ret (Ok p) /\ Rabs (val (cw p 0) - 7 / 8) <= 30 * uro + 10 * eta.
  Proof.
    destruct kn_new as (s & E). pose proof uro_small. pose proof fmax_ge. destruct kn_values as (V0 & V1 & V2 & V3).
    destruct (C124_float_error 2 kn cp s E kn_moderate (flt 3 (-2)) 1) as (p & Ep & B).
    - vm_compute. reflexivity.
    - exact kn_domain.
    - exact cp_bounded.
    - cbn [INR]. lra.
    - lra.
    - exists s, p. repeat split; auto. destruct (B 0%nat ltac:(cbn; lia)) as [_ B0].
      rewrite V3, kn_curve in B0. eapply Rle_trans; [exact B0|]. cbn [INR]. lra.
  Qed.
  Example C124_float_ends_case : exists s p q, bspline_new 2 kn cp = Ret (Ok s) /\
    fixed_eval s (flt 0 0) = Ret (Ok p) /\ same_point p (fpt1 (flt 1 0)) /\
    fixed_eval s (flt 1 0) = Ret (Ok q) /\ same_point q (fpt1 (flt 1 0)) /\
    fixed_eval s (flt 3 0) = Ret (Err KnotDomainViolation).
  Proof.
    destruct kn_new as (s & E). destruct kn_values as (V0 & V1 & V2 & V3).
    assert (Hp : forall p, In p cp -> fin_point p) by (intros p Hp i Hi; apply (cp_bounded p Hp i Hi)).
    destruct (C124_float_first 2 kn cp s E kn_moderate (flt 0 0)) as (p & Ep & Sp);
      [vm_compute; reflexivity|reflexivity|reflexivity|unfold fknot; cbn [Nat.add nth kn]; lra|exact Hp|].
    destruct (C124_float_last 2 kn cp s E kn_moderate (flt 1 0)) as (q & Eq & Sq);
      [vm_compute; reflexivity|reflexivity|reflexivity|unfold fknot; cbn [Nat.sub nth kn length cp]; lra|exact Hp|].
    exists s, p, q. repeat split; try assumption.
    - apply (Sp i H).
    - apply (Sp i H).
    - apply (Sq i H).
    - apply (Sq i H).
    - apply (C124_float_domain 2 kn cp s E kn_moderate); [vm_compute; reflexivity|].
      assert (V4 : val (flt 3 0) = 3).
      { replace (val (flt 3 0)) with (IZR 6755399441055744 * Raux.bpow Zaux.radix2 (-51)); [cbn; lra|].
        vm_compute. reflexivity. }
      unfold fknot. cbn [nth kn length cp]. lra.
  Qed.

  (** an unclamped line from 0 to 1 over the knots 0 1 2 3, at 3/2 *)
  Definition ku : list float := [flt 0 0; flt 1 0; flt 1 1; flt 3 0].
  Definition cu : list (PointN float 1) := [fpt1 (flt 0 0); fpt1 (flt 1 0)].
  Example C124_float_unclamped_case : exists s p, bspline_new 1 ku cu = Ret (Ok s) /\ bs_kind s = Unclamped /\
    fixed_eval s (flt 3 (-1)) = Ret (Ok p) /\ Rabs (val (cw p 0) - / 2) <= 15 * uro + 5 * eta.
  Proof.
    assert (E : exists s, bspline_new 1 ku cu = Ret (Ok s)).
    { apply (proj2 (BSplineGeneric.new_ok_iff 1 ku cu)). split; [cbn; lia|]. split; [reflexivity|].
      intros [|[|[|i]]] Hi; [vm_compute; reflexivity|vm_compute; reflexivity|vm_compute; reflexivity|cbn in Hi; lia]. }
    destruct E as (s & E). destruct kn_values as (V0 & V1 & V2 & V3).
    assert (K : bs_kind s = Unclamped).
    { assert (X : match bspline_new 1 ku cu with Ret (Ok x) => bs_kind x | _ => Clamped end = Unclamped)
        by (vm_compute; reflexivity). rewrite E in X. exact X. }
    assert (W2 : val (flt 1 1) = 2).
    { replace (val (flt 1 1)) with (IZR 4503599627370496 * Raux.bpow Zaux.radix2 (-51)); [cbn; lra|].
      vm_compute. reflexivity. }
    assert (W3 : val (flt 3 0) = 3).
    { replace (val (flt 3 0)) with (IZR 6755399441055744 * Raux.bpow Zaux.radix2 (-51)); [cbn; lra|].
      vm_compute. reflexivity. }
    assert (W4 : val (flt 3 (-1)) = 3 / 2).
    { replace (val (flt 3 (-1))) with (IZR 6755399441055744 * Raux.bpow Zaux.radix2 (-52)); [cbn; lra|].
      vm_compute. reflexivity. }
    pose proof uro_small. pose proof fmax_ge.
    assert (Mk : moderate ku).
    { intros x Hx. split.
      - destruct Hx as [<-|[<-|[<-|[<-|[]]]]]; vm_compute; reflexivity.
      - assert (Rabs (val x) <= 3); [|lra].
        destruct Hx as [<-|[<-|[<-|[<-|[]]]]]; rewrite ?V0, ?V2, ?W2, ?W3, Rabs_pos_eq; lra. }
    destruct (C124_float_error 1 ku cu s E Mk (flt 3 (-1)) 1) as (p & Ep & B).
    - vm_compute. reflexivity.
    - unfold fknot. cbn [nth ku length cu]. lra.
    - intros p [<-|[<-|[]]]; intros [|j] Hj; try (cbn in Hj; lia); (split; [reflexivity|]);
        (change (Rabs (val (flt 1 0)) <= 1) || change (Rabs (val (flt 0 0)) <= 1));
        rewrite ?V0, ?V2, Rabs_pos_eq; lra.
    - cbn [INR]. lra.
    - lra.
    - exists s, p. repeat split; auto. destruct (B 0%nat ltac:(cbn; lia)) as [_ B0].
      assert (G : fspline_coord 1 ku cu (val (flt 3 (-1))) 0 = / 2).
      { destruct (BSplineGeneric.new_fields 1 ku cu s E) as (E1 & E2 & E3). pose proof (BSplineGeneric.new_wf 1 ku cu s E) as Hwf.
        pose proof (new_fsorted 1 ku cu s E (fun x Hx => proj1 (Mk x Hx))) as Hs.
        pose proof (gideal_value s (flt 3 (-1)) 1 Hwf) as G. rewrite E1, E2, E3 in G. rewrite <- G.
        - cbn [gideal]. rewrite E1, E2. unfold cpoint. rewrite E3. unfold fknot.
          cbn [Nat.add Nat.sub nth ku cu].
          change (cw (fpt1 (flt 0 0)) 0) with (flt 0 0). change (cw (fpt1 (flt 1 0)) 0) with (flt 1 0).
          rewrite V0, V2, W2, W4. lra.
        - exact Hs.
        - cbn. lia.
        - unfold fknot. cbn [Nat.add nth ku]. lra.
        - cbn. lia.
        - unfold fknot. cbn [Nat.add nth ku]. lra. }
      rewrite G in B0. cbn [INR] in B0. lra.
  Qed.
End Concrete.

Print Assumptions C124_float_error.
Print Assumptions C124_float_first.
Print Assumptions C124_float_last.
Print Assumptions C124_float_domain.
