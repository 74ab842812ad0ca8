(** C65, C66, C106: B-spline evaluation and derivative in IEEE-754 arithmetic. *)
From Coq Require Import Reals List Arith ZArith Lia Lra.
From Flocq Require Import IEEE754.BinarySingleNaN.
From Verif Require Import Base.Outcome Base.Scalar Model.Point Model.BSpline Inst.FloatInst
  Spec.Points Spec.Basis Spec.Rounding Spec.Componentwise Spec.FloatPoints Spec.FloatSplines
  Proofs.FloatFacts Proofs.FloatPoint Proofs.FloatSpline Proofs.FloatSplineEval Proofs.FloatSplineFirst Proofs.FloatSplineDeriv.
Import ListNotations.
Local Open Scope R_scope.

Section Floats.
  Context {F : Format} {P : Type} {PT : Point float P} {CP : CwPoint float P}.

  (** C65.  The knots are at most half of the largest number, so that differences do
      not overflow; for larger ones it is refuted below. *)
  Theorem C65_finite D ks (ps : list P) s t M :
    bspline_new D ks ps = Ret (Ok s) -> bs_kind s <> Unclamped ->
    moderate ks -> fin t -> fknot ks D <= val t < fknot ks (length ps) ->
    (forall p, In p ps -> bounded M p) -> 6 * INR D * uro <= 1 -> 4 * M <= fmax ->
    exists p, bspline_eval s t = Ret (Ok p) /\ bounded (M + 6 * INR D * uro * M + 5 * INR D * eta) p.
  Proof. exact (eval_finite D ks ps s t M). Qed.

  (** C65, right end: exact, any finite knots and any finite or non-finite control points *)
  Theorem C65_last D ks (ps : list P) s t d : bspline_new D ks ps = Ret (Ok s) ->
    (forall x, In x ks -> fin x) -> fin t -> val t = fknot ks (length ps) ->
    bspline_eval s t = Ret (Ok (last ps d)).
  Proof. exact (eval_last D ks ps s t d). Qed.

  (** C65, left end of a curve clamped there: the first control point, up to the sign
      of a zero *)
  Theorem C65_first D ks (ps : list P) s t : bspline_new D ks ps = Ret (Ok s) ->
    (bs_kind s = Clamped \/ bs_kind s = ClampedStart) -> (1 <= D)%nat -> moderate ks ->
    fin t -> val t = fknot ks D -> fknot ks D < fknot ks (D + 1) -> (forall p, In p ps -> fin_point p) ->
    exists p, bspline_eval s t = Ret (Ok p) /\ same_point p (nth 0 ps p_default).
  Proof. exact (eval_first_float D ks ps s t). Qed.

  (** C66.  The code leaves out the last contributing control point (C44); this is
      the rounding error against the curve it does compute.  Without [clear_of] it is
      refuted below. *)
  Theorem C66_error D ks (ps : list P) s t M :
    bspline_new D ks ps = Ret (Ok s) -> bs_kind s <> Unclamped ->
    moderate ks -> fin t -> fknot ks D <= val t < fknot ks (length ps) -> clear_of ks (val t) ->
    (forall p, In p ps -> bounded M p) -> 6 * INR D * uro <= 1 -> 4 * M <= fmax ->
    exists k p, (D <= k < length ps)%nat /\ fspan ks k (val t) /\ bspline_eval s t = Ret (Ok p) /\
      forall i, (i < p_dim (P := P))%nat -> fin (cw p i) /\
        Rabs (val (cw p i) - (fspline_coord D ks ps (val t) i
                              - basis (fknot ks) D k (val t) * val (cw (nth k ps p_default) i)))
          <= 15 * INR D * uro * M + 5 * INR D * eta.
  Proof. exact (eval_error D ks ps s t M). Qed.

  (** C106.  Control point j of the derivative is D (P_(j+1) - P_j) / (k_(j+D+1) - k_(j+1))
      up to five roundings; the last hypothesis keeps the quotient and the product in range. *)
  Theorem C106_control_points D ks (ps : list P) s : bspline_new D ks ps = Ret (Ok s) ->
    (1 <= D)%nat -> (Z.of_nat D <= 2 ^ fprec)%Z -> moderate ks -> (forall p, In p ps -> fin_point p) ->
    exists s', bspline_derivative s = Ret s' /\ bs_degree s' = (D - 1)%nat /\ bs_knots s' = ks /\
      length (bs_points s') = (length ps - 1)%nat /\
      forall j i, (j + 1 < length ps)%nat -> (i < p_dim (P := P))%nat ->
        let d := val (cw (nth (j + 1) ps p_default) i) - val (cw (nth j ps p_default) i) in
        let g := fknot ks (j + D + 1) - fknot ks (j + 1) in
        0 < g -> Rabs d <= fmax -> 2 * INR D * (1 + Rabs d) <= fmax * g ->
        fin (cw (nth j (bs_points s') p_default) i) /\
        Rabs (val (cw (nth j (bs_points s') p_default) i) - INR D * d / g)
          <= 5 * uro * Rabs (INR D * d / g) + 2 * eta * (1 + Rabs d).
  Proof.
    intros Hn HD Hp Hk Hf. destruct (derivative_returns D ks ps s Hn HD) as (s' & E & E1 & E2 & E3).
    exists s'. repeat (split; [assumption|]). intros j i Hj Hi.
    apply (derivative_err D ks ps s s' j i Hn HD Hp Hk E Hj Hi); apply Hf; auto; apply nth_In; lia.
  Qed.

  (** C106, the knots coincide: NaN on the axes along which the two control points
      agree, an infinity on the others *)
  Theorem C106_repeated D ks (ps : list P) s s' j i : bspline_new D ks ps = Ret (Ok s) ->
    (1 <= D)%nat -> (Z.of_nat D <= 2 ^ fprec)%Z -> moderate ks -> bspline_derivative s = Ret s' ->
    (j + 1 < length ps)%nat -> (i < p_dim (P := P))%nat ->
    fknot ks (j + D + 1) = fknot ks (j + 1) ->
    fin (cw (nth j ps p_default) i) -> fin (cw (nth (j + 1) ps p_default) i) ->
    let a := val (cw (nth j ps p_default) i) in
    let b := val (cw (nth (j + 1) ps p_default) i) in
    (a = b -> nan (cw (nth j (bs_points s') p_default) i)) /\
    (a <> b -> Rabs (b - a) <= fmax -> exists sg, cw (nth j (bs_points s') p_default) i = (B754_infinity sg : float)).
  Proof. exact (derivative_repeated D ks ps s s' j i). Qed.
End Floats.

Section Concrete.
  Local Existing Instance Binary64.

  (** finite knots, a parameter of the domain, control points in [-1, 1], and still
      the error EvaluationAlphaIsNaN *)
  Theorem C65_wide_refuted : ~ (forall D ks (ps : list (PointN float 1)) s t,
    bspline_new D ks ps = Ret (Ok s) -> bs_kind s <> Unclamped ->
    (forall x, In x ks -> fin x) -> fin t -> fknot ks D <= val t < fknot ks (length ps) ->
    (forall p, In p ps -> bounded 1 p) -> exists p, bspline_eval s t = Ret (Ok p)).
  Proof. exact alpha_nan_refuted. Qed.

  (** knots closer than EPSILON: the weights collapse to 0 *)
  Theorem C66_close_refuted : ~ (forall D ks (ps : list (PointN float 1)) s t M,
    bspline_new D ks ps = Ret (Ok s) -> bs_kind s <> Unclamped ->
    moderate ks -> fin t -> fknot ks D <= val t < fknot ks (length ps) ->
    (forall p, In p ps -> bounded M p) -> 6 * INR D * uro <= 1 -> 4 * M <= fmax ->
    exists k p, (D <= k < length ps)%nat /\ fspan ks k (val t) /\ bspline_eval s t = Ret (Ok p) /\
      Rabs (val (cw p 0) - (fspline_coord D ks ps (val t) 0
                              - basis (fknot ks) D k (val t) * val (cw (nth k ps p_default) 0)))
          <= 15 * INR D * uro * M + 5 * INR D * eta).
  Proof. exact near_knots_refuted. Qed.

  (** a quadratic spline with an inner knot at 1/2, evaluated at 3/4 *)
  Definition kn : list float := [flt 0 0; flt 0 0; flt 0 0; flt 1 (-1); flt 1 0; flt 1 0; flt 1 0].
  Definition cp : list (PointN float 1) := [fpt1 (flt 1 0); fpt1 (flt 0 0); fpt1 (flt 1 0); fpt1 (flt 1 0)].
  Example kn_values : val (flt 0 0) = 0 /\ val (flt 1 (-1)) = / 2 /\ val (flt 1 0) = 1 /\ val (flt 3 (-2)) = 3 / 4.
  Proof.
    repeat split.
    - exact (proj2 (flt_pow (-1) ltac:(lia))).
    - exact (proj2 (flt_pow 0 ltac:(lia))).
    - replace (val (flt 3 (-2))) with (IZR 6755399441055744 * Raux.bpow Zaux.radix2 (-53)); [cbn; lra|].
      vm_compute. reflexivity.
  Qed.
  Example kn_new : exists s, bspline_new 2 kn cp = Ret (Ok s).
  Proof.
    apply (proj2 (BSplineGeneric.new_ok_iff 2 kn cp)). split; [cbn; lia|]. split; [reflexivity|].
    intros [|[|[|[|[|[|i]]]]]] Hi;
      [vm_compute; reflexivity|vm_compute; reflexivity|vm_compute; reflexivity|vm_compute; reflexivity|
       vm_compute; reflexivity|vm_compute; reflexivity|cbn in Hi; lia].
  Qed.
  Example kn_clamped s : bspline_new 2 kn cp = Ret (Ok s) -> bs_kind s = Clamped.
  Proof. apply clamped_spec. vm_compute. reflexivity. Qed.
  Example kn_moderate : moderate kn.
  Proof.
    destruct kn_values as (V0 & V1 & V2 & _). pose proof fmax_ge. intros x Hx. split.
    - destruct Hx as [<-|[<-|[<-|[<-|[<-|[<-|[<-|[]]]]]]]]; vm_compute; reflexivity.
    - assert (Rabs (val x) <= 1); [|lra].
      destruct Hx as [<-|[<-|[<-|[<-|[<-|[<-|[<-|[]]]]]]]]; rewrite ?V0, ?V1, ?V2, Rabs_pos_eq; lra.
  Qed.
  Example kn_clear : clear_of kn (val (flt 3 (-2))).
  Proof.
    destruct kn_values as (V0 & V1 & V2 & V3). pose proof uro_small. rewrite V3. intros x Hx.
    rewrite (proj2 eps_ok). destruct Hx as [<-|[<-|[<-|[<-|[<-|[<-|[<-|[]]]]]]]]; rewrite ?V0, ?V1, ?V2; lra.
  Qed.
  Example kn_domain : fknot kn 2 <= val (flt 3 (-2)) < fknot kn (length cp).
  Proof.
    destruct kn_values as (V0 & V1 & V2 & V3). unfold fknot. cbn [nth kn length cp]. rewrite V0, V2, V3. lra.
  Qed.
  Example cp_bounded p : In p cp -> bounded 1 p.
  Proof.
    destruct kn_values as (V0 & V1 & V2 & V3).
    intros [<-|[<-|[<-|[<-|[]]]]]; intros [|j] Hj; try (cbn in Hj; lia); (split; [reflexivity|]);
      (change (Rabs (val (flt 1 0)) <= 1) || change (Rabs (val (flt 0 0)) <= 1));
      rewrite ?V0, ?V2, Rabs_pos_eq; lra.
  Qed.
  Example C66_case : exists s k p, bspline_new 2 kn cp = Ret (Ok s) /\ k = 3%nat /\
    bspline_eval s (flt 3 (-2)) = Ret (Ok p) /\
    Rabs (val (cw p 0) - (fspline_coord 2 kn cp (3 / 4) 0
            - basis (fknot kn) 2 3 (3 / 4) * val (cw (nth 3 cp p_default) 0))) <= 30 * uro + 10 * eta.
  Proof.
    destruct kn_new as (s & E). pose proof uro_small. pose proof fmax_ge.
    destruct kn_values as (V0 & V1 & V2 & V3).
    destruct (C66_error 2 kn cp s (flt 3 (-2)) 1 E) as (k & p & Hk & Hs & Ep & B).
    - rewrite (kn_clamped s E). discriminate.
    - exact kn_moderate.
    - vm_compute. reflexivity.
    - exact kn_domain.
    - exact kn_clear.
    - exact cp_bounded.
    - cbn [INR]. lra.
    - lra.
    - cbn [length cp] in Hk. assert (k = 3%nat).
      { destruct (Nat.eq_dec k 2) as [->|]; [|lia]. exfalso. destruct Hs as [_ Hs].
        unfold fknot in Hs. cbn [nth kn Nat.add] in Hs. rewrite V3, V1 in Hs. lra. }
      subst k. exists s, 3%nat, p. repeat split; auto. rewrite V3 in B.
      destruct (B 0%nat ltac:(cbn; lia)) as [_ B0]. eapply Rle_trans; [exact B0|]. cbn [INR]. lra.
  Qed.

  Example C65_first_case : exists s p, bspline_new 2 kn cp = Ret (Ok s) /\
    bspline_eval s (flt 0 0) = Ret (Ok p) /\ same_point p (fpt1 (flt 1 0)).
  Proof.
    destruct kn_new as (s & E). destruct kn_values as (V0 & V1 & V2 & V3).
    destruct (C65_first 2 kn cp s (flt 0 0) E) as (p & Ep & B).
    - left. exact (kn_clamped s E).
    - lia.
    - exact kn_moderate.
    - vm_compute. reflexivity.
    - reflexivity.
    - unfold fknot. cbn [nth kn Nat.add]. rewrite V0, V1. lra.
    - intros p Hp i Hi. apply (cp_bounded p Hp i Hi).
    - exists s, p. auto.
  Qed.

  Example C65_case : exists s p, bspline_new 2 kn cp = Ret (Ok s) /\
    bspline_eval s (flt 3 (-2)) = Ret (Ok p) /\ bounded (1 + 12 * uro + 10 * eta) p.
  Proof.
    destruct kn_new as (s & E). pose proof uro_small. pose proof fmax_ge.
    destruct (C65_finite 2 kn cp s (flt 3 (-2)) 1 E) as (p & Ep & B).
    - rewrite (kn_clamped s E). discriminate.
    - exact kn_moderate.
    - vm_compute. reflexivity.
    - exact kn_domain.
    - exact cp_bounded.
    - cbn [INR]. lra.
    - lra.
    - exists s, p. repeat split; auto.
      + apply (B i H1).
      + eapply Rle_trans; [apply (B i H1)|]. cbn [INR]. lra.
  Qed.
  Example C65_last_case : exists s, bspline_new 2 kn cp = Ret (Ok s) /\
    bspline_eval s (flt 1 0) = Ret (Ok (fpt1 (flt 1 0))).
  Proof.
    destruct kn_new as (s & E). exists s. split; [exact E|].
    exact (C65_last 2 kn cp s (flt 1 0) p_default E (fun x Hx => proj1 (kn_moderate x Hx)) eq_refl eq_refl).
  Qed.

  (** the first control point of the derivative: 2 (0 - 1) / (1/2 - 0) *)
  Example C106_case : exists s s', bspline_new 2 kn cp = Ret (Ok s) /\ bspline_derivative s = Ret s' /\
    fin (cw (nth 0 (bs_points s') p_default) 0) /\
    Rabs (val (cw (nth 0 (bs_points s') p_default) 0) - -4) <= 20 * uro + 4 * eta.
  Proof.
    destruct kn_new as (s & E). destruct kn_values as (V0 & V1 & V2 & V3).
    destruct (C106_control_points 2 kn cp s E ltac:(lia) ltac:(vm_compute; discriminate) kn_moderate)
      as (s' & E' & _ & _ & _ & H).
    { intros p Hp i Hi. apply (cp_bounded p Hp i Hi). }
    exists s, s'. split; [exact E|]. split; [exact E'|].
    specialize (H 0%nat 0%nat ltac:(cbn; lia) ltac:(cbn; lia)). cbv zeta in H.
    change (cw (nth (0 + 1) cp p_default) 0) with (flt 0 0) in H.
    change (cw (nth 0 cp p_default) 0) with (flt 1 0) in H.
    change (fknot kn (0 + 2 + 1)) with (val (flt 1 (-1))) in H.
    change (fknot kn (0 + 1)) with (val (flt 0 0)) in H. rewrite V0, V1, V2 in H.
    pose proof fmax_ge. pose proof uro_pos. pose proof eta_pos.
    replace (INR 2 * (0 - 1) / (/ 2 - 0)) with (-4) in H by (cbn [INR]; field).
    replace (Rabs (0 - 1)) with 1 in H by (rewrite Rabs_left; lra).
    replace (Rabs (-4)) with 4 in H by (rewrite Rabs_left; lra).
    destruct H as [A B]; [lra|lra|cbn [INR]; lra|]. split; [exact A|lra].
  Qed.

  (** a polyline with a gap: the middle knots coincide, and so does one axis *)
  Definition kr : list float := [flt 0 0; flt 0 0; flt 1 0; flt 1 0; flt 3 (-1); flt 3 (-1)].
  Definition cr : list (PointN float 2) :=
    [fpt2 (flt 0 0) (flt 0 0); fpt2 (flt 1 0) (flt 1 0); fpt2 (flt 1 0) (flt 0 0); fpt2 (flt 0 0) (flt 1 0)].
  Example kr_new : exists s, bspline_new 1 kr cr = Ret (Ok s).
  Proof.
    apply (proj2 (BSplineGeneric.new_ok_iff 1 kr cr)). split; [cbn; lia|]. split; [reflexivity|].
    intros [|[|[|[|[|i]]]]] Hi;
      [vm_compute; reflexivity|vm_compute; reflexivity|vm_compute; reflexivity|vm_compute; reflexivity|
       vm_compute; reflexivity|cbn in Hi; lia].
  Qed.
  Example C106_repeated_case s s' : bspline_new 1 kr cr = Ret (Ok s) -> bspline_derivative s = Ret s' ->
    nan (cw (nth 1 (bs_points s') p_default) 0) /\
    exists sg, cw (nth 1 (bs_points s') p_default) 1 = (B754_infinity sg : float).
  Proof.
    intros E E'. destruct kn_values as (V0 & _ & V2 & _). pose proof fmax_ge.
    assert (V4 : val (flt 3 (-1)) = 3 / 2).
    { replace (val (flt 3 (-1))) with (IZR 6755399441055744 * Raux.bpow Zaux.radix2 (-52)); [cbn; lra|].
      vm_compute. reflexivity. }
    assert (M : moderate kr).
    { intros x Hx. split.
      - destruct Hx as [<-|[<-|[<-|[<-|[<-|[<-|[]]]]]]]; vm_compute; reflexivity.
      - assert (Rabs (val x) <= 2); [|lra].
        destruct Hx as [<-|[<-|[<-|[<-|[<-|[<-|[]]]]]]]; rewrite ?V0, ?V4, ?V2, Rabs_pos_eq; lra. }
    split.
    - apply (C106_repeated 1 kr cr s s' 1 0 E ltac:(lia) ltac:(vm_compute; discriminate) M E'
               ltac:(cbn; lia) ltac:(cbn; lia) eq_refl); [vm_compute; reflexivity|vm_compute; reflexivity|reflexivity].
    - apply (C106_repeated 1 kr cr s s' 1 1 E ltac:(lia) ltac:(vm_compute; discriminate) M E'
               ltac:(cbn; lia) ltac:(cbn; lia) eq_refl); [vm_compute; reflexivity|vm_compute; reflexivity| |].
      + change (val (flt 1 0) <> val (flt 0 0)). lra.
      + change (Rabs (val (flt 0 0) - val (flt 1 0)) <= fmax). rewrite V0, V2, Rabs_left; lra.
  Qed.
End Concrete.

Print Assumptions C65_finite.
Print Assumptions C65_last.
Print Assumptions C65_first.
Print Assumptions C65_wide_refuted.
Print Assumptions C66_error.
Print Assumptions C66_close_refuted.
Print Assumptions C106_control_points.
Print Assumptions C106_repeated.
