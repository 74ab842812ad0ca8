(** B-splines with floating-point knots: order of the knots, NaN parameters. *)
From Coq Require Import Reals ZArith List Arith Lia Lra Bool.
From Flocq Require Import Core.Core IEEE754.BinarySingleNaN.
From Verif Require Import Base.Outcome Base.Scalar Model.Point Model.BSpline
  Inst.FloatInst Spec.Rounding Spec.Componentwise Spec.Points Spec.FloatPoints
  Proofs.FloatFacts Proofs.BSplineGeneric.
Import ListNotations.
Local Open Scope R_scope.

Section Order.
  Context {F : Format}.
  Implicit Types x y z : float.

  (** position of a non-NaN float on the extended line *)
  Definition key x : R :=
    match x with
    | B754_infinity true => - bpow radix2 femax
    | B754_infinity false => bpow radix2 femax
    | _ => val x
    end.

  Lemma key_fin x : fin x -> key x = val x.
  Proof. destruct x; try discriminate; reflexivity. Qed.
  Lemma val_lt_emax x : Rabs (val x) < bpow radix2 femax.
  Proof. apply abs_B2R_lt_emax. Qed.

  Lemma leb_key x y : ~ nan x -> ~ nan y -> s_leb x y = Rle_bool (key x) (key y).
  Proof.
    intros Hx Hy. destruct (is_finite x) eqn:Fx, (is_finite y) eqn:Fy.
    - rewrite !key_fin by assumption. now apply leb_val.
    - rewrite (key_fin x) by assumption. pose proof (val_lt_emax x) as B. apply Rabs_def2 in B.
      destruct y as [|[]| |]; try discriminate; try (now elim Hy).
      + cbn [key]. rewrite Rle_bool_false by lra. now destruct x as [[]| | |[]].
      + cbn [key]. rewrite Rle_bool_true by lra. now destruct x as [[]| | |[]].
    - rewrite (key_fin y) by assumption. pose proof (val_lt_emax y) as B. apply Rabs_def2 in B.
      destruct x as [|[]| |]; try discriminate; try (now elim Hx).
      + cbn [key]. rewrite Rle_bool_true by lra. now destruct y as [[]| | |[]].
      + cbn [key]. rewrite Rle_bool_false by lra. now destruct y as [[]| | |[]].
    - pose proof (bpow_gt_0 radix2 femax) as B.
      destruct x as [|[]| |]; try discriminate; try (now elim Hx);
      destruct y as [|[]| |]; try discriminate; try (now elim Hy); cbn [key];
      (rewrite Rle_bool_true by lra; reflexivity) || (rewrite Rle_bool_false by lra; reflexivity).
  Qed.

  Lemma ltb_key x y : ~ nan x -> ~ nan y -> s_ltb x y = Rlt_bool (key x) (key y).
  Proof.
    intros Hx Hy.
    assert (E : s_ltb x y = negb (s_leb y x)).
    { cbn [s_ltb s_leb FScalar]. unfold Bltb, Bleb, SpecFloat.SFltb, SpecFloat.SFleb.
      change (SpecFloat.SFcompare (B2SF x) (B2SF y)) with (Bcompare x y).
      change (SpecFloat.SFcompare (B2SF y) (B2SF x)) with (Bcompare y x).
      rewrite (Bcompare_swap fprec femax x y).
      destruct (Bcompare x y) as [[]|] eqn:C; try reflexivity.
      destruct x as [[]|[]| |[]], y as [[]|[]| |[]]; try discriminate C; try (now elim Hx); try (now elim Hy). }
    rewrite E, leb_key by assumption. destruct (Rle_bool_spec (key y) (key x)), (Rlt_bool_spec (key x) (key y)); try reflexivity; exfalso; lra.
  Qed.

  Lemma leb_trans x y z : s_leb x y = true -> s_leb y z = true -> s_leb x z = true.
  Proof.
    intros A B.
    assert (Nx : ~ nan x) by (intros N; rewrite leb_nan_l in A by exact N; discriminate).
    assert (Ny : ~ nan y) by (intros N; rewrite leb_nan_r in A by exact N; discriminate).
    assert (Nz : ~ nan z) by (intros N; rewrite leb_nan_r in B by exact N; discriminate).
    rewrite leb_key in * by assumption.
    destruct (Rle_bool_spec (key x) (key y)); [|discriminate].
    destruct (Rle_bool_spec (key y) (key z)); [|discriminate].
    apply Rle_bool_true. lra.
  Qed.
End Order.

Section Spline.
  Context {F : Format} {P : Type} {PT : Point float P}.

  (** C39 for floats, infinities included *)
  Theorem new_sorted_float D ks (ps : list P) s : bspline_new D ks ps = Ret (Ok s) ->
    (forall x, In x ks -> ~ nan x) ->
    forall i j, (i <= j < length ks)%nat -> s_leb (nth i ks (s_lit 0)) (nth j ks (s_lit 0)) = true.
  Proof.
    intros H Hn i j Hij.
    destruct (proj1 (new_ok_iff D ks ps)) as (_ & _ & Hd); [eauto|].
    assert (K : forall k, (k < length ks)%nat -> ~ nan (nth k ks (s_lit 0))) by (intros; apply Hn, nth_In; assumption).
    destruct Hij as [Hij Hj]. induction Hij as [|j Hij IH].
    - rewrite leb_key by (apply K; lia). apply Rle_bool_true. lra.
    - apply leb_trans with (nth j ks (s_lit 0)); [apply IH; lia|].
      specialize (Hd j). rewrite Nat.add_1_r in Hd. specialize (Hd Hj).
      rewrite ltb_key in Hd by (apply K; lia). rewrite leb_key by (apply K; lia).
      destruct (Rlt_bool_spec (key (nth (S j) ks (s_lit 0))) (key (nth j ks (s_lit 0)))); [discriminate|].
      now apply Rle_bool_true.
  Qed.

  Lemma nan_incomparable t : nan t -> incomparable t.
  Proof.
    intros N x. repeat split; [now apply ltb_nan_l|now apply ltb_nan_r|now apply leb_nan_l|now apply leb_nan_r|
      now apply eqb_nan_l].
  Qed.

  Lemma close_self (x : float) : fin x -> s_ltb (s_abs (s_sub x x)) s_eps = true.
  Proof.
    intros Hx. destruct (sub_ok x x Hx Hx) as [A B].
    { rewrite Rminus_eq_0, Rabs_R0. pose proof fmax_ge. lra. }
    rewrite Rminus_eq_0, rnd_0 in B. destruct eps_ok as [E1 E2].
    rewrite ltb_val; [|now apply abs_fin|exact E1]. rewrite abs_val, B, Rabs_R0, E2.
    apply Rlt_bool_true. pose proof uro_pos. lra.
  Qed.

  (** C46 *)
  Theorem eval_nan D ks (ps : list P) s t : bspline_new D ks ps = Ret (Ok s) ->
    (forall x, In x ks -> fin x) -> nan t ->
    bspline_eval s t = Ret (Err KnotDomainViolation).
  Proof.
    intros H Hf N. apply eval_incomparable; [exact (new_wf D ks ps s H)|now apply nan_incomparable|].
    intros Hu. destruct (new_fields D ks ps s H) as (E1 & E2 & E3). rewrite E2.
    destruct (proj1 (new_ok_iff D ks ps)) as (L1 & L2 & _); [eauto|].
    destruct D as [|D]; [|lia]. exfalso.
    destruct ks as [|k ks]; [simpl in L2; lia|].
    unfold bspline_new in H.
    repeat match type of H with (if ?b then _ else _) = _ => destruct b; [discriminate H|] end.
    cbn [idx nth_error bind firstn Nat.add] in H.
    assert (A : all_close k [k] = true).
    { unfold all_close. cbn [forallb]. rewrite close_self by (apply Hf; now left). reflexivity. }
    rewrite A in H.
    repeat match type of H with
    | context [usub ?a ?b] => destruct (usub a b); cbn [bind] in H; try discriminate H
    | context [idx ?a ?b] => destruct (idx a b); cbn [bind] in H; try discriminate H
    end.
    destruct (all_close _ _) in H; injection H as <-; discriminate Hu.
  Qed.
End Spline.

Section Witness.
  Local Existing Instance Binary64.

  (** NaN knots are accepted, and hide a decreasing pair *)
  Definition nan_knots : list float := [flt 1 0; B754_nan; flt 0 0].
  Lemma new_accepts_nan : exists s, bspline_new 0 nan_knots [fpt1 (flt 0 0); fpt1 (flt 1 0)] = Ret (Ok s) /\
    bspline_knots s = nan_knots.
  Proof.
    destruct (proj2 (new_ok_iff 0 nan_knots [fpt1 (flt 0 0); fpt1 (flt 1 0)])) as [s H].
    - split; [cbn; lia|]. split; [reflexivity|].
      intros [|[|i]] Hi; [vm_compute; reflexivity|vm_compute; reflexivity|cbn in Hi; lia].
    - exists s. split; [exact H|]. now destruct (new_fields _ _ _ _ H) as (_ & E & _).
  Qed.
  Lemma nan_knots_decreasing : s_leb (nth 0 nan_knots (s_lit 0)) (nth 2 nan_knots (s_lit 0)) = false.
  Proof. vm_compute. reflexivity. Qed.
  Theorem nan_knots_refuted : ~ (forall D ks (ps : list (PointN float 1)) s,
    bspline_new D ks ps = Ret (Ok s) ->
    forall i j, (i <= j < length ks)%nat -> s_leb (nth i ks (s_lit 0)) (nth j ks (s_lit 0)) = true).
  Proof.
    intros H. destruct new_accepts_nan as (s & E & _).
    specialize (H _ _ _ _ E 0%nat 2%nat). rewrite nan_knots_decreasing in H. discriminate H. cbn. lia.
  Qed.
End Witness.
