(** Proofs for C139: a NaN among the control points of a B-spline. *)
From Coq Require Import List Arith Lia Bool.
From Flocq Require Import Core.Core IEEE754.BinarySingleNaN.
From Verif Require Import Base.Outcome Base.Scalar Model.Point Model.BSpline
  Inst.FloatInst Spec.Rounding Spec.Componentwise Spec.FloatPoints
  Proofs.FloatPoint Proofs.Poison Proofs.NanCurves Proofs.BSplineGeneric.
Import ListNotations.

Section Nan.
  Context {F : Format} {P : Type} {PT : Point float P} {CP : CwPoint float P}.
  Variable i : nat.
  Hypothesis Hi : i < p_dim (P := P).
  Notation bad := (fun p : P => nan (cw p i)).
  Ltac coords := repeat (first [rewrite cw_add by exact Hi | rewrite cw_mul by exact Hi]).

  Lemma entry_nan (s : bspline float P) t k m : m < bs_degree s -> bad (cpoint s (m + k - bs_degree s)) ->
    forall r j, r <= j -> j - r <= m <= j -> bad (entry s t k r j).
  Proof.
    intros Hm Hb. induction r as [|r IH]; intros j Hj Hr; cbn [entry].
    - assert (j = m) as -> by lia. destruct (Nat.ltb_spec m (bs_degree s)); [exact Hb|lia].
    - destruct (Nat.eq_dec m j) as [->|].
      + assert (A : bad (entry s t k r j)) by (apply IH; lia). coords. nans.
      + assert (A : bad (entry s t k r (j - 1))) by (apply IH; lia). coords. nans.
  Qed.

  Theorem spline_nan (s : bspline float P) t p : well_formed s -> bs_kind s = Clamped ->
    bspline_eval s t = Ret (Ok p) -> s_eqb t (knot s (length (bs_points s))) = false ->
    exists k, bs_degree s <= k < length (bs_points s) /\ s_leb (knot s k) t = true /\ s_ltb t (knot s (k + 1)) = true /\
      forall j, k - bs_degree s <= j < k -> bad (cpoint s j) -> bad p.
  Proof.
    intros Hwf Hk E Ne. unfold bspline_eval in E. rewrite domain_value in E by assumption. rewrite Hk in E. cbn [bind fst snd] in E.
    destruct (s_ltb t (knot s (bs_degree s))) eqn:E1; cbn [orb] in E; [discriminate|].
    destruct (s_ltb (knot s (length (bs_points s))) t) eqn:E2; [discriminate|].
    destruct (span_clamped s t Hwf Hk E1) as (r & Er & Hr).
    destruct (de_boor_cases s t r (wf_roomy s Hwf) Er) as [(A & _)|(_ & B)].
    - intros k Hk'. destruct (Hr k Hk') as (A & _). lia.
    - congruence.
    - destruct r as [k|]; [|rewrite B in E; discriminate].
      destruct (Hr k eq_refl) as (R & [[B1 B2]|[_ B2]]); [|congruence].
      exists k. split; [exact R|]. split; [exact B1|]. split; [exact B2|]. intros j Hj Hb.
      destruct B as [B|[B _]]; rewrite B in E; [|discriminate]. injection E as <-.
      apply entry_nan with (j + bs_degree s - k); try lia.
      now replace (j + bs_degree s - k + k - bs_degree s) with j by lia.
  Qed.
End Nan.
