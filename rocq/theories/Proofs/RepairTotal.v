(** The repaired B-spline functions of Model/Repairs.v return over every scalar type. *)
From Coq Require Import List Arith Lia Bool.
From Verif Require Import Base.Outcome Base.Scalar Model.Point Model.BSpline Model.Repairs
  Proofs.OutcomeFacts Proofs.BSplineGeneric Proofs.RepairFloat.
Import ListNotations.

Section Total.
  Context {T P : Type} {ST : Scalar T} {PT : Point T P}.
  Variable s : bspline T P.
  Hypothesis Hwf : well_formed s.
  Local Notation D := (bs_degree s).
  Local Notation C := (length (bs_points s)).

  Lemma fixed_span_total t : s_ltb t (knot s D) = false ->
    exists r, fixed_span s t = Ret r /\ forall k, r = Some k -> D <= k < C.
  Proof.
    intros Ht. destruct (span_clamped (BSpline D (bs_knots s) Clamped (bs_points s)) t Hwf eq_refl Ht) as (r & Er & Hr).
    exists r. split; [exact Er|]. intros k Hk. apply (Hr k Hk).
  Qed.

  Lemma fixed_inner_total t k r d : D <= k < C -> 1 <= r <= D -> length d = D + 1 ->
    exists res, for_result (rev (range_incl r D)) d (fun j d => fixed_body (bs_knots s) D t k r j d) = Ret res /\
      match res with Ok d' => length d' = D + 1 | Err e => e = EvaluationAlphaIsNaN end.
  Proof.
    intros Hk Hr Hl.
    destruct (for_result_rule (fun l d => (forall j, In j l -> r <= j <= D) /\ length d = D + 1)
      (fun e => e = EvaluationAlphaIsNaN) (fun j d => fixed_body (bs_knots s) D t k r j d) (rev (range_incl r D)) d) as (res & Er & Hres).
    - split; [|exact Hl]. intros j Hj. apply in_rev in Hj. unfold range_incl in Hj. apply in_seq in Hj. lia.
    - clear d Hl. intros j l d (Hin & Hl). pose proof (Hin j (or_introl eq_refl)) as Hj.
      unfold fixed_body. rewrite (galpha_ok s t k Hwf Hk) by lia. cbn [bind].
      destruct (s_is_nan _); [eexists; split; [reflexivity|]; reflexivity|].
      rewrite usub_le by lia. cbn [bind]. rewrite !(idx_lt d _ p_default) by lia. cbn [bind].
      rewrite set_idx_lt by lia. cbn [bind]. eexists. split; [reflexivity|]. split.
      + intros j' Hj'. apply Hin. now right.
      + now rewrite length_replace_nth.
    - exists res. split; [exact Er|]. destruct res; [apply Hres|exact Hres].
  Qed.

  Lemma fixed_de_boor_total t : s_ltb t (knot s D) = false ->
    exists r, fixed_de_boor s t = Ret r /\ forall e, r = Err e -> e = KnotDomainViolation \/ e = EvaluationAlphaIsNaN.
  Proof.
    intros Ht. unfold fixed_de_boor. destruct (fixed_span_total t Ht) as (ko & Ek & Hk). rewrite Ek. cbn [bind].
    destruct ko as [k|]; [|eexists; split; [reflexivity|]; intros e [= <-]; auto].
    specialize (Hk k eq_refl). destruct (gload_ok s t k Hwf Hk) as (d & Ed & Hl & _). rewrite Ed. cbn [bind].
    destruct (for_result_rule (fun l d => (forall r, In r l -> 1 <= r <= D) /\ length d = D + 1)
      (fun e => e = EvaluationAlphaIsNaN)
      (fun r d => for_result (rev (range_incl r D)) d (fun j d => fixed_body (bs_knots s) D t k r j d)) (range_incl 1 D) d) as (res & Er & Hres).
    - split; [|exact Hl]. intros j Hj. unfold range_incl in Hj. apply in_seq in Hj. lia.
    - clear d Ed Hl. intros r l d (Hin & Hl).
      destruct (fixed_inner_total t k r d Hk (Hin r (or_introl eq_refl)) Hl) as (res & Er & Hres).
      exists res. split; [exact Er|]. destruct res; [split; [|exact Hres]|exact Hres]. intros r' Hr'. apply Hin. now right.
    - rewrite Er. cbn [bind]. destruct res as [d'|e].
      + rewrite (idx_lt _ _ p_default) by lia. cbn [bind]. eexists. split; [reflexivity|]. discriminate.
      + eexists. split; [reflexivity|]. intros e' [= <-]. auto.
  Qed.

  Lemma fixed_domain_value : fixed_knot_domain s = Ret (knot s D, knot s C).
  Proof.
    pose proof Hwf as [H1 H2]. change (fixed_knot_domain s) with (knot_domain (BSpline D (bs_knots s) Unclamped (bs_points s))).
    rewrite domain_value by exact Hwf. reflexivity.
  Qed.

  Lemma fixed_eval_returns t : exists r, fixed_eval s t = Ret r /\
    forall e, r = Err e -> e = KnotDomainViolation \/ e = EvaluationAlphaIsNaN.
  Proof.
    unfold fixed_eval. rewrite fixed_domain_value. cbn [bind fst snd].
    destruct (s_ltb t (knot s D)) eqn:E1; cbn [orb]; [eexists; split; [reflexivity|]; intros e [= <-]; auto|].
    destruct (s_ltb (knot s C) t); [eexists; split; [reflexivity|]; intros e [= <-]; auto|].
    apply fixed_de_boor_total, E1.
  Qed.

  (** a value for every parameter: the default point where the evaluation fails *)
  Lemma fixed_or_default_value t p : fixed_eval_or_default s t = Ret p <->
    fixed_eval s t = Ret (Ok p) \/ ((exists e, fixed_eval s t = Ret (Err e)) /\ p = p_default).
  Proof.
    unfold fixed_eval_or_default. destruct (fixed_eval_returns t) as (r & -> & _). cbn [bind]. destruct r as [q|e].
    - split; [intros [= ->]; auto|]. intros [[= ->]|[(e & [=]) _]]. reflexivity.
    - split; [intros [= <-]; eauto|]. intros [[=]|[_ ->]]. reflexivity.
  Qed.

  Lemma fixed_arclen_returns n : exists a, fixed_bspline_arclen s n = Ret a.
  Proof.
    unfold fixed_bspline_arclen. rewrite fixed_domain_value. cbn [bind fst snd].
    match goal with |- exists a, for_in _ ?z ?b = _ =>
      destruct (for_in_range_inv (fun _ _ => True) 0 n z b) as (a & Ea & _); [lia|exact I| |exists a; exact Ea] end.
    intros i a _ _.
    assert (V : forall t, exists p, fixed_eval_or_default s t = Ret p).
    { intros t. unfold fixed_eval_or_default. destruct (fixed_eval_returns t) as (r & -> & _). cbn [bind]. destruct r; eauto. }
    match goal with |- context [fixed_eval_or_default s ?t] => destruct (V t) as (p1 & ->) end. cbn [bind].
    match goal with |- context [fixed_eval_or_default s ?t] => destruct (V t) as (p2 & ->) end. cbn [bind]. eauto.
  Qed.
End Total.

Section New.
  Context {T P : Type} {ST : Scalar T} {PT : Point T P}.

  Theorem fixed_total D ks (ps : list P) (s : bspline T P) : bspline_new D ks ps = Ret (Ok s) ->
    (forall t, exists r, fixed_eval s t = Ret r /\ forall e, r = Err e -> e = KnotDomainViolation \/ e = EvaluationAlphaIsNaN) /\
    (forall n, exists a, fixed_bspline_arclen s n = Ret a).
  Proof.
    intros H. pose proof (new_wf D ks ps s H) as Hwf.
    split; [exact (fixed_eval_returns s Hwf)|exact (fixed_arclen_returns s Hwf)].
  Qed.
End New.
