(** Proofs for C101: the error messages. *)
From Coq Require Import Reals List Arith Lia Lra String.
From Verif Require Import Base.Outcome Base.Scalar Model.Point Model.BSpline Model.Display Inst.RealInst
  Spec.Lawful Proofs.OutcomeFacts Proofs.BSplineGeneric Proofs.BSplineReal Proofs.BSplineEval.
Import ListNotations.
Local Notation length := List.length.

Lemma fmt_inj a b : error_fmt a = error_fmt b -> a = b.
Proof. destruct a, b; intros H; try reflexivity; discriminate H. Qed.

Section Generic.
  Context {T P : Type} {ST : Scalar T} {PT : Point T P}.

  Lemma fmt_new D ks (ps : list P) e : bspline_new D ks ps = Ret (Err e) ->
    (error_fmt e = "Too few control points"%string <-> length ps <= D) /\
    (error_fmt e = "Insufficient number of knots"%string <-> D < length ps /\ length ks < length ps + D + 1) /\
    (error_fmt e = "Excess number of knots"%string <-> D < length ps /\ length ps + D + 1 < length ks) /\
    (error_fmt e = "Knots must be non-decreasing in value"%string <-> D < length ps /\ length ks = length ps + D + 1 /\
      exists i, i + 1 < length ks /\ s_ltb (nth (i + 1) ks (s_lit 0)) (nth i ks (s_lit 0)) = true) /\
    In (error_fmt e) ["Too few control points"; "Insufficient number of knots"; "Excess number of knots";
      "Knots must be non-decreasing in value"]%string.
  Proof.
    intros H. destruct (new_errors D ks ps) as [A [B [C G]]]. pose proof (new_ok_iff D ks ps) as N.
    assert (Hdec : D < length ps -> length ks = length ps + D + 1 ->
      exists i, i + 1 < length ks /\ s_ltb (nth (i + 1) ks (s_lit 0)) (nth i ks (s_lit 0)) = true).
    { intros H1 H2. destruct (Exists_dec (fun i => s_ltb (nth (i + 1) ks (s_lit 0)) (nth i ks (s_lit 0)) = true)
        (seq 0 (length ks - 1)) (fun i => Bool.bool_dec _ _)) as [X|X].
      - apply Exists_exists in X. destruct X as [i [I X]]. apply in_seq in I. exists i. split; [lia|exact X].
      - exfalso. destruct (proj2 N) as [s Hs].
        + split; [exact H1|split; [exact H2|]]. intros i Hi.
          destruct (s_ltb (nth (i + 1) ks (s_lit 0)) (nth i ks (s_lit 0))) eqn:E; [|reflexivity].
          exfalso. apply X. apply Exists_exists. exists i. split; [apply in_seq; lia|exact E].
        + rewrite Hs in H. discriminate H. }
    destruct (Nat.le_gt_cases (length ps) D) as [L|L];
      [|destruct (Nat.lt_trichotomy (length ks) (length ps + D + 1)) as [K|[K|K]]].
    - rewrite A in H by assumption. injection H as <-. cbn [error_fmt]. repeat split; intros; try discriminate; try lia.
      now left.
    - rewrite B in H by assumption. injection H as <-. cbn [error_fmt]. repeat split; intros; try discriminate; try lia.
      now right; left.
    - rewrite G in H by auto. injection H as <-. cbn [error_fmt]. repeat split; intros; try discriminate; try lia; auto.
      now right; right; right; left.
    - rewrite C in H by assumption. injection H as <-. cbn [error_fmt]. repeat split; intros; try discriminate; try lia.
      now right; right; left.
  Qed.

  Lemma eval_error (s : bspline T P) t e : bspline_eval s t = Ret (Err e) ->
    e = KnotDomainViolation \/ e = EvaluationAlphaIsNaN /\ exists x : T, s_is_nan x = true.
  Proof.
    unfold bspline_eval. destruct (knot_domain s) as [[lo hi]| |]; cbn [bind fst snd]; try discriminate.
    destruct (s_ltb t lo || _)%bool; [intros [= <-]; now left|].
    unfold de_boor_iterative. destruct (idx _ _); cbn [bind]; try discriminate.
    destruct (s_eqb t _).
    - destruct (usub _ _); cbn [bind]; try discriminate. destruct (idx _ _); cbn [bind]; discriminate.
    - destruct (knot_span_start_for_t s t) as [[k|]| |]; cbn [bind]; try discriminate; [|intros [= <-]; now left].
      destruct (de_boor_load s k); cbn [bind]; try discriminate.
      destruct (for_result _ _ _) as [[d|x]| |] eqn:Ef; cbn [bind]; try discriminate.
      + destruct (idx d _); cbn [bind]; discriminate.
      + intros [= ->]. right.
        revert Ef. apply (for_result_err (fun e => e = EvaluationAlphaIsNaN /\ exists x : T, s_is_nan x = true)).
        intros r d1 e1. apply (for_result_err (fun e => e = EvaluationAlphaIsNaN /\ exists x : T, s_is_nan x = true)).
        intros j d2 e2. unfold de_boor_body. destruct (alpha_of _ _ _ _ _ _) as [al| |]; cbn [bind]; try discriminate.
        destruct (s_is_nan al) eqn:Ea; [intros [= <-]; eauto|]. destruct (usub _ _); cbn [bind]; try discriminate.
        destruct (idx _ _); cbn [bind]; try discriminate. destruct (idx _ _); cbn [bind]; try discriminate.
        destruct (set_idx _ _ _); cbn [bind]; discriminate.
  Qed.
  Lemma fmt_eval (s : bspline T P) t e : bspline_eval s t = Ret (Err e) ->
    error_fmt e = "Parameter outside of knot span"%string \/
    error_fmt e = "Cox-deBoor evaluation yields alpha NaN value"%string.
  Proof. intros H. destruct (eval_error s t e H) as [->|[-> _]]; [now left|now right]. Qed.
End Generic.

Lemma fmt_eval_exact {E : Eps} {P : Type} {PT : Point R P} {LP : LawfulPoint P} D ks (ps : list P) s t e lo hi :
  bspline_new D ks ps = Ret (Ok s) -> knot_domain s = Ret (lo, hi) -> bspline_eval s t = Ret (Err e) ->
  error_fmt e = "Parameter outside of knot span"%string /\ ~ (lo <= t <= hi)%R.
Proof.
  intros H Hd He. pose proof (eval_domain_iff D ks ps s H t lo hi Hd) as I.
  assert (X : e = KnotDomainViolation).
  { destruct (eval_error s t e He) as [X|[_ [x X]]]; [exact X|discriminate X]. }
  subst e. split; [reflexivity|]. now apply I.
Qed.
