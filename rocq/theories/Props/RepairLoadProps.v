(** C124: bspline.rs:262 alone.  [loaded_eval] (Model/RepairsLoad.v) is the code with
    [0..=D] instead of [0..D] in that line; everything else is as in the code.  For a
    spline that is clamped at one end or both, that is enough for C45 and C79 on
    [U_D, U_C], and for C44 at parameters that are not within EPSILON after a knot. *)
From Coq Require Import Reals List Arith Lia Lra.
From Verif Require Import Base.Outcome Base.Scalar Model.Point Model.BSpline Model.Repairs Model.RepairsLoad Inst.RealInst
  Spec.Sums Spec.Lawful Spec.Hull Spec.Maps Spec.Basis Spec.Points
  Proofs.BSplineCE Proofs.RepairLoad.
Import ListNotations.
Local Open Scope R_scope.

Section Load.
  Context {E : Eps} {P Q : Type} {PT : Point R P} {QT : Point R Q} {LP : LawfulPoint P} {LQ : LawfulPoint Q}.
  Variables (D : nat) (ks : list R) (ps : list P) (s : bspline R P).
  Hypothesis Hnew : bspline_new D ks ps = Ret (Ok s).
  Hypothesis Hkind : bs_kind s <> Unclamped.
  Local Notation C := (length ps).
  Local Notation U i := (nth i ks 0).

  Theorem C124_load_total t : U D <= t <= U C -> exists p, loaded_eval s t = Ret (Ok p).
  Proof. exact (loaded_total D ks ps s Hnew Hkind t). Qed.

  (** C44 *)
  Theorem C124_load_value t : U D <= t < U C -> (forall i, (i < C + D)%nat -> U i < t -> eps <= t - U i) ->
    exists p, loaded_eval s t = Ret (Ok p) /\
      forall i, (i < p_dim (P := P))%nat -> coord p i = spline_coord D ks ps t i.
  Proof. exact (loaded_value D ks ps s Hnew Hkind t). Qed.

  (** at every parameter: a point of the hull of the D+1 control points of the span *)
  Theorem C124_load_hull t : U D <= t < U C -> exists k p, (D <= k < C)%nat /\ U k <= t < U (k + 1) /\
    loaded_eval s t = Ret (Ok p) /\ in_hull (firstn (D + 1) (skipn (k - D) ps)) p.
  Proof. exact (loaded_hull D ks ps s Hnew Hkind t). Qed.

  (** C45, every degree *)
  Theorem C124_load_first : bs_kind s = Clamped \/ bs_kind s = ClampedStart -> U D < U (D + 1) ->
    loaded_eval s (U D) = Ret (Ok (nth 0 ps p_default)).
  Proof. exact (loaded_first D ks ps s Hnew Hkind). Qed.
  Theorem C124_load_last : loaded_eval s (U C) = Ret (Ok (nth (C - 1) ps p_default)).
  Proof. exact (loaded_last D ks ps s Hnew). Qed.

  (** C79, every affine map and every parameter *)
  Theorem C124_load_moves (F : P -> Q) s' t : affine_map F -> bspline_new D ks (map F ps) = Ret (Ok s') ->
    U D <= t <= U C -> loaded_eval s' t = omap (rmap F) (loaded_eval s t).
  Proof. exact (loaded_aff D ks ps s Hnew Hkind F s' t). Qed.
End Load.

(** the errors stay those of the code, whatever the spline *)
Theorem C124_load_errors {E : Eps} {P : Type} {PT : Point R P} (s : bspline R P) t e :
  loaded_eval s t = Ret (Err e) <-> bspline_eval s t = Ret (Err e).
Proof. exact (loaded_errors s t e). Qed.
Theorem C124_load_outside {E : Eps} {P : Type} {PT : Point R P} (s : bspline R P) t lo hi :
  knot_domain s = Ret (lo, hi) -> t < lo \/ hi < t -> loaded_eval s t = Ret (Err KnotDomainViolation).
Proof. exact (loaded_outside s t lo hi). Qed.

Local Existing Instance Eps64.
(** the constant spline that the code evaluates to 1/2 *)
Example C124_load_constant_ex : exists s : bspline R P1,
  bspline_new 1 [0;0;1;1] [pt1 1; pt1 1] = Ret (Ok s) /\
  bspline_eval s (1/2) = Ret (Ok (pt1 (1/2))) /\ loaded_eval s (1/2) = Ret (Ok (pt1 1)).
Proof.
  destruct constant_not_constant as (s & Hnew & Hk & Hv & Ev). exists s. split; [exact Hnew|]. split; [exact Ev|].
  destruct (C124_load_value _ _ _ _ Hnew) with (t := 1/2) as (p & Ep & Hp).
  - congruence.
  - simpl; lra.
  - assert (eps <= 1/2).
    { change eps with (/ 2 ^ 52). replace (1/2) with (/ 2 ^ 1) by (simpl; lra).
      apply Rinv_le_contravar; [simpl; lra|]. apply Rle_pow; [lra|lia]. }
    intros i Hi. do 3 (destruct i as [|i]; [simpl; lra|]). simpl in Hi. lia.
  - rewrite Ep. do 2 f_equal. apply lp_ext. intros [|i] Hi; [|cbn in Hi; lia]. rewrite (Hp 0%nat Hi). exact Hv.
Qed.
(** the degree 0 spline that the code starts at the origin *)
Example C124_load_degree0_ex : exists s : bspline R P1,
  bspline_new 0 [0;1] [pt1 1] = Ret (Ok s) /\ bspline_eval s 0 = Ret (Ok (pt1 0)) /\
  loaded_eval s 0 = Ret (Ok (pt1 1)).
Proof.
  destruct degree0_origin as (s & Hnew & Hk & _ & Ev). exists s. split; [exact Hnew|]. split; [exact Ev|].
  apply (C124_load_first _ _ _ _ Hnew); [congruence|auto|simpl; lra].
Qed.

(** the line does not account for all of C44: the tests against EPSILON remain *)
Theorem C124_load_near_refuted : exists s : bspline R P1,
  bspline_new 1 [0;0;1;1] [pt1 0; pt1 1] = Ret (Ok s) /\ bs_kind s = Clamped /\
  spline_coord 1 [0;0;1;1] [pt1 0; pt1 1] (eps / 2) 0 = eps / 2 /\
  loaded_eval s (eps / 2) = Ret (Ok (pt1 0)).
Proof. exact loaded_near. Qed.

(** the derivative of the line from 0 to 1: this line is not the cause of C47 *)
Example C124_load_errors_ex : exists s s' : bspline R P1,
  bspline_new 1 [0;0;1;1] [pt1 0; pt1 1] = Ret (Ok s) /\ bspline_derivative s = Ret s' /\
  knot_domain s' = Ret (0, 1) /\ loaded_eval s' (1/2) = Ret (Err KnotDomainViolation) /\ loaded_eval s' 2 = Ret (Err KnotDomainViolation).
Proof.
  destruct derivative_ce as (s & s' & Hn & Hd & _ & _ & _ & Hdom & He). exists s, s'. split; [exact Hn|]. split; [exact Hd|].
  split; [exact Hdom|]. split; [apply C124_load_errors, He|apply (C124_load_outside s' 2 0 1 Hdom); lra].
Qed.
Print Assumptions C124_load_total.
Print Assumptions C124_load_value.
Print Assumptions C124_load_hull.
Print Assumptions C124_load_first.
Print Assumptions C124_load_last.
Print Assumptions C124_load_moves.
Print Assumptions C124_load_errors.
Print Assumptions C124_load_outside.
Print Assumptions C124_load_near_refuted.
