(** Proofs for C139: solving for a coordinate value when a number is NaN. *)
From Coq Require Import Reals ZArith List Arith Lia Bool.
From Flocq Require Import Core.Core IEEE754.BinarySingleNaN.
From Verif Require Import Base.Outcome Base.Scalar Model.Point Model.Line Model.Quadratic Model.Cubic Model.Roots
  Inst.FloatInst Spec.Rounding Spec.Componentwise Spec.FloatPoints
  Proofs.OutcomeFacts Proofs.FloatPoint Proofs.Poison Proofs.NanCurves.
Import ListNotations.

Section Scalars.
  Context {F : Format}.
  Implicit Types x y : @float F.
  Lemma nan_opp x : nan x -> nan (s_neg x).
  Proof. intros H. now rewrite (nan_is x H). Qed.
  Lemma nan_div_l x y : nan x -> nan (s_div x y).
  Proof. intros H. now rewrite (nan_is x H). Qed.
  Lemma leb_nan_r x y : nan y -> s_leb x y = false.
  Proof. intros H. rewrite (nan_is y H). now destruct x as [[]|[]| |[]]. Qed.
End Scalars.

Ltac nans' := lazymatch goal with
  | |- nan (s_add _ _) => first [apply nan_add_l; nans' | apply nan_add_r; nans']
  | |- nan (s_sub _ _) => first [apply nan_sub_l; nans' | apply nan_sub_r; nans']
  | |- nan (s_mul _ _) => first [apply nan_mul_l; nans' | apply nan_mul_r; nans']
  | |- nan (s_div _ _) => first [apply nan_div_l; nans' | apply nan_div_r; nans']
  | |- nan (s_neg _) => apply nan_opp; nans'
  | |- nan (s_sqrt _) => apply nan_sqrt; nans'
  | |- nan (s_abs _) => apply nan_abs; nans'
  | |- nan _ => assumption
  end.

Section Solve.
  Context {F : Format} {P : Type} {PT : Point float P} {CP : CwPoint float P}.
  Variable i : nat.
  Hypothesis Hi : i < p_dim (P := P).
  Notation bad := (fun p : P => nan (cw p i)).

  Lemma roots_nan (a b c : float) : nan a \/ nan c ->
    exists l, quad_real_roots a b c = Ret l /\ filter in_unit l = [].
  Proof.
    intros H. unfold quad_real_roots. destruct (s_ltb (s_abs a) s_eps) eqn:Ea.
    - destruct H as [H|H]; [rewrite ltb_nan_l in Ea by nans'; discriminate|].
      destruct (s_ltb (s_abs b) s_eps); [now exists []|]. eexists. split; [reflexivity|].
      cbn [filter app]. now rewrite nan_unit by nans'.
    - cbv zeta. assert (N : nan (s_sub (s_mul b b) (s_mul (s_mul a c) (s_lit 4)))) by (destruct H; nans').
      rewrite (ltb_nan_r (s_lit 0)) by exact N. rewrite ltb_nan_l by (apply nan_abs; exact N). now exists [].
  Qed.
  Lemma quad_colinear_total (q : quad P) tol : exists b, quad_are_points_colinear q tol = Ret b.
  Proof.
    unfold quad_are_points_colinear. destruct (line_distance_total i Hi (quad_baseline q) (q_ctrl q)) as (d & ->). cbn [bind]. eauto.
  Qed.
  Lemma cubic_colinear_total (c : cubic P) tol : exists b, cubic_are_points_colinear c tol = Ret b.
  Proof.
    unfold cubic_are_points_colinear. destruct (line_distance_total i Hi (cubic_baseline c) (c_ctrl1 c)) as (d & ->). cbn [bind].
    destruct (s_leb _ _); [|eauto]. destruct (line_distance_total i Hi (cubic_baseline c) (c_ctrl2 c)) as (d2 & ->). cbn [bind]. eauto.
  Qed.
  Lemma axis_at p : p_axis p i = Ret (cw p i).
  Proof. rewrite cw_axis. destruct (Nat.ltb_spec i (p_dim (P := P))); [reflexivity|lia]. Qed.

  Theorem quad_solve_nan (q : quad P) v : nan v \/ bad (q_start q) \/ bad (q_ctrl q) \/ bad (q_end q) ->
    quad_solve_t_for_axis q v i = Ret [].
  Proof.
    intros H. unfold quad_solve_t_for_axis. destruct (quad_colinear_total q (s_lit 0)) as (b & ->). cbn [bind].
    destruct (quad_is_a_point q s_eps); [reflexivity|]. cbn [bind]. destruct (b && _); [reflexivity|].
    rewrite !axis_at. cbn [bind]. cbv zeta.
    edestruct roots_nan as (l & E & L); [|rewrite E; cbn [bind]; now rewrite L].
    destruct H as [H|[H|[H|H]]]; [right; nans'|left; nans'..].
  Qed.

  Context {TT : ScalarTrans float}.
  Lemma cubic_roots_nan (a b c d : float) :
    nan a \/ (nan d /\ (forall x, nan x -> nan (s_acos x)) /\ (forall x, nan x -> nan (s_cos x))) ->
    exists l, roots_cubic a b c d = Ret l /\ filter in_unit l = [].
  Proof.
    intros H. unfold roots_cubic. destruct (s_ltb (s_abs a) s_eps) eqn:Ea.
    - destruct H as [H|[H _]]; [rewrite ltb_nan_l in Ea by nans'; discriminate|].
      destruct (s_ltb (s_abs b) s_eps).
      + destruct (s_ltb (s_abs c) s_eps); [now exists []|]. eexists. split; [reflexivity|].
        cbn [filter app]. now rewrite nan_unit by nans'.
      + cbv zeta. rewrite (ltb_nan_r (s_lit 0)) by nans'. rewrite ltb_nan_l by nans'. now exists [].
    - cbv zeta. rewrite (leb_nan_r (s_lit 0)) by (destruct H as [H|[H _]]; nans').
      eexists. split; [reflexivity|]. cbn [filter app].
      destruct H as [H|(H & Ha & Hc)]; [now rewrite !nan_unit by nans'|].
      rewrite !nan_unit; [reflexivity|apply nan_sub_l, nan_mul_r, Hc, nan_mul_l; try (apply nan_add_l); apply Ha; nans'..].
  Qed.
  Theorem cubic_solve_nan (q : cubic P) v :
    (nan v /\ (forall x, nan x -> nan (s_acos x)) /\ (forall x, nan x -> nan (s_cos x))) \/
      bad (c_start q) \/ bad (c_ctrl1 q) \/ bad (c_ctrl2 q) \/ bad (c_end q) ->
    cubic_solve_t_for_axis q v i = Ret [].
  Proof.
    intros H. unfold cubic_solve_t_for_axis. destruct (cubic_colinear_total q s_eps) as (b & ->). cbn [bind].
    destruct (cubic_is_a_point q s_eps); [reflexivity|]. cbn [bind]. destruct (b && _); [reflexivity|].
    rewrite !axis_at. cbn [bind]. cbv zeta.
    edestruct cubic_roots_nan as (l & E & L); [|rewrite E; cbn [bind]; now rewrite L].
    destruct H as [(H & Ha & Hc)|[H|[H|[H|H]]]]; [right; split; [nans'|auto]|left; nans'..].
  Qed.
End Solve.
