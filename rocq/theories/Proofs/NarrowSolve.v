(** C127: solving a cubic for a coordinate, exact coordinates over a rounded [NativeFloat]. *)
From Coq Require Import Reals ZArith List Arith Bool Lia Lra Psatz.
From Flocq Require Import Core.Core IEEE754.BinarySingleNaN.
From Verif Require Import Base.Outcome Base.Scalar Model.Point Model.Line Model.Quadratic Model.Cubic Model.Roots Model.TwoScalars
  Inst.RealInst Inst.FloatInst Inst.ExactOver Spec.Sums Spec.Lawful Spec.Metric Spec.Rounding Spec.Widening Spec.CubicRoots
  Proofs.OutcomeFacts Proofs.PointFacts Proofs.RealTac Proofs.ExactEval Proofs.FloatFacts Proofs.TwoScalars Proofs.Narrowing
  Proofs.BBoxFacts Proofs.Cardano Proofs.SolveAxis Proofs.NarrowRoots.
Import ListNotations.
Local Open Scope R_scope.

Section Solve.
  Context {F : Format} {E : Eps} {TN : ScalarTrans float} {P : Type} {PT : Point R P} {LP : LawfulPoint P}.
  Hypothesis Hx : (13 <= femax)%Z.
  Hypothesis He : eps = 2 * uro.

  Lemma wide_solve_value (c : cubic P) v i l : (i < p_dim (P := P))%nat ->
    ~ cubic_skipped (c_start c) (c_ctrl1 c) (c_ctrl2 c) (c_end c) -> (length l <= 3)%nat ->
    cubic_real_roots2 (T := float) (- coord (c_start c) i + coord (c_ctrl1 c) i * 3 - coord (c_ctrl2 c) i * 3 + coord (c_end c) i)
      (coord (c_start c) i * 3 - coord (c_ctrl1 c) i * 6 + coord (c_ctrl2 c) i * 3)
      (- coord (c_start c) i * 3 + coord (c_ctrl1 c) i * 3) (coord (c_start c) i - v) = Ret l ->
    cubic_solve_t_for_axis2 (T := float) c v i = Ret (filter in_unit l).
  Proof.
    intros Hi Hf Hl El. pose proof (exact_widening (P := P) Hx) as W. unfold cubic_solve_t_for_axis2. rewrite (w_cubic_colinear W).
    assert (EE : with_eps RScalar (m_from (s_eps : float)) = RScalar).
    { cbn [m_from ExactMixed]. rewrite (proj2 eps_ok), <- He. reflexivity. }
    rewrite EE. destruct (cubic_guard c) as (b & Eb & Hb).
    destruct b; [exfalso; apply Hf, Hb; reflexivity|].
    match goal with |- bind ?g _ = _ => transitivity (bind (Ret false) (fun skip : bool => if skip then Ret [] else Ret (filter in_unit l))); [|reflexivity] end.
    apply bind_cong2; [exact Eb|]. intros []; [reflexivity|].
    rewrite !axis_lt by exact Hi. cbn [bind]. unfold n_lit. cbn [m_mul ExactMixed].
    rewrite (proj2 (lit_small 3 ltac:(cbn; lia))), (proj2 (lit_small 6 ltac:(cbn; lia))). rs.
    rewrite El. cbn [bind]. rewrite (w_filter W). apply av_extend_le. pose proof (filter_length_le' in_unit l). cbn [length]. lia.
  Qed.

  Theorem wide_solve_three (c : cubic P) v i
    (s := coord (c_start c) i) (k1 := coord (c_ctrl1 c) i) (k2 := coord (c_ctrl2 c) i) (e := coord (c_end c) i)
    (A := e - 3 * k2 + 3 * k1 - s) (B := 3 * (s - 2 * k1 + k2)) (K := 3 * (k1 - s))
    (err := (6 * sqrt (B ^ 2 - 3 * A * K) + Rabs B) / Rabs A * uro + sqrt (B ^ 2 - 3 * A * K) / Rabs A * / 10000000) :
    val (s_pi_f32 : float) = 13176795 / 4194304 ->
    (i < p_dim (P := P))%nat -> ~ cubic_skipped (c_start c) (c_ctrl1 c) (c_ctrl2 c) (c_end c) -> eps <= Rabs A ->
    0 < discriminant A B K (s - v) ->
    exists l, cubic_solve_t_for_axis2 (T := float) c v i = Ret l /\ (length l <= 3)%nat /\
      (forall t, In t l -> 0 < t < 1 /\ exists r, Rabs (t - r) <= err /\ coord (cubic_eval c r) i = v) /\
      (forall r, err < r < 1 - err -> coord (cubic_eval c r) i = v -> exists t, In t l /\ Rabs (t - r) <= err).
  Proof.
    intros Hpi Hi Hf Ha Hd. destruct (wide_three Hpi _ _ _ _ Ha Hd) as (r1 & r2 & r3 & x1 & x2 & x3 & E3 & Hr & H1 & H2 & H3).
    exists (filter in_unit [x1; x2; x3]). split.
    { apply wide_solve_value; [exact Hi|exact Hf|cbn; lia|]. fold s k1 k2 e.
      replace (- s + k1 * 3 - k2 * 3 + e) with A by (unfold A; ring).
      replace (s * 3 - k1 * 6 + k2 * 3) with B by (unfold B; ring).
      replace (- s * 3 + k1 * 3) with K by (unfold K; ring). exact E3. }
    change (Rabs (x2 - r2) <= err) in H2. change (Rabs (x3 - r3) <= err) in H3.
    assert (H1' : Rabs (x1 - r1) <= err).
    { unfold err. assert (0 <= sqrt (B ^ 2 - 3 * A * K) / Rabs A * / 10000000); [|lra].
      apply Rmult_le_pos; [|lra]. apply Rmult_le_pos; [apply sqrt_pos|]. left. apply Rinv_0_lt_compat. pose proof eps_pos. lra. }
    assert (Hv : forall t, coord (cubic_eval c t) i = v <-> t = r1 \/ t = r2 \/ t = r3).
    { intros t. rewrite <- Hr, cubic_eval_coord by exact Hi. fold s k1 k2 e. unfold cubic_value, A, B, K.
      split; intros H; [rewrite <- H; ring|]. apply Rminus_diag_uniq. rewrite <- H. ring. }
    split; [|split].
    - exact (filter_length_le' in_unit [x1; x2; x3]).
    - intros t Ht. apply filter_unit in Ht as [Hin Ht]. split; [exact Ht|].
      destruct Hin as [<-|[<-|[<-|[]]]]; [exists r1|exists r2|exists r3]; split; auto; apply Hv; auto.
    - intros r Hb Hs. apply Hv in Hs.
      assert (G : forall x y, Rabs (x - y) <= err -> err < y < 1 - err -> 0 < x < 1).
      { intros x y Hxy Hy. apply Rabs_le_inv in Hxy. lra. }
      destruct Hs as [-> | [-> | ->]]; [exists x1|exists x2|exists x3]; (split; [|assumption]);
        apply filter_unit; (split; [cbn; auto|]); eapply G; eauto.
  Qed.

  Theorem wide_solve_one (c : cubic P) v i u w
    (s := coord (c_start c) i) (k1 := coord (c_ctrl1 c) i) (k2 := coord (c_ctrl2 c) i) (e := coord (c_end c) i)
    (A := e - 3 * k2 + 3 * k1 - s) (B := 3 * (s - 2 * k1 + k2)) (r := u + w - B / (3 * A))
    (err := 4 * uro * (Rabs u * Rabs (ln (Rabs u)) + Rabs w * Rabs (ln (Rabs w)))) (near := Rabs (B / A) * (uro / 2) + err) :
    (i < p_dim (P := P))%nat -> ~ cubic_skipped (c_start c) (c_ctrl1 c) (c_ctrl2 c) (c_end c) -> eps <= Rabs A -> eps + err <= u - w ->
    (forall t, coord (cubic_eval c t) i - v = A * ((t + B / (3 * A)) ^ 3 - 3 * u * w * (t + B / (3 * A)) - (u ^ 3 + w ^ 3))) ->
    4 * uro * Rabs (ln (Rabs u)) <= 1 -> 4 * uro * Rabs (ln (Rabs w)) <= 1 ->
    coord (cubic_eval c r) i = v /\
    exists l, cubic_solve_t_for_axis2 (T := float) c v i = Ret l /\ (length l <= 1)%nat /\
      (forall t, In t l -> 0 < t < 1 /\ Rabs (t - r) <= near) /\
      (near < r < 1 - near -> exists t, l = [t]).
  Proof.
    intros Hi Hf Ha Huw Hp Lu Lw. pose proof eps_pos as Ep. pose proof (@uro_pos F) as U0.
    assert (E0 : 0 <= err).
    { unfold err. apply Rmult_le_pos; [lra|]. apply Rplus_le_le_0_compat; apply Rmult_le_pos; apply Rabs_pos. }
    destruct (wide_one A B (3 * (k1 - s)) (s - v) u w Ha) as (Z & x & l & El & Hx' & Hl & _); [lra| |exact Lu|exact Lw|].
    { intros t. rewrite <- Hp, cubic_eval_coord by exact Hi. fold s k1 k2 e. unfold cubic_value, A, B. ring. }
    fold err in Hl, Hx'. fold r in Z, Hx'. fold near in Hx'. rewrite Hl in El by (left; lra).
    split.
    { apply Rminus_diag_uniq. rewrite <- Z, cubic_eval_coord by exact Hi. fold s k1 k2 e. unfold cubic_value, A, B. ring. }
    exists (filter in_unit [x]). split.
    { apply wide_solve_value; [exact Hi|exact Hf|cbn; lia|]. fold s k1 k2 e.
      replace (- s + k1 * 3 - k2 * 3 + e) with A by (unfold A; ring).
      replace (s * 3 - k1 * 6 + k2 * 3) with B by (unfold B; ring).
      replace (- s * 3 + k1 * 3) with (3 * (k1 - s)) by ring. exact El. }
    split; [exact (filter_length_le' in_unit [x])|]. split.
    - intros t Ht. apply filter_unit in Ht as [[<-|[]] Ht]. split; [exact Ht|exact Hx'].
    - intros Hr. exists x. assert (X : In x (filter in_unit [x])).
      { apply filter_unit. split; [left; reflexivity|]. apply Rabs_le_inv in Hx'. lra. }
      cbn [filter] in *. destruct (in_unit x); [reflexivity|destruct X].
  Qed.
End Solve.
