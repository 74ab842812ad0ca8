(** The (private) solvers for a coordinate value: [solve_t_for_axis]. *)
From Coq Require Import Reals List Arith Lia Lra Psatz Bool.
From Verif Require Import Base.Outcome Base.Scalar Model.Point Model.Line Model.Quadratic Model.Cubic
  Model.Roots Inst.RealInst Spec.Sums Spec.Lawful Spec.Metric Spec.Points Spec.CubicRoots
  Proofs.OutcomeFacts Proofs.PointFacts Proofs.RealTac Proofs.ExactEval Proofs.Metric Proofs.LineFacts
  Proofs.BBoxFacts Proofs.BoxSpec Proofs.Cardano.
Import ListNotations.
Local Open Scope R_scope.

Section Any.
  Context {T P : Type} {ST : Scalar T} {TT : ScalarTrans T} {PT : Point T P}.

  Lemma roots_cubic_total (a b c d : T) : exists l, roots_cubic a b c d = Ret l /\ (length l <= 3)%nat.
  Proof.
    unfold roots_cubic, av_push. cbn [length Nat.ltb Nat.leb bind app].
    repeat match goal with |- context [if ?d then _ else _] => destruct d end;
      cbn; eexists; (split; [reflexivity|cbn; lia]).
  Qed.

  Lemma roots_cubic_degenerate (a b c d : T) : s_ltb (s_abs a) s_eps = true -> roots_cubic a b c d = roots_square b c d.
  Proof.
    intros H. unfold roots_cubic, roots_square, av_push. rewrite H. cbn [length Nat.ltb Nat.leb bind app].
    repeat match goal with |- context [if ?d then _ else _] => destruct d end; reflexivity.
  Qed.

  Lemma roots_square_same (a b c : T) : roots_square a b c = quad_real_roots a b c.
  Proof. reflexivity. Qed.
End Any.

Section Solve.
  Context {E : Eps} {P : Type} {PT : Point R P} {LP : LawfulPoint P}.

  Lemma point_test p q : Rleb (p_sqlen (p_sub p q)) (eps * eps) = true <-> dist p q <= eps.
  Proof.
    pose proof eps_pos. pose proof (dist_nonneg p q). rewrite sqlen_sub. unfold Rleb. destruct (Rle_dec _ _) as [h|h].
    - split; [intros _|reflexivity]. apply Rsqr_incr_0; unfold Rsqr; lra.
    - split; [discriminate|]. intros H1. exfalso. apply h. apply Rmult_le_compat; lra.
  Qed.
  Lemma close_test p q : Rltb (p_sqlen (p_sub p q)) eps = true <-> dist p q * dist p q < eps.
  Proof. rewrite sqlen_sub. unfold Rltb. destruct (Rlt_dec _ _); split; intros; auto; try discriminate; contradiction. Qed.
  Lemma sqd_dist (l : line P) : sqd l = dist (l_start l) (l_end l) * dist (l_start l) (l_end l).
  Proof. rewrite dist_sym. unfold sqd. reflexivity. Qed.
  Lemma far_not_quad s k e : far_apart s e -> ~ quad_skipped s k e.
  Proof. intros [H1 H2] [H|H]; lra. Qed.
  Lemma far_not_cubic s k1 k2 e : far_apart s e -> ~ cubic_skipped s k1 k2 e.
  Proof. intros [H1 H2] [H|H]; lra. Qed.

  Lemma filter_unit (l : list R) t : In t (filter in_unit l) <-> In t l /\ 0 < t < 1.
  Proof. rewrite filter_In, in_unit_R. reflexivity. Qed.

  (** the guards that answer "no solutions" before solving anything *)
  Lemma quad_guard (c : quad P) : exists b,
    (if quad_is_a_point c s_eps then Ret true
     else let! col := quad_are_points_colinear c (s_lit 0) in
          Ret (col && s_ltb (p_sqlen (p_sub (q_start c) (q_end c))) s_eps)) = Ret b /\
    (b = true <-> quad_skipped (q_start c) (q_ctrl c) (q_end c)).
  Proof.
    pose proof eps_pos. unfold quad_is_a_point, quad_skipped. rs.
    destruct (andb _ _) eqn:G.
    - exists true. split; [reflexivity|]. apply andb_true_iff in G. rewrite !point_test in G. intuition.
    - unfold quad_are_points_colinear. rewrite line_distance_value. cbn [bind]. rs. eexists. split; [reflexivity|].
      assert (NG : ~ (dist (q_start c) (q_end c) <= eps /\ dist (q_start c) (q_ctrl c) <= eps)).
      { rewrite <- !point_test, <- andb_true_iff, G. discriminate. }
      rewrite andb_true_iff, close_test, sqd_dist. cbn [l_start l_end quad_baseline].
      destruct (Rlt_dec _ eps) as [h|h]; [|intuition].
      unfold Rleb. rewrite (dist_sym (q_ctrl c)). pose proof (dist_nonneg (q_start c) (q_ctrl c)).
      destruct (Rle_dec _ 0) as [h0|h0]; split; intros H1.
      + right. lra.
      + auto.
      + destruct H1; discriminate.
      + exfalso. destruct H1 as [H1|H1]; [auto|lra].
  Qed.

  Lemma quad_solve_value (c : quad P) v i : (i < p_dim (P := P))%nat -> ~ quad_skipped (q_start c) (q_ctrl c) (q_end c) ->
    exists l, quad_real_roots (coord (q_start c) i + coord (q_ctrl c) i * -2 + coord (q_end c) i)
                (coord (q_start c) i * -2 + coord (q_ctrl c) i * 2) (coord (q_start c) i - v) = Ret l /\
      quad_solve_t_for_axis c v i = Ret (filter in_unit l).
  Proof.
    intros Hi Hf. unfold quad_solve_t_for_axis. destruct (quad_guard c) as (b & Eb & Hb). rewrite Eb. cbn [bind].
    destruct b; [exfalso; apply Hf, Hb; reflexivity|]. rs. rewrite !axis_lt by exact Hi. cbn [bind].
    match goal with |- context [quad_real_roots ?a ?b ?c] => destruct (quad_roots_ret a b c) as (l & El & Hl) end.
    exists l. split; [exact El|]. rewrite El. cbn [bind]. apply av_extend_le.
    pose proof (filter_length_le' in_unit l). cbn [length]. lia.
  Qed.
  Lemma quad_solve_skipped (c : quad P) v i :
    quad_skipped (q_start c) (q_ctrl c) (q_end c) -> quad_solve_t_for_axis c v i = Ret [].
  Proof.
    intros H. unfold quad_solve_t_for_axis. destruct (quad_guard c) as (b & Eb & Hb). rewrite Eb. cbn [bind].
    apply Hb in H as ->. reflexivity.
  Qed.

  Lemma cubic_guard (c : cubic P) : exists b,
    (if cubic_is_a_point c s_eps then Ret true
     else let! col := cubic_are_points_colinear c s_eps in
          Ret (col && s_ltb (p_sqlen (p_sub (c_start c) (c_end c))) s_eps)) = Ret b /\
    (b = true <-> cubic_skipped (c_start c) (c_ctrl1 c) (c_ctrl2 c) (c_end c)).
  Proof.
    pose proof eps_pos. unfold cubic_is_a_point, cubic_skipped. rs.
    destruct (andb _ _) eqn:G.
    - exists true. split; [reflexivity|]. rewrite !andb_true_iff, !point_test in G. intuition.
    - unfold cubic_are_points_colinear. rewrite !line_distance_value. cbn [bind]. rs.
      assert (NG : ~ (dist (c_start c) (c_end c) <= eps /\ dist (c_start c) (c_ctrl1 c) <= eps /\ dist (c_end c) (c_ctrl2 c) <= eps)).
      { intros (g1 & g2 & g3). apply point_test in g1, g2, g3. rewrite g1, g2, g3 in G. discriminate. }
      rewrite sqd_dist. cbn [l_start l_end cubic_baseline].
      match goal with |- exists b, bind ?e _ = _ /\ _ => assert (exists b, e = Ret b /\
        (dist (c_start c) (c_end c) * dist (c_start c) (c_end c) < eps ->
          (b = true <-> dist (c_start c) (c_ctrl1 c) <= eps /\ dist (c_start c) (c_ctrl2 c) <= eps))) as (b & Eb & Hb) end.
      { destruct (Rlt_dec _ eps) as [h|h].
        - rewrite (dist_sym (c_ctrl1 c)), (dist_sym (c_ctrl2 c)). unfold Rleb.
          destruct (Rle_dec (dist (c_start c) (c_ctrl1 c)) eps); [|exists false; split; [reflexivity|]; intuition discriminate].
          destruct (Rle_dec (dist (c_start c) (c_ctrl2 c)) eps); eexists; (split; [reflexivity|]); intuition discriminate.
        - match goal with |- context [if ?d then _ else _] => destruct d end; eexists; (split; [reflexivity|]); contradiction. }
      rewrite Eb. cbn [bind]. eexists. split; [reflexivity|]. rewrite andb_true_iff, close_test. intuition.
  Qed.

  Lemma cubic_solve_value (c : cubic P) v i : (i < p_dim (P := P))%nat ->
    ~ cubic_skipped (c_start c) (c_ctrl1 c) (c_ctrl2 c) (c_end c) ->
    exists l, roots_cubic (- coord (c_start c) i + coord (c_ctrl1 c) i * 3 - coord (c_ctrl2 c) i * 3 + coord (c_end c) i)
                (coord (c_start c) i * 3 - coord (c_ctrl1 c) i * 6 + coord (c_ctrl2 c) i * 3)
                (- coord (c_start c) i * 3 + coord (c_ctrl1 c) i * 3) (coord (c_start c) i - v) = Ret l /\
      cubic_solve_t_for_axis c v i = Ret (filter in_unit l).
  Proof.
    intros Hi Hf. unfold cubic_solve_t_for_axis. destruct (cubic_guard c) as (b & Eb & Hb). rewrite Eb. cbn [bind].
    destruct b; [exfalso; apply Hf, Hb; reflexivity|]. rs. rewrite !axis_lt by exact Hi. cbn [bind].
    match goal with |- context [roots_cubic ?a ?b ?c ?d] => destruct (roots_cubic_total a b c d) as (l & El & Hl) end.
    exists l. split; [exact El|]. rewrite El. cbn [bind]. apply av_extend_le.
    pose proof (filter_length_le' in_unit l). cbn [length]. lia.
  Qed.
  Lemma cubic_solve_skipped (c : cubic P) v i :
    cubic_skipped (c_start c) (c_ctrl1 c) (c_ctrl2 c) (c_end c) -> cubic_solve_t_for_axis c v i = Ret [].
  Proof.
    intros H. unfold cubic_solve_t_for_axis. destruct (cubic_guard c) as (b & Eb & Hb). rewrite Eb. cbn [bind].
    apply Hb in H as ->. reflexivity.
  Qed.

  (** solutions of quadratics: all of them in the open interval *)
  Theorem quad_solve (c : quad P) v i (s := coord (q_start c) i) (k := coord (q_ctrl c) i) (e := coord (q_end c) i) :
    (i < p_dim (P := P))%nat -> ~ quad_skipped (q_start c) (q_ctrl c) (q_end c) -> eps <= Rabs (s - 2 * k + e) ->
    (0 <= (k - s) * (k - s) - (s - 2 * k + e) * (s - v) \/
     4 * ((k - s) * (k - s) - (s - 2 * k + e) * (s - v)) <= - eps) ->
    exists l, quad_solve_t_for_axis c v i = Ret l /\
      forall t, In t l <-> 0 < t < 1 /\ coord (quad_eval c t) i = v.
  Proof.
    intros Hi Hf Ha Hd. destruct (quad_solve_value c v i Hi Hf) as (l & El & Es). fold s k e in El.
    exists (filter in_unit l). split; [exact Es|]. intros t. rewrite filter_unit.
    destruct (quad_roots_iff (s + k * -2 + e) (s * -2 + k * 2) (s - v)) as (l' & El' & _ & Hl).
    - replace (s + k * -2 + e) with (s - 2 * k + e) by ring. exact Ha.
    - replace ((s * -2 + k * 2) * (s * -2 + k * 2) - 4 * (s + k * -2 + e) * (s - v))
        with (4 * ((k - s) * (k - s) - (s - 2 * k + e) * (s - v))) by ring.
      destruct Hd as [Hd|Hd]; [left|right; exact Hd]. lra.
    - rewrite El in El'. injection El' as <-. rewrite Hl, quad_eval_coord by exact Hi. fold s k e.
      split; intros [H1 H2]; split; lra.
  Qed.

  (** quadratics whose axis is linear up to EPSILON *)
  Theorem quad_solve_flat (c : quad P) v i (s := coord (q_start c) i) (k := coord (q_ctrl c) i) (e := coord (q_end c) i) :
    (i < p_dim (P := P))%nat -> ~ quad_skipped (q_start c) (q_ctrl c) (q_end c) -> Rabs (s - 2 * k + e) < eps ->
    exists l, quad_solve_t_for_axis c v i = Ret l /\ (length l <= 1)%nat /\
      forall t, In t l -> 0 < t < 1 /\ Rabs (coord (quad_eval c t) i - v) < eps.
  Proof.
    intros Hi Hf Ha. destruct (quad_solve_value c v i Hi Hf) as (l & El & Es). fold s k e in El.
    exists (filter in_unit l). split; [exact Es|].
    replace (s - 2 * k + e) with (s + k * -2 + e) in Ha by ring.
    destruct (Rlt_dec (Rabs (s * -2 + k * 2)) eps) as [Hb|Hb].
    - rewrite quad_roots_none in El by assumption. injection El as <-. cbn. split; [lia|tauto].
    - rewrite quad_roots_linear in El by lra. injection El as <-.
      pose proof (filter_length_le' in_unit [- (s - v) / (s * -2 + k * 2)]) as Hl. split; [exact Hl|].
      intros t. rewrite filter_unit. intros [[<-|[]] Ht]. split; [exact Ht|].
      set (t := - (s - v) / (s * -2 + k * 2)) in *.
      assert (N : s * -2 + k * 2 <> 0).
      { intros N. rewrite N, Rabs_R0 in Hb. pose proof eps_pos. lra. }
      assert (Et : t * (s * -2 + k * 2) = - (s - v)) by (unfold t; field; exact N).
      rewrite quad_eval_coord by exact Hi. fold s k e.
      replace ((1 - t) * (1 - t) * s + 2 * t * (1 - t) * k + t * t * e - v)
        with ((s + k * -2 + e) * (t * t) + (t * (s * -2 + k * 2) + (s - v))) by ring.
      rewrite Et. replace ((s + k * -2 + e) * (t * t) + (- (s - v) + (s - v))) with ((s + k * -2 + e) * (t * t)) by ring.
      rewrite Rabs_mult. apply Rle_lt_trans with (Rabs (s + k * -2 + e) * 1); [|lra].
      apply Rmult_le_compat_l; [apply Rabs_pos|]. rewrite Rabs_pos_eq; nra.
  Qed.

  (** cubics with one real solution: it is found when it lies in the open interval *)
  Theorem cubic_solve_one (c : cubic P) v i
    (s := coord (c_start c) i) (k1 := coord (c_ctrl1 c) i) (k2 := coord (c_ctrl2 c) i) (e := coord (c_end c) i) :
    (i < p_dim (P := P))%nat -> ~ cubic_skipped (c_start c) (c_ctrl1 c) (c_ctrl2 c) (c_end c) -> eps <= Rabs (e - 3 * k2 + 3 * k1 - s) ->
    discriminant (e - 3 * k2 + 3 * k1 - s) (3 * (s - 2 * k1 + k2)) (3 * (k1 - s)) (s - v) < 0 ->
    exists l, cubic_solve_t_for_axis c v i = Ret l /\ (length l <= 2)%nat /\
      (forall t, In t l -> 0 < t < 1) /\
      forall t, 0 < t < 1 -> coord (cubic_eval c t) i = v -> In t l.
  Proof.
    intros Hi Hf Ha Hd. destruct (cubic_solve_value c v i Hi Hf) as (l & El & Es). fold s k1 k2 e in El.
    exists (filter in_unit l). split; [exact Es|].
    replace (- s + k1 * 3 - k2 * 3 + e) with (e - 3 * k2 + 3 * k1 - s) in El by ring.
    replace (s * 3 - k1 * 6 + k2 * 3) with (3 * (s - 2 * k1 + k2)) in El by ring.
    replace (- s * 3 + k1 * 3) with (3 * (k1 - s)) in El by ring.
    destruct (solve_one _ _ _ _ Ha Hd) as (r & l' & E' & Hr).
    assert (L2 : (length l <= 2)%nat).
    { rewrite solver_real in El; [|exact Ha|apply Rlt_le, disc_neg; assumption].
      injection El as <-. match goal with |- context [if ?d then _ else _] => destruct d end; cbn; lia. }
    rewrite El in E'. injection E' as ->. split; [|split].
    - pose proof (filter_length_le' in_unit (r :: l')). lia.
    - intros t H. now apply filter_unit in H.
    - intros t Ht H. apply filter_unit. split; [|exact Ht]. left. symmetry. apply Hr.
      rewrite cubic_eval_coord in H by exact Hi. fold s k1 k2 e in H. unfold cubic_value. rewrite <- H. ring.
  Qed.

  (** three real solutions: found up to the error caused by the f32 constant PI *)
  Theorem cubic_solve_three (c : cubic P) v i
    (s := coord (c_start c) i) (k1 := coord (c_ctrl1 c) i) (k2 := coord (c_ctrl2 c) i) (e := coord (c_end c) i)
    (A := e - 3 * k2 + 3 * k1 - s) (B := 3 * (s - 2 * k1 + k2)) (K := 3 * (k1 - s))
    (err := sqrt (B ^ 2 - 3 * A * K) / Rabs A * / 10000000) :
    (i < p_dim (P := P))%nat -> ~ cubic_skipped (c_start c) (c_ctrl1 c) (c_ctrl2 c) (c_end c) -> eps <= Rabs A ->
    0 < discriminant A B K (s - v) ->
    exists l, cubic_solve_t_for_axis c v i = Ret l /\ (length l <= 3)%nat /\
      (forall t, In t l -> 0 < t < 1 /\ exists r, Rabs (t - r) <= err /\ coord (cubic_eval c r) i = v) /\
      (forall r, err < r < 1 - err -> coord (cubic_eval c r) i = v -> exists t, In t l /\ Rabs (t - r) <= err).
  Proof.
    intros Hi Hf Ha Hd. destruct (cubic_solve_value c v i Hi Hf) as (l & El & Es). fold s k1 k2 e in El.
    exists (filter in_unit l). split; [exact Es|].
    replace (- s + k1 * 3 - k2 * 3 + e) with A in El by (unfold A; ring).
    replace (s * 3 - k1 * 6 + k2 * 3) with B in El by (unfold B; ring).
    replace (- s * 3 + k1 * 3) with K in El by (unfold K; ring).
    destruct (solve_three _ _ _ _ Ha Hd) as (r1 & r2 & r3 & x2 & x3 & E3 & Hr & H2 & H3).
    change (Rabs (x2 - r2) <= err) in H2. change (Rabs (x3 - r3) <= err) in H3.
    rewrite El in E3. injection E3 as ->.
    assert (Hv : forall t, coord (cubic_eval c t) i = v <-> t = r1 \/ t = r2 \/ t = r3).
    { intros t. rewrite <- Hr, cubic_eval_coord by exact Hi. fold s k1 k2 e. unfold cubic_value, A, B, K.
      split; intros H; [rewrite <- H; ring|]. apply Rminus_diag_uniq. rewrite <- H. ring. }
    assert (He : 0 <= err) by (apply Rle_trans with (2 := H2), Rabs_pos).
    assert (H1 : Rabs (r1 - r1) <= err) by (rewrite Rminus_diag_eq, Rabs_R0 by reflexivity; exact He).
    split; [|split].
    - pose proof (filter_length_le' in_unit [r1; x2; x3]) as L. exact L.
    - intros t Ht. apply filter_unit in Ht as [Hin Ht]. split; [exact Ht|].
      destruct Hin as [<-|[<-|[<-|[]]]]; [exists r1|exists r2|exists r3]; split; auto; apply Hv; auto.
    - intros r Hb Hs. apply Hv in Hs.
      assert (G : forall x y, Rabs (x - y) <= err -> err < y < 1 - err -> 0 < x < 1).
      { intros x y Hx Hy. pose proof (Rle_abs (x - y)). pose proof (Rle_abs (- (x - y))) as Hn. rewrite Rabs_Ropp in Hn. lra. }
      destruct Hs as [-> | [-> | ->]]; [exists r1|exists x2|exists x3]; (split; [|assumption]);
        apply filter_unit; (split; [cbn; auto|]); eapply G; eauto.
  Qed.

  (** a solution of multiplicity two and another one at least 3/2 EPSILON away, or
      one of multiplicity three *)
  Theorem cubic_solve_double (c : cubic P) v i a r m :
    (i < p_dim (P := P))%nat -> ~ cubic_skipped (c_start c) (c_ctrl1 c) (c_ctrl2 c) (c_end c) -> eps <= Rabs a ->
    r = m \/ 3 / 2 * eps <= Rabs (r - m) ->
    (forall t, coord (cubic_eval c t) i - v = a * (t - r) * (t - m) ^ 2) ->
    exists l, cubic_solve_t_for_axis c v i = Ret l /\
      forall t, In t l <-> 0 < t < 1 /\ coord (cubic_eval c t) i = v.
  Proof.
    intros Hi Hf Ha Hrm Hp. destruct (cubic_solve_value c v i Hi Hf) as (l & El & Es).
    set (s := coord (c_start c) i) in *. set (k1 := coord (c_ctrl1 c) i) in *.
    set (k2 := coord (c_ctrl2 c) i) in *. set (e := coord (c_end c) i) in *.
    assert (Hq : forall t, (1 - t) * (1 - t) * (1 - t) * s + 3 * t * (1 - t) * (1 - t) * k1
       + 3 * t * t * (1 - t) * k2 + t * t * t * e - v = a * (t - r) * (t - m) ^ 2).
    { intros t. rewrite <- Hp, cubic_eval_coord by exact Hi. fold s k1 k2 e. ring. }
    pose proof (Hq 0) as Q0. pose proof (Hq 1) as Q1. pose proof (Hq (-1)) as Qm. pose proof (Hq 2) as Q2.
    exists (filter in_unit l). split; [exact Es|]. intros t. rewrite filter_unit.
    assert (Hroot : coord (cubic_eval c t) i = v <-> t = r \/ t = m).
    { specialize (Hp t). assert (a <> 0) by (intros ->; rewrite Rabs_R0 in Ha; pose proof eps_pos; lra). split.
      - intros H1. assert (Hz : a * (t - r) * (t - m) ^ 2 = 0) by lra. apply Rmult_integral in Hz as [Hz|Hz].
        + apply Rmult_integral in Hz as [Hz|Hz]; [contradiction|left; lra].
        + right. cbn in Hz. apply Rmult_integral in Hz as [Hz|Hz]; [lra|]. apply Rmult_integral in Hz as [Hz|Hz]; lra.
      - intros [->| ->]; apply Rminus_diag_uniq; rewrite Hp; ring. }
    rewrite Hroot.
    replace (- s + k1 * 3 - k2 * 3 + e) with a in El by lra.
    replace (s - v) with (- a * r * m ^ 2) in El by lra.
    replace (s * 3 - k1 * 6 + k2 * 3) with (- a * (r + 2 * m)) in El by lra.
    replace (- s * 3 + k1 * 3) with (a * (m ^ 2 + 2 * m * r)) in El by lra.
    destruct Hrm as [->|Hrm].
    - replace (- a * (m + 2 * m)) with (- 3 * a * m) in El by ring.
      replace (a * (m ^ 2 + 2 * m * m)) with (3 * a * m ^ 2) in El by ring.
      replace (- a * m * m ^ 2) with (- a * m ^ 3) in El by ring.
      rewrite solve_triple in El by exact Ha. injection El as <-. cbn. intuition.
    - rewrite solve_double in El by assumption. injection El as <-. cbn. intuition.
  Qed.

  (** cubics whose axis is quadratic up to EPSILON *)
  Theorem cubic_solve_flat (c : cubic P) v i
    (s := coord (c_start c) i) (k1 := coord (c_ctrl1 c) i) (k2 := coord (c_ctrl2 c) i) (e := coord (c_end c) i)
    (A := e - 3 * k2 + 3 * k1 - s) (B := 3 * (s - 2 * k1 + k2)) (K := 3 * (k1 - s)) :
    (i < p_dim (P := P))%nat -> ~ cubic_skipped (c_start c) (c_ctrl1 c) (c_ctrl2 c) (c_end c) -> Rabs A < eps ->
    (eps <= Rabs B -> 0 <= K * K - 4 * B * (s - v) \/ K * K - 4 * B * (s - v) <= - eps) ->
    exists l, cubic_solve_t_for_axis c v i = Ret l /\ (length l <= 2)%nat /\
      (forall t, In t l -> 0 < t < 1 /\ Rabs (coord (cubic_eval c t) i - v) < 2 * eps) /\
      (A = 0 -> eps <= Rabs B -> forall t, 0 < t < 1 -> coord (cubic_eval c t) i = v -> In t l).
  Proof.
    intros Hi Hf Ha Hd. pose proof eps_pos as He. destruct (cubic_solve_value c v i Hi Hf) as (l & El & Es). fold s k1 k2 e in El.
    exists (filter in_unit l). split; [exact Es|].
    replace (- s + k1 * 3 - k2 * 3 + e) with A in El by (unfold A; ring).
    replace (s * 3 - k1 * 6 + k2 * 3) with B in El by (unfold B; ring).
    replace (- s * 3 + k1 * 3) with K in El by (unfold K; ring).
    rewrite roots_cubic_degenerate, roots_square_same in El by (apply Rltb_true; exact Ha).
    assert (Hv : forall t, coord (cubic_eval c t) i - v = A * (t * t * t) + (B * (t * t) + K * t + (s - v))).
    { intros t. rewrite cubic_eval_coord by exact Hi. fold s k1 k2 e. unfold A, B, K. ring. }
    assert (Hc : forall t x n, 0 < t < 1 -> 0 <= n <= t -> Rabs x < eps -> Rabs (x * n) < eps).
    { intros t x n Ht Hn Hx. rewrite Rabs_mult, (Rabs_pos_eq n) by lra.
      apply Rle_lt_trans with (Rabs x * 1); [|lra]. apply Rmult_le_compat_l; [apply Rabs_pos|lra]. }
    assert (T2 : forall t, 0 < t < 1 -> 0 <= t * t <= t) by (intros; nra).
    assert (T3 : forall t, 0 < t < 1 -> 0 <= t * t * t <= t) by (intros t Ht; specialize (T2 t Ht); nra).
    destruct (Rlt_dec (Rabs B) eps) as [Hb|Hb].
    - destruct (Rlt_dec (Rabs K) eps) as [Hk|Hk].
      + rewrite quad_roots_none in El by assumption. injection El as <-. cbn. split; [lia|]. split; [tauto|lra].
      + rewrite quad_roots_linear in El by lra. injection El as <-.
        pose proof (filter_length_le' in_unit [- (s - v) / K]) as Hl. cbn [length] in Hl.
        split; [lia|]. split; [|lra]. intros t. rewrite filter_unit. intros [[<-|[]] Ht]. split; [exact Ht|].
        rewrite Hv. set (t := - (s - v) / K) in *.
        assert (N : K <> 0) by (intros N; rewrite N, Rabs_R0 in Hk; lra).
        replace (B * (t * t) + K * t + (s - v)) with (B * (t * t)) by (unfold t; field; exact N).
        eapply Rle_lt_trans; [apply Rabs_triang|].
        pose proof (Hc t A _ Ht (T3 t Ht) Ha). pose proof (Hc t B _ Ht (T2 t Ht) Hb). lra.
    - destruct (quad_roots_iff B K (s - v)) as (l' & El' & Hl & Hr); [lra|apply Hd; lra|].
      rewrite El in El'. injection El' as <-.
      pose proof (filter_length_le' in_unit l) as Hl2. split; [lia|]. split.
      + intros t. rewrite filter_unit. intros [Hin Ht]. split; [exact Ht|]. apply Hr in Hin.
        rewrite Hv, Hin, Rplus_0_r. pose proof (Hc t A _ Ht (T3 t Ht) Ha). lra.
      + intros A0 _ t Ht H. apply filter_unit. split; [|exact Ht]. apply Hr. specialize (Hv t). rewrite A0 in Hv. lra.
  Qed.

  (** the interval is open: a solution at an end point is not reported *)
  Theorem quad_solve_ends (c : quad P) v i l : quad_solve_t_for_axis c v i = Ret l -> forall t, In t l -> 0 < t < 1.
  Proof.
    unfold quad_solve_t_for_axis. intros H. apply bind_ret_inv in H as (b & _ & H).
    destruct b; [injection H as <-; intros t []|].
    repeat (apply bind_ret_inv in H as (? & ? & H)).
    match goal with Hr : quad_real_roots ?a ?b ?c = Ret ?l |- _ =>
      destruct (quad_roots_ret a b c) as (l' & El & Hl); rewrite Hr in El; injection El as <- end.
    rewrite av_extend_le in H.
    - injection H as <-. intros t Ht. cbn [app] in Ht. now apply filter_unit in Ht.
    - match goal with |- context [filter in_unit ?l] => pose proof (filter_length_le' in_unit l) end. cbn [length]. lia.
  Qed.
  Theorem cubic_solve_ends (c : cubic P) v i l : cubic_solve_t_for_axis c v i = Ret l -> forall t, In t l -> 0 < t < 1.
  Proof.
    unfold cubic_solve_t_for_axis. intros H. apply bind_ret_inv in H as (b & _ & H).
    destruct b; [injection H as <-; intros t []|].
    repeat (apply bind_ret_inv in H as (? & ? & H)).
    match goal with Hr : roots_cubic ?a ?b ?c ?d = Ret ?l |- _ =>
      destruct (roots_cubic_total a b c d) as (l' & El & Hl); rewrite Hr in El; injection El as <- end.
    rewrite av_extend_le in H.
    - injection H as <-. intros t Ht. cbn [app] in Ht. now apply filter_unit in Ht.
    - match goal with |- context [filter in_unit ?l] => pose proof (filter_length_le' in_unit l) end. cbn [length]. lia.
  Qed.
End Solve.

Section CE.
  Context {E : Eps}.

  Lemma far_pt1 x y : 1 + eps <= y - x -> far_apart (pt1 x) (pt1 y).
  Proof.
    intros H. pose proof eps_pos.
    assert (D : dist (pt1 x) (pt1 y) = y - x).
    { rewrite dist_pt1, Rabs_left1; lra. }
    unfold far_apart. rewrite D. split; [lra|nra].
  Qed.

  (** the documented interval is [0,1]: a solution at t = 0 of a regular curve is missed *)
  Theorem quad_solve_ce : exists (c : quad P1) v l, far_apart (q_start c) (q_end c) /\
    quad_solve_t_for_axis c v 0 = Ret l /\ exists t, 0 <= t <= 1 /\ coord (quad_eval c t) 0 = v /\ ~ In t l.
  Proof.
    set (c := Quad (pt1 0) (pt1 0) (pt1 (1 + eps))).
    assert (F : far_apart (q_start c) (q_end c)) by (apply far_pt1; lra).
    destruct (quad_solve_value c 0 0 in1 (far_not_quad _ _ _ F)) as (l & _ & Es).
    exists c, 0, (filter in_unit l). split; [exact F|]. split; [exact Es|]. exists 0. split; [lra|]. split.
    - rewrite quad_eval_coord by apply in1. unfold c. cbn [q_start q_ctrl q_end]. rewrite !coord_pt1. ring.
    - intros H. pose proof (quad_solve_ends c 0 0 _ Es 0 H). lra.
  Qed.

  Theorem quad_skipped_ce : eps < 1 / 4 -> exists (c : quad P1) v t,
    eps < dist (q_start c) (q_end c) /\ 0 < t < 1 /\ coord (quad_eval c t) 0 = v /\
    quad_solve_t_for_axis c v 0 = Ret [].
  Proof.
    intros He. pose proof eps_pos. set (x := sqrt eps / 2).
    assert (X2 : sqrt eps * sqrt eps = eps) by (apply sqrt_sqrt; lra).
    assert (X0 : 0 < sqrt eps) by (apply sqrt_lt_R0; lra).
    assert (D : dist (pt1 0) (pt1 x) = x) by (rewrite dist_pt1, Rabs_left1; unfold x; lra).
    exists (Quad (pt1 0) (pt1 0) (pt1 x)), (x / 4), (1 / 2). cbn [q_start q_ctrl q_end]. rewrite D.
    assert (sqrt eps < 1 / 2) by nra. split; [unfold x; nra|]. split; [lra|]. split.
    - rewrite quad_eval_coord by apply in1. cbn [q_start q_ctrl q_end]. rewrite !coord_pt1. field.
    - apply quad_solve_skipped. right. cbn [q_start q_ctrl q_end]. rewrite D. split; [unfold x; nra|].
      rewrite dist_pt1, Rminus_diag_eq, Rabs_R0; reflexivity.
  Qed.
End CE.
