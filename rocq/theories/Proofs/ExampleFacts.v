(** Proofs for C114: the example program. *)
From Coq Require Import Reals ZArith List Arith Lia Lra.
From Verif Require Import Base.Outcome Base.Scalar Model.Point Model.Cubic Model.Example
  Inst.RealInst Spec.Sums Spec.Lawful Spec.Bernstein Spec.Box Spec.Chart Spec.Points
  Proofs.OutcomeFacts Proofs.PointFacts Proofs.RealTac Proofs.ExactEval Proofs.BoxSpec Props.CubicProps.
Import ListNotations.
Local Open Scope R_scope.

Section Example_.
  Context {E : Eps}.
  Definition ex_X t := 3*t*(1-t)*(1-t) * (11/10) + 3*t*t*(1-t) * (43/10) + t*t*t * (32/10).
  Definition ex_Y t := (1-t)*(1-t)*(1-t) * (177/100) - 3*t*(1-t)*(1-t) + 9*t*t*(1-t) - 4*(t*t*t).

  Lemma ex_coord t : coord (cubic_eval (P := P2) ex_bezier t) 0 = ex_X t /\ coord (cubic_eval (P := P2) ex_bezier t) 1 = ex_Y t.
  Proof.
    assert (p_dim (P := P2) = 2%nat) by reflexivity.
    split; rewrite C18_eval_explicit by lia; unfold ex_X, ex_Y; cbn; lra.
  Qed.
  Lemma ex_axis t : p_axis (cubic_eval_casteljau (P := P2) ex_bezier t) 0 = Ret (ex_X t) /\
    p_axis (cubic_eval_casteljau (P := P2) ex_bezier t) 1 = Ret (ex_Y t).
  Proof.
    rewrite C18_casteljau, !lp_axis. change (p_dim (P := P2)) with 2%nat. cbn [Nat.ltb Nat.leb].
    destruct (ex_coord t) as [-> ->]. auto.
  Qed.
  Lemma ex_graph_spec n : (0 < n)%nat ->
    ex_graph n = Ret (map (fun i => (ex_X (INR i / INR n), ex_Y (INR i / INR n))) (seq 0 n)).
  Proof.
    intros Hn. unfold ex_graph.
    destruct (for_in_range_inv (fun k (g : list (R * R)) => g = map (fun i => (ex_X (INR i / INR n), ex_Y (INR i / INR n))) (seq 0 k))
      0 n [] (fun i graph =>
        let t := s_of_usize i * s_lit 1 / s_of_usize n in
        let p := cubic_eval_casteljau (P := P2) ex_bezier t in
        let! x := p_axis p 0 in let! y := p_axis p 1 in Ret (graph ++ [(x, y)]))%S) as (g & G & ->).
    - lia.
    - reflexivity.
    - intros i g _ ->. cbv zeta. destruct (ex_axis (s_of_usize i * s_lit 1 / s_of_usize n)%S) as [-> ->]. cbn [bind].
      eexists. split; [reflexivity|]. rewrite seq_app, map_app. cbn [seq map Nat.add]. rs.
      replace (INR i * 1 / INR n) with (INR i / INR n) by (unfold Rdiv; ring). reflexivity.
    - exact G.
  Qed.

  Lemma weights t : 0 <= t <= 1 -> 0 <= (1-t)*(1-t)*(1-t) /\ 0 <= t*(1-t)*(1-t) /\ 0 <= t*t*(1-t) /\ 0 <= t*t*t /\
    (1-t)*(1-t)*(1-t) + 3*(t*(1-t)*(1-t)) + 3*(t*t*(1-t)) + t*t*t = 1.
  Proof. intros H. repeat split; try ring; repeat apply Rmult_le_pos; lra. Qed.
  Lemma ex_ranges t : 0 <= t <= 1 -> 0 <= ex_X t <= 43/10 /\ -4 <= ex_Y t <= 3.
  Proof.
    intros H. destruct (weights t H) as (A & B & C & D & S). unfold ex_X, ex_Y.
    set (a := (1-t)*(1-t)*(1-t)) in *. replace (3*t*(1-t)*(1-t)) with (3*(t*(1-t)*(1-t))) by ring.
    replace (3*t*t*(1-t)) with (3*(t*t*(1-t))) by ring. replace (9*t*t*(1-t)) with (9*(t*t*(1-t))) by ring.
    set (b := t*(1-t)*(1-t)) in *. set (c := t*t*(1-t)) in *. set (d := t*t*t) in *. lra.
  Qed.
  Lemma ex_hull t : 0 <= t <= 1 -> inside ex_chull (ex_X t, ex_Y t).
  Proof.
    intros H. destruct (weights t H) as (A & B & C & D & S). unfold inside, ex_chull, left_of, dec. cbn [fst snd]. rs. unfold ex_X, ex_Y.
    set (a := (1-t)*(1-t)*(1-t)) in *. replace (3*t*(1-t)*(1-t)) with (3*(t*(1-t)*(1-t))) by ring.
    replace (3*t*t*(1-t)) with (3*(t*t*(1-t))) by ring. replace (9*t*t*(1-t)) with (9*(t*t*(1-t))) by ring.
    set (b := t*(1-t)*(1-t)) in *. set (c := t*t*(1-t)) in *. set (d := t*t*t) in *.
    repeat split; lra.
  Qed.

  Lemma ex_box : eps <= 1 -> exists xmax ymax, cubic_bounding_box (P := P2) ex_bezier = Ret [(0, xmax); (-4, ymax)] /\
    (forall t, 0 <= t <= 1 -> ex_X t <= xmax) /\ (forall t, 0 <= t <= 1 -> ex_Y t <= ymax) /\
    (exists t, 0 <= t <= 1 /\ ex_X t = xmax) /\ (exists t, 0 <= t <= 1 /\ ex_Y t = ymax).
  Proof.
    intros He. destruct (C22_C23_bounding_box (P := P2) ex_bezier) as (bs & B & L & A). unfold box_shape in L.
    change (p_dim (P := P2)) with 2%nat in L, A.
    assert (forall i lo hi lo' hi', nth_error bs i = Some (lo, hi) -> nth_error bs i = Some (lo', hi') -> lo' = lo /\ hi' = hi).
    { intros i lo hi lo' hi' H1 H2. rewrite H1 in H2. injection H2 as -> ->. auto. }
    destruct (A 0%nat ltac:(lia)) as ((xl & xh & X1 & (t1 & T1 & V1) & (t2 & T2 & V2)) & _ & X2).
    destruct (A 1%nat ltac:(lia)) as ((yl & yh & Y1 & (t3 & T3 & V3) & (t4 & T4 & V4)) & _ & Y2).
    destruct X2 as (l1 & h1 & X3 & X4); [cbn; unfold Rabs; destruct Rcase_abs; lra|].
    destruct Y2 as (l2 & h2 & Y3 & Y4); [cbn; unfold Rabs; destruct Rcase_abs; lra|].
    destruct (H _ _ _ _ _ X1 X3) as [-> ->]. destruct (H _ _ _ _ _ Y1 Y3) as [-> ->]. clear H.
    assert (Fx : forall t, 0 <= t <= 1 -> xl <= ex_X t <= xh).
    { intros t Ht. specialize (X4 t Ht). destruct (ex_coord t) as [Q _]. rewrite Q in X4. lra. }
    assert (Fy : forall t, 0 <= t <= 1 -> yl <= ex_Y t <= yh).
    { intros t Ht. specialize (Y4 t Ht). destruct (ex_coord t) as [_ Q]. rewrite Q in Y4. lra. }
    rewrite (proj1 (ex_coord t1)) in V1. rewrite (proj1 (ex_coord t2)) in V2. rewrite (proj2 (ex_coord t3)) in V3. rewrite (proj2 (ex_coord t4)) in V4.
    assert (xl = 0).
    { pose proof (ex_ranges t1 T1). pose proof (Fx 0 ltac:(lra)) as Z. unfold ex_X at 1 2 in Z. lra. }
    assert (yl = -4).
    { pose proof (ex_ranges t3 T3). pose proof (Fy 1 ltac:(lra)) as Z. unfold ex_Y at 1 2 in Z. lra. }
    subst xl yl. exists xh, yh.
    destruct bs as [|p [|q [|]]]; try discriminate. cbn [nth_error] in X1, Y1. injection X1 as ->. injection Y1 as ->.
    split; [rewrite B; congruence|]. split; [intros t Ht; now apply Fx|]. split; [intros t Ht; now apply Fy|]. split; eauto.
  Qed.

  Theorem ex_main_spec : eps <= 1 -> exists xmax ymax curve,
    ex_main = Ret (Plot (0 - 2, 0 + 6) (-4 - 1, ymax + 3) ex_cpoints curve
      [(0, -4); (0, ymax); (xmax, ymax); (xmax, -4); (0, -4)] ex_chull) /\
    curve = map (fun i => (ex_X (INR i / 1000), ex_Y (INR i / 1000))) (seq 0 1000) /\
    (forall t, 0 <= t <= 1 -> ex_X t <= xmax) /\ (forall t, 0 <= t <= 1 -> ex_Y t <= ymax) /\
    (exists t, 0 <= t <= 1 /\ ex_X t = xmax) /\ (exists t, 0 <= t <= 1 /\ ex_Y t = ymax).
  Proof.
    intros He. destruct (ex_box He) as (xm & ym & B & R). exists xm, ym. unfold P2 in B. unfold ex_main. rewrite B. cbn [bind idx nth_error].
    rewrite ex_graph_spec by lia. cbn [bind fst snd]. eexists. split; [reflexivity|]. split; [|exact R].
    replace (INR 1000) with 1000; [reflexivity|]. rewrite INR_IZR_INZ. f_equal.
  Qed.
End Example_.
