(** Adaptive flattening with [is_a_point] and [is_linear]. *)
From Coq Require Import Reals List Arith Lia Lra Psatz.
From Verif Require Import Base.Outcome Base.Scalar Model.Point Model.Line Model.Quadratic Model.Cubic
  Model.Bezier Model.Segment Inst.RealInst Spec.Sums Spec.Lawful Spec.Bernstein Spec.Metric Spec.Length Spec.Subdivision Spec.Adaptive
  Proofs.OutcomeFacts Proofs.PointFacts Proofs.RealTac Proofs.Metric Proofs.ExactEval
  Proofs.LineFacts Proofs.BezierGeneric Proofs.BezierReal Proofs.Linearity Proofs.ArclenFacts Proofs.Subdivision Proofs.CurveMisc.
Import ListNotations.
Local Open Scope R_scope.

Section Tiles.
  Context {A P : Type} (eval : A -> R -> P).
  Lemma tiles_lt c x y l : tiles eval c x y l -> x < y.
  Proof. induction 1; lra. Qed.
  Lemma tiles_in c d x y l a b : a < b -> tiles eval d x y l ->
    (forall u, eval d u = eval c (a + u * (b - a))) ->
    tiles eval c (a + x * (b - a)) (a + y * (b - a)) l.
  Proof.
    intros Hab H He. induction H as [x y q Hxy Hq|x y z l r Hl IHl Hr IHr].
    - apply tiles_one; [nra|]. intros u. rewrite Hq, He. f_equal. ring.
    - eapply tiles_app; eassumption.
  Qed.
  Lemma tiles_halves (halve : A -> A * A) c l r :
    (forall u, eval (fst (halve c)) u = eval c (/ 2 * u)) ->
    (forall u, eval (snd (halve c)) u = eval c (/ 2 + u * (1 - / 2))) ->
    tiles eval (fst (halve c)) 0 1 l -> tiles eval (snd (halve c)) 0 1 r -> tiles eval c 0 1 (l ++ r).
  Proof.
    intros H1 H2 Hl Hr. apply tiles_app with (/ 2).
    - assert (T : tiles eval c (0 + 0 * (/ 2 - 0)) (0 + 1 * (/ 2 - 0)) l).
      { apply tiles_in with (fst (halve c)); [lra|exact Hl|]. intros u. rewrite H1. f_equal. field. }
      replace (0 + 0 * (/ 2 - 0)) with 0 in T by ring. replace (0 + 1 * (/ 2 - 0)) with (/ 2) in T by ring. exact T.
    - assert (T : tiles eval c (/ 2 + 0 * (1 - / 2)) (/ 2 + 1 * (1 - / 2)) r).
      { apply tiles_in with (snd (halve c)); [lra|exact Hr|]. intros u. rewrite H2. reflexivity. }
      replace (/ 2 + 0 * (1 - / 2)) with (/ 2) in T by ring. replace (/ 2 + 1 * (1 - / 2)) with 1 in T by ring. exact T.
  Qed.
  (** every parameter belongs to some piece *)
  Lemma tiles_cover c x y l t : tiles eval c x y l -> x <= t <= y ->
    exists q u, In q l /\ 0 <= u <= 1 /\ eval c t = eval q u.
  Proof.
    intros H. induction H as [x y q Hxy Hq|x y z l r Hl IHl Hr IHr]; intros Ht.
    - exists q, ((t - x) / (y - x)). split; [now left|].
      assert (0 < / (y - x)) by (apply Rinv_0_lt_compat; lra).
      assert (E1 : (y - x) * / (y - x) = 1) by (apply Rinv_r; lra).
      split.
      + unfold Rdiv. split; [apply Rmult_le_pos; lra|]. rewrite <- E1. apply Rmult_le_compat_r; lra.
      + rewrite Hq. f_equal. field. lra.
    - destruct (Rle_dec t y).
      + destruct IHl as (q & u & Hq & Hu); [lra|]. exists q, u. rewrite in_app_iff. auto.
      + destruct IHr as (q & u & Hq & Hu); [lra|]. exists q, u. rewrite in_app_iff. auto.
  Qed.

  (** a test that accepts the pieces of [d] halvings *)
  Lemma flattened_stops (stop : A -> outcome bool) (halve : A -> A * A) (good : R -> A -> Prop) (small : R) :
    (forall c, exists b, stop c = Ret b) ->
    (forall L c, good L c -> good (L / 2) (fst (halve c)) /\ good (L / 2) (snd (halve c))) ->
    (forall L c, good L c -> L <= small -> stop c = Ret true) ->
    (forall c u, eval (fst (halve c)) u = eval c (/ 2 * u)) ->
    (forall c u, eval (snd (halve c)) u = eval c (/ 2 + u * (1 - / 2))) ->
    forall d L c, good L c -> L <= 2 ^ d * small ->
    exists l, flattened stop halve d c = Ret (Some l) /\ (length l <= 2 ^ d)%nat /\ tiles eval c 0 1 l /\
      forall q, In q l -> stop q = Ret true.
  Proof.
    intros Htot Hhalf Hstop H1 H2. induction d as [|d IH]; intros L c Hg HL.
    - exists [c]. cbn [flattened]. rewrite (Hstop L c Hg) by (simpl in HL; lra). cbn [bind].
      split; [reflexivity|]. split; [simpl; lia|]. split.
      + apply tiles_one; [lra|]. intros u. f_equal. ring.
      + intros q [<-|[]]. apply (Hstop L c Hg). simpl in HL. lra.
    - cbn [flattened]. destruct (Htot c) as [[] Hb]; rewrite Hb; cbn [bind].
      + exists [c]. split; [reflexivity|]. split; [simpl length; pose proof (Nat.pow_nonzero 2 (S d)); lia|]. split.
        * apply tiles_one; [lra|]. intros u. f_equal. ring.
        * intros q [<-|[]]. exact Hb.
      + destruct (Hhalf L c Hg) as [G1 G2].
        assert (HL' : L / 2 <= 2 ^ d * small) by (simpl in HL; lra).
        destruct (IH _ _ G1 HL') as (l & -> & Ll & Tl & Sl). destruct (IH _ _ G2 HL') as (r & -> & Lr & Tr & Sr).
        cbn [bind]. exists (l ++ r). split; [reflexivity|].
        split; [rewrite app_length; simpl; lia|]. split.
        * apply tiles_halves with halve; auto.
        * intros q Hq. apply in_app_iff in Hq. destruct Hq; auto.
  Qed.

  (** what is returned is the curve, if the refused pieces are halved correctly *)
  Lemma flattened_sound (stop : A -> outcome bool) (halve : A -> A * A) :
    (forall c, stop c = Ret false -> forall u, eval (fst (halve c)) u = eval c (/ 2 * u) /\
       eval (snd (halve c)) u = eval c (/ 2 + u * (1 - / 2))) ->
    forall d c l, flattened stop halve d c = Ret (Some l) ->
    tiles eval c 0 1 l /\ forall q, In q l -> stop q = Ret true.
  Proof.
    intros Hh. assert (T1 : forall c, tiles eval c 0 1 [c]).
    { intros c. apply tiles_one; [lra|]. intros u. f_equal. ring. }
    induction d as [|d IH]; intros c l H; cbn [flattened] in H; destruct (stop c) as [[]| |] eqn:Eb;
      cbn [bind] in H; try discriminate; try (injection H as <-; split; [apply T1|intros q [<-|[]]; exact Eb]).
    destruct (flattened stop halve d (fst (halve c))) as [[l1|]| |] eqn:E1; cbn [bind] in H; try discriminate;
      destruct (flattened stop halve d (snd (halve c))) as [[l2|]| |] eqn:E2; cbn [bind] in H; try discriminate.
    injection H as <-. destruct (IH _ _ E1) as [T2 S2]. destruct (IH _ _ E2) as [T3 S3]. split.
    - apply tiles_halves with halve; [intros u; apply (Hh c Eb u)|intros u; apply (Hh c Eb u)|exact T2|exact T3].
    - intros q Hq. apply in_app_iff in Hq. destruct Hq; auto.
  Qed.

  (** a curve with a half that is refused again and again *)
  Lemma flattened_never (stop : A -> outcome bool) (halve : A -> A * A) (bad : A -> Prop) :
    (forall c, exists b, stop c = Ret b) ->
    (forall c, bad c -> stop c = Ret false /\ bad (snd (halve c))) ->
    forall d c, bad c -> flattened stop halve d c = Ret None.
  Proof.
    intros Htot Hbad. assert (T : forall d c, exists o, flattened stop halve d c = Ret o).
    { induction d as [|d IH]; intros c; cbn [flattened]; destruct (Htot c) as [[] ->]; cbn [bind]; eauto.
      destruct (IH (fst (halve c))) as [o ->]. destruct (IH (snd (halve c))) as [o' ->]. cbn [bind]. eauto. }
    induction d as [|d IH]; intros c Hc; destruct (Hbad c Hc) as [H1 H2]; cbn [flattened]; rewrite H1; cbn [bind];
      [reflexivity|].
    destruct (T d (fst (halve c))) as [[l|] ->]; rewrite (IH _ H2); reflexivity.
  Qed.
End Tiles.

Section Curves.
  Context {E : Eps} {P : Type} {PT : Point R P} {LP : LawfulPoint P}.

  Lemma quad_is_linear_total (c : quad P) tol : exists b, quad_is_linear c tol = Ret b.
  Proof.
    unfold quad_is_linear, quad_are_points_colinear. destruct (s_ltb _ _); [eauto|].
    destruct (line_distance_start (quad_baseline c) (q_ctrl c)) as (d & -> & _). cbn [bind]. eauto.
  Qed.
  Lemma cubic_is_linear_total (c : cubic P) tol : exists b, cubic_is_linear c tol = Ret b.
  Proof.
    unfold cubic_is_linear, cubic_are_points_colinear. destruct (s_ltb _ _); [eauto|].
    destruct (line_distance_start (cubic_baseline c) (c_ctrl1 c)) as (d & -> & _). cbn [bind].
    destruct (s_leb _ _); [|eauto].
    destruct (line_distance_start (cubic_baseline c) (c_ctrl2 c)) as (e & -> & _). cbn [bind]. eauto.
  Qed.

  Definition quad_stop tol (q : quad P) : outcome bool := if quad_is_a_point q tol then Ret true else quad_is_linear q tol.
  Definition cubic_stop tol (q : cubic P) : outcome bool := if cubic_is_a_point q tol then Ret true else cubic_is_linear q tol.
  Lemma quad_stop_total tol (c : quad P) : exists b, quad_stop tol c = Ret b.
  Proof. unfold quad_stop. destruct (quad_is_a_point c tol); [eauto|apply quad_is_linear_total]. Qed.
  Lemma cubic_stop_total tol (c : cubic P) : exists b, cubic_stop tol c = Ret b.
  Proof. unfold cubic_stop. destruct (cubic_is_a_point c tol); [eauto|apply cubic_is_linear_total]. Qed.

  Lemma quad_halves L (c : quad P) : leg_bound (quad_control_points c) L ->
    leg_bound (quad_control_points (fst (quad_split c (/ 2)))) (L / 2) /\
    leg_bound (quad_control_points (snd (quad_split c (/ 2)))) (L / 2).
  Proof.
    destruct c as [a b d]. intros HL. pose proof (bezier_split_quad a b d (/ 2)) as Hs.
    destruct (quad_split (Quad a b d) (/ 2)) as [l r]. cbn [fst snd].
    destruct (split_shrinks _ _ _ (/ 2) ltac:(lra) Hs) as [S1 _]. destruct (S1 _ HL) as [H1 H2].
    replace (/ 2 * L) with (L / 2) in H1 by field. replace ((1 - / 2) * L) with (L / 2) in H2 by field. auto.
  Qed.
  Lemma cubic_halves L (c : cubic P) : leg_bound (cubic_control_points c) L ->
    leg_bound (cubic_control_points (fst (cubic_split c (/ 2)))) (L / 2) /\
    leg_bound (cubic_control_points (snd (cubic_split c (/ 2)))) (L / 2).
  Proof.
    destruct c as [a b d e]. intros HL. pose proof (bezier_split_cubic a b d e (/ 2)) as Hs.
    destruct (cubic_split (Cubic a b d e) (/ 2)) as [l r]. cbn [fst snd].
    destruct (split_shrinks _ _ _ (/ 2) ltac:(lra) Hs) as [S1 _]. destruct (S1 _ HL) as [H1 H2].
    replace (/ 2 * L) with (L / 2) in H1 by field. replace ((1 - / 2) * L) with (L / 2) in H2 by field. auto.
  Qed.

  Theorem quad_adaptive (c : quad P) tol L d : leg_bound (quad_control_points c) L -> 0 <= tol -> 2 * L <= 2 ^ d * tol ->
    exists l, flattened (fun q => if quad_is_a_point q tol then Ret true else quad_is_linear q tol)
        (fun q => quad_split q (/ 2)) d c = Ret (Some l) /\ (length l <= 2 ^ d)%nat /\ tiles quad_eval c 0 1 l /\
      (forall q u, In q l -> 0 <= u <= 1 -> exists v, 0 <= v <= 1 /\
         dist (quad_eval q u) (line_eval (quad_baseline q) v) <= tol) /\
      (forall t, 0 <= t <= 1 -> exists q v, In q l /\ 0 <= v <= 1 /\
         dist (quad_eval c t) (line_eval (quad_baseline q) v) <= tol).
  Proof.
    intros HL H0 Hd.
    destruct (flattened_stops quad_eval (quad_stop tol) (fun q => quad_split q (/ 2))
      (fun L c => leg_bound (quad_control_points c) L) (tol / 2)) with (d := d) (L := L) (c := c)
      as (l & El & Ll & Tl & Sl).
    - apply quad_stop_total.
    - intros L' c'. apply quad_halves.
    - intros L' c' HL' Hs. unfold quad_stop. rewrite (quad_small_point c' L' tol HL') by lra. reflexivity.
    - intros c' u. apply quad_split_spec.
    - intros c' u. apply quad_split_spec.
    - exact HL.
    - lra.
    - exists l. split; [exact El|]. split; [exact Ll|]. split; [exact Tl|].
      assert (Hq : forall q u, In q l -> 0 <= u <= 1 -> exists v, 0 <= v <= 1 /\
         dist (quad_eval q u) (line_eval (quad_baseline q) v) <= tol).
      { intros q u Hq Hu. specialize (Sl q Hq). unfold quad_stop in Sl.
        destruct (quad_is_a_point q tol) eqn:Ep.
        - exists 0. split; [lra|]. replace (line_eval (quad_baseline q) 0) with (q_start q).
          + rewrite <- (Rabs_pos_eq tol H0). apply quad_is_a_point_bound; assumption.
          + unfold line_eval, quad_baseline. cbn [l_start l_end]. pext. ring.
        - apply (quad_is_linear_sound q tol Sl u Hu). }
      split; [exact Hq|]. intros t Ht. destruct (tiles_cover quad_eval c 0 1 l t Tl Ht) as (q & u & Iq & Hu & ->).
      destruct (Hq q u Iq Hu) as (v & Hv). exists q, v. auto.
  Qed.
  (** the control points near one end each, the curve near the chord *)
  Lemma cubic_point_near (q : cubic P) tol u : 0 <= tol -> cubic_is_a_point q tol = true -> 0 <= u <= 1 ->
    exists v, 0 <= v <= 1 /\ dist (cubic_eval q u) (line_eval (cubic_baseline q) v) <= tol.
  Proof.
    destruct q as [a b c d]. intros H0 Hp Hu. apply cubic_is_a_point_iff in Hp. cbn [c_start c_ctrl1 c_ctrl2 c_end] in Hp.
    rewrite (Rabs_pos_eq tol H0) in Hp. destruct Hp as (_ & Hb & Hc).
    exists (u * u * (3 - 2 * u)). split; [split; [nra|]|].
    - pose proof (Rmult_le_pos ((1 - u) * (1 - u)) (1 + 2 * u)). nra.
    - rewrite dist_nrm, (nrm_ext _ (fun i =>
        - (3 * (u * ((1 - u) * (1 - u)))) * (coord a i - coord b i)
        + - (3 * (u * (u * (1 - u)))) * (coord d i - coord c i))).
      + eapply Rle_trans; [apply (minkowski (fun i => - (3 * (u * ((1 - u) * (1 - u)))) * (coord a i - coord b i))
          (fun i => - (3 * (u * (u * (1 - u)))) * (coord d i - coord c i)))|].
        assert (H1 : 0 <= u * ((1 - u) * (1 - u))) by (apply Rmult_le_pos; nra).
        assert (H2 : 0 <= u * (u * (1 - u))) by (apply Rmult_le_pos; nra).
        rewrite !nrm_scal, !Rabs_Ropp, !Rabs_pos_eq by lra. rewrite dist_nrm in Hb, Hc.
        apply Rle_trans with (3 * (u * ((1 - u) * (1 - u))) * tol + 3 * (u * (u * (1 - u))) * tol).
        * apply Rplus_le_compat; (apply Rmult_le_compat_l; [lra|assumption]).
        * replace (3 * (u * ((1 - u) * (1 - u))) * tol + 3 * (u * (u * (1 - u))) * tol) with (3 * (u * (1 - u)) * tol) by ring.
          assert (u * (1 - u) <= / 4) by (pose proof (pow2_ge_0 (u - / 2)); nra).
          rewrite <- (Rmult_1_l tol) at 2. apply Rmult_le_compat_r; lra.
      + intros i Hi. unfold cubic_eval, line_eval, cubic_baseline. cbn [c_start c_ctrl1 c_ctrl2 c_end l_start l_end].
        coords. rs. ring.
  Qed.
  Theorem cubic_adaptive (c : cubic P) tol L d : leg_bound (cubic_control_points c) L -> 0 <= tol -> 3 * L <= 2 ^ d * tol ->
    exists l, flattened (fun q => if cubic_is_a_point q tol then Ret true else cubic_is_linear q tol)
        (fun q => cubic_split q (/ 2)) d c = Ret (Some l) /\ (length l <= 2 ^ d)%nat /\ tiles cubic_eval c 0 1 l /\
      (forall q u, In q l -> 0 <= u <= 1 -> exists v, 0 <= v <= 1 /\
         dist (cubic_eval q u) (line_eval (cubic_baseline q) v) <= tol) /\
      (forall t, 0 <= t <= 1 -> exists q v, In q l /\ 0 <= v <= 1 /\
         dist (cubic_eval c t) (line_eval (cubic_baseline q) v) <= tol).
  Proof.
    intros HL H0 Hd.
    destruct (flattened_stops cubic_eval (cubic_stop tol) (fun q => cubic_split q (/ 2))
      (fun L c => leg_bound (cubic_control_points c) L) (tol / 3)) with (d := d) (L := L) (c := c)
      as (l & El & Ll & Tl & Sl).
    - apply cubic_stop_total.
    - intros L' c'. apply cubic_halves.
    - intros L' c' HL' Hs. unfold cubic_stop. rewrite (cubic_small_point c' L' tol HL') by lra. reflexivity.
    - intros c' u. apply cubic_split_spec.
    - intros c' u. apply cubic_split_spec.
    - exact HL.
    - lra.
    - exists l. split; [exact El|]. split; [exact Ll|]. split; [exact Tl|].
      assert (Hq : forall q u, In q l -> 0 <= u <= 1 -> exists v, 0 <= v <= 1 /\
         dist (cubic_eval q u) (line_eval (cubic_baseline q) v) <= tol).
      { intros q u Hq Hu. specialize (Sl q Hq). unfold cubic_stop in Sl.
        destruct (cubic_is_a_point q tol) eqn:Ep.
        - apply cubic_point_near; assumption.
        - apply (cubic_is_linear_sound q tol Sl u Hu). }
      split; [exact Hq|]. intros t Ht. destruct (tiles_cover cubic_eval c 0 1 l t Tl Ht) as (q & u & Iq & Hu & ->).
      destruct (Hq q u Iq Hu) as (v & Hv). exists q, v. auto.
  Qed.

  (** [is_linear] alone: a control point on the end point *)
  Lemma line_distance_own_end (a m : P) : eps <= dist a m * dist a m -> line_distance_to_point (Line a m) m = Ret (dist a m).
  Proof.
    intros He.
    assert (Hs : sqd (Line a m) = dist a m * dist a m) by (unfold sqd; cbn [l_start l_end]; rewrite (dist_sym m a); reflexivity).
    assert (Hp : proj (Line a m) m = 1).
    { unfold proj. cbn [l_start l_end]. pose proof eps_pos.
      replace (inner a m m) with (sqd (Line a m)); [field; lra|].
      unfold sqd. cbn [l_start l_end]. apply dist_inner. }
    destruct (line_distance_beyond (Line a m) m) as [H _]; [lra|lra|]. rewrite H. cbn [l_start]. now rewrite dist_sym.
  Qed.

  Theorem quad_never (a m : P) tol d : tol ^ 2 < eps ->
    flattened (fun q => quad_is_linear q tol) (fun q => quad_split q (/ 2)) d (Quad a m m) = Ret None.
  Proof.
    intros Ht. apply (flattened_never (fun q => quad_is_linear q tol) _ (fun q => exists a, q = Quad a m m));
      [intros c; apply quad_is_linear_total| |now exists a].
    intros c [b ->]. split.
    - unfold quad_is_linear, quad_are_points_colinear, quad_baseline. cbn [q_start q_ctrl q_end]. rs. rewrite sqlen_sub.
      destruct (Rltb_spec (dist b m * dist b m) eps) as [|Hn]; [reflexivity|].
      rewrite line_distance_own_end by lra. cbn [bind]. f_equal.
      destruct (Rleb_spec (dist b m) tol); [|reflexivity]. pose proof (dist_nonneg b m). nra.
    - eexists. unfold quad_split. cbn [snd q_start q_ctrl q_end]. f_equal. pext. ring.
  Qed.
  Theorem cubic_never (a b m : P) tol d : tol ^ 2 < eps ->
    flattened (fun q => cubic_is_linear q tol) (fun q => cubic_split q (/ 2)) d (Cubic a b m m) = Ret None.
  Proof.
    intros Ht. apply (flattened_never (fun q => cubic_is_linear q tol) _ (fun q => exists a b, q = Cubic a b m m));
      [intros c; apply cubic_is_linear_total| |now exists a, b].
    intros c (x & y & ->). split.
    - unfold cubic_is_linear, cubic_are_points_colinear, cubic_baseline. cbn [c_start c_ctrl1 c_ctrl2 c_end]. rs. rewrite sqlen_sub.
      destruct (Rltb_spec (dist x m * dist x m) eps) as [|Hn]; [reflexivity|].
      destruct (line_distance_start (Line x m) y) as (e & -> & _). cbn [bind].
      destruct (Rleb_spec e tol); [|reflexivity].
      rewrite line_distance_own_end by lra. cbn [bind]. f_equal.
      destruct (Rleb_spec (dist x m) tol); [|reflexivity]. pose proof (dist_nonneg x m). nra.
    - eexists. eexists. unfold cubic_split. cbn [snd c_start c_ctrl1 c_ctrl2 c_end]. f_equal. pext. ring.
  Qed.
  (** curves below the threshold *)
  Theorem quad_tiny_never (c : quad P) L tol d : leg_bound (quad_control_points c) L -> (2 * L) ^ 2 < eps ->
    flattened (fun q => quad_is_linear q tol) (fun q => quad_split q (/ 2)) d c = Ret None.
  Proof.
    intros HL He. apply (flattened_never (fun q => quad_is_linear q tol) _
      (fun q => exists L, leg_bound (quad_control_points q) L /\ (2 * L) ^ 2 < eps));
      [intros c'; apply quad_is_linear_total| |now exists L].
    intros q (L' & HL' & He'). split; [apply quad_tiny with L'; assumption|].
    exists (L' / 2). split; [apply (quad_halves L' q HL')|]. pose proof (proj1 HL'). nra.
  Qed.
  Theorem cubic_tiny_never (c : cubic P) L tol d : leg_bound (cubic_control_points c) L -> (3 * L) ^ 2 < eps ->
    flattened (fun q => cubic_is_linear q tol) (fun q => cubic_split q (/ 2)) d c = Ret None.
  Proof.
    intros HL He. apply (flattened_never (fun q => cubic_is_linear q tol) _
      (fun q => exists L, leg_bound (cubic_control_points q) L /\ (3 * L) ^ 2 < eps));
      [intros c'; apply cubic_is_linear_total| |now exists L].
    intros q (L' & HL' & He'). split; [apply cubic_tiny with L'; assumption|].
    exists (L' / 2). split; [apply (cubic_halves L' q HL')|]. pose proof (proj1 HL'). nra.
  Qed.

  (** segments: only [is_linear] is available *)
  Theorem segment_adaptive (s : segment P) tol d l : 0 <= tol ->
    flattened (fun q => segment_is_linear q tol) (fun q => segment_split q (/ 2)) d s = Ret (Some l) ->
    tiles segment_eval s 0 1 l /\
    forall t, 0 <= t <= 1 -> exists q v, In q l /\ 0 <= v <= 1 /\
      dist (segment_eval s t) (line_eval (segment_baseline q) v) <= tol.
  Proof.
    intros H0 H. destruct (flattened_sound segment_eval (fun q => segment_is_linear q tol) (fun q => segment_split q (/ 2))) with (2 := H) as [T S].
    - intros c Hc u. apply segment_split_curved. intros x ->. discriminate Hc.
    - split; [exact T|]. intros t Ht. destruct (tiles_cover segment_eval s 0 1 l t T Ht) as (q & u & Iq & Hu & ->).
      destruct (segment_linear_sound q tol H0 (S q Iq) u Hu) as (v & Hv). exists q, v. auto.
  Qed.
  Lemma flattened_map {A B : Type} (f : A -> B) (stop : A -> outcome bool) (stop' : B -> outcome bool) halve halve' :
    (forall c, stop' (f c) = stop c) -> (forall c, halve' (f c) = (f (fst (halve c)), f (snd (halve c)))) ->
    forall d c, flattened stop halve d c = Ret None -> flattened stop' halve' d (f c) = Ret None.
  Proof.
    intros Hs Hh. assert (G : forall d c, flattened stop' halve' d (f c) =
      (let! o := flattened stop halve d c in Ret (option_map (map f) o))).
    { induction d as [|d IH]; intros c; cbn [flattened]; rewrite Hs; destruct (stop c) as [[]| |]; cbn [bind]; try reflexivity.
      rewrite Hh. cbn [fst snd]. rewrite !IH.
      destruct (flattened stop halve d (fst (halve c))) as [[l|]| |]; cbn [bind option_map]; try reflexivity;
        destruct (flattened stop halve d (snd (halve c))) as [[r|]| |]; cbn [bind option_map]; try reflexivity.
      now rewrite map_app. }
    intros d c H. rewrite G, H. reflexivity.
  Qed.
  Theorem segment_never (a b m : P) tol d : tol ^ 2 < eps ->
    flattened (fun q => segment_is_linear q tol) (fun q => segment_split q (/ 2)) d (Quadratic (Quad a m m)) = Ret None /\
    flattened (fun q => segment_is_linear q tol) (fun q => segment_split q (/ 2)) d (CubicSeg (Cubic a b m m)) = Ret None.
  Proof.
    intros Ht. split.
    - apply (flattened_map Quadratic (fun q => quad_is_linear q tol) _ (fun q => quad_split q (/ 2)));
        [reflexivity| |now apply quad_never]. intros c. cbn [segment_split]. now destruct (quad_split c (/ 2)).
    - apply (flattened_map CubicSeg (fun q => cubic_is_linear q tol) _ (fun q => cubic_split q (/ 2)));
        [reflexivity| |now apply cubic_never]. intros c. cbn [segment_split]. now destruct (cubic_split c (/ 2)).
  Qed.
End Curves.
