(** Bounding boxes of reversed and of split curves. *)
From Coq Require Import Reals List Arith Lia Lra Psatz Bool.
From Verif Require Import Base.Outcome Base.Scalar Model.Point Model.Line Model.Quadratic
  Model.Cubic Inst.RealInst Spec.Sums Spec.Lawful Spec.Box Spec.BoxOps Spec.Points
  Proofs.OutcomeFacts Proofs.PointFacts Proofs.RealTac Proofs.ExactEval Proofs.LineFacts Proofs.BBoxFacts Proofs.BoxSpec.
Import ListNotations.
Local Open Scope R_scope.

Section General.
  Context {E : Eps} {P : Type} {PT : Point R P} {LP : LawfulPoint P}.

  (** the smallest and largest entry depend on the set of entries only *)
  Lemma same_ends (l l' : list R) : l <> [] -> (forall x, In x l <-> In x l') ->
    (let! lo := idx (s_isort l) 0 in let! hi := idx (s_isort l) (length (s_isort l) - 1) in Ret (lo, hi))
    = (let! lo := idx (s_isort l') 0 in let! hi := idx (s_isort l') (length (s_isort l') - 1) in Ret (lo, hi)).
  Proof.
    intros Hne H. assert (Hne' : l' <> []).
    { destruct l as [|x l]; [contradiction|]. intros ->. apply (H x). now left. }
    destruct (isort_ends l Hne) as (lo & hi & A1 & A2 & A3 & A4 & A5).
    destruct (isort_ends l' Hne') as (lo' & hi' & B1 & B2 & B3 & B4 & B5).
    rewrite A1, B1. cbn [bind]. rewrite A2, B2. cbn [bind].
    assert (lo = lo').
    { apply Rle_antisym; [apply A5, H; exact B3|apply B5, H; exact A3]. }
    assert (hi = hi').
    { apply Rle_antisym; [apply B5, H; exact A4|apply A5, H; exact B4]. }
    now subst.
  Qed.

  (** the end of an iteration of the two box loops, for two curves run in opposite
      directions *)
  Lemma tail_reverse (f : R -> R) (roots roots' : list R) cap :
    (length roots + 2 <= cap)%nat -> (length roots' + 2 <= cap)%nat ->
    (forall r, In r roots' <-> In (1 - r) roots) ->
    (let! extrema := av_push cap (map (fun t => f (1 - t)) (filter in_unit roots')) (f 1) in
     let! extrema := av_push cap extrema (f 0) in
     let! extrema := sort_by_partial_cmp extrema in
     let! lo := idx extrema 0 in
     let! hi := idx extrema (length extrema - 1) in
     Ret (lo, hi)) =
    (let! extrema := av_push cap (map f (filter in_unit roots)) (f 0) in
     let! extrema := av_push cap extrema (f 1) in
     let! extrema := sort_by_partial_cmp extrema in
     let! lo := idx extrema 0 in
     let! hi := idx extrema (length extrema - 1) in
     Ret (lo, hi)).
  Proof.
    intros Hl Hl' H. pose proof (filter_length_le' in_unit roots) as F. pose proof (filter_length_le' in_unit roots') as F'.
    rewrite !av_push_lt by (rewrite map_length; lia). cbn [bind].
    rewrite !av_push_lt by (rewrite app_length, map_length; simpl; lia). cbn [bind].
    rewrite !sort_R. cbn [bind]. apply same_ends.
    - destruct (map _ _); discriminate.
    - intros x. rewrite !in_app_iff, !in_map_iff. cbn [In].
      assert (HF : (exists t, f (1 - t) = x /\ In t (filter in_unit roots')) <-> (exists t, f t = x /\ In t (filter in_unit roots))).
      { split; intros (t & <- & Ht); apply filter_In in Ht as [A B]; apply in_unit_R in B; exists (1 - t).
        - split; [reflexivity|]. apply filter_In. split; [now apply H|apply in_unit_R; lra].
        - split; [f_equal; ring|]. apply filter_In. split; [|apply in_unit_R; lra].
          apply H. now replace (1 - (1 - t)) with t by ring. }
      tauto.
  Qed.
End General.

Section Reverse.
  Context {E : Eps} {P : Type} {PT : Point R P} {LP : LawfulPoint P}.

  Lemma quad_reverse_eval (c : quad P) t : quad_eval (quad_reverse c) t = quad_eval c (1 - t).
  Proof. unfold quad_eval, quad_reverse. cbn [q_start q_ctrl q_end]. pext. ring. Qed.
  Lemma cubic_reverse_eval (c : cubic P) t : cubic_eval (cubic_reverse c) t = cubic_eval c (1 - t).
  Proof. unfold cubic_eval, cubic_reverse. cbn [c_start c_ctrl1 c_ctrl2 c_end]. pext. ring. Qed.

  Theorem line_reverse_box (l : line P) : line_bounding_box (line_reverse l) = line_bounding_box l.
  Proof.
    unfold line_bounding_box, line_reverse. cbn [l_start l_end]. apply for_in_ext. intros i bs Hin.
    assert (Hi : (i < p_dim (P := P))%nat) by (unfold range in Hin; apply in_seq in Hin; lia).
    rewrite !axis_lt by exact Hi. cbn [bind]. rs.
    destruct (Rltb_spec (coord (l_end l) i) (coord (l_start l) i)); destruct (Rltb_spec (coord (l_start l) i) (coord (l_end l) i));
      try reflexivity; [lra|]. replace (coord (l_start l) i) with (coord (l_end l) i) by lra. reflexivity.
  Qed.

  Theorem quad_reverse_box (c : quad P) : quad_bounding_box (quad_reverse c) = quad_bounding_box c.
  Proof.
    unfold quad_bounding_box. apply for_in_ext. intros i bs Hin.
    assert (Hi : (i < p_dim (P := P))%nat) by (unfold range in Hin; apply in_seq in Hin; lia).
    enough (quad_bbox_axis (quad_reverse c) i = quad_bbox_axis c i) as -> by reflexivity.
    unfold quad_bbox_axis. cbv zeta. rewrite !axis_lt by assumption. cbn [bind].
    unfold quad_derivative. cbn [l_start l_end quad_reverse q_start q_ctrl q_end]. coords. rs.
    set (x := coord (q_start c) i). set (y := coord (q_ctrl c) i). set (z := coord (q_end c) i).
    replace ((y - x) * 2 * -1 + (z - y) * 2) with (qa c i) by (unfold qa; fold x y z; ring).
    replace ((y - z) * 2 * -1 + (x - y) * 2) with (qa c i) by (unfold qa; fold x y z; ring).
    assert (Eqa : qa c i = 2 * (x - 2 * y + z)) by reflexivity. set (a := qa c i) in *.
    rewrite !line_root_value. cbn [bind].
    set (roots := if Rlt_dec (Rabs a) eps then [] else [- ((y - x) * 2) / a]).
    set (roots' := if Rlt_dec (Rabs a) eps then [] else [- ((y - z) * 2) / a]).
    assert (HL : (length roots <= 1)%nat) by (unfold roots; destruct (Rlt_dec _ _); simpl; lia).
    assert (HL' : (length roots' <= 1)%nat) by (unfold roots'; destruct (Rlt_dec _ _); simpl; lia).
    rewrite !av_extend_le by (simpl; lia). cbn [bind app].
    rewrite !quad_eval_roots_value by assumption. cbn [bind].
    set (f := fun t => coord (quad_eval c t) i).
    rewrite (map_ext (fun t => coord (quad_eval (quad_reverse c) t) i) (fun t => f (1 - t)))
      by (intros t; unfold f; now rewrite quad_reverse_eval).
    assert (E0 : x = f 0) by (unfold f; now rewrite quad_eval_0).
    assert (E1 : z = f 1) by (unfold f; now rewrite quad_eval_1).
    rewrite E0, E1. apply tail_reverse; [lia|lia|].
    intros r. unfold roots, roots'. destruct (Rlt_dec (Rabs a) eps) as [L|L]; [reflexivity|].
    assert (Ha : a <> 0) by now apply abs_ge_eps_neq.
    cbn [In]. assert (HR : - ((y - z) * 2) / a = 1 - (- ((y - x) * 2) / a)) by (rewrite Eqa in Ha |- *; field; lra).
    rewrite HR. split; intros [H|[]]; left; lra.
  Qed.

  Theorem cubic_reverse_box (c : cubic P) :
    (forall i, (i < p_dim (P := P))%nat -> ca c i = 0 \/ eps <= Rabs (ca c i)) ->
    cubic_bounding_box (cubic_reverse c) = cubic_bounding_box c.
  Proof.
    intros HA. unfold cubic_bounding_box. apply for_in_ext. intros i bs Hin.
    assert (Hi : (i < p_dim (P := P))%nat) by (unfold range in Hin; apply in_seq in Hin; lia).
    specialize (HA i Hi).
    enough (cubic_bbox_axis (cubic_reverse c) i = cubic_bbox_axis c i) as -> by reflexivity.
    unfold cubic_bbox_axis. cbv zeta. rewrite !axis_lt by assumption. cbn [bind].
    unfold cubic_derivative. cbn [q_start q_ctrl q_end cubic_reverse c_start c_ctrl1 c_ctrl2 c_end]. coords. rs.
    set (x := coord (c_start c) i). set (y := coord (c_ctrl1 c) i).
    set (z := coord (c_ctrl2 c) i). set (w := coord (c_end c) i).
    assert (Ea : ca c i = 3 * (w - 3 * z + 3 * y - x)) by reflexivity.
    set (a := ca c i) in *. set (b := 6 * (x - 2 * y + z)). set (d := 3 * (y - x)).
    match goal with |- context [quad_real_roots ?A ?B ?C] =>
      replace A with (- a) by (rewrite Ea; ring);
      replace B with (2 * a + b) by (rewrite Ea; unfold b; ring);
      replace C with (- (a + b + d)) by (rewrite Ea; unfold b, d; ring) end.
    match goal with |- _ = (let! r := quad_real_roots ?A ?B ?C in _) =>
      replace A with a by (rewrite Ea; ring);
      replace B with b by (unfold b; ring);
      replace C with d by (unfold d; ring) end.
    assert (HR : exists l l', quad_real_roots a b d = Ret l /\ quad_real_roots (- a) (2 * a + b) (- (a + b + d)) = Ret l' /\
      (length l <= 2)%nat /\ (length l' <= 2)%nat /\ forall r, In r l' <-> In (1 - r) l).
    { unfold quad_real_roots. rs. rewrite Rabs_Ropp. pose proof eps_pos.
      destruct (Rltb_spec (Rabs a) eps) as [L|L].
      - destruct HA as [HA|HA]; [|lra]. replace (2 * a + b) with b by lra.
        destruct (Rltb_spec (Rabs b) eps) as [M|M].
        + exists [], []. repeat split; simpl; try lia; tauto.
        + assert (Hb : b <> 0) by (apply abs_ge_eps_neq; lra).
          rewrite !av_push_lt by (simpl; lia). exists [- d / b], [- - (a + b + d) / b].
          split; [reflexivity|]. split; [reflexivity|]. split; [simpl; lia|]. split; [simpl; lia|].
          intros r. cbn [In app]. assert (HH : - - (a + b + d) / b = 1 - (- d / b)) by (rewrite HA; field; exact Hb).
          rewrite HH. split; intros [H0|[]]; left; lra.
      - assert (Ha : a <> 0) by (apply abs_ge_eps_neq; lra).
        replace ((2 * a + b) * (2 * a + b) - - a * - (a + b + d) * 4) with (b * b - a * d * 4) by ring.
        set (del := b * b - a * d * 4).
        destruct (Rltb_spec 0 del) as [M|M].
        + rewrite !av_push_lt by (simpl; lia). cbn [bind app]. rewrite !av_push_lt by (simpl; lia). cbn [app].
          eexists. eexists. split; [reflexivity|]. split; [reflexivity|]. split; [simpl; lia|]. split; [simpl; lia|].
          intros r. cbn [In].
          assert (H1 : (- (2 * a + b) - sqrt del) / (- a * 2) = 1 - (- b - sqrt del) / (a * 2)) by (field; exact Ha).
          assert (H2 : (- (2 * a + b) + sqrt del) / (- a * 2) = 1 - (- b + sqrt del) / (a * 2)) by (field; exact Ha).
          rewrite H1, H2. split; intros [H0|[H0|[]]]; [left|right; left|left|right; left]; lra.
        + destruct (Rltb_spec (Rabs del) eps) as [N|N].
          * rewrite !av_push_lt by (simpl; lia). cbn [app].
            eexists. eexists. split; [reflexivity|]. split; [reflexivity|]. split; [simpl; lia|]. split; [simpl; lia|].
            intros r. cbn [In].
            assert (H1 : - (2 * a + b) / (- a * 2) = 1 - (- b / (a * 2))) by (field; exact Ha).
            rewrite H1. split; intros [H0|[]]; left; lra.
          * exists [], []. repeat split; simpl; try lia; tauto. }
    destruct HR as (l & l' & R1 & R2 & L1 & L2 & HI). rewrite R1, R2. cbn [bind].
    rewrite !av_extend_le by (simpl; lia). cbn [bind app].
    rewrite !cubic_eval_roots_value by assumption. cbn [bind].
    set (f := fun t => coord (cubic_eval c t) i).
    rewrite (map_ext (fun t => coord (cubic_eval (cubic_reverse c) t) i) (fun t => f (1 - t)))
      by (intros t; unfold f; now rewrite cubic_reverse_eval).
    assert (E0 : x = f 0) by (unfold f; now rewrite cubic_eval_0).
    assert (E1 : w = f 1) by (unfold f; now rewrite cubic_eval_1).
    rewrite E0, E1. apply tail_reverse; [lia|lia|exact HI].
  Qed.

  (** in any case the two boxes differ by 3/8 EPSILON at most *)
  Lemma attained_inside (f g : R -> P) b b' i s : box_attained f b i -> box_contains g b' i s ->
    (forall t, 0 <= t <= 1 -> exists u, 0 <= u <= 1 /\ f t = g u) -> box_inside b b' i s.
  Proof.
    intros (lo & hi & Hb & (t & Ht & Elo) & (u & Hu & Ehi)) (lo' & hi' & Hb' & Hc) Hfg.
    exists lo, hi, lo', hi'. split; [exact Hb|]. split; [exact Hb'|]. split.
    - destruct (Hfg t Ht) as (v & Hv & Ev). specialize (Hc v Hv). rewrite <- Ev, Elo in Hc. lra.
    - destruct (Hfg u Hu) as (v & Hv & Ev). specialize (Hc v Hv). rewrite <- Ev, Ehi in Hc. lra.
  Qed.

  Theorem cubic_reverse_box_near (c : cubic P) : exists b b', cubic_bounding_box c = Ret b /\
    cubic_bounding_box (cubic_reverse c) = Ret b' /\
    forall i, (i < p_dim (P := P))%nat -> box_inside b b' i (3 * eps / 8) /\ box_inside b' b i (3 * eps / 8).
  Proof.
    destruct (cubic_box c) as (b & Hb & _ & HB). destruct (cubic_box (cubic_reverse c)) as (b' & Hb' & _ & HB').
    exists b, b'. split; [exact Hb|]. split; [exact Hb'|]. intros i Hi.
    destruct (HB i Hi) as (A & C & _). destruct (HB' i Hi) as (A' & C' & _). split.
    - apply (attained_inside (cubic_eval c) (cubic_eval (cubic_reverse c))); [exact A|exact C'|].
      intros t Ht. exists (1 - t). split; [lra|]. rewrite cubic_reverse_eval. f_equal. ring.
    - apply (attained_inside (cubic_eval (cubic_reverse c)) (cubic_eval c)); [exact A'|exact C|].
      intros t Ht. exists (1 - t). split; [lra|]. apply cubic_reverse_eval.
  Qed.
End Reverse.

(** ** Split *)
Section SplitBoxes.
  Context {E : Eps} {P : Type} {PT : Point R P} {LP : LawfulPoint P}.

  Lemma halves_boxes (f f1 f2 : R -> P) b b1 b2 i t s : 0 <= t <= 1 ->
    (forall u, f1 u = f (t * u)) -> (forall u, f2 u = f (t + u * (1 - t))) ->
    box_attained f b i -> box_attained f1 b1 i -> box_attained f2 b2 i ->
    box_contains f b i s -> box_contains f1 b1 i s -> box_contains f2 b2 i s ->
    box_inside b1 b i s /\ box_inside b2 b i s /\ box_covered b b1 b2 i s.
  Proof.
    intros Ht H1 H2 A A1 A2 C C1 C2. split; [|split].
    - apply (attained_inside f1 f b1 b i s A1 C). intros u Hu. exists (t * u). split; [nra|apply H1].
    - apply (attained_inside f2 f b2 b i s A2 C). intros u Hu. exists (t + u * (1 - t)). split; [nra|apply H2].
    - destruct A as (lo & hi & Hb & (v & Hv & Elo) & (w & Hw & Ehi)).
      destruct C1 as (lo1 & hi1 & Hb1 & HC1). destruct C2 as (lo2 & hi2 & Hb2 & HC2).
      assert (HV : forall v, 0 <= v <= 1 -> Rmin lo1 lo2 - s <= coord (f v) i <= Rmax hi1 hi2 + s).
      { intros x Hx. destruct (Rle_lt_dec x t) as [L|L].
        - assert (Hu : exists u, 0 <= u <= 1 /\ f x = f1 u).
          { destruct (Req_dec t 0) as [Z|Z].
            - exists 0. split; [lra|]. rewrite H1. f_equal. lra.
            - exists (x / t). split; [|rewrite H1; f_equal; field; exact Z].
              assert (0 < / t) by (apply Rinv_0_lt_compat; lra). split.
              + unfold Rdiv. nra.
              + apply (Rmult_le_reg_r t); [lra|]. unfold Rdiv. rewrite Rmult_assoc, Rinv_l by exact Z. lra. }
          destruct Hu as (u & Hu & ->). specialize (HC1 u Hu).
          pose proof (Rmin_l lo1 lo2). pose proof (Rmax_l hi1 hi2). lra.
        - assert (Hu : exists u, 0 <= u <= 1 /\ f x = f2 u).
          { exists ((x - t) / (1 - t)). assert (0 < / (1 - t)) by (apply Rinv_0_lt_compat; lra). split.
            - split; [unfold Rdiv; nra|]. apply (Rmult_le_reg_r (1 - t)); [lra|].
              unfold Rdiv. rewrite Rmult_assoc, Rinv_l by lra. lra.
            - rewrite H2. f_equal. field. lra. }
          destruct Hu as (u & Hu & ->). specialize (HC2 u Hu).
          pose proof (Rmin_r lo1 lo2). pose proof (Rmax_r hi1 hi2). lra. }
      exists lo, hi, lo1, hi1, lo2, hi2. split; [exact Hb|]. split; [exact Hb1|]. split; [exact Hb2|]. split.
      + rewrite <- Elo. apply HV. exact Hv.
      + rewrite <- Ehi. apply HV. exact Hw.
  Qed.

  Theorem quad_split_boxes (c : quad P) t : 0 <= t <= 1 ->
    exists b b1 b2, quad_bounding_box c = Ret b /\ quad_bounding_box (fst (quad_split c t)) = Ret b1 /\
      quad_bounding_box (snd (quad_split c t)) = Ret b2 /\
      forall i, (i < p_dim (P := P))%nat ->
        box_inside b1 b i (eps / 8) /\ box_inside b2 b i (eps / 8) /\ box_covered b b1 b2 i (eps / 8) /\
        (eps <= Rabs (2 * (coord (q_start c) i - 2 * coord (q_ctrl c) i + coord (q_end c) i)) ->
         box_inside b1 b i 0 /\ box_inside b2 b i 0).
  Proof.
    intros Ht. destruct (quad_box c) as (b & Hb & _ & HB).
    destruct (quad_box (fst (quad_split c t))) as (b1 & Hb1 & _ & HB1).
    destruct (quad_box (snd (quad_split c t))) as (b2 & Hb2 & _ & HB2).
    exists b, b1, b2. split; [exact Hb|]. split; [exact Hb1|]. split; [exact Hb2|]. intros i Hi.
    destruct (HB i Hi) as (A & C & X). destruct (HB1 i Hi) as (A1 & C1 & _). destruct (HB2 i Hi) as (A2 & C2 & _).
    assert (H1 : forall u, quad_eval (fst (quad_split c t)) u = quad_eval c (t * u)) by (intros; apply quad_split_spec).
    assert (H2 : forall u, quad_eval (snd (quad_split c t)) u = quad_eval c (t + u * (1 - t))) by (intros; apply quad_split_spec).
    destruct (halves_boxes _ _ _ b b1 b2 i t (eps / 8) Ht H1 H2 A A1 A2 C C1 C2) as (I1 & I2 & I3).
    split; [exact I1|]. split; [exact I2|]. split; [exact I3|]. intros HX. specialize (X HX). split.
    - apply (attained_inside _ (quad_eval c) b1 b i 0 A1 X). intros u Hu. exists (t * u). split; [nra|apply H1].
    - apply (attained_inside _ (quad_eval c) b2 b i 0 A2 X). intros u Hu. exists (t + u * (1 - t)). split; [nra|apply H2].
  Qed.
  Theorem cubic_split_boxes (c : cubic P) t : 0 <= t <= 1 ->
    exists b b1 b2, cubic_bounding_box c = Ret b /\ cubic_bounding_box (fst (cubic_split c t)) = Ret b1 /\
      cubic_bounding_box (snd (cubic_split c t)) = Ret b2 /\
      forall i, (i < p_dim (P := P))%nat ->
        box_inside b1 b i (3 * eps / 8) /\ box_inside b2 b i (3 * eps / 8) /\ box_covered b b1 b2 i (3 * eps / 8) /\
        (eps <= Rabs (3 * (coord (c_end c) i - 3 * coord (c_ctrl2 c) i + 3 * coord (c_ctrl1 c) i
                           - coord (c_start c) i)) ->
         box_inside b1 b i 0 /\ box_inside b2 b i 0).
  Proof.
    intros Ht. destruct (cubic_box c) as (b & Hb & _ & HB).
    destruct (cubic_box (fst (cubic_split c t))) as (b1 & Hb1 & _ & HB1).
    destruct (cubic_box (snd (cubic_split c t))) as (b2 & Hb2 & _ & HB2).
    exists b, b1, b2. split; [exact Hb|]. split; [exact Hb1|]. split; [exact Hb2|]. intros i Hi.
    destruct (HB i Hi) as (A & C & X). destruct (HB1 i Hi) as (A1 & C1 & _). destruct (HB2 i Hi) as (A2 & C2 & _).
    assert (H1 : forall u, cubic_eval (fst (cubic_split c t)) u = cubic_eval c (t * u)) by (intros; apply cubic_split_spec).
    assert (H2 : forall u, cubic_eval (snd (cubic_split c t)) u = cubic_eval c (t + u * (1 - t))) by (intros; apply cubic_split_spec).
    destruct (halves_boxes _ _ _ b b1 b2 i t (3 * eps / 8) Ht H1 H2 A A1 A2 C C1 C2) as (I1 & I2 & I3).
    split; [exact I1|]. split; [exact I2|]. split; [exact I3|]. intros HX. specialize (X HX). split.
    - apply (attained_inside _ (cubic_eval c) b1 b i 0 A1 X). intros u Hu. exists (t * u). split; [nra|apply H1].
    - apply (attained_inside _ (cubic_eval c) b2 b i 0 A2 X). intros u Hu. exists (t + u * (1 - t)). split; [nra|apply H2].
  Qed.
End SplitBoxes.

Local Ltac in1 := change (p_dim (P := P1)) with 1%nat; lia.
Section ReverseCE.
  Context {E : Eps}.
  Lemma cubic_reverse_ce : exists (c : cubic P1) lo hi lo' hi', cubic_bounding_box c = Ret [(lo, hi)] /\
    cubic_bounding_box (cubic_reverse c) = Ret [(lo', hi')] /\ lo' < lo.
  Proof.
    pose proof eps_pos. set (e := eps / 12).
    exists (Cubic (pt1 0) (pt1 (- 2 * e)) (pt1 (- 3 * e)) (pt1 (- e))), (- e), 0, (- (56 / 27) * e), 0.
    split; [|split; [|unfold e; lra]].
    - rewrite cubic_bbox_value. change (seq 0 (p_dim (P := P1))) with (seq 0 1). cbn [seq map]. f_equal. f_equal.
      unfold cubic_bbox_axis. rewrite !axis_lt by in1. cbn [bind].
      rewrite quad_roots_none.
      + cbn [bind]. cbn [av_extend bind filter cubic_eval_roots c_start c_end].
        rewrite !coord_pt1. unfold av_push. cbn [length Nat.ltb Nat.leb bind app].
        rewrite sort_R. cbn [bind s_isort s_insert]. rs.
        rewrite Rleb_false by (unfold e; lra). reflexivity.
      + unfold cubic_derivative. cbn [c_start c_end c_ctrl1 c_ctrl2 q_start q_ctrl q_end].
        rewrite !lp_add, !lp_mul, !lp_sub by in1. rs. rewrite !coord_pt1.
        apply Rabs_def1; unfold e; lra.
      + unfold cubic_derivative. cbn [c_start c_end c_ctrl1 c_ctrl2 q_start q_ctrl q_end].
        rewrite !lp_add, !lp_mul, !lp_sub by in1. rs. rewrite !coord_pt1.
        apply Rabs_def1; unfold e; lra.
    - unfold cubic_reverse. cbn [c_start c_ctrl1 c_ctrl2 c_end].
      rewrite cubic_bbox_value. change (seq 0 (p_dim (P := P1))) with (seq 0 1). cbn [seq map]. f_equal. f_equal.
      unfold cubic_bbox_axis. rewrite !axis_lt by in1. cbn [bind].
      unfold cubic_derivative. cbn [c_start c_end c_ctrl1 c_ctrl2 q_start q_ctrl q_end].
      rewrite !lp_add, !lp_mul, !lp_sub by in1. rs. rewrite !coord_pt1.
      match goal with |- context [quad_real_roots ?A ?B ?C] =>
        replace A with (- 6 * e) by ring; replace B with (18 * e) by ring; replace C with (- 6 * e) by ring end.
      assert (HR : quad_real_roots (- 6 * e) (18 * e) (- 6 * e) = Ret [1 / 3]).
      { unfold quad_real_roots. rs. rewrite Rltb_true by (apply Rabs_def1; unfold e; lra).
        rewrite Rltb_false by (rewrite Rabs_pos_eq; unfold e; lra).
        rewrite av_push_lt by (simpl; lia). cbn [app]. f_equal. f_equal. unfold e. field. lra. }
      rewrite HR. cbn [bind]. rewrite av_extend_le by (simpl; lia). cbn [bind app].
      rewrite cubic_eval_roots_value by (simpl; lia || in1). cbn [bind].
      replace (filter in_unit [1 / 3]) with [1 / 3].
      2:{ cbn [filter]. replace (in_unit (1 / 3)) with true; [reflexivity|]. symmetry. apply in_unit_R. lra. }
      cbn [map]. rewrite cubic_eval_coord by in1. cbn [c_start c_ctrl1 c_ctrl2 c_end]. rewrite !coord_pt1.
      match goal with |- context [av_push 4 [?V] _] => replace V with (- (56 / 27) * e) by field end.
      rewrite !av_push_lt by (simpl; lia). cbn [bind app]. rewrite !av_push_lt by (simpl; lia). cbn [bind app].
      rewrite sort_R. cbn [bind s_isort s_insert]. rs.
      rewrite (Rleb_true (- e) 0) by (unfold e; lra). cbn [s_insert]. rs.
      rewrite Rleb_true by (unfold e; lra). reflexivity.
  Qed.
End ReverseCE.
