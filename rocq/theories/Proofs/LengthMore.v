(** Arc length: finer polylines, the control polygon, additivity under split. *)
From Coq Require Import Reals List Arith Lia Lra Psatz.
From Coquelicot Require Import Coquelicot.
From Verif Require Import Base.Outcome Base.Scalar Model.Point Model.Line Model.Quadratic Model.Cubic
  Model.Bezier Inst.RealInst Spec.Sums Spec.Lawful Spec.Bernstein Spec.Metric Spec.Length
  Proofs.OutcomeFacts Proofs.PointFacts Proofs.RealTac Proofs.Metric Proofs.ExactEval
  Proofs.BezierGeneric Proofs.BezierReal Proofs.Calculus Proofs.CurveCalc Proofs.ArclenFacts.
Import ListNotations.
Local Open Scope R_scope.

Section Refine.
  Context {E : Eps} {P : Type} {PT : Point R P} {LP : LawfulPoint P}.

  (** length of the walk g 0, ..., g n *)
  Definition walk (g : nat -> P) n : R := Rsum (fun i => dist (g i) (g (i + 1)%nat)) n.

  Lemma walk_app g n m : walk g (n + m) = walk g n + walk (fun i => g (n + i)%nat) m.
  Proof.
    unfold walk. induction m as [|m IH].
    - rewrite Nat.add_0_r. cbn [Rsum]. ring.
    - rewrite Nat.add_succ_r. cbn [Rsum]. rewrite IH, Nat.add_assoc. ring.
  Qed.
  Lemma walk_nonneg g n : 0 <= walk g n.
  Proof. apply Rsum_nonneg. intros; apply dist_nonneg. Qed.
  Lemma walk_le g n m : (n <= m)%nat -> walk g n <= walk g m.
  Proof.
    intros H. replace m with (n + (m - n))%nat by lia. rewrite walk_app.
    pose proof (walk_nonneg (fun i => g (n + i)%nat) (m - n)). lra.
  Qed.
  Lemma walk_ge g n : dist (g 0%nat) (g n) <= walk g n.
  Proof.
    unfold walk. induction n as [|n IH]; cbn [Rsum].
    - rewrite dist_refl. lra.
    - rewrite <- Nat.add_1_r. eapply Rle_trans; [apply (dist_triangle _ (g n))|]. lra.
  Qed.
  Lemma walk_refine g m n : (0 < n)%nat ->
    walk (fun i => g (i * m)%nat) n - walk (fun i => g (i * m)%nat) 1 <= walk g (n * m) - walk g m.
  Proof.
    induction n as [|n IH]; intros Hn; [lia|]. destruct n as [|n].
    - rewrite Nat.mul_1_l. lra.
    - specialize (IH ltac:(lia)). replace (S (S n) * m)%nat with (S n * m + m)%nat by (simpl; lia).
      rewrite (walk_app g). unfold walk at 1. cbn [Rsum]. fold (walk (fun i => g (i * m)%nat) n) in *.
      unfold walk at 1 in IH. cbn [Rsum] in IH. fold (walk (fun i => g (i * m)%nat) n) in *.
      pose proof (walk_ge (fun i => g (S n * m + i)%nat) m) as H. cbn beta in H. rewrite Nat.add_0_r in H.
      replace ((S n + 1) * m)%nat with (S n * m + m)%nat by lia. unfold walk in *. cbn [Rsum] in *. lra.
  Qed.

  Lemma polyline_walk (f : R -> P) n : polyline f n = walk (fun i => f (INR i / INR n)) n.
  Proof. reflexivity. Qed.
  Lemma first_walk (f : R -> P) n : dist (f 0) (f (/ INR n)) = walk (fun i => f (INR i / INR n)) 1.
  Proof.
    unfold walk. cbn [Rsum]. rewrite Rplus_0_l. do 2 f_equal; simpl; unfold Rdiv; ring.
  Qed.

  Lemma arclen_refines (f : R -> P) n m a b : (0 < n)%nat -> (0 < m)%nat ->
    a + dist (f 0) (f (/ INR n)) = polyline f n ->
    b + dist (f 0) (f (/ INR (n * m))) = polyline f (n * m) -> a <= b.
  Proof.
    intros Hn Hm Ha Hb. rewrite polyline_walk, first_walk in Ha, Hb.
    pose proof (walk_refine (fun i => f (INR i / INR (n * m))) m n Hn) as H.
    assert (Hg : forall N, walk (fun i => f (INR (i * m) / INR (n * m))) N = walk (fun i => f (INR i / INR n)) N).
    { intros N. unfold walk. apply Rsum_ext. intros i _.
      assert (INR n <> 0) by (apply not_0_INR; lia). assert (INR m <> 0) by (apply not_0_INR; lia).
      do 2 f_equal; rewrite !mult_INR; field; auto. }
    cbn beta in H. rewrite !Hg in H.
    assert (H1 : walk (fun i => f (INR i / INR (n * m))) 1 <= walk (fun i => f (INR i / INR (n * m))) m).
    { apply walk_le. lia. }
    lra.
  Qed.
End Refine.

Section Polygon.
  Context {E : Eps} {P : Type} {PT : Point R P} {LP : LawfulPoint P}.
  Notation dflt := (p_default (P := P)).
  Notation dim := (p_dim (P := P)).

  Definition leg_length (ps : list P) k : R := dist (nth k ps dflt) (nth (k + 1) ps dflt).
  Lemma polygon_sum (ps : list P) : polygon_length ps = Rsum (leg_length ps) (length ps - 1).
  Proof.
    induction ps as [|p [|q ps] IH]; try reflexivity.
    change (polygon_length (p :: q :: ps)) with (dist p q + polygon_length (q :: ps)). rewrite IH.
    cbn [length Nat.sub]. rewrite Nat.sub_0_r, Rsum_shift. f_equal.
  Qed.

  Lemma dc_nrm t n (v : nat -> nat -> R) j : 0 <= t <= 1 ->
    nrm (fun i => dc t n (v i) j) dim <= dc t n (fun k => nrm (fun i => v i k) dim) j.
  Proof.
    intros Ht. revert j. induction n as [|n IH]; intros j; cbn [dc]; [lra|].
    eapply Rle_trans; [apply (minkowski (fun i => (1 - t) * dc t n (v i) j) (fun i => t * dc t n (v i) (j + 1)%nat))|].
    rewrite !nrm_scal, !Rabs_pos_eq by lra.
    apply Rplus_le_compat; (apply Rmult_le_compat_l; [lra|apply IH]).
  Qed.

  (** the curve is no longer than its control polygon *)
  Theorem arc_length_polygon (ps : list P) : ps <> [] -> arc_length ps <= polygon_length ps.
  Proof.
    intros Hne. rewrite arc_length_vel by exact Hne.
    set (F := fun k => Rsum (leg_length ps) k).
    set (d := (length ps - 1)%nat).
    assert (HQ : forall t, derivable_pt_lim (fun t => dc t d F 0) t (INR d * dc t (d - 1) (leg_length ps) 0)).
    { intros t. pose proof (dc_derivative d F 0 t) as H.
      rewrite (dc_ext t (d - 1) (leg_length ps) (fun i => F (i + 1)%nat - F i)); [exact H|].
      intros i _. unfold F. rewrite Nat.add_1_r. cbn [Rsum]. ring. }
    pose proof (length_along dim (fun i t => curve_coord ps t i) (dcoord ps)
      (fun i t _ => dcoord_lim ps i t Hne) (fun i t _ => dcoord_continuous ps i t)
      (fun _ => 0) (fun t => INR d * dc t (d - 1) (leg_length ps) 0) (fun t => dc t d F 0) 0 1) as H.
    eapply Rle_trans; [apply H|].
    - lra.
    - exact HQ.
    - intros t. apply (continuous_scal_r (INR d) (fun t => dc t (d - 1) (leg_length ps) 0)).
      apply continuity_pt_filterlim, derivable_continuous_pt. eexists. apply dc_derivative.
    - intros t Ht. rewrite (Rsum_ext _ (fun _ => 0)) by (intros; ring). 
      replace (Rsum (fun _ => 0) dim) with 0 by (clear; induction dim; cbn [Rsum]; lra).
      rewrite Rplus_0_l. unfold vel, dcoord. fold d. rewrite nrm_scal, Rabs_pos_eq by apply pos_INR.
      apply Rmult_le_compat_l; [apply pos_INR|].
      eapply Rle_trans; [apply (dc_nrm t (d - 1) (fun i k => cs ps i (k + 1) - cs ps i k) 0 Ht)|].
      apply Req_le, dc_ext. intros k _. unfold leg_length. rewrite dist_sym, dist_nrm. reflexivity.
    - rewrite (Rsum_ext _ (fun _ => 0)) by (intros; ring).
      replace (Rsum (fun _ => 0) dim) with 0 by (clear; induction dim; cbn [Rsum]; lra).
      rewrite dc_0, dc_1, polygon_sum. unfold F. cbn [Rsum Nat.add]. fold d. lra.
  Qed.

  (** ** Split *)
  Lemma arc_length_part (ps qs : list P) s x : ps <> [] -> qs <> [] -> 0 <= s ->
    (forall u i, (i < dim)%nat -> curve_coord qs u i = curve_coord ps (s * u + x) i) ->
    arc_length qs = RInt (vel dim (dcoord ps)) x (s + x).
  Proof.
    intros Hp Hq Hs H. rewrite arc_length_vel by exact Hq.
    rewrite (RInt_ext _ (fun u => scal s (vel dim (dcoord ps) (s * u + x)))).
    - rewrite (RInt_comp_lin (V := R_CompleteNormedModule) (vel dim (dcoord ps)) s x 0 1).
      + f_equal; ring.
      + apply (ex_vel dim (dcoord ps)). intros i z _. apply dcoord_continuous.
    - intros u _. change (scal s (vel dim (dcoord ps) (s * u + x))) with (s * vel dim (dcoord ps) (s * u + x)).
      unfold vel. replace s with (Rabs s) at 1 by now apply Rabs_pos_eq. rewrite <- nrm_scal.
      apply nrm_ext. intros i Hi.
      apply (uniqueness_limite (fun u => curve_coord qs u i) u); [now apply dcoord_lim|].
      eapply derivable_pt_lim_ext; [intros z; symmetry; apply (H z i Hi)|].
      replace (s * dcoord ps i (s * u + x)) with (dcoord ps i (s * u + x) * s) by ring.
      apply (derivable_pt_lim_comp (fun z => s * z + x) (fun z => curve_coord ps z i)); [|now apply dcoord_lim].
      apply is_derive_Reals. auto_derive; [exact I|ring].
  Qed.

  (** the curve runs at least from its first to its last point *)
  Theorem arc_length_chord (ps : list P) : ps <> [] ->
    dist (nth 0 ps dflt) (nth (length ps - 1) ps dflt) <= arc_length ps.
  Proof.
    intros Hne. rewrite arc_length_vel by exact Hne.
    pose proof (chord_le_length dim (fun i t => curve_coord ps t i) (dcoord ps)
      (fun i t _ => dcoord_lim ps i t Hne) (fun i t _ => dcoord_continuous ps i t) 0 1 ltac:(lra)) as H.
    eapply Rle_trans; [|exact H]. apply Req_le. unfold chord. rewrite dist_sym, dist_nrm.
    apply nrm_ext. intros i Hi. rewrite !curve_coord_dc, dc_0, dc_1 by exact Hne. reflexivity.
  Qed.

  Theorem arc_length_rev (ps : list P) : ps <> [] -> arc_length (rev ps) = arc_length ps.
  Proof.
    intros Hne. assert (Hr : rev ps <> []) by (intros H; apply Hne; rewrite <- (rev_involutive ps), H; reflexivity).
    rewrite !arc_length_vel by assumption.
    rewrite (RInt_ext _ (fun u => opp (scal (-1) (vel dim (dcoord ps) (-1 * u + 1))))).
    - rewrite (RInt_opp (V := R_CompleteNormedModule)).
      + rewrite (RInt_comp_lin (V := R_CompleteNormedModule) (vel dim (dcoord ps)) (-1) 1 0 1).
        * replace (-1 * 0 + 1) with 1 by ring. replace (-1 * 1 + 1) with 0 by ring.
          apply (opp_RInt_swap (V := R_CompleteNormedModule)). apply (ex_vel dim (dcoord ps)).
          intros i z _. apply dcoord_continuous.
        * apply (ex_vel dim (dcoord ps)). intros i z _. apply dcoord_continuous.
      + apply (ex_RInt_comp_lin (V := R_NormedModule) (vel dim (dcoord ps)) (-1) 1 0 1).
        apply (ex_vel dim (dcoord ps)). intros i z _. apply dcoord_continuous.
    - intros u _. change (opp (scal (-1) (vel dim (dcoord ps) (-1 * u + 1)))) with (- (-1 * vel dim (dcoord ps) (-1 * u + 1))).
      replace (- (-1 * vel dim (dcoord ps) (-1 * u + 1))) with (Rabs (-1) * vel dim (dcoord ps) (-1 * u + 1))
        by (rewrite Rabs_left; lra).
      unfold vel. rewrite <- nrm_scal. apply nrm_ext. intros i Hi.
      apply (uniqueness_limite (fun u => curve_coord (rev ps) u i) u); [now apply dcoord_lim|].
      eapply derivable_pt_lim_ext.
      + intros z. symmetry. instantiate (1 := fun z => curve_coord ps (-1 * z + 1) i). cbn beta.
        destruct (bezier_eval_spec (rev ps) z Hr) as (x & Hx & Hxc).
        destruct (bezier_eval_spec ps (1 - z) Hne) as (y & Hy & Hyc).
        rewrite bezier_reverse, Hy in Hx. injection Hx as <-. rewrite <- Hxc, Hyc by exact Hi. f_equal. ring.
      + replace (-1 * dcoord ps i (-1 * u + 1)) with (dcoord ps i (-1 * u + 1) * -1) by ring.
        apply (derivable_pt_lim_comp (fun z => -1 * z + 1) (fun z => curve_coord ps z i)); [|now apply dcoord_lim].
        apply is_derive_Reals. auto_derive; [exact I|ring].
  Qed.

  Theorem bezier_split_length (ps l r : list P) t : 0 <= t <= 1 -> ps <> [] ->
    bezier_split (Bezier ps) t = Ret (Bezier l, Bezier r) -> arc_length l + arc_length r = arc_length ps.
  Proof.
    intros Ht Hne Hs. destruct (bezier_split_spec ps t Hne) as (l' & r' & Hs' & Hl & Hr & Hu).
    assert (l' = l /\ r' = r) as [-> ->] by (rewrite Hs in Hs'; injection Hs'; auto). clear Hs'.
    assert (Hlne : l <> []) by (intros ->; destruct ps; [now apply Hne|discriminate]).
    assert (Hrne : r <> []) by (intros ->; destruct ps; [now apply Hne|discriminate]).
    rewrite (arc_length_part ps l t 0 Hne Hlne), (arc_length_part ps r (1 - t) t Hne Hrne); try lra.
    - rewrite arc_length_vel by exact Hne. replace (1 - t + t) with 1 by ring. rewrite Rplus_0_r.
      apply (RInt_Chasles (V := R_CompleteNormedModule)); apply (ex_vel dim (dcoord ps));
        intros i z _; apply dcoord_continuous.
    - intros u i Hi. destruct (bezier_eval_spec r u Hrne) as (y & Hy & Hyc).
      destruct (bezier_eval_spec ps (t + u * (1 - t)) Hne) as (z & Hz & Hzc).
      rewrite (proj2 (Hu u)), Hz in Hy. injection Hy as <-. rewrite <- Hyc, Hzc by exact Hi. f_equal. ring.
    - intros u i Hi. destruct (bezier_eval_spec l u Hlne) as (y & Hy & Hyc).
      destruct (bezier_eval_spec ps (t * u) Hne) as (z & Hz & Hzc).
      rewrite (proj1 (Hu u)), Hz in Hy. injection Hy as <-. rewrite <- Hyc, Hzc by exact Hi. f_equal. ring.
  Qed.
  Theorem quad_split_length (c : quad P) t : 0 <= t <= 1 ->
    arc_length (quad_control_points (fst (quad_split c t))) + arc_length (quad_control_points (snd (quad_split c t)))
    = arc_length (quad_control_points c).
  Proof.
    destruct c as [a b c]. intros Ht. pose proof (bezier_split_quad a b c t) as H.
    destruct (quad_split (Quad a b c) t) as [l r]. cbn [fst snd].
    apply (bezier_split_length [a; b; c] _ _ t Ht); [discriminate|exact H].
  Qed.
  Theorem cubic_split_length (c : cubic P) t : 0 <= t <= 1 ->
    arc_length (cubic_control_points (fst (cubic_split c t))) + arc_length (cubic_control_points (snd (cubic_split c t)))
    = arc_length (cubic_control_points c).
  Proof.
    destruct c as [a b c d]. intros Ht. pose proof (bezier_split_cubic a b c d t) as H.
    destruct (cubic_split (Cubic a b c d) t) as [l r]. cbn [fst snd].
    apply (bezier_split_length [a; b; c; d] _ _ t Ht); [discriminate|exact H].
  Qed.

  (** ** arclen *)
  Lemma between (f : R -> P) ps n m a b : traces f ps -> ps <> [] -> (0 < n)%nat -> (0 < m)%nat ->
    a + dist (f 0) (f (/ INR n)) = polyline f n ->
    b + dist (f 0) (f (/ INR (n * m))) = polyline f (n * m) ->
    0 <= a <= b /\ b <= arc_length ps <= polygon_length ps.
  Proof.
    intros Hf Hne Hn Hm Ha Hb. split; [split|split].
    - rewrite polyline_walk, first_walk in Ha.
      pose proof (walk_le (fun i => f (INR i / INR n)) 1 n Hn). lra.
    - exact (arclen_refines f n m a b Hn Hm Ha Hb).
    - assert (Hnm : (0 < n * m)%nat) by lia. pose proof (polyline_upper f ps (n * m) Hf Hne Hnm).
      pose proof (dist_nonneg (f 0) (f (/ INR (n * m)))). lra.
    - now apply arc_length_polygon.
  Qed.
  Lemma Rsum_rev f n : Rsum f n = Rsum (fun i => f (n - 1 - i)%nat) n.
  Proof.
    induction n as [|n IH]; [reflexivity|]. rewrite (Rsum_shift (fun i => f (S n - 1 - i)%nat)). cbn [Rsum]. rewrite IH.
    rewrite (Rsum_ext (fun i => f (S n - 1 - S i)%nat) (fun i => f (n - 1 - i)%nat)) by (intros; f_equal; lia).
    replace (S n - 1 - 0)%nat with n by lia. ring.
  Qed.
  Lemma polyline_rev (f : R -> P) n : (0 < n)%nat -> polyline (fun t => f (1 - t)) n = polyline f n.
  Proof.
    intros Hn. unfold polyline. rewrite (Rsum_rev (fun i => dist (f (INR i / INR n)) (f (INR (i + 1) / INR n)))).
    apply Rsum_ext. intros i Hi. assert (INR n <> 0) by (apply not_0_INR; lia).
    rewrite dist_sym. f_equal; f_equal.
    - replace (n - 1 - i)%nat with (n - (i + 1))%nat by lia. rewrite minus_INR by lia. field. auto.
    - replace (n - 1 - i + 1)%nat with (n - i)%nat by lia. rewrite minus_INR by lia. field. auto.
  Qed.
  (** [arclen] depends on the direction: what it leaves out is the first chord *)
  Theorem bezier_arclen_rev (ps : list P) n : ps <> [] -> (0 < n)%nat ->
    exists f a b, (forall t, bezier_eval (Bezier ps) t = Ret (f t)) /\
      bezier_arclen (Bezier ps) n = Ret a /\ bezier_arclen (Bezier (rev ps)) n = Ret b /\
      a + dist (f 0) (f (/ INR n)) = b + dist (f (1 - / INR n)) (f 1).
  Proof.
    intros Hne Hn. destruct (bezier_function ps Hne) as (f & Hf).
    destruct (bezier_arclen_value ps f n Hn Hf) as (a & Ea & Ha).
    destruct (bezier_arclen_value (rev ps) (fun t => f (1 - t)) n Hn) as (b & Eb & Hb).
    { intros t. rewrite bezier_reverse. apply Hf. }
    exists f, a, b. split; [exact Hf|]. split; [exact Ea|]. split; [exact Eb|].
    rewrite polyline_rev in Hb by exact Hn. rewrite Rminus_0_r, dist_sym in Hb. lra.
  Qed.

  Theorem quad_arclen_refines (c : quad P) n m : (0 < n)%nat -> (0 < m)%nat ->
    exists a b, quad_arclen c n = Ret a /\ quad_arclen c (n * m) = Ret b /\
      0 <= a <= b /\ b <= arc_length (quad_control_points c) <= polygon_length (quad_control_points c).
  Proof.
    intros Hn Hm. destruct (quad_arclen_value c n Hn) as (a & Ea & Ha).
    destruct (quad_arclen_value c (n * m) ltac:(lia)) as (b & Eb & Hb). exists a, b.
    split; [exact Ea|]. split; [exact Eb|].
    apply (between (quad_eval c) _ n m); auto; [apply traces_quad|discriminate].
  Qed.
  Theorem cubic_arclen_refines (c : cubic P) n m : (0 < n)%nat -> (0 < m)%nat ->
    exists a b, cubic_arclen c n = Ret a /\ cubic_arclen c (n * m) = Ret b /\
      0 <= a <= b /\ b <= arc_length (cubic_control_points c) <= polygon_length (cubic_control_points c).
  Proof.
    intros Hn Hm. destruct (cubic_arclen_value c n Hn) as (a & Ea & Ha).
    destruct (cubic_arclen_value c (n * m) ltac:(lia)) as (b & Eb & Hb). exists a, b.
    split; [exact Ea|]. split; [exact Eb|].
    apply (between (cubic_eval c) _ n m); auto; [apply traces_cubic|discriminate].
  Qed.
  Theorem bezier_arclen_refines (ps : list P) n m : ps <> [] -> (0 < n)%nat -> (0 < m)%nat ->
    exists a b, bezier_arclen (Bezier ps) n = Ret a /\ bezier_arclen (Bezier ps) (n * m) = Ret b /\
      0 <= a <= b /\ b <= arc_length ps <= polygon_length ps.
  Proof.
    intros Hne Hn Hm. destruct (bezier_function ps Hne) as (f & Hf).
    destruct (bezier_arclen_value ps f n Hn Hf) as (a & Ea & Ha).
    destruct (bezier_arclen_value ps f (n * m) ltac:(lia) Hf) as (b & Eb & Hb). exists a, b.
    split; [exact Ea|]. split; [exact Eb|].
    apply (between f ps n m); auto. now apply traces_bezier.
  Qed.
End Polygon.
