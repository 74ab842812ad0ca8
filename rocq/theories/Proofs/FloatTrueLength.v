(** Arc length in floating point against the integral of the speed. *)
From Coq Require Import Reals List Arith Lia Lra.
From Flocq Require Import Core.Core.
From Verif Require Import Base.Outcome Base.Scalar Model.Point Model.Line Model.Quadratic Model.Cubic Model.Bezier
  Inst.RealInst Inst.FloatInst
  Spec.Sums Spec.Lawful Spec.Bernstein Spec.Length Spec.Rounding Spec.Componentwise Spec.FloatPoints Spec.FloatCurves
  Proofs.PointFacts Proofs.CurveCalc Proofs.ArclenFacts Proofs.FloatCurve.
Import ListNotations.
Local Open Scope R_scope.

Section TrueLength.
  Context {F : Format} {P : Type} {PT : Point float P} {CP : CwPoint float P}.
  Local Notation D := (p_dim (P := P)).
  #[local] Existing Instance Eps64.

  Lemma coord_exact (p : P) i : (i < D)%nat -> coord (exact_point p) i = val (cw p i).
  Proof.
    intros Hi. cbn. rewrite (nth_indep _ 0 (val (cw p 0))) by (rewrite map_length, seq_length; exact Hi).
    rewrite (map_nth (fun i => val (cw p i)) (seq 0 D) 0%nat i), seq_nth by exact Hi. reflexivity.
  Qed.

  Lemma exact_at_coord (ps : list P) t i : (i < D)%nat -> exact_at ps t i = curve_coord (map exact_point ps) t i.
  Proof.
    intros Hi. unfold exact_at, curve_coord. f_equal. rewrite map_map. apply map_ext. intros p.
    symmetry. now apply coord_exact.
  Qed.

  Lemma exact_function (ps : list P) : ps <> [] ->
    exists f : R -> PointN R D, traces f (map exact_point ps) /\
      forall s t, gap (P := P) (exact_at ps s) (exact_at ps t) = dist (f s) (f t).
  Proof.
    intros Hne. assert (Hm : map exact_point ps <> []) by (destruct ps; [easy|discriminate]).
    destruct (bezier_function (map exact_point ps) Hm) as (f & Hf).
    pose proof (traces_bezier _ f Hf) as Ht. exists f. split; [exact Ht|]. intros s t.
    unfold gap, dist. f_equal. apply Rsum_ext. intros i Hi.
    rewrite !exact_at_coord, <- !Ht by exact Hi. reflexivity.
  Qed.

  Lemma tail_polyline (ps : list P) (f : R -> PointN R D) n : (0 < n)%nat ->
    (forall s t, gap (P := P) (exact_at ps s) (exact_at ps t) = dist (f s) (f t)) ->
    tail_length ps n + dist (f 0) (f (/ INR n)) = polyline f n.
  Proof.
    intros Hn Hf. rewrite (polyline_first f n Hn), Rplus_comm. f_equal. unfold tail_length.
    apply Rsum_ext. intros k _. apply Hf.
  Qed.

  Lemma tail_bounds (ps : list P) n L : ps <> [] -> (0 < n)%nat -> leg_bound (map exact_point ps) L ->
    tail_length ps n <= arc_length (map exact_point ps) /\
    arc_length (map exact_point ps) - tail_length ps n <= INR (length ps - 1) ^ 2 * L / INR n.
  Proof.
    intros Hne Hn HL. destruct (exact_function ps Hne) as (f & Hf & Hg).
    assert (Hm : map exact_point ps <> []) by (destruct ps; [easy|discriminate]).
    pose proof (arclen_bounds f _ n _ L Hf Hm Hn HL (tail_polyline ps f n Hn Hg)) as H.
    rewrite map_length in H. exact H.
  Qed.

  Lemma near_length (a T A e K : R) : Rabs (a - T) <= e -> T <= A /\ A - T <= K -> a <= A + e /\ A - K - e <= a.
  Proof. intros H [H1 H2]. apply Rabs_le_inv in H. lra. Qed.

  Section Curves.
    Variable M : R.
    Hypothesis HM : 0 <= M.
    Hypothesis HD0 : (0 < D)%nat.
    Hypothesis HD : 64 * INR (D + 1) * uro <= 1.
    Variable n : nat.
    Hypothesis Hn : (0 < n)%nat.
    Hypothesis Hu : 4 * INR n * uro <= 1.
    Variable L : R.

    Lemma quad_float_length (q : quad P) : (forall p, In p (quad_control_points q) -> bounded M p) ->
      (12 * (INR D + 2) * (M + 1)) * (12 * (INR D + 2) * (M + 1)) <= fmax ->
      leg_bound (map exact_point (quad_control_points q)) L ->
      exists a, quad_arclen q n = Ret a /\ fin a /\
        let A := arc_length (map exact_point (quad_control_points q)) in
        let e := 2 * INR n * (sqrt (INR D) * ((6 * INR D + 102) * uro * M + 6 * sqrt eta)) in
        val a <= A + e /\ A - 4 * L / INR n - e <= val a.
    Proof.
      intros B NO HL. destruct (quad_arclen_err M HM HD0 HD q B NO n Hn Hu) as (a & Ea & Fa & _ & He).
      exists a. split; [exact Ea|]. split; [exact Fa|].
      apply (near_length _ _ _ _ _ He).
      destruct (tail_bounds (quad_control_points q) n L ltac:(discriminate) Hn HL) as [T1 T2].
      split; [exact T1|]. eapply Rle_trans; [exact T2|]. cbn [quad_control_points length Nat.sub].
      rewrite (INR_IZR_INZ 2). cbn [Z.of_nat]. unfold Rdiv. right. simpl IZR. ring.
    Qed.
    Lemma cubic_float_length (c : cubic P) : (forall p, In p (cubic_control_points c) -> bounded M p) ->
      (12 * (INR D + 3) * (M + 1)) * (12 * (INR D + 3) * (M + 1)) <= fmax ->
      leg_bound (map exact_point (cubic_control_points c)) L ->
      exists a, cubic_arclen c n = Ret a /\ fin a /\
        let A := arc_length (map exact_point (cubic_control_points c)) in
        let e := 2 * INR n * (sqrt (INR D) * ((6 * INR D + 146) * uro * M + 6 * sqrt eta)) in
        val a <= A + e /\ A - 9 * L / INR n - e <= val a.
    Proof.
      intros B NO HL. destruct (cubic_arclen_err M HM HD0 HD c B NO n Hn Hu) as (a & Ea & Fa & _ & He).
      exists a. split; [exact Ea|]. split; [exact Fa|].
      apply (near_length _ _ _ _ _ He).
      destruct (tail_bounds (cubic_control_points c) n L ltac:(discriminate) Hn HL) as [T1 T2].
      split; [exact T1|]. eapply Rle_trans; [exact T2|]. cbn [cubic_control_points length Nat.sub].
      rewrite (INR_IZR_INZ 3). cbn [Z.of_nat]. unfold Rdiv. right. simpl IZR. ring.
    Qed.
    Lemma bezier_float_length (ps : list P) : (2 <= length ps)%nat -> (forall p, In p ps -> bounded M p) ->
      6 * INR (length ps - 1) * uro <= 1 ->
      (12 * (INR D + INR (length ps - 1)) * (M + 1)) * (12 * (INR D + INR (length ps - 1)) * (M + 1)) <= fmax ->
      leg_bound (map exact_point ps) L ->
      exists a, bezier_arclen (Bezier ps) n = Ret a /\ fin a /\
        let A := arc_length (map exact_point ps) in
        let e := 2 * INR n * (sqrt (INR D) * ((6 * INR D + 44 * INR (length ps - 1) + 14) * uro * M + 6 * sqrt eta)) in
        val a <= A + e /\ A - INR (length ps - 1) ^ 2 * L / INR n - e <= val a.
    Proof.
      intros HL2 B G NO HL. destruct (bezier_arclen_err M HM HD0 HD ps HL2 B G NO n Hn Hu) as (a & Ea & Fa & _ & He).
      exists a. split; [exact Ea|]. split; [exact Fa|].
      apply (near_length _ _ _ _ _ He). apply (tail_bounds ps n L); auto. destruct ps; [simpl in HL2; lia|discriminate].
    Qed.
  End Curves.
End TrueLength.
