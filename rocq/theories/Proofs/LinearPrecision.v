(** Linear precision of Bezier and B-spline curves; arclen of straight lines. *)
From Coq Require Import Reals List Arith Lia Lra.
From Coquelicot Require Import Coquelicot.
From Verif Require Import Base.Outcome Base.Scalar Model.Point Model.Line Model.Quadratic Model.Cubic
  Model.Bezier Model.BSpline Inst.RealInst
  Spec.Sums Spec.Lawful Spec.Bernstein Spec.Length Spec.Points Spec.Basis Spec.Precision
  Proofs.OutcomeFacts Proofs.PointFacts Proofs.RealTac Proofs.Metric Proofs.ExactEval Proofs.BezierGeneric Proofs.BezierReal
  Proofs.BoxSpec Proofs.CurveCalc Proofs.Search Proofs.ArclenFacts Proofs.FloatSplit
  Proofs.BSplineGeneric Proofs.BSplineReal Proofs.BSplineEval Proofs.BasisCalc.
Import ListNotations.
Local Open Scope R_scope.

Lemma dc_linear t x y : forall m j, dc t m (fun k => x + INR k * y) j = x + (INR j + INR m * t) * y.
Proof.
  induction m as [|m IH]; intros j; cbn [dc]; [simpl; ring|].
  rewrite !IH, plus_INR, (S_INR m). simpl (INR 1). ring.
Qed.

Section Lines.
  Context {E : Eps} {P : Type} {PT : Point R P} {LP : LawfulPoint P}.

  Lemma evenly_coord (a b : P) ps t i : (2 <= length ps)%nat -> evenly a b ps -> (i < p_dim (P := P))%nat ->
    curve_coord ps t i = coord a i + t * (coord b i - coord a i).
  Proof.
    intros H2 He Hi. unfold curve_coord. rewrite poly_dc by (destruct ps; [simpl in H2; lia|discriminate]).
    rewrite map_length. set (d := (length ps - 1)%nat). assert (Hd : 0 < INR d) by (apply lt_0_INR; unfold d; lia).
    rewrite (dc_ext _ _ _ (fun k => coord a i + INR k * ((coord b i - coord a i) / INR d))).
    - rewrite dc_linear. simpl INR. field. lra.
    - intros k Hk. destruct (nth_error ps k) as [p|] eqn:Ek.
      2:{ apply nth_error_None in Ek. unfold d in Hk. lia. }
      rewrite (nth_error_nth (map (fun p => coord p i) ps) k 0 (x := coord p i)) by (rewrite nth_error_map, Ek; reflexivity).
      rewrite (He k p Ek i Hi). fold d. field. lra.
  Qed.

  Lemma on_line_dist (a b x y : P) s t : on_line a b s x -> on_line a b t y -> dist x y = Rabs (s - t) * dist a b.
  Proof.
    intros Hx Hy. unfold dist.
    rewrite (Rsum_ext _ (fun i => (s - t) * (s - t) * ((coord a i - coord b i) * (coord a i - coord b i)))).
    2:{ intros i Hi. rewrite (Hx i Hi), (Hy i Hi). ring. }
    rewrite Rsum_scal, sqrt_mult_alt by apply Rle_0_sqr. f_equal. apply sqrt_Rsqr_abs.
  Qed.

  Lemma evenly_polyline (a b : P) f m : (0 < m)%nat -> (forall t, on_line a b t (f t)) -> polyline f m = dist a b.
  Proof.
    intros Hm Hf. unfold polyline. assert (0 < INR m) by (apply lt_0_INR; lia).
    rewrite (Rsum_ext _ (fun _ => / INR m * dist a b)).
    - rewrite Rsum_const. field. lra.
    - intros i Hi. rewrite (on_line_dist a b _ _ _ _ (Hf _) (Hf _)). f_equal.
      rewrite plus_INR. simpl (INR 1). replace (INR i / INR m - (INR i + 1) / INR m) with (- / INR m) by (field; lra).
      rewrite Rabs_Ropp. apply Rabs_pos_eq. apply Rlt_le, Rinv_0_lt_compat; lra.
  Qed.

  Lemma evenly_arclen (a b : P) f m r : (0 < m)%nat -> (forall t, on_line a b t (f t)) ->
    r + dist (f 0) (f (/ INR m)) = polyline f m -> r = (1 - / INR m) * dist a b.
  Proof.
    intros Hm Hf Hr. rewrite (evenly_polyline a b f m Hm Hf) in Hr.
    rewrite (on_line_dist a b _ _ _ _ (Hf _) (Hf _)) in Hr.
    assert (0 < / INR m) by (apply Rinv_0_lt_compat, lt_0_INR; lia).
    rewrite Rminus_0_l, Rabs_Ropp, Rabs_pos_eq in Hr by lra. lra.
  Qed.

  Lemma evenly_arc_length (a b : P) ps : (2 <= length ps)%nat -> evenly a b ps -> arc_length ps = dist a b.
  Proof.
    intros H2 He. unfold arc_length.
    rewrite (RInt_ext _ (fun _ => dist a b)).
    - rewrite RInt_const. unfold scal; simpl; unfold mult; simpl. ring.
    - intros t _. unfold speed, dist. f_equal. apply Rsum_ext. intros i Hi.
      assert (Dv : Derive (fun t => curve_coord ps t i) t = coord b i - coord a i).
      { rewrite (Derive_ext _ (fun t => coord a i + t * (coord b i - coord a i)))
          by (intros u; now apply evenly_coord).
        apply is_derive_unique. auto_derive; [exact I|ring]. }
      rewrite Dv. ring.
  Qed.

  Lemma bezier_evenly (a b : P) ps t : (2 <= length ps)%nat -> evenly a b ps ->
    exists x, bezier_eval (Bezier ps) t = Ret x /\ on_line a b t x.
  Proof.
    intros H2 He. destruct (bezier_eval_spec ps t) as (x & Ex & Hx); [destruct ps; [simpl in H2; lia|discriminate]|].
    exists x. split; [exact Ex|]. intros i Hi. rewrite Hx by exact Hi. now apply evenly_coord.
  Qed.
  Lemma bezier_evenly_arclen (a b : P) ps m : (2 <= length ps)%nat -> evenly a b ps -> (0 < m)%nat ->
    bezier_arclen (Bezier ps) m = Ret ((1 - / INR m) * dist a b).
  Proof.
    intros H2 He Hm. assert (Hne : ps <> []) by (destruct ps; [simpl in H2; lia|discriminate]).
    destruct (bezier_arclen_value' ps m Hm Hne) as (f & r & Hf & Er & Hr). rewrite Er. f_equal.
    apply (evenly_arclen a b f m r Hm); [|exact Hr]. intros t.
    destruct (bezier_evenly a b ps t H2 He) as (x & Ex & Hx). rewrite Hf in Ex. injection Ex as ->. exact Hx.
  Qed.

  Lemma quad_evenly (a b : P) (c : quad P) t : evenly a b (quad_control_points c) -> on_line a b t (quad_eval c t).
  Proof.
    intros He i Hi. rewrite (traces_quad c t i Hi). apply evenly_coord; [simpl; lia|exact He|exact Hi].
  Qed.
  Lemma quad_evenly_arclen (a b : P) (c : quad P) m : evenly a b (quad_control_points c) -> (0 < m)%nat ->
    quad_arclen c m = Ret ((1 - / INR m) * dist a b).
  Proof.
    intros He Hm. destruct (quad_arclen_value c m Hm) as (r & Er & Hr). rewrite Er. f_equal.
    apply (evenly_arclen a b (quad_eval c) m r Hm); [|exact Hr]. intros t. now apply quad_evenly.
  Qed.
  Lemma cubic_evenly (a b : P) (c : cubic P) t : evenly a b (cubic_control_points c) -> on_line a b t (cubic_eval c t).
  Proof.
    intros He i Hi. rewrite (traces_cubic c t i Hi). apply evenly_coord; [simpl; lia|exact He|exact Hi].
  Qed.
  Lemma cubic_evenly_arclen (a b : P) (c : cubic P) m : evenly a b (cubic_control_points c) -> (0 < m)%nat ->
    cubic_arclen c m = Ret ((1 - / INR m) * dist a b).
  Proof.
    intros He Hm. destruct (cubic_arclen_value c m Hm) as (r & Er & Hr). rewrite Er. f_equal.
    apply (evenly_arclen a b (cubic_eval c) m r Hm); [|exact Hr]. intros t. now apply cubic_evenly.
  Qed.
End Lines.

(** ** B-splines *)
Lemma greville ks t : sorted ks -> forall D C, (C + D + 1 <= length ks)%nat -> nth D ks 0 <= t < nth C ks 0 ->
  Rsum (fun j => Rsum (fun r => nth (j + 1 + r) ks 0) D * basis (fun m => nth m ks 0) D j t) C = INR D * t.
Proof.
  intros Hs. set (U := fun m => nth m ks 0).
  induction D as [|D IH]; intros C HK Ht.
  - rewrite (Rsum_ext _ (fun _ => 0)), Rsum_0; [simpl; ring|]. intros j _. cbn [Rsum]. ring.
  - assert (Hm : forall a b, (a <= b < C + S D + 1)%nat -> U a <= U b) by (intros a b H; apply Hs; lia).
    assert (HC : (S D <= C)%nat).
    { destruct (le_lt_dec (S D) C) as [H|H]; [exact H|]. pose proof (Hm C (S D) ltac:(lia)). unfold U in *. lra. }
    assert (HtD : nth D ks 0 <= t < nth C ks 0).
    { pose proof (Hm D (S D) ltac:(lia)). unfold U in *. lra. }
    specialize (IH C ltac:(lia) HtD).
    pose proof (partition_of_unity D C ks t Hs ltac:(lia) HtD) as PU. fold U in PU.
    set (N := fun j => basis U D j t) in *.
    set (g := fun d j => Rsum (fun r => nth (j + 1 + r) ks 0) d).
    set (A := fun j => g (S D) j * (quot (t - U j) (U (j + S D)%nat - U j) * N j)).
    set (B := fun j => match j with O => 0 | S i =>
                g (S D) i * (quot (U (i + S D + 1)%nat - t) (U (i + S D + 1)%nat - U (i + 1)%nat) * N (i + 1)%nat) end).
    transitivity (Rsum (fun j => A j + B (S j)) C).
    { apply Rsum_ext. intros j Hj. cbn [basis]. unfold A, B, g, N. ring. }
    rewrite Rsum_plus.
    assert (HB : Rsum (fun i => B (S i)) C = Rsum B C).
    { pose proof (Rsum_shift B C) as S1. change (Rsum B (S C)) with (Rsum B C + B C) in S1.
      assert (B C = 0).
      { destruct C as [|C']; [lia|]. unfold B. replace (N (C' + 1)%nat) with 0; [ring|].
        unfold N. symmetry. apply basis_left; [intros; apply Hm; lia|]. replace (C' + 1)%nat with (S C') by lia. unfold U. lra. }
      assert (B 0%nat = 0) by reflexivity. lra. }
    rewrite HB, <- Rsum_plus.
    rewrite (Rsum_ext _ (fun j => g D j * N j + t * N j)).
    + rewrite Rsum_plus, Rsum_scal. fold U in IH. unfold g, N. rewrite IH. unfold N in PU. rewrite PU. rewrite S_INR. ring.
    + intros j Hj. destruct j as [|i].
      * assert (N0 : N 0%nat = 0).
        { unfold N. apply basis_right; [intros; apply Hm; lia|]. replace (0 + D + 1)%nat with (S D) by lia. unfold U. lra. }
        unfold A, B. rewrite N0. ring.
      * unfold A, B. replace (i + 1)%nat with (S i) by lia. replace (i + S D + 1)%nat with (S i + S D)%nat by lia.
        assert (G1 : g (S D) (S i) = g D (S i) + U (S i + S D)%nat).
        { unfold g. cbn [Rsum]. unfold U. do 2 f_equal. lia. }
        assert (G0 : g (S D) i = g D (S i) + U (S i)).
        { unfold g. rewrite Rsum_shift, Rplus_comm. f_equal.
          - apply Rsum_ext. intros r _. f_equal. lia.
          - unfold U. f_equal. lia. }
        rewrite G1, G0.
        destruct (Req_EM_T (U (S i + S D)%nat - U (S i)) 0) as [Z|Z].
        { assert (NZ : N (S i) = 0).
          { unfold N. apply basis_empty; [intros; apply Hm; lia|]. replace (S i + D + 1)%nat with (S i + S D)%nat by lia. lra. }
          rewrite NZ. ring. }
        rewrite !quot_nz by exact Z. field. exact Z.
Qed.

Section Splines.
  Context {E : Eps} {P : Type} {PT : Point R P} {LP : LawfulPoint P}.

  Lemma spline_linear D ks (ps : list P) (a b : P) t i : (1 <= D)%nat -> sorted ks -> (length ps + D + 1 <= length ks)%nat ->
    nth D ks 0 <= t < nth (length ps) ks 0 -> at_knot_means a b D ks ps -> (i < p_dim (P := P))%nat ->
    spline_coord D ks ps t i = coord a i + t * (coord b i - coord a i).
  Proof.
    intros HD Hs HK Ht Ha Hi. unfold spline_coord.
    assert (0 < INR D) by (apply lt_0_INR; lia).
    set (N := fun j => basis (fun m => nth m ks 0) D j t).
    rewrite (Rsum_ext _ (fun j => coord a i * N j + (coord b i - coord a i) / INR D *
               (Rsum (fun r => nth (j + 1 + r) ks 0) D * N j))).
    - rewrite Rsum_plus, !Rsum_scal. unfold N.
      rewrite (partition_of_unity D (length ps) ks t Hs HK Ht), (greville ks t Hs D (length ps) HK Ht). field. lra.
    - intros j Hj. destruct (nth_error ps j) as [p|] eqn:Ej; [|apply nth_error_None in Ej; lia].
      rewrite (nth_error_nth ps j p_default Ej), (Ha j p Ej i Hi). unfold knot_mean, N. field. lra.
  Qed.

  Lemma spline_value_linear D ks (ps : list P) s (a b : P) t : bspline_new D ks ps = Ret (Ok s) -> (1 <= D)%nat ->
    at_knot_means a b D ks ps -> bs_kind s <> Unclamped -> nth D ks 0 <= t < nth (length ps) ks 0 ->
    (forall i, (i < length ps + D)%nat -> nth i ks 0 < t -> eps <= t - nth i ks 0) ->
    exists k p, (D <= k < length ps)%nat /\ nth k ks 0 <= t < nth (k + 1) ks 0 /\ bspline_eval s t = Ret (Ok p) /\
      forall i, (i < p_dim (P := P))%nat -> coord p i =
        coord a i + t * (coord b i - coord a i) - basis (fun m => nth m ks 0) D k t * coord (nth k ps p_default) i.
  Proof.
    intros Hn HD Ha Hk Ht He. destruct (sizes D ks ps s Hn) as [HC HK].
    destruct (eval_value D ks ps s Hn t (good_clamped D ks ps s t Hk Ht) He) as (k & p & H1 & H2 & H3 & H4).
    exists k, p. split; [exact H1|]. split; [exact H2|]. split; [exact H3|]. intros i Hi. rewrite (H4 i Hi). f_equal.
    apply spline_linear; try assumption; [apply (ks_sorted D ks ps s Hn)|lia].
  Qed.
  Lemma spline_knot_linear D ks (ps : list P) s (a b : P) k : bspline_new D ks ps = Ret (Ok s) -> (1 <= D)%nat ->
    at_knot_means a b D ks ps -> bs_kind s <> Unclamped -> (k < length ps)%nat ->
    nth D ks 0 <= nth k ks 0 < nth (length ps) ks 0 -> nth k ks 0 < nth (k + 1) ks 0 ->
    (forall i, (i < length ps + D)%nat -> nth i ks 0 < nth k ks 0 -> eps <= nth k ks 0 - nth i ks 0) ->
    exists p, bspline_eval s (nth k ks 0) = Ret (Ok p) /\ on_line a b (nth k ks 0) p.
  Proof.
    intros Hn HD Ha Hk Hkl Ht Hlt He. destruct (sizes D ks ps s Hn) as [HC HK].
    destruct (eval_at_knot D ks ps s Hn k HD Hkl (good_clamped D ks ps s (nth k ks 0) Hk Ht) Hlt He) as (p & H1 & H2).
    exists p. split; [exact H1|]. intros i Hi. rewrite (H2 i Hi).
    apply spline_linear; try assumption; [apply (ks_sorted D ks ps s Hn)|lia].
  Qed.
End Splines.

(** ** the error of 32 steps *)
Section Steps32.
  Context {E : Eps}.
  Lemma evenly_pt1 x ps : (forall k p, nth_error ps k = Some p -> coord p 0 = INR k / INR (length ps - 1) * x) ->
    evenly (pt1 0) (pt1 x) ps.
  Proof.
    intros H k p Hk i Hi. assert (i = 0%nat) as -> by (cbn in Hi; lia). rewrite (H k p Hk).
    change (coord (pt1 0) 0) with 0. change (coord (pt1 x) 0) with x. ring.
  Qed.

  Lemma steps32_error (e : R) : exists (c : quad P1) (k : cubic P1) a a',
    quad_arclen c 32 = Ret a /\ e < arc_length (quad_control_points c) - a /\
    cubic_arclen k 32 = Ret a' /\ e < arc_length (cubic_control_points k) - a' /\
    bezier_arclen (Bezier (quad_control_points c)) 32 = Ret a /\
    bezier_arclen (Bezier (cubic_control_points k)) 32 = Ret a'.
  Proof.
    set (x := 32 * (Rabs e + 1)). pose proof (Rabs_pos e) as Hp. pose proof (Rle_abs e).
    set (c := Quad (pt1 0) (pt1 (x / 2)) (pt1 x)).
    set (k := Cubic (pt1 0) (pt1 (x / 3)) (pt1 (2 * x / 3)) (pt1 x)).
    assert (Ec : evenly (pt1 0) (pt1 x) (quad_control_points c)).
    { apply evenly_pt1. intros n p Hn. cbn [quad_control_points q_start q_ctrl q_end c length Nat.sub] in *.
      destruct n as [|[|[|[|n]]]]; try discriminate; injection Hn as <-; cbn; field. }
    assert (Ek : evenly (pt1 0) (pt1 x) (cubic_control_points k)).
    { apply evenly_pt1. intros n p Hn. cbn [cubic_control_points k length Nat.sub] in *.
      destruct n as [|[|[|[|[|n]]]]]; try discriminate; injection Hn as <-; cbn; field. }
    assert (Dx : dist (pt1 0) (pt1 x) = x).
    { rewrite dist_pt1, Rabs_minus_sym, Rminus_0_r. apply Rabs_pos_eq. unfold x. lra. }
    assert (H32 : INR 32 = 32) by (rewrite INR_IZR_INZ; reflexivity).
    assert (V : e < x - (1 - / INR 32) * x) by (rewrite H32; unfold x; lra).
    exists c, k, ((1 - / INR 32) * x), ((1 - / INR 32) * x).
    assert (Lc : (2 <= length (quad_control_points c))%nat) by (simpl; lia).
    assert (Lk : (2 <= length (cubic_control_points k))%nat) by (simpl; lia).
    rewrite (evenly_arc_length _ _ _ Lc Ec), (evenly_arc_length _ _ _ Lk Ek), Dx.
    split; [rewrite <- Dx; apply quad_evenly_arclen; [exact Ec|lia]|]. split; [exact V|].
    split; [rewrite <- Dx; apply cubic_evenly_arclen; [exact Ek|lia]|]. split; [exact V|].
    split; rewrite <- Dx; apply bezier_evenly_arclen; try assumption; lia.
  Qed.

  Context {P : Type} {PT : Point R P} {LP : LawfulPoint P}.
  Lemma quad_steps32 (c : quad P) L : leg_bound (quad_control_points c) L -> L < 4 ->
    exists a, quad_arclen c 32 = Ret a /\ Rabs (arc_length (quad_control_points c) - a) < 1/2.
  Proof.
    intros HL H4. destruct (quad_arclen_bounds c 32 L ltac:(lia) HL) as (a & Ea & H1 & H2). exists a. split; [exact Ea|].
    assert (H32 : INR 32 = 32) by (rewrite INR_IZR_INZ; reflexivity). rewrite H32 in H2. rewrite Rabs_pos_eq; lra.
  Qed.
  Lemma cubic_steps32 (c : cubic P) L : leg_bound (cubic_control_points c) L -> L < 16/9 ->
    exists a, cubic_arclen c 32 = Ret a /\ Rabs (arc_length (cubic_control_points c) - a) < 1/2.
  Proof.
    intros HL H4. destruct (cubic_arclen_bounds c 32 L ltac:(lia) HL) as (a & Ea & H1 & H2). exists a. split; [exact Ea|].
    assert (H32 : INR 32 = 32) by (rewrite INR_IZR_INZ; reflexivity). rewrite H32 in H2. rewrite Rabs_pos_eq; lra.
  Qed.
End Steps32.
