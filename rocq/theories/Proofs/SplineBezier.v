(** Every span of a B-spline is a Bezier curve of the same degree: de Boor's triangle, entry by entry
    in Bernstein form. *)
From Coq Require Import Reals List Arith Lia Lra.
From Verif Require Import Base.Outcome Base.Scalar Model.Point Model.Bezier Model.BSpline Model.Repairs Inst.RealInst
  Spec.Sums Spec.Lawful Spec.Basis Spec.Bernstein Spec.Hull Spec.Limits
  Proofs.PointFacts Proofs.RealTac Proofs.BezierReal Proofs.Elevation Proofs.BSplineGeneric Proofs.BSplineReal Proofs.BSplineEval
  Proofs.BasisCalc Proofs.BSplineRange Proofs.BSplineJump Proofs.RepairSpline.
Import ListNotations.
Local Open Scope R_scope.

(** one affine factor raises the degree *)
Lemma dc_product n (F G h : nat -> R) u :
  (forall i, (i <= S n)%nat -> h i = (1 - INR i / INR (S n)) * F (Nat.min i n) + INR i / INR (S n) * G (i - 1)%nat) ->
  dc u (S n) h 0 = (1 - u) * dc u n F 0 + u * dc u n G 0.
Proof.
  intros H. pose proof (lt_0_INR (S n) ltac:(lia)) as Pn. rewrite !dc_bernstein. cbn [Nat.add].
  rewrite (Rsum_ext _ (fun i => INR i / INR (S n) * bernstein (S n) i u * G (i - 1)%nat
                                + (INR (S n) - INR i) / INR (S n) * bernstein (S n) i u * F (Nat.min i n))).
  2:{ intros i Hi. rewrite H by lia. field. lra. }
  rewrite Rsum_plus.
  rewrite (Rsum_shift (fun i => INR i / INR (S n) * bernstein (S n) i u * G (i - 1)%nat) (S n)).
  rewrite (Rsum_ext (fun i => INR (S i) / INR (S n) * bernstein (S n) (S i) u * G (S i - 1)%nat)
                    (fun i => u * (bernstein n i u * G i))).
  2:{ intros i Hi. replace (S i - 1)%nat with i by lia.
      replace (INR (S i) / INR (S n) * bernstein (S n) (S i) u * G i)
        with (INR (S i) * bernstein (S n) (S i) u / INR (S n) * G i) by (unfold Rdiv; ring).
      rewrite bernstein_high. field. lra. }
  set (h' := fun i => (INR (S n) - INR i) / INR (S n) * bernstein (S n) i u * F (Nat.min i n)).
  change (Rsum h' (S (S n))) with (Rsum h' (S n) + h' (S n)).
  assert (Z : h' (S n) = 0) by (unfold h'; field; lra). rewrite Z.
  rewrite (Rsum_ext h' (fun i => (1 - u) * (bernstein n i u * F i)) (S n)).
  2:{ intros i Hi. unfold h'. rewrite Nat.min_l by lia.
      replace ((INR (S n) - INR i) / INR (S n) * bernstein (S n) i u * F i)
        with ((INR (S n) - INR i) * bernstein (S n) i u / INR (S n) * F i) by (unfold Rdiv; ring).
      rewrite bernstein_low by lia. field. lra. }
  rewrite !Rsum_scal. change (INR 0) with 0. unfold Rdiv. ring.
Qed.
Lemma dc_mix n (f g : nat -> R) a u : dc u n (fun m => f m * (1 - a) + g m * a) 0 = dc u n f 0 * (1 - a) + dc u n g 0 * a.
Proof.
  rewrite !dc_bernstein. cbn [Nat.add].
  rewrite (Rsum_ext _ (fun i => (1 - a) * (bernstein n i u * f i) + a * (bernstein n i u * g i))) by (intros; ring).
  rewrite Rsum_plus, !Rsum_scal. ring.
Qed.

Section Scheme.
  Context {E : Eps} {P : Type} {PT : Point R P} {LP : LawfulPoint P}.
  Variables (s : bspline R P) (k : nat).
  Hypotheses (Hwf : well_formed s) (Hsrt : srt s) (Hk : (bs_degree s <= k < length (bs_points s))%nat)
    (Hgap : knot s k < knot s (k + 1)).
  Local Notation D := (bs_degree s).
  Local Notation a0 r j := (ratio s (knot s k) k r j).
  Local Notation a1 r j := (ratio s (knot s (k + 1)) k r j).

  (** Bernstein coefficient [i] of entry [j] after pass [r] *)
  Fixpoint bez (r j i : nat) : P :=
    match r with
    | O => cpoint s (j + k - D)
    | S r' =>
        p_add
          (p_mul (p_add (p_mul (bez r' (j - 1) (Nat.min i r')) (1 - a0 r j)) (p_mul (bez r' j (Nat.min i r')) (a0 r j)))
                 (1 - INR i / INR r))
          (p_mul (p_add (p_mul (bez r' (j - 1) (i - 1)) (1 - a1 r j)) (p_mul (bez r' j (i - 1)) (a1 r j))) (INR i / INR r))
    end.

  Lemma ratio_affine u r j : ratio s (knot s k + u * (knot s (k + 1) - knot s k)) k r j = (1 - u) * a0 r j + u * a1 r j.
  Proof. unfold ratio, Rdiv. ring. Qed.

  Lemma tri_bez u i : (i < p_dim (P := P))%nat -> forall r j,
    coord (tri s (knot s k + u * (knot s (k + 1) - knot s k)) k r j) i = dc u r (fun m => coord (bez r j m) i) 0.
  Proof.
    intros Hi. induction r as [|r IH]; intros j; [reflexivity|].
    rewrite tri_coord, !IH, ratio_affine by exact Hi.
    set (f := fun m => coord (bez r (j - 1) m) i). set (g := fun m => coord (bez r j m) i).
    rewrite (dc_product r (fun m => f m * (1 - a0 (S r) j) + g m * a0 (S r) j) (fun m => f m * (1 - a1 (S r) j) + g m * a1 (S r) j)).
    - rewrite !dc_mix. ring.
    - intros m Hm. cbn [bez]. coords. unfold f, g. ring.
  Qed.

  Lemma ratio_01 r j x : (1 <= r <= j)%nat -> (j <= D)%nat -> knot s k <= x <= knot s (k + 1) -> 0 <= ratio s x k r j <= 1.
  Proof.
    intros Hr Hj Hx. pose proof Hwf as [W1 W2].
    assert (A : knot s (j + k - D) <= knot s k) by (apply knot_le; auto; lia).
    assert (B : knot s (k + 1) <= knot s (j + 1 + k - r)) by (apply knot_le; auto; lia).
    unfold ratio. split; [apply Rmult_le_pos; [lra|left; apply Rinv_0_lt_compat; lra]|].
    apply Rmult_le_reg_r with (knot s (j + 1 + k - r) - knot s (j + k - D)); [lra|].
    unfold Rdiv. rewrite Rmult_assoc, Rinv_l by lra. lra.
  Qed.

  Lemma bez_hull W : (forall m, (k - D <= m <= k)%nat -> in_hull W (cpoint s m)) ->
    forall r j i, (r <= j <= D)%nat -> (i <= r)%nat -> in_hull W (bez r j i).
  Proof.
    intros HW. induction r as [|r IH]; intros j i Hj Hi; [cbn [bez]; apply HW; lia|].
    pose proof (lt_0_INR (S r) ltac:(lia)) as Pn.
    assert (I : 0 <= INR i / INR (S r) <= 1).
    { split; [apply Rmult_le_pos; [apply pos_INR|left; now apply Rinv_0_lt_compat]|].
      apply Rmult_le_reg_r with (INR (S r)); [exact Pn|]. unfold Rdiv. rewrite Rmult_assoc, Rinv_l, Rmult_1_r, Rmult_1_l by lra. now apply le_INR. }
    cbn [bez]. set (x := p_add (p_mul (bez r (j - 1) (Nat.min i r)) _) _). set (y := p_add (p_mul (bez r (j - 1) (i - 1)) _) _).
    apply (hull_mix W (INR i / INR (S r)) x y); [exact I| | |intros c Hc; now coords].
    - apply (hull_mix W (a0 (S r) j) (bez r (j - 1) (Nat.min i r)) (bez r j (Nat.min i r)));
        [apply ratio_01; lia || lra|apply IH; lia|apply IH; lia|intros c Hc; unfold x; now coords].
    - apply (hull_mix W (a1 (S r) j) (bez r (j - 1) (i - 1)) (bez r j (i - 1)));
        [apply ratio_01; lia || lra|apply IH; lia|apply IH; lia|intros c Hc; unfold y; now coords].
  Qed.

  Definition span_points : list P := map (bez D D) (seq 0 (D + 1)).
  Lemma span_points_length : length span_points = (D + 1)%nat.
  Proof. unfold span_points. now rewrite map_length, seq_length. Qed.
  Lemma span_points_hull W : (forall m, (k - D <= m <= k)%nat -> in_hull W (cpoint s m)) -> forall q, In q span_points -> in_hull W q.
  Proof.
    intros HW q Hq. apply in_map_iff in Hq. destruct Hq as (i & <- & Hi). apply in_seq in Hi. apply bez_hull; auto; lia.
  Qed.
  Lemma span_bezier x : bezier_eval (Bezier span_points) ((x - knot s k) / (knot s (k + 1) - knot s k)) = Ret (tri s x k D D).
  Proof.
    set (u := (x - knot s k) / (knot s (k + 1) - knot s k)).
    assert (Ex : x = knot s k + u * (knot s (k + 1) - knot s k)) by (unfold u; field; lra).
    destruct (bezier_eval_ret span_points u) as (p & Ep & Hp).
    { intros Z. pose proof span_points_length as L. rewrite Z in L. cbn in L. lia. }
    rewrite Ep. f_equal. apply lp_ext. intros i Hi. rewrite (Hp i Hi), Ex, tri_bez by exact Hi.
    rewrite span_points_length. replace (D + 1 - 1)%nat with D by lia. rewrite !dc_bernstein. apply Rsum_ext. intros m Hm.
    f_equal. cbn [Nat.add]. unfold cs. f_equal. unfold span_points.
    rewrite (nth_map_lt _ _ _ 0%nat) by (rewrite seq_length; lia). rewrite seq_nth by lia. reflexivity.
  Qed.
End Scheme.

Lemma nth_skip {A} (n j : nat) (l : list A) d : nth j (skipn n l) d = nth (n + j) l d.
Proof. revert l. induction n as [|n IH]; intros l; [reflexivity|]. destruct l; [destruct j; reflexivity|apply IH]. Qed.
Lemma nth_first {A} (n j : nat) (l : list A) d : (j < n)%nat -> nth j (firstn n l) d = nth j l d.
Proof.
  revert j l. induction n as [|n IH]; intros j l Hj; [lia|]. destruct l; [reflexivity|]. destruct j; [reflexivity|]. cbn. apply IH. lia.
Qed.

(** one list entry set to the origin *)
Section Erase.
  Context {P : Type} (d : P).
  Definition erase (k : nat) (ps : list P) : list P := firstn k ps ++ d :: skipn (k + 1) ps.
  Lemma erase_length k ps : (k < length ps)%nat -> length (erase k ps) = length ps.
  Proof. intros H. unfold erase. rewrite app_length, firstn_length, Nat.min_l by lia. cbn [length]. rewrite skipn_length. lia. Qed.
  Lemma erase_nth k ps m : (k < length ps)%nat -> nth m (erase k ps) d = if (m =? k)%nat then d else nth m ps d.
  Proof.
    intros H. unfold erase. destruct (Nat.eqb_spec m k) as [->|N].
    - rewrite app_nth2; rewrite firstn_length, Nat.min_l by lia; [|lia]. now rewrite Nat.sub_diag.
    - destruct (le_lt_dec k m) as [L|L].
      + rewrite app_nth2; rewrite firstn_length, Nat.min_l by lia; [|lia].
        replace (m - k)%nat with (S (m - (k + 1))) by lia. cbn [nth]. rewrite nth_skip. f_equal. lia.
      + rewrite app_nth1 by (rewrite firstn_length; lia). rewrite nth_first; [reflexivity|exact L].
  Qed.
End Erase.

Section Spans.
  Context {E : Eps} {P : Type} {PT : Point R P} {LP : LawfulPoint P}.
  Variables (D : nat) (ks : list R) (ps : list P).
  Local Notation U i := (nth i ks 0).
  Local Notation C := (length ps).

  (** the curve itself *)
  Lemma curve_bezier k : sorted ks -> length ks = (C + D + 1)%nat -> (D <= k < C)%nat -> U k < U (k + 1) ->
    exists qs, length qs = (D + 1)%nat /\ (forall q, In q qs -> in_hull (firstn (D + 1) (skipn (k - D) ps)) q) /\
      forall t, U k <= t < U (k + 1) -> exists p, bezier_eval (Bezier qs) ((t - U k) / (U (k + 1) - U k)) = Ret p /\
        forall i, (i < p_dim (P := P))%nat -> coord p i = spline_coord D ks ps t i.
  Proof.
    intros Hs Hl Hk Hg. set (s := BSpline D ks Clamped ps).
    assert (Hwf : well_formed s) by (split; cbn; lia).
    exists (span_points s k). split; [apply span_points_length|]. split.
    - apply (span_points_hull s k Hwf Hs Hk Hg). intros m Hm. cbn [s bs_degree] in Hm. unfold cpoint. cbn [s bs_points].
      replace m with (k - D + (m - (k - D)))%nat by lia. rewrite <- nth_skip, <- (nth_first (D + 1) _ (skipn (k - D) ps) p_default) by lia.
      apply hull_member. rewrite firstn_length, skipn_length. lia.
    - intros t Ht. exists (tri s t k D D). split; [exact (span_bezier s k Hk Hg t)|].
      intros i Hi. apply (tri_value s t k Hwf Hk); [exact Hs|split; [cbn; lia|exact Ht]|exact Hi].
  Qed.

  Variable s : bspline R P.
  Hypothesis Hnew : bspline_new D ks ps = Ret (Ok s).

  (** the code's evaluation *)
  Lemma code_span k t : bs_kind s <> Unclamped -> (D <= k < C)%nat -> U k + eps <= t < U (k + 1) ->
    exists p, bspline_eval s t = Ret (Ok p) /\
      bezier_eval (Bezier (span_points (BSpline D ks Clamped (erase p_default k ps)) k)) ((t - U k) / (U (k + 1) - U k)) = Ret p.
  Proof.
    intros Hc Hk Ht. destruct (sizes D ks ps s Hnew) as [HD HK]. pose proof (ks_sorted D ks ps s Hnew) as Hs.
    pose proof eps_pos as He. assert (Hg : U k < U (k + 1)) by lra.
    set (z := BSpline D ks Clamped (erase p_default k ps)).
    assert (L : length (erase p_default k ps) = C) by (apply erase_length; lia).
    assert (Hwf : well_formed z) by (split; cbn; lia).
    assert (Hk' : (bs_degree z <= k < length (bs_points z))%nat) by (cbn; lia).
    destruct (eval_in_span D ks ps s Hnew t k Hc Hk Ht) as (p & Ep & Hp).
    exists p. split; [exact Ep|].
    change (bezier_eval (Bezier (span_points z k)) ((t - knot z k) / (knot z (k + 1) - knot z k)) = Ret p).
    rewrite (span_bezier z k Hk' Hg t). f_equal. apply lp_ext. intros i Hi.
    rewrite (tri_value z t k Hwf Hk'); [|exact Hs|split; [cbn; lia|cbn; lra]|exact Hi].
    rewrite (Hp i Hi). cbn [z bs_degree bs_knots bs_points]. unfold spline_coord. rewrite L.
    rewrite <- (basis_last (fun m => U m) D k t); [|apply (monoU D ks ps s Hnew); lia|lra].
    set (B := fun j => basis (fun m => U m) D j t).
    rewrite (Rsum_ext (fun j => basis (fun m => U m) D j t * coord (nth j (erase p_default k ps) p_default) i)
              (fun j => B j * coord (nth j ps p_default) i - (if (j =? k)%nat then B j * coord (nth j ps p_default) i else 0))).
    2:{ intros j Hj. rewrite erase_nth by lia. fold (B j). destruct (j =? k)%nat; [|ring].
        rewrite lp_default by exact Hi. ring. }
    rewrite Rsum_minus. f_equal.
    rewrite (Rsum_single _ _ k); [now rewrite Nat.eqb_refl|lia|].
    intros j Hj N. apply Nat.eqb_neq in N. now rewrite N.
  Qed.

  Lemma code_bezier k : bs_kind s <> Unclamped -> (D <= k < C)%nat -> U k < U (k + 1) ->
    exists qs, length qs = (D + 1)%nat /\ (forall q, In q qs -> in_hull (firstn D (skipn (k - D) ps) ++ [p_default]) q) /\
      forall t, U k + eps <= t < U (k + 1) -> exists p, bspline_eval s t = Ret (Ok p) /\
        bezier_eval (Bezier qs) ((t - U k) / (U (k + 1) - U k)) = Ret p.
  Proof.
    intros Hc Hk Hg. destruct (sizes D ks ps s Hnew) as [HD HK]. pose proof (ks_sorted D ks ps s Hnew) as Hs.
    set (z := BSpline D ks Clamped (erase p_default k ps)).
    assert (L : length (erase p_default k ps) = C) by (apply erase_length; lia).
    assert (Hwf : well_formed z) by (split; cbn; lia).
    assert (Hk' : (bs_degree z <= k < length (bs_points z))%nat) by (cbn; lia).
    exists (span_points z k). split; [apply span_points_length|]. split.
    - apply (span_points_hull z k Hwf Hs Hk' Hg). intros m Hm. cbn [z bs_degree] in Hm. unfold cpoint. cbn [z bs_points].
      rewrite erase_nth by lia. set (W := firstn D (skipn (k - D) ps) ++ [p_default]).
      assert (LW : length W = (D + 1)%nat).
      { unfold W. rewrite app_length, firstn_length, skipn_length. cbn [length]. lia. }
      assert (N : nth (m - (k - D)) W p_default = if (m =? k)%nat then p_default else nth m ps p_default).
      { unfold W. destruct (Nat.eqb_spec m k) as [->|N].
        - rewrite app_nth2; rewrite firstn_length, skipn_length, Nat.min_l by lia; [|lia].
          replace (k - (k - D) - D)%nat with 0%nat by lia. reflexivity.
        - rewrite app_nth1 by (rewrite firstn_length, skipn_length; lia).
          rewrite nth_first by lia. rewrite nth_skip. f_equal. lia. }
      rewrite <- N. apply hull_member. lia.
    - intros t Ht. apply code_span; assumption.
  Qed.

  (** the repaired evaluation *)
  Lemma fixed_bezier k : (D <= k < C)%nat -> U k < U (k + 1) ->
    exists qs, length qs = (D + 1)%nat /\ (forall q, In q qs -> in_hull (firstn (D + 1) (skipn (k - D) ps)) q) /\
      forall t, U k <= t -> t < U (k + 1) \/ (t = U (k + 1) /\ k + 1 = C)%nat -> exists p, fixed_eval s t = Ret (Ok p) /\
        bezier_eval (Bezier qs) ((t - U k) / (U (k + 1) - U k)) = Ret p.
  Proof.
    intros Hk Hg. destruct (fields D ks ps s Hnew) as (F1 & F2 & F3).
    pose proof (wf D ks ps s Hnew) as Hwf. pose proof (ssrt D ks ps s Hnew) as Hs.
    assert (G : forall m, knot s m = U m) by (intros m; apply (knot_U D ks ps s Hnew)).
    assert (Hg' : knot s k < knot s (k + 1)) by now rewrite !G.
    assert (Hk' : (bs_degree s <= k < length (bs_points s))%nat) by (rewrite F1, F3; exact Hk).
    exists (span_points s k). split; [now rewrite span_points_length, F1|]. split.
    - apply (span_points_hull s k Hwf Hs Hk' Hg'). rewrite F1. intros m Hm. unfold cpoint. rewrite F3.
      replace m with (k - D + (m - (k - D)))%nat by lia. rewrite <- nth_skip, <- (nth_first (D + 1) _ (skipn (k - D) ps) p_default) by lia.
      apply hull_member. rewrite firstn_length, skipn_length. lia.
    - intros t Ht Ht'. exists (tri s t k D D). split; [|rewrite <- !G; rewrite <- F1; exact (span_bezier s k Hk' Hg' t)].
      destruct Ht' as [Ht'|[-> Hl]].
      + rewrite <- F1. apply fixed_eval_span; auto. rewrite !G. lra.
      + rewrite <- F1, <- G, Hl. replace k with (length (bs_points s) - 1)%nat by (rewrite F3; lia). rewrite <- F3.
        apply fixed_eval_last; auto.
  Qed.
End Spans.
