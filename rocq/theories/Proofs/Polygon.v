(** How far a curve can be from its control polygon. *)
From Coq Require Import Reals List Arith Lia Lra Psatz.
From Verif Require Import Base.Outcome Base.Scalar Model.Point Model.Line Model.Quadratic Model.Cubic Model.Bezier
  Model.BSpline Model.Repairs Inst.RealInst
  Spec.Sums Spec.Lawful Spec.Bernstein Spec.Basis Spec.Blossom Spec.Subdivision Spec.SplinePoints Spec.Polygon Spec.Points
  Proofs.PointFacts Proofs.RealTac Proofs.Metric Proofs.BezierReal Proofs.ArclenFacts Proofs.CurveCalc Proofs.Stability
  Proofs.Sampling Proofs.Subdivision Proofs.BasisCalc Proofs.BSplineReal Proofs.BSplineEval Proofs.BlossomFacts Proofs.BlossomEval Proofs.RepairSpline Proofs.BoxSpec.
Import ListNotations.
Local Open Scope R_scope.

(** control points against the line through two neighbours *)
Section Legs.
  Variables (x : nat -> R) (p : nat -> nat -> R) (d n : nat) (S : R).
  Hypothesis Hx : forall j, (j < n)%nat -> x j < x (j + 1)%nat.
  Local Notation sl m := (fun i => (p (m + 1)%nat i - p m i) / (x (m + 1)%nat - x m)).
  Hypothesis Hb : forall j, (j + 2 <= n)%nat -> nrm (fun i => sl (j + 1)%nat i - sl j i) d <= S * (x (j + 2)%nat - x j).
  Variable k : nat.
  Hypothesis Hk : (k < n)%nat.
  Local Notation off j := (fun i => p j i - (p k i + (x j - x k) * sl k i)).

  Lemma slopes_up m : (k + m < n)%nat -> nrm (fun i => sl (k + m)%nat i - sl k i) d <= S * (x (k + m + 1)%nat + x (k + m)%nat - x (k + 1)%nat - x k).
  Proof.
    induction m as [|m IH]; intros Hm.
    - rewrite Nat.add_0_r. right. rewrite (nrm_ext _ (fun _ => 0)) by (intros; ring). rewrite nrm_0. ring.
    - specialize (IH ltac:(lia)). pose proof (Hb (k + m)%nat ltac:(lia)) as H.
      replace (k + Datatypes.S m)%nat with (k + m + 1)%nat by lia. replace (k + m + 1 + 1)%nat with (k + m + 2)%nat in * by lia.
      rewrite (nrm_ext _ (fun i => (sl (k + m)%nat i - sl k i) + ((p (k + m + 2)%nat i - p (k + m + 1)%nat i) / (x (k + m + 2)%nat - x (k + m + 1)%nat) - sl (k + m)%nat i)))
        by (intros; ring).
      eapply Rle_trans; [apply minkowski|]. lra.
  Qed.
  Lemma slopes_down m : (m <= k)%nat -> nrm (fun i => sl (k - m)%nat i - sl k i) d <= S * (x (k + 1)%nat + x k - x (k - m + 1)%nat - x (k - m)%nat).
  Proof.
    induction m as [|m IH]; intros Hm.
    - rewrite Nat.sub_0_r. right. rewrite (nrm_ext _ (fun _ => 0)) by (intros; ring). rewrite nrm_0. ring.
    - specialize (IH ltac:(lia)). pose proof (Hb (k - Datatypes.S m)%nat ltac:(lia)) as H.
      set (e := (k - Datatypes.S m)%nat) in *. replace (k - m)%nat with (e + 1)%nat in * by lia.
      replace (e + 1 + 1)%nat with (e + 2)%nat in * by lia.
      rewrite (nrm_ext _ (fun i => ((p (e + 2)%nat i - p (e + 1)%nat i) / (x (e + 2)%nat - x (e + 1)%nat) - sl k i)
        + - 1 * ((p (e + 2)%nat i - p (e + 1)%nat i) / (x (e + 2)%nat - x (e + 1)%nat) - sl e i))) by (intros; ring).
      eapply Rle_trans; [apply minkowski|]. rewrite nrm_scal. replace (Rabs (- 1)) with 1 by (rewrite Rabs_left; lra). lra.
  Qed.
  Lemma off_line j : (j <= n)%nat -> nrm (off j) d <= S * ((x j - x k) * (x j - x (k + 1)%nat)).
  Proof.
    intros Hj. destruct (le_lt_dec j k) as [L|L].
    - replace j with (k - (k - j))%nat by lia. assert (Hm : (k - j <= k)%nat) by lia. revert Hm. generalize (k - j)%nat as m. clear j Hj L.
      induction m as [|m IH]; intros Hm.
      + rewrite Nat.sub_0_r. right. rewrite (nrm_ext _ (fun _ => 0)); [rewrite nrm_0; ring|]. intros i _. unfold Rdiv. ring.
      + specialize (IH ltac:(lia)). pose proof (slopes_down (Datatypes.S m) Hm) as H. set (e := (k - Datatypes.S m)%nat) in *.
        replace (k - m)%nat with (e + 1)%nat in * by lia. pose proof (Hx e ltac:(lia)) as He.
        rewrite (nrm_ext _ (fun i => (p (e + 1)%nat i - (p k i + (x (e + 1)%nat - x k) * sl k i)) + - (x (e + 1)%nat - x e) * (sl e i - sl k i))).
        2:{ intros i _. pose proof (Hx k Hk). field. lra. }
        eapply Rle_trans; [apply minkowski|]. rewrite nrm_scal, Rabs_left by lra.
        apply (Rmult_le_compat_l (x (e + 1)%nat - x e)) in H; [|lra]. lra.
    - replace j with (k + (j - k))%nat by lia. assert (Hm : (k + (j - k) <= n)%nat) by lia. revert Hm. generalize (j - k)%nat as m. clear j Hj L.
      induction m as [|m IH]; intros Hm.
      + rewrite Nat.add_0_r. right. rewrite (nrm_ext _ (fun _ => 0)); [rewrite nrm_0; ring|]. intros i _. unfold Rdiv. ring.
      + specialize (IH ltac:(lia)). pose proof (slopes_up m ltac:(lia)) as H. set (e := (k + m)%nat) in *.
        replace (k + Datatypes.S m)%nat with (e + 1)%nat in * by lia. pose proof (Hx e ltac:(lia)) as He.
        rewrite (nrm_ext _ (fun i => (p e i - (p k i + (x e - x k) * sl k i)) + (x (e + 1)%nat - x e) * (sl e i - sl k i))).
        2:{ intros i _. pose proof (Hx k Hk). field. lra. }
        eapply Rle_trans; [apply minkowski|]. rewrite nrm_scal, Rabs_pos_eq by lra.
        apply (Rmult_le_compat_l (x (e + 1)%nat - x e)) in H; [|lra]. lra.
  Qed.

  (** ... and weighted means of them *)
  Lemma off_mean (w : nat -> R) t (q : nat -> R) : (forall j, (j <= n)%nat -> 0 <= w j) ->
    Rsum w (n + 1) = 1 -> Rsum (fun j => w j * x j) (n + 1) = t ->
    (forall i, (i < d)%nat -> q i = Rsum (fun j => w j * p j i) (n + 1)) ->
    nrm (fun i => q i - (p k i + (t - x k) * sl k i)) d
      <= S * (Rsum (fun j => w j * ((x j - t) * (x j - t))) (n + 1) + (t - x k) * (t - x (k + 1)%nat)).
  Proof.
    intros Hw W1 Wt Hq.
    rewrite (nrm_ext _ (fun i => Rsum (fun j => w j * off j i) (n + 1))).
    2:{ intros i Hi. rewrite (Hq i Hi).
        rewrite (Rsum_ext (fun j => w j * off j i) (fun j => w j * p j i - ((p k i - x k * sl k i) * w j + sl k i * (w j * x j)))) by (intros; ring).
        rewrite Rsum_minus, Rsum_plus, !Rsum_scal, W1, Wt. ring. }
    eapply Rle_trans; [apply (nrm_combination w (fun j => off j))|].
    eapply Rle_trans; [apply (Rsum_le _ (fun j => w j * (S * ((x j - x k) * (x j - x (k + 1)%nat)))))|].
    - intros j Hj. rewrite Rabs_pos_eq by (apply Hw; lia). apply Rmult_le_compat_l; [apply Hw; lia|]. apply off_line. lia.
    - right. rewrite (Rsum_ext _ (fun j => S * (w j * ((x j - t) * (x j - t)) + ((2 * t - x k - x (k + 1)%nat) * (w j * x j) + (x k * x (k + 1)%nat - t * t) * w j)))) by (intros; ring).
      rewrite Rsum_scal, !Rsum_plus, !Rsum_scal, W1, Wt. ring.
  Qed.
End Legs.

Section Bezier.
  Context {E : Eps} {P : Type} {PT : Point R P} {LP : LawfulPoint P}.
  Local Notation dim := (p_dim (P := P)).

  Lemma line_coord (a b : P) u i : (i < dim)%nat -> coord (line_eval (Line a b) u) i = coord a i + u * (coord b i - coord a i).
  Proof. intros Hi. unfold line_eval. cbn [l_start l_end]. coords. rs. ring. Qed.

  Lemma traced_polygon (f : R -> P) ps k p q t S : traces f ps -> bend_bound ps S ->
    nth_error ps k = Some p -> nth_error ps (k + 1) = Some q -> 0 <= t <= 1 ->
    let n := INR (length ps - 1) in let u := n * t - INR k in
    dist (f t) (line_eval (Line p q) u) <= S * (n * (t * (1 - t)) - u * (1 - u)).
  Proof.
    intros Hf [HS Hb] Hp Hq Ht n u.
    assert (Hk : (k + 1 < length ps)%nat) by (apply nth_error_Some; rewrite Hq; discriminate).
    assert (Hne : ps <> []) by (destruct ps; [simpl in Hk; lia|discriminate]).
    set (N := (length ps - 1)%nat) in *. set (P0 := fun j i => coord (nth j ps p) i).
    pose proof (off_mean INR P0 dim N S ltac:(intros; rewrite plus_INR; simpl; lra)) as H.
    assert (HB : forall j, (j + 2 <= N)%nat ->
      nrm (fun i => (P0 (j + 1 + 1)%nat i - P0 (j + 1)%nat i) / (INR (j + 1 + 1) - INR (j + 1)) - (P0 (j + 1)%nat i - P0 j i) / (INR (j + 1) - INR j)) dim
        <= S * (INR (j + 2) - INR j)).
    { intros j Hj.
      assert (A : forall m, (m < length ps)%nat -> nth_error ps m = Some (nth m ps p)) by (intros; apply nth_error_nth'; auto).
      specialize (Hb j _ _ _ (A j ltac:(unfold N in Hj; lia)) (A (j + 1)%nat ltac:(unfold N in Hj; lia)) (A (j + 2)%nat ltac:(unfold N in Hj; lia))).
      rewrite (nrm_ext _ (fun i => 2 * (coord (p_mul (p_add (nth j ps p) (nth (j + 2) ps p)) (1 / 2)) i - coord (nth (j + 1) ps p) i))).
      2:{ intros i Hi. coords. unfold P0. replace (j + 1 + 1)%nat with (j + 2)%nat by lia. rewrite !plus_INR. simpl (INR 2). simpl (INR 1). field. lra. }
      rewrite nrm_scal, Rabs_pos_eq by lra. rewrite plus_INR. simpl (INR 2). rewrite dist_nrm in Hb. lra. }
    specialize (H HB k ltac:(unfold N; lia) (fun j => bernstein N j t) (INR N * t) (coord (f t))).
    rewrite dist_nrm. eapply Rle_trans; [|eapply Rle_trans; [apply H|]].
    - right. apply nrm_ext. intros i Hi. rewrite line_coord by exact Hi. unfold P0.
      rewrite (nth_error_nth ps k p Hp), (nth_error_nth ps (k + 1) p Hq). unfold u, n. rewrite plus_INR. simpl (INR 1). field. lra.
    - intros j Hj. now apply bernstein_nonneg.
    - pose proof (weight_mean N t 1 0) as W. rewrite Nat.add_1_r. rewrite (Rsum_ext _ (fun j => bernstein N j t * (1 + INR j * 0))) by (intros; ring).
      rewrite W. ring.
    - pose proof (weight_mean N t 0 1) as W. rewrite Nat.add_1_r. rewrite (Rsum_ext _ (fun j => bernstein N j t * (0 + INR j * 1))) by (intros; ring).
      rewrite W. ring.
    - intros i Hi. rewrite (Hf t i Hi), (curve_coord_dc ps t i Hne), dc_bernstein. fold N. rewrite Nat.add_1_r. apply Rsum_ext.
      intros j Hj. cbn [Nat.add]. unfold cs, P0. do 2 f_equal. apply nth_indep. unfold N in Hj. lia.
    - right. f_equal. pose proof (weight_variance N t ltac:(unfold N; lia)) as W. assert (0 < INR N) by (apply lt_0_INR; unfold N; lia).
      rewrite Nat.add_1_r. rewrite (Rsum_ext _ (fun j => INR N * INR N * (bernstein N j t * ((INR j / INR N - t) * (INR j / INR N - t))))).
      2:{ intros j _. field. lra. }
      rewrite Rsum_scal, W. unfold u, n. rewrite plus_INR. simpl (INR 1). field. lra.
  Qed.

  (** largest value of the bound on a leg, and on all legs *)
  Lemma leg_most n k t : (k < n)%nat -> 0 <= INR n * t - INR k <= 1 ->
    INR n * (t * (1 - t)) - (INR n * t - INR k) * (1 - (INR n * t - INR k)) <= INR (n / 2 * (n - n / 2)) / INR n.
  Proof.
    intros Hk Hu. assert (Pn : 0 < INR n) by (apply lt_0_INR; lia).
    assert (M : forall j, (j <= n)%nat -> (INR n - INR j) * INR j <= INR (n / 2 * (n - n / 2))).
    { intros j Hj. rewrite <- minus_INR, <- mult_INR by exact Hj. apply le_INR.
      pose proof (Nat.div_mod n 2 ltac:(lia)) as E2. pose proof (Nat.mod_upper_bound n 2 ltac:(lia)) as B2.
      set (h := (n / 2)%nat) in *. destruct (n mod 2)%nat as [|[|r]]; [| |lia].
      - replace n with (2 * h)%nat by lia. clear - Hj E2. assert (j <= 2 * h)%nat by lia. replace (2 * h - h)%nat with h by lia.
        assert (Z : ((2 * h - j) * j + (h - j) * (h - j) + (j - h) * (j - h) = h * h)%nat); [|lia].
        destruct (le_lt_dec j h) as [L|L].
        + replace (j - h)%nat with 0%nat by lia. replace h with (j + (h - j))%nat at 1 4 5 by lia. generalize (h - j)%nat. intros. nia.
        + replace (h - j)%nat with 0%nat by lia. nia.
      - replace (n - h)%nat with (h + 1)%nat by lia. destruct (le_lt_dec j h) as [L|L]; nia. }
    set (u := INR n * t - INR k) in *. assert (Et : t = (INR k + u) / INR n) by (unfold u; field; lra).
    pose proof (M k ltac:(lia)) as M0. pose proof (M (k + 1)%nat ltac:(lia)) as M1. set (B := INR (n / 2 * (n - n / 2))) in *.
    rewrite plus_INR in M1. simpl (INR 1) in M1.
    apply Rmult_le_reg_r with (INR n); [exact Pn|]. unfold Rdiv. rewrite Rmult_assoc, Rinv_l, Rmult_1_r by lra.
    apply Rle_trans with ((1 - u) * ((INR n - INR k) * INR k) + u * ((INR n - (INR k + 1)) * (INR k + 1))).
    - rewrite Et. apply Rminus_le.
      match goal with |- ?e <= 0 => replace e with (- ((INR n - 1) * (u * (1 - u)))) by (field; lra) end.
      assert (1 <= INR n) by (change 1 with (INR 1); apply le_INR; lia). apply Ropp_le_cancel. rewrite Ropp_involutive, Ropp_0.
      apply Rmult_le_pos; [lra|]. apply Rmult_le_pos; lra.
    - assert ((1 - u) * ((INR n - INR k) * INR k) <= (1 - u) * B) by (apply Rmult_le_compat_l; lra).
      assert (u * ((INR n - (INR k + 1)) * (INR k + 1)) <= u * B) by (apply Rmult_le_compat_l; lra). lra.
  Qed.

  Lemma bezier_polygon_gap ps k p q t S : bend_bound ps S -> nth_error ps k = Some p -> nth_error ps (k + 1) = Some q -> 0 <= t <= 1 ->
    let n := INR (length ps - 1) in let u := n * t - INR k in
    exists x, bezier_eval (Bezier ps) t = Ret x /\ dist x (line_eval (Line p q) u) <= S * (n * (t * (1 - t)) - u * (1 - u)).
  Proof.
    intros Hb Hp Hq Ht n u. destruct (bezier_function ps ltac:(intros ->; destruct k; discriminate)) as (f & Hf). exists (f t). split; [apply Hf|].
    apply (traced_polygon f ps k p q t S); auto using traces_bezier.
  Qed.
  Lemma traced_near (f : R -> P) ps t S : traces f ps -> bend_bound ps S -> (2 <= length ps)%nat -> 0 <= t <= 1 ->
    let n := (length ps - 1)%nat in
    exists k p q u, nth_error ps k = Some p /\ nth_error ps (k + 1) = Some q /\ 0 <= u <= 1 /\ INR n * t = INR k + u /\
      dist (f t) (line_eval (Line p q) u) <= S * (INR (n / 2 * (n - n / 2)) / INR n).
  Proof.
    intros Hf Hb H2 Ht n. assert (Pn : 0 < INR n) by (apply lt_0_INR; unfold n; lia).
    destruct (cell_of (INR n * t) n ltac:(unfold n; lia) ltac:(nra)) as (k & Hk & Hx).
    destruct (nth_error ps k) as [p|] eqn:Ep; [|apply nth_error_None in Ep; unfold n in Hk; lia].
    destruct (nth_error ps (k + 1)) as [q|] eqn:Eq; [|apply nth_error_None in Eq; unfold n in Hk; lia].
    exists k, p, q, (INR n * t - INR k). split; [exact Ep|]. split; [exact Eq|]. split; [lra|]. split; [ring|].
    eapply Rle_trans; [apply (traced_polygon f ps k p q t S); auto|]. apply Rmult_le_compat_l; [apply Hb|].
    apply leg_most; [exact Hk|lra].
  Qed.

  (** the pieces of repeated halving *)
  Lemma halved_near ps r S : bend_bound ps S -> (2 <= length ps)%nat -> let n := (length ps - 1)%nat in
    exists l, halved (fun c => bezier_split c (/ 2)) r (Bezier ps) = Ret l /\ length l = (2 ^ r)%nat /\
      forall i c v, nth_error l i = Some c -> 0 <= v <= 1 ->
        exists x k p q u, bezier_eval (Bezier ps) ((INR i + v) / 2 ^ r) = Ret x /\
          nth_error (bz_points c) k = Some p /\ nth_error (bz_points c) (k + 1) = Some q /\ 0 <= u <= 1 /\ INR n * v = INR k + u /\
          dist x (line_eval (Line p q) u) <= S / 4 ^ r * (INR (n / 2 * (n - n / 2)) / INR n).
  Proof.
    intros Hb H2 n. assert (Hne : ps <> []) by (intros ->; cbn in H2; lia). destruct (leg_bound_ex ps) as (L & HL).
    destruct (bezier_pieces ps r L S Hne HL Hb) as (l & El & Ll & Hl). exists l. split; [exact El|]. split; [exact Ll|].
    intros i c v Hc Hv. destruct (Hl i c Hc) as (Lc & Ec & _ & Bc). destruct c as [qs]. cbn [bz_points] in *.
    assert (Hq : qs <> []) by (intros ->; cbn in Lc; lia).
    destruct (bezier_function qs Hq) as (f & Hf).
    destruct (traced_near f qs v (S / 4 ^ r) (traces_bezier qs f Hf) Bc ltac:(lia) Hv) as (k & p & q & u & A1 & A2 & A3 & A4 & A5).
    rewrite Lc in A4, A5. exists (f v), k, p, q, u. rewrite <- Ec. now auto 10.
  Qed.
End Bezier.

Section Spline.
  Context {E : Eps} {P : Type} {PT : Point R P} {LP : LawfulPoint P}.
  Variables (D : nat) (ks : list R) (ps : list P) (S : R).
  Local Notation C := (length ps).
  Local Notation U i := (nth i ks 0).
  Local Notation V := (fun m => nth m ks 0).
  Local Notation x := (greville V D).
  Hypotheses (Hs : sorted ks) (HK : length ks = (C + D + 1)%nat) (HC : (D < C)%nat) (HD : (1 <= D)%nat).

  Lemma total_le (f g : nat -> R) : forall n a, (forall i, (a <= i < a + n)%nat -> f i <= g i) -> total (map f (seq a n)) <= total (map g (seq a n)).
  Proof.
    induction n as [|n IH]; intros a H; [right; reflexivity|]. cbn [seq map]. unfold total in *. cbn [fold_right].
    pose proof (IH (Datatypes.S a) ltac:(intros i Hi; apply H; lia)). pose proof (H a ltac:(lia)). lra.
  Qed.
  Lemma total_const c : forall n a, total (map (fun _ => c) (seq a n)) = INR n * c.
  Proof.
    induction n as [|n IH]; intros a; [cbn; ring|]. rewrite S_INR. cbn [seq map]. unfold total in *. cbn [fold_right]. rewrite IH. ring.
  Qed.
  Lemma greville_range j lo hi : (forall i, (j < i <= j + D)%nat -> lo <= U i <= hi) -> lo <= x j <= hi.
  Proof.
    intros H. assert (Pd : 0 < INR D) by (apply lt_0_INR; lia). unfold greville, after.
    pose proof (total_le (fun _ => lo) V D (j + 1) ltac:(intros i Hi; apply H; lia)) as A.
    pose proof (total_le V (fun _ => hi) D (j + 1) ltac:(intros i Hi; apply H; lia)) as B. rewrite total_const in A, B.
    split; apply Rmult_le_reg_r with (INR D); try exact Pd; unfold Rdiv; rewrite Rmult_assoc, Rinv_l, Rmult_1_r by lra; lra.
  Qed.
  Lemma total_step (f : nat -> R) : forall n a, total (map f (seq (a + 1) n)) - total (map f (seq a n)) = f (a + n)%nat - f a.
  Proof.
    induction n as [|n IH]; intros a; [cbn; rewrite Nat.add_0_r; ring|]. cbn [seq map]. unfold total in *. cbn [fold_right].
    specialize (IH (Datatypes.S a)). replace (Datatypes.S a + 1)%nat with (Datatypes.S (a + 1)) in IH by lia.
    replace (a + Datatypes.S n)%nat with (Datatypes.S a + n)%nat by lia. replace (Datatypes.S a) with (a + 1)%nat in * by lia. lra.
  Qed.
  Lemma greville_rises j : x (j + 1)%nat - x j = (U (j + D + 1) - U (j + 1)) / INR D.
  Proof.
    assert (Pd : 0 < INR D) by (apply lt_0_INR; lia). unfold greville, after.
    pose proof (total_step V D (j + 1)) as T. cbn beta in T. replace (j + 1 + D)%nat with (j + D + 1)%nat in T by lia. rewrite <- T. field. lra.
  Qed.

  Hypothesis Hgap : forall j, (j + 1 < C)%nat -> U (j + 1) < U (j + D + 1).
  Lemma greville_lt j : (j < C - 1)%nat -> x j < x (j + 1)%nat.
  Proof.
    intros Hj. assert (Pd : 0 < INR D) by (apply lt_0_INR; lia).
    assert (0 < x (j + 1)%nat - x j); [|lra]. rewrite greville_rises. pose proof (Hgap j ltac:(lia)).
    apply Rdiv_lt_0_compat; lra.
  Qed.
  Hypothesis Hb : slope_bound x ps S.

  Lemma spline_polygon t p k a b : U D <= t < U C -> curve_point D ks ps t p ->
    nth_error ps k = Some a -> nth_error ps (k + 1) = Some b ->
    dist p (line_eval (Line a b) ((t - x k) / (x (k + 1)%nat - x k)))
      <= S * (Rsum (fun j => basis V D j t * ((x j - t) * (x j - t))) C + (t - x k) * (t - x (k + 1)%nat)).
  Proof.
    intros Ht Hp Ha Hq. destruct Hp as [[_ Hp]|[Hp _]]; [|lra].
    assert (Hk : (k + 1 < C)%nat) by (apply nth_error_Some; rewrite Hq; discriminate).
    set (P0 := fun j i => coord (nth j ps p_default) i).
    assert (A : forall m, (m < C)%nat -> nth_error ps m = Some (nth m ps p_default)) by (intros; apply nth_error_nth'; auto).
    assert (HB : forall j, (j + 2 <= C - 1)%nat ->
      nrm (fun i => (P0 (j + 1 + 1)%nat i - P0 (j + 1)%nat i) / (x (j + 1 + 1)%nat - x (j + 1)%nat) - (P0 (j + 1)%nat i - P0 j i) / (x (j + 1)%nat - x j)) (p_dim (P := P))
        <= S * (x (j + 2)%nat - x j)).
    { intros j Hj. pose proof (Hb j _ _ _ (A j ltac:(lia)) (A (j + 1)%nat ltac:(lia)) (A (j + 2)%nat ltac:(lia))) as H.
      rewrite dist_nrm in H. eapply Rle_trans; [|exact H]. right. apply nrm_ext. intros i Hi. coords. unfold P0, Rdiv.
      replace (j + 1 + 1)%nat with (j + 2)%nat by lia. reflexivity. }
    pose proof (off_mean x P0 (p_dim (P := P)) (C - 1) S greville_lt HB k ltac:(lia) (fun j => basis V D j t) t (coord p)) as H.
    replace (C - 1 + 1)%nat with C in H by lia. rewrite dist_nrm. eapply Rle_trans; [|apply H].
    - right. apply nrm_ext. intros i Hi. rewrite line_coord by exact Hi. unfold P0.
      rewrite (nth_error_nth ps k p_default Ha), (nth_error_nth ps (k + 1) p_default Hq). pose proof (greville_lt k ltac:(lia)). field. lra.
    - intros j Hj. apply basis_nonneg. intros c e H1 H2. apply Hs. lia.
    - apply (partition_of_unity D C ks); [exact Hs|lia|exact Ht].
    - exact (greville_curve D ks C Hs HK t HD Ht).
    - intros i Hi. rewrite (Hp i Hi). reflexivity.
  Qed.

  (** in the span [m] *)
  Lemma spread t m : (D <= m < C)%nat -> U m <= t < U (m + 1) ->
    Rsum (fun j => basis V D j t * ((x j - t) * (x j - t))) C <= (U (m + D) - U (m + 1 - D)) * (U (m + D) - U (m + 1 - D)).
  Proof.
    intros Hm Ht. set (H := U (m + D) - U (m + 1 - D)).
    assert (HdU : U D <= U m) by (apply Hs; lia). assert (HcU : U (m + 1) <= U C) by (apply Hs; lia).
    apply Rle_trans with (Rsum (fun j => H * H * basis V D j t) C).
    - apply Rsum_le. intros j Hj. assert (Mj : forall a b, (j <= a <= b)%nat -> (b <= j + D + 1)%nat -> V a <= V b) by (intros a b H1 H2; apply Hs; lia).
      pose proof (basis_nonneg V t D j Mj) as Nj.
      destruct (le_lt_dec (m - D) j) as [L1|L1]; [destruct (le_lt_dec j m) as [L2|L2]|].
      + assert (X : U (m + 1 - D) <= x j <= U (m + D)) by (apply greville_range; intros i Hi; split; apply Hs; lia).
        assert (T : U (m + 1 - D) <= t <= U (m + D)).
        { split; [apply Rle_trans with (U m); [apply Hs; lia|lra]|apply Rle_trans with (U (m + 1)); [lra|apply Hs; lia]]. }
        rewrite (Rmult_comm (H * H)). apply Rmult_le_compat_l; [exact Nj|]. unfold H. nra.
      + rewrite (basis_left V t D j Mj); [right; ring|]. apply Rlt_le_trans with (U (m + 1)); [lra|]. apply Hs. lia.
      + rewrite (basis_right V t D j Mj); [right; ring|]. apply Rle_trans with (U m); [apply Hs; lia|lra].
    - rewrite Rsum_scal, (partition_of_unity D C ks) by (auto; lia || lra). lra.
  Qed.

  (** the leg under a parameter *)
  Lemma leg_exists t : U D <= t < U C -> exists k, (k + 1 < C)%nat /\ x k <= t <= x (k + 1)%nat.
  Proof.
    intros Ht. assert (X0 : x 0%nat <= t).
    { apply Rle_trans with (U D); [|lra]. apply (greville_range 0 (U 1) (U D)). intros i Hi. split; apply Hs; lia. }
    assert (X1 : t <= x (C - 1)%nat).
    { apply Rle_trans with (U C); [lra|]. apply (greville_range (C - 1) (U C) (U (C - 1 + D))). intros i Hi. split; apply Hs; lia. }
    assert (G : forall n, (n <= C - 1)%nat -> t <= x n -> (0 < n)%nat -> exists k, (k + 1 < C)%nat /\ x k <= t <= x (k + 1)%nat).
    { induction n as [|n IH]; intros Hn Hx H0; [lia|]. destruct (Rle_lt_dec t (x n)) as [L|L].
      - destruct n as [|n]; [exists 0%nat; split; [lia|split; [exact X0|exact Hx]]|apply IH; auto; lia].
      - exists n. rewrite Nat.add_1_r. split; [lia|]. lra. }
    apply (G (C - 1)%nat); auto. lia.
  Qed.
  Lemma spline_near t p m : (D <= m < C)%nat -> U m <= t < U (m + 1) -> 0 <= S -> curve_point D ks ps t p ->
    exists k a b u, nth_error ps k = Some a /\ nth_error ps (k + 1) = Some b /\ 0 <= u <= 1 /\ t = (1 - u) * x k + u * x (k + 1)%nat /\
      dist p (line_eval (Line a b) u) <= S * ((U (m + D) - U (m + 1 - D)) * (U (m + D) - U (m + 1 - D))).
  Proof.
    intros Hm Ht HS Hp. assert (HdU : U D <= U m) by (apply Hs; lia). assert (HcU : U (m + 1) <= U C) by (apply Hs; lia).
    destruct (leg_exists t ltac:(lra)) as (k & Hk & Hx). pose proof (greville_lt k ltac:(lia)) as G.
    exists k, (nth k ps p_default), (nth (k + 1) ps p_default), ((t - x k) / (x (k + 1)%nat - x k)).
    split; [apply nth_error_nth'; lia|]. split; [apply nth_error_nth'; lia|]. split; [|split].
    - split; [apply Rmult_le_pos; [lra|left; apply Rinv_0_lt_compat; lra]|].
      apply Rmult_le_reg_r with (x (k + 1)%nat - x k); [lra|]. unfold Rdiv. rewrite Rmult_assoc, Rinv_l by lra. lra.
    - field. lra.
    - eapply Rle_trans; [apply (spline_polygon t p k); auto; [lra|apply nth_error_nth'; lia|apply nth_error_nth'; lia]|].
      apply Rmult_le_compat_l; [exact HS|]. pose proof (spread t m Hm Ht).
      assert ((t - x k) * (t - x (k + 1)%nat) <= 0) by nra. lra.
  Qed.
End Spline.

(** the bound is attained: control values 0, 1, 4, ..., n^2 *)
Section Squares.
  Context {E : Eps}.
  Definition squares (n : nat) : list P1 := map (fun j => pt1 (INR j * INR j)) (seq 0 (n + 1)).
  Lemma squares_nth n j : (j <= n)%nat -> nth_error (squares n) j = Some (pt1 (INR j * INR j)).
  Proof.
    intros Hj. unfold squares. rewrite nth_error_map, (nth_error_nth' _ 0%nat) by (rewrite seq_length; lia).
    rewrite seq_nth by lia. reflexivity.
  Qed.
  Lemma squares_length n : length (squares n) = (n + 1)%nat.
  Proof. unfold squares. now rewrite map_length, seq_length. Qed.
  Lemma squares_bend n : bend_bound (squares n) 1.
  Proof.
    split; [lra|]. intros k a b c Ha Hb Hc.
    assert (Hk : (k + 2 < n + 1)%nat) by (rewrite <- (squares_length n); apply nth_error_Some; rewrite Hc; discriminate).
    rewrite squares_nth in Ha, Hb, Hc by lia. injection Ha as <-. injection Hb as <-. injection Hc as <-.
    right. rewrite dist_nrm. unfold nrm, sq. change (p_dim (P := P1)) with 1%nat. cbn [Rsum]. rewrite !lp_mul, !lp_add, !coord_pt1 by (cbn; lia).
    rewrite !plus_INR. simpl (INR 1). simpl (INR 2).
    match goal with |- sqrt ?e = _ => replace e with (1 * 1) by (field) end.
    apply sqrt_square. lra.
  Qed.
  Lemma squares_gap n k t : (k < n)%nat -> let u := INR n * t - INR k in
    exists x, bezier_eval (Bezier (squares n)) t = Ret x /\
      coord x 0 - coord (line_eval (Line (pt1 (INR k * INR k)) (pt1 (INR (k + 1) * INR (k + 1)))) u) 0 = INR n * (t * (1 - t)) - u * (1 - u).
  Proof.
    intros Hk u. assert (Hne : squares n <> []) by (intros Z; pose proof (squares_length n) as L; rewrite Z in L; cbn in L; lia).
    destruct (bezier_function (squares n) Hne) as (f & Hf). exists (f t). split; [apply Hf|].
    rewrite (traces_bezier _ f Hf t 0%nat) by (cbn; lia). rewrite curve_coord_dc by exact Hne. rewrite squares_length.
    replace (n + 1 - 1)%nat with n by lia. rewrite (dc_ext t n _ (fun j => (INR j - 0) * (INR j - 0))).
    - rewrite dc_second. rewrite line_coord by (cbn; lia). rewrite !coord_pt1. rewrite plus_INR. unfold u. simpl (INR 0). simpl (INR 1). ring.
    - intros j Hj. unfold cs. rewrite (nth_error_nth _ _ _ (squares_nth n j ltac:(lia))), coord_pt1. ring.
  Qed.
End Squares.
