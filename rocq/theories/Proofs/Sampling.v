(** Bezier curves through samples of a given curve (Bernstein), convex control values, mean values. *)
From Coq Require Import Reals List Arith Lia Lra Psatz.
From Coquelicot Require Import Coquelicot.
From Verif Require Import Base.Outcome Base.Scalar Model.Point Model.Line Model.Quadratic Model.Cubic
  Model.Bezier Inst.RealInst
  Spec.Sums Spec.Lawful Spec.Bernstein Spec.Points Spec.Sampling
  Proofs.OutcomeFacts Proofs.PointFacts Proofs.RealTac Proofs.Metric Proofs.ExactEval Proofs.BezierGeneric Proofs.BezierReal
  Proofs.ArclenFacts Proofs.CurveCalc Proofs.Stability Proofs.LinearPrecision.
Import ListNotations.
Local Open Scope R_scope.

(** first and second moment of the Bernstein weights *)
Lemma dc_second t : forall m j c,
  dc t m (fun k => (INR k - c) * (INR k - c)) j = (INR j + INR m * t - c) * (INR j + INR m * t - c) + INR m * (t * (1 - t)).
Proof.
  induction m as [|m IH]; intros j c; cbn [dc]; [simpl; ring|].
  rewrite !IH, plus_INR, (S_INR m). simpl (INR 1). ring.
Qed.

Lemma weight_mean n t x y : Rsum (fun k => bernstein n k t * (x + INR k * y)) (S n) = x + INR n * t * y.
Proof.
  pose proof (dc_linear t x y n 0) as H. rewrite dc_bernstein in H. cbn [Nat.add] in H. rewrite H. simpl INR. ring.
Qed.
Lemma weight_variance n t : (0 < n)%nat ->
  Rsum (fun k => bernstein n k t * ((INR k / INR n - t) * (INR k / INR n - t))) (S n) = t * (1 - t) / INR n.
Proof.
  intros Hn. assert (0 < INR n) by (apply lt_0_INR; lia).
  pose proof (dc_second t n 0 (INR n * t)) as H1. rewrite dc_bernstein in H1. cbn [Nat.add] in H1.
  rewrite (Rsum_ext _ (fun k => / (INR n * INR n) * (bernstein n k t * ((INR k - INR n * t) * (INR k - INR n * t))))).
  - rewrite Rsum_scal, H1. simpl (INR 0). field. lra.
  - intros k _. field. lra.
Qed.

Lemma quarter t : t * (1 - t) <= 1/4.
Proof. pose proof (Rle_0_sqr (t - 1/2)). unfold Rsqr in *. lra. Qed.

(** sum of weight * |k/n - t| by Cauchy-Schwarz: for any d > 0, |x| <= (x^2/d + d)/2 *)
Lemma weight_abs n t : (0 < n)%nat -> 0 <= t <= 1 ->
  Rsum (fun k => bernstein n k t * Rabs (INR k / INR n - t)) (S n) <= / (2 * sqrt (INR n)).
Proof.
  intros Hn Ht. assert (HN : 0 < INR n) by (apply lt_0_INR; lia).
  set (s := sqrt (INR n)). assert (Hs : 0 < s) by now apply sqrt_lt_R0.
  assert (Es : s * s = INR n) by (apply sqrt_sqrt; lra).
  apply Rle_trans with (Rsum (fun k => s * (bernstein n k t * ((INR k / INR n - t) * (INR k / INR n - t)))
                                        + / (4 * s) * bernstein n k t) (S n)).
  - apply Rsum_le. intros k _. pose proof (bernstein_nonneg n k t Ht) as Hb.
    set (x := INR k / INR n - t). set (b := bernstein n k t) in *.
    replace (s * (b * (x * x)) + / (4 * s) * b) with (b * (s * (x * x) + / (4 * s))) by ring.
    apply Rmult_le_compat_l; [exact Hb|].
    assert (Ha : x * x = Rabs x * Rabs x) by (unfold Rabs; destruct (Rcase_abs x); ring).
    rewrite Ha. set (a := Rabs x).
    assert (Hi : s * / (4 * s) = / 4) by (field; lra).
    assert (0 < / (4 * s)) by (apply Rinv_0_lt_compat; lra).
    apply (Rmult_le_reg_l s); [exact Hs|].
    rewrite Rmult_plus_distr_l, Hi.
    pose proof (Rle_0_sqr (s * a - 1/2)). unfold Rsqr in *. lra.
  - rewrite Rsum_plus, !Rsum_scal, weight_variance, bernstein_sum by exact Hn.
    pose proof (quarter t) as Hq. rewrite Rmult_1_r.
    apply Rle_trans with (s * (1/4 / INR n) + / (4 * s)).
    + apply Rplus_le_compat_r, Rmult_le_compat_l; [lra|].
      unfold Rdiv. apply Rmult_le_compat_r; [apply Rlt_le, Rinv_0_lt_compat, HN|]. lra.
    + right. rewrite <- Es. field. lra.
Qed.

(** control values that bend up lie above the line through two neighbours *)
Lemma convex_line (f : nat -> R) n : (forall k, (k + 2 <= n)%nat -> 2 * f (k + 1)%nat <= f k + f (k + 2)%nat) ->
  forall k j, (k < n)%nat -> (j <= n)%nat -> f k + (INR j - INR k) * (f (k + 1)%nat - f k) <= f j.
Proof.
  intros H k j Hk Hj.
  assert (Hd : forall a m, (a + m < n)%nat -> f (a + 1)%nat - f a <= f (a + m + 1)%nat - f (a + m)%nat).
  { intros a m. induction m as [|m IH]; intros Ha; [rewrite Nat.add_0_r; lra|].
    specialize (IH ltac:(lia)). pose proof (H (a + m)%nat ltac:(lia)).
    replace (a + S m + 1)%nat with (a + m + 2)%nat by lia. replace (a + S m)%nat with (a + m + 1)%nat by lia. lra. }
  destruct (le_lt_dec k j) as [Hkj|Hkj].
  - assert (Hup : forall m, (k + m <= n)%nat -> f k + INR m * (f (k + 1)%nat - f k) <= f (k + m)%nat).
    { induction m as [|m IH]; intros Hm; [simpl INR; rewrite Nat.add_0_r; lra|].
      specialize (IH ltac:(lia)). pose proof (Hd k m ltac:(lia)). rewrite S_INR.
      replace (k + S m)%nat with (k + m + 1)%nat by lia. lra. }
    specialize (Hup (j - k)%nat ltac:(lia)). rewrite minus_INR in Hup by exact Hkj.
    replace (k + (j - k))%nat with j in Hup by lia. exact Hup.
  - assert (Hdn : forall m, (m <= k)%nat -> f k - INR m * (f (k + 1)%nat - f k) <= f (k - m)%nat).
    { induction m as [|m IH]; intros Hm; [simpl INR; rewrite Nat.sub_0_r; lra|].
      specialize (IH ltac:(lia)). pose proof (Hd (k - S m)%nat (S m) ltac:(lia)) as Hx. rewrite S_INR.
      replace (k - S m + S m + 1)%nat with (k + 1)%nat in Hx by lia. replace (k - S m + S m)%nat with k in Hx by lia.
      replace (k - S m + 1)%nat with (k - m)%nat in Hx by lia. lra. }
    specialize (Hdn (k - j)%nat ltac:(lia)). rewrite minus_INR in Hdn by lia.
    replace (k - (k - j))%nat with j in Hdn by lia. lra.
Qed.

(** ... and below the chord from the first to the last *)
Lemma convex_chord (f : nat -> R) n : (forall k, (k + 2 <= n)%nat -> 2 * f (k + 1)%nat <= f k + f (k + 2)%nat) ->
  forall j, (j <= n)%nat -> INR n * f j <= INR (n - j) * f 0%nat + INR j * f n.
Proof.
  intros H j Hj. destruct (Nat.eq_dec j n) as [->|Hne]; [rewrite Nat.sub_diag; simpl (INR 0); lra|].
  pose proof (convex_line f n H j 0 ltac:(lia) ltac:(lia)) as H0.
  pose proof (convex_line f n H j n ltac:(lia) ltac:(lia)) as Hn.
  rewrite minus_INR by exact Hj. simpl (INR 0) in H0.
  pose proof (pos_INR j) as Pj. assert (Pn : 0 <= INR n - INR j) by (rewrite <- minus_INR by exact Hj; apply pos_INR).
  apply (Rmult_le_compat_l (INR n - INR j)) in H0; [|exact Pn].
  apply (Rmult_le_compat_l (INR j)) in Hn; [|exact Pj].
  set (d := f (j + 1)%nat - f j) in *.
  replace (INR n * f j) with ((INR n - INR j) * (f j + (0 - INR j) * d) + INR j * (f j + (INR n - INR j) * d)) by ring.
  lra.
Qed.

Lemma dc_le t n f g j : 0 <= t <= 1 -> (forall k, (j <= k <= j + n)%nat -> f k <= g k) -> dc t n f j <= dc t n g j.
Proof.
  intros Ht. revert j. induction n as [|n IH]; intros j H; cbn [dc]; [apply H; lia|].
  apply Rplus_le_compat; (apply Rmult_le_compat_l; [lra|]; apply IH; intros; apply H; lia).
Qed.

Lemma dc_nonneg t n f j : 0 <= t <= 1 -> (forall k, (j <= k <= j + n)%nat -> 0 <= f k) -> 0 <= dc t n f j.
Proof. intros Ht H. rewrite <- (dc_const t n 0 j). now apply dc_le. Qed.

Lemma dc_is_derive n f j t : is_derive (fun t => dc t n f j) t (INR n * dc t (n - 1) (fun i => f (i + 1)%nat - f i) j).
Proof. apply is_derive_Reals, dc_derivative. Qed.

(** a function on [0,1] whose derivative grows is convex *)
Lemma grows (f f' : R -> R) a b : a <= b -> (forall t, is_derive f t (f' t)) -> (forall t, a <= t <= b -> 0 <= f' t) -> f a <= f b.
Proof.
  intros Hab Hd Hp. destruct (Req_dec a b) as [->|Hne]; [lra|].
  destruct (MVT_gen f a b f') as (c & Hc & Ec).
  - intros x _. apply Hd.
  - intros x _. apply continuity_pt_filterlim, (@ex_derive_continuous _ R_NormedModule). exists (f' x). apply Hd.
  - rewrite Rmin_left, Rmax_right in Hc by lra. pose proof (Hp c Hc). nra.
Qed.
Lemma convex_of_derive (f f' f'' : R -> R) : (forall t, is_derive f t (f' t)) -> (forall t, is_derive f' t (f'' t)) ->
  (forall t, 0 <= t <= 1 -> 0 <= f'' t) -> forall a b s, 0 <= a <= 1 -> 0 <= b <= 1 -> 0 <= s <= 1 ->
  f ((1 - s) * a + s * b) <= (1 - s) * f a + s * f b.
Proof.
  intros H1 H2 Hp a b s Ha Hb Hs.
  assert (Hm : forall x y, 0 <= x <= y -> y <= 1 -> f' x <= f' y).
  { intros x y Hx Hy. apply (grows f' f''); [lra|exact H2|]. intros t Ht. apply Hp. lra. }
  assert (Htan : forall x y, 0 <= x <= 1 -> 0 <= y <= 1 -> f x + f' x * (y - x) <= f y).
  { intros x y Hx Hy.
    assert (Hg : forall t, is_derive (fun t => f t - f' x * t) t (f' t - f' x)).
    { intros t. apply (is_derive_minus (V := R_NormedModule)); [apply H1|].
      auto_derive; [exact I|ring]. }
    destruct (Rle_lt_dec x y) as [Hxy|Hxy].
    - assert (f x - f' x * x <= f y - f' x * y); [|lra].
      apply (grows _ _ x y Hxy Hg). intros t Ht. pose proof (Hm x t ltac:(lra) ltac:(lra)). lra.
    - assert (- (f y - f' x * y) <= - (f x - f' x * x)); [|lra].
      apply (grows (fun t => - (f t - f' x * t)) (fun t => - (f' t - f' x)) y x); [lra| |].
      + intros t. apply (is_derive_opp (V := R_NormedModule)), Hg.
      + intros t Ht. pose proof (Hm t x ltac:(lra) ltac:(lra)). lra. }
  set (c := (1 - s) * a + s * b). assert (Hc : 0 <= c <= 1) by (unfold c; nra).
  pose proof (Htan c a Hc Ha) as Ta. pose proof (Htan c b Hc Hb) as Tb.
  apply (Rmult_le_compat_l (1 - s)) in Ta; [|lra]. apply (Rmult_le_compat_l s) in Tb; [|lra].
  replace (f c) with ((1 - s) * (f c + f' c * (a - c)) + s * (f c + f' c * (b - c))) by (unfold c; ring). lra.
Qed.

Lemma dc_convex n f : (forall k, (k + 2 <= n)%nat -> 2 * f (k + 1)%nat <= f k + f (k + 2)%nat) ->
  forall a b s, 0 <= a <= 1 -> 0 <= b <= 1 -> 0 <= s <= 1 ->
  dc ((1 - s) * a + s * b) n f 0 <= (1 - s) * dc a n f 0 + s * dc b n f 0.
Proof.
  intros H a b s Ha Hb Hs.
  set (d1 := fun i => f (i + 1)%nat - f i). set (d2 := fun i => d1 (i + 1)%nat - d1 i).
  apply (convex_of_derive (fun t => dc t n f 0) (fun t => INR n * dc t (n - 1) d1 0)
           (fun t => INR n * (INR (n - 1) * dc t (n - 1 - 1) d2 0))); auto.
  - intros t. apply dc_is_derive.
  - intros t. apply (is_derive_scal (fun t => dc t (n - 1) d1 0)). apply dc_is_derive.
  - intros t Ht. destruct (le_lt_dec 2 n) as [Hn|Hn].
    + apply Rmult_le_pos; [apply pos_INR|]. apply Rmult_le_pos; [apply pos_INR|].
      apply dc_nonneg; [exact Ht|]. intros k Hk. pose proof (H k ltac:(lia)). unfold d2, d1.
      replace (k + 1 + 1)%nat with (k + 2)%nat by lia. lra.
    + replace (n - 1)%nat with 0%nat by lia. simpl (INR 0). lra.
Qed.

(** mean value: the antiderivative is again a Bezier curve *)
Lemma dc_integral n f : is_RInt (fun t => dc t n f 0) 0 1 (Rsum f (S n) / INR (S n)).
Proof.
  assert (HN : 0 < INR (S n)) by (apply lt_0_INR; lia).
  set (F := fun k => Rsum f k / INR (S n)).
  assert (Hd : forall t, is_derive (fun t => dc t (S n) F 0) t (dc t n f 0)).
  { intros t. evar_last; [apply dc_is_derive|]. cbn [Nat.sub]. rewrite Nat.sub_0_r.
    rewrite (dc_ext _ _ _ (fun i => / INR (S n) * f i + 0 * f i)).
    - rewrite dc_lin. field. lra.
    - intros i _. unfold F. rewrite Nat.add_1_r. cbn [Rsum]. field. lra. }
  evar_last.
  - apply (is_RInt_derive (V := R_CompleteNormedModule) (fun t => dc t (S n) F 0)).
    + intros t _. apply Hd.
    + intros t _. apply (@ex_derive_continuous _ R_NormedModule). eexists. apply dc_is_derive.
  - rewrite dc_1, dc_0. cbn [Nat.add]. unfold F at 1 2. change (Rsum f 0) with 0.
    unfold minus, plus, opp. simpl. field. simpl in HN. lra.
Qed.

Section Curves.
  Context {E : Eps} {P : Type} {PT : Point R P} {LP : LawfulPoint P}.
  Local Notation dflt := (p_default (P := P)).

  Lemma sample_nth (g : R -> P) ps k : samples g ps -> (k < length ps)%nat -> nth k ps dflt = g (INR k / INR (length ps - 1)).
  Proof. intros H Hk. apply H. now apply nth_error_nth'. Qed.

  Lemma part k n : (k <= n)%nat -> (0 < n)%nat -> 0 <= INR k / INR n <= 1.
  Proof.
    intros H Hn. assert (0 < INR n) by (apply lt_0_INR; lia). pose proof (pos_INR k). apply le_INR in H.
    split; [apply Rle_mult_inv_pos; lra|]. apply (Rmult_le_reg_r (INR n)); [lra|]. unfold Rdiv.
    rewrite Rmult_assoc, Rinv_l, Rmult_1_r by lra. lra.
  Qed.

  (** distance of the curve from the sampled one at [t], weight by weight *)
  Lemma sampled_dist (f g : R -> P) ps t : traces f ps -> samples g ps -> (2 <= length ps)%nat -> 0 <= t <= 1 ->
    dist (f t) (g t) <= Rsum (fun k => bernstein (length ps - 1) k t * dist (g (INR k / INR (length ps - 1))) (g t)) (S (length ps - 1)).
  Proof.
    intros Hf Hs H2 Ht. assert (Hne : ps <> []) by (destruct ps; [simpl in H2; lia|discriminate]).
    set (n := (length ps - 1)%nat). eapply Rle_trans.
    - apply (dist_combination (fun k => bernstein n k t) (fun k => nth k ps dflt) (fun _ => g t) (S n)); intros i Hi.
      + now apply trace_sum.
      + rewrite (Rsum_ext _ (fun k => coord (g t) i * bernstein n k t)) by (intros; ring).
        rewrite Rsum_scal, bernstein_sum. ring.
    - right. apply Rsum_ext. intros k Hk. rewrite Rabs_pos_eq by now apply bernstein_nonneg.
      f_equal. f_equal. apply sample_nth; [exact Hs|unfold n in Hk; lia].
  Qed.

  Lemma sampled_lipschitz (f g : R -> P) ps L t : traces f ps -> samples g ps -> (2 <= length ps)%nat -> 0 <= t <= 1 ->
    (forall x y, 0 <= x <= 1 -> 0 <= y <= 1 -> dist (g x) (g y) <= L * Rabs (x - y)) ->
    dist (f t) (g t) <= L / (2 * sqrt (INR (length ps - 1))).
  Proof.
    intros Hf Hs H2 Ht HL. eapply Rle_trans; [exact (sampled_dist f g ps t Hf Hs H2 Ht)|]. set (n := (length ps - 1)%nat).
    assert (Hn : (0 < n)%nat) by (unfold n; lia).
    assert (HL0 : 0 <= L).
    { pose proof (HL 1 0 ltac:(lra) ltac:(lra)) as H. pose proof (dist_nonneg (g 1) (g 0)).
      rewrite Rminus_0_r, Rabs_R1 in H. lra. }
    apply Rle_trans with (L * Rsum (fun k => bernstein n k t * Rabs (INR k / INR n - t)) (S n)).
    - rewrite <- Rsum_scal. apply Rsum_le. intros k Hk.
      replace (L * (bernstein n k t * Rabs (INR k / INR n - t))) with (bernstein n k t * (L * Rabs (INR k / INR n - t))) by ring.
      apply Rmult_le_compat_l; [now apply bernstein_nonneg|]. apply HL; [apply part; lia|exact Ht].
    - unfold Rdiv. apply Rmult_le_compat_l; [exact HL0|]. now apply weight_abs.
  Qed.

  (** twice differentiable curves: of order 1/n *)
  Lemma sampled_smooth (f g : R -> P) ps i M s t : traces f ps -> samples g ps -> (2 <= length ps)%nat -> 0 <= t <= 1 ->
    (i < p_dim (P := P))%nat ->
    (forall x, 0 <= x <= 1 -> Rabs (coord (g x) i - coord (g t) i - s * (x - t)) <= M / 2 * ((x - t) * (x - t))) ->
    Rabs (coord (f t) i - coord (g t) i) <= M * (t * (1 - t)) / (2 * INR (length ps - 1)).
  Proof.
    intros Hf Hs H2 Ht Hi HM. assert (Hne : ps <> []) by (destruct ps; [simpl in H2; lia|discriminate]).
    set (n := (length ps - 1)%nat). assert (Hn : (0 < n)%nat) by (unfold n; lia).
    assert (HN : 0 < INR n) by now apply lt_0_INR.
    rewrite (trace_sum f ps t i Hf Hne Hi). fold n.
    replace (Rsum (fun k => bernstein n k t * coord (nth k ps dflt) i) (S n) - coord (g t) i)
      with (Rsum (fun k => bernstein n k t * (coord (g (INR k / INR n)) i - coord (g t) i - s * (INR k / INR n - t))) (S n)).
    - eapply Rle_trans; [apply Rsum_Rabs|].
      apply Rle_trans with (M / 2 * Rsum (fun k => bernstein n k t * ((INR k / INR n - t) * (INR k / INR n - t))) (S n)).
      + rewrite <- Rsum_scal. apply Rsum_le. intros k Hk. pose proof (bernstein_nonneg n k t Ht).
        rewrite Rabs_mult, (Rabs_pos_eq (bernstein n k t)) by assumption.
        replace (M / 2 * (bernstein n k t * ((INR k / INR n - t) * (INR k / INR n - t))))
          with (bernstein n k t * (M / 2 * ((INR k / INR n - t) * (INR k / INR n - t)))) by ring.
        apply Rmult_le_compat_l; [assumption|]. apply HM. apply part; lia.
      + rewrite weight_variance by exact Hn. right. field. lra.
    - rewrite (Rsum_ext _ (fun k => bernstein n k t * coord (nth k ps dflt) i
                                     - bernstein n k t * ((coord (g t) i - s * t) + INR k * (s / INR n)))).
      + rewrite Rsum_minus, weight_mean. field. lra.
      + intros k Hk. rewrite (sample_nth g ps k Hs) by (unfold n in Hk; lia). fold n. field. lra.
  Qed.

  (** continuous curves *)
  Lemma dist_coords (p q : P) e : 0 <= e -> (forall i, (i < p_dim (P := P))%nat -> Rabs (coord p i - coord q i) <= e) ->
    dist p q <= sqrt (INR (p_dim (P := P))) * e.
  Proof.
    intros He H. unfold dist. rewrite <- (sqrt_square e He), <- sqrt_mult_alt by apply pos_INR.
    apply sqrt_le_1_alt. rewrite <- Rsum_const. apply Rsum_le. intros i Hi.
    replace ((coord p i - coord q i) * (coord p i - coord q i)) with (Rabs (coord p i - coord q i) * Rabs (coord p i - coord q i))
      by (rewrite <- Rabs_mult, Rabs_pos_eq; [reflexivity|apply Rle_0_sqr]).
    pose proof (Rabs_pos (coord p i - coord q i)). apply Rmult_le_compat; auto.
  Qed.

  Lemma modulus_all (g : R -> P) e : 0 < e -> (forall i, (i < p_dim (P := P))%nat -> forall x, 0 <= x <= 1 -> continuity_pt (fun x => coord (g x) i) x) ->
    forall m, (m <= p_dim (P := P))%nat -> exists d, 0 < d /\ forall i, (i < m)%nat -> forall x y, 0 <= x <= 1 -> 0 <= y <= 1 ->
      Rabs (x - y) < d -> Rabs (coord (g x) i - coord (g y) i) < e.
  Proof.
    intros He Hc. induction m as [|m IH]; intros Hm; [exists 1; split; [lra|intros; lia]|].
    destruct (IH ltac:(lia)) as (d & Hd & H).
    destruct (Heine_cor2 (f := fun x => coord (g x) m) (a := 0) (b := 1) (Hc m ltac:(lia)) (mkposreal e He)) as (d' & H').
    exists (Rmin d d'). split; [apply Rmin_glb_lt; [exact Hd|apply cond_pos]|].
    intros i Hi x y Hx Hy Hxy. destruct (Nat.eq_dec i m) as [->|Hne].
    - apply H'; auto. eapply Rlt_le_trans; [exact Hxy|apply Rmin_r].
    - apply H; auto; [lia|]. eapply Rlt_le_trans; [exact Hxy|apply Rmin_l].
  Qed.
  Lemma bound_all (g : R -> P) : (forall i, (i < p_dim (P := P))%nat -> forall x, 0 <= x <= 1 -> continuity_pt (fun x => coord (g x) i) x) ->
    forall m, (m <= p_dim (P := P))%nat -> exists B, 0 < B /\ forall i, (i < m)%nat -> forall x, 0 <= x <= 1 -> Rabs (coord (g x) i) <= B.
  Proof.
    intros Hc. induction m as [|m IH]; intros Hm; [exists 1; split; [lra|intros; lia]|].
    destruct (IH ltac:(lia)) as (B & HB & H).
    destruct (continuity_ab_maj (fun x => coord (g x) m) 0 1 ltac:(lra) (Hc m ltac:(lia))) as (u & Hu & _).
    destruct (continuity_ab_min (fun x => coord (g x) m) 0 1 ltac:(lra) (Hc m ltac:(lia))) as (l & Hl & _).
    exists (Rmax B (Rmax (Rabs (coord (g u) m)) (Rabs (coord (g l) m)))).
    split; [eapply Rlt_le_trans; [exact HB|apply Rmax_l]|].
    intros i Hi x Hx. destruct (Nat.eq_dec i m) as [->|Hne].
    - eapply Rle_trans; [|apply Rmax_r]. specialize (Hu x Hx). specialize (Hl x Hx). cbv beta in *.
      pose proof (Rmax_l (Rabs (coord (g u) m)) (Rabs (coord (g l) m))).
      pose proof (Rmax_r (Rabs (coord (g u) m)) (Rabs (coord (g l) m))).
      apply Rabs_le. split.
      + pose proof (Rle_abs (- coord (g l) m)) as A. rewrite Rabs_Ropp in A. lra.
      + pose proof (Rle_abs (coord (g u) m)). lra.
    - eapply Rle_trans; [apply H; auto; lia|apply Rmax_l].
  Qed.

  Lemma sampled_converges (g : R -> P) : (forall i, (i < p_dim (P := P))%nat -> forall x, 0 <= x <= 1 -> continuity_pt (fun x => coord (g x) i) x) ->
    forall e, 0 < e -> exists N, forall ps (f : R -> P) t, (N <= length ps)%nat -> samples g ps -> traces f ps -> 0 <= t <= 1 ->
      dist (f t) (g t) <= e.
  Proof.
    intros Hc e He. set (r := sqrt (INR (p_dim (P := P)))). assert (Hr : 0 <= r) by apply sqrt_pos.
    set (e1 := e / (2 * (r + 1))). assert (He1 : 0 < e1) by (apply Rdiv_lt_0_compat; lra).
    destruct (modulus_all g e1 He1 Hc (p_dim (P := P)) (le_n _)) as (d & Hd & Hmod).
    destruct (bound_all g Hc (p_dim (P := P)) (le_n _)) as (B & HB & Hb).
    assert (Hdist : forall x y, 0 <= x <= 1 -> 0 <= y <= 1 -> dist (g x) (g y) <= r * e1 + r * (2 * B) / (d * d) * ((x - y) * (x - y))).
    { intros x y Hx Hy. assert (Hdd : 0 < d * d) by now apply Rmult_lt_0_compat.
      assert (Hq : 0 <= r * (2 * B) / (d * d)) by (apply Rle_mult_inv_pos; [|exact Hdd]; apply Rmult_le_pos; lra).
      destruct (Rlt_le_dec (Rabs (x - y)) d) as [Hn|Hf].
      - apply Rle_trans with (r * e1).
        + apply dist_coords; [lra|]. intros i Hi. left. now apply (Hmod i Hi).
        + pose proof (Rmult_le_pos _ _ Hq (Rle_0_sqr (x - y))). unfold Rsqr in *. lra.
      - apply Rle_trans with (r * (2 * B)).
        + apply dist_coords; [lra|]. intros i Hi. pose proof (Hb i Hi x Hx). pose proof (Hb i Hi y Hy).
          unfold Rminus. eapply Rle_trans; [apply Rabs_triang|]. rewrite Rabs_Ropp. lra.
        + assert (H1 : d * d <= (x - y) * (x - y)).
          { replace ((x - y) * (x - y)) with (Rabs (x - y) * Rabs (x - y)) by (rewrite <- Rabs_mult, Rabs_pos_eq; [reflexivity|apply Rle_0_sqr]).
            apply Rmult_le_compat; lra. }
          apply (Rmult_le_compat_l _ _ _ Hq) in H1.
          replace (r * (2 * B) / (d * d) * (d * d)) with (r * (2 * B)) in H1 by (field; lra).
          pose proof (Rmult_le_pos r e1 Hr ltac:(lra)). lra. }
    set (K := r * (2 * B) / (d * d)) in *.
    assert (HK : 0 <= K) by (apply Rle_mult_inv_pos; [apply Rmult_le_pos; lra|now apply Rmult_lt_0_compat]).
    destruct (archimed_cor1 (e / (K + 1))) as (N & HN0 & HNp); [apply Rdiv_lt_0_compat; lra|].
    assert (HN : K / e < INR N).
    { assert (0 < INR N) by now apply lt_0_INR. apply (Rmult_lt_compat_r (INR N * (K + 1))) in HN0; [|nra].
      replace (/ INR N * (INR N * (K + 1))) with (K + 1) in HN0 by (field; lra).
      replace (e / (K + 1) * (INR N * (K + 1))) with (e * INR N) in HN0 by (field; lra).
      apply (Rmult_lt_reg_r e); [exact He|]. replace (K / e * e) with K by (field; lra). lra. }
    exists (N + 2)%nat.
    intros ps f t Hl Hs Hf Ht. eapply Rle_trans; [exact (sampled_dist f g ps t Hf Hs ltac:(lia) Ht)|].
    set (n := (length ps - 1)%nat). assert (Hn : (0 < n)%nat) by (unfold n; lia).
    assert (Hnn : 0 < INR n) by now apply lt_0_INR.
    assert (HNn : INR N <= INR n) by (apply le_INR; unfold n; lia).
    apply Rle_trans with (Rsum (fun k => r * e1 * bernstein n k t + K * (bernstein n k t * ((INR k / INR n - t) * (INR k / INR n - t)))) (S n)).
    - apply Rsum_le. intros k Hk.
      replace (r * e1 * bernstein n k t + K * (bernstein n k t * ((INR k / INR n - t) * (INR k / INR n - t))))
        with (bernstein n k t * (r * e1 + K * ((INR k / INR n - t) * (INR k / INR n - t)))) by ring.
      apply Rmult_le_compat_l; [now apply bernstein_nonneg|]. apply Hdist; [apply part; lia|exact Ht].
    - rewrite Rsum_plus, !Rsum_scal, bernstein_sum, weight_variance by exact Hn.
      assert (H1 : r * e1 <= e / 2).
      { unfold e1. apply (Rmult_le_reg_r (2 * (r + 1))); [lra|].
        replace (r * (e / (2 * (r + 1))) * (2 * (r + 1))) with (r * e) by (field; lra). nra. }
      assert (H2 : K * (t * (1 - t) / INR n) <= e / 2).
      { apply (Rmult_le_reg_r (INR n)); [exact Hnn|].
        replace (K * (t * (1 - t) / INR n) * INR n) with (K * (t * (1 - t))) by (field; lra).
        pose proof (quarter t). assert (K <= e * INR n).
        { apply (Rmult_le_reg_r (/ e)); [apply Rinv_0_lt_compat; lra|].
          replace (e * INR n * / e) with (INR n) by (field; lra). unfold Rdiv in HN. lra. }
        apply Rle_trans with (K * (1/4)); [apply Rmult_le_compat_l; lra|]. nra. }
      lra.
  Qed.

  (** convex control values *)
  Lemma bends_nth ps i : bends_up ps i -> forall k, (k + 2 <= length ps - 1)%nat ->
    2 * coord (nth (k + 1) ps dflt) i <= coord (nth k ps dflt) i + coord (nth (k + 2) ps dflt) i.
  Proof.
    intros H k Hk.
    pose proof (H k (nth k ps dflt) (nth (S k) ps dflt) (nth (S (S k)) ps dflt)) as H'.
    replace (k + 1)%nat with (S k) by lia. replace (k + 2)%nat with (S (S k)) by lia.
    apply H'; apply nth_error_nth'; lia.
  Qed.

  Lemma bends_convex (f : R -> P) ps i a b s : traces f ps -> ps <> [] -> (i < p_dim (P := P))%nat -> bends_up ps i ->
    0 <= a <= 1 -> 0 <= b <= 1 -> 0 <= s <= 1 ->
    coord (f ((1 - s) * a + s * b)) i <= (1 - s) * coord (f a) i + s * coord (f b) i.
  Proof.
    intros Hf Hne Hi Hb Ha Hbb Hs. rewrite !Hf, !curve_coord_dc by assumption.
    apply dc_convex; auto. now apply bends_nth.
  Qed.

  Lemma bends_polygon (f : R -> P) ps i k p q t : traces f ps -> (i < p_dim (P := P))%nat -> bends_up ps i ->
    nth_error ps k = Some p -> nth_error ps (S k) = Some q -> 0 <= t <= 1 ->
    coord p i + (INR (length ps - 1) * t - INR k) * (coord q i - coord p i) <= coord (f t) i.
  Proof.
    intros Hf Hi Hb Hp Hq Ht. assert (Hk : (S k < length ps)%nat) by (apply nth_error_Some; rewrite Hq; discriminate).
    assert (Hne : ps <> []) by (destruct ps; [simpl in Hk; lia|discriminate]).
    rewrite Hf, curve_coord_dc by assumption. set (n := (length ps - 1)%nat).
    set (c := fun j => coord (nth j ps dflt) i).
    assert (Ep : c k = coord p i) by (unfold c; now rewrite (nth_error_nth ps k dflt Hp)).
    assert (Eq : c (k + 1)%nat = coord q i) by (unfold c; rewrite Nat.add_1_r; now rewrite (nth_error_nth ps (S k) dflt Hq)).
    rewrite <- Ep, <- Eq.
    apply Rle_trans with (dc t n (fun j => (c k - INR k * (c (k + 1)%nat - c k)) + INR j * (c (k + 1)%nat - c k)) 0).
    - rewrite dc_linear. simpl (INR 0). right. ring.
    - apply dc_le; [exact Ht|]. intros j Hj.
      pose proof (convex_line c n (bends_nth ps i Hb) k j ltac:(unfold n; lia) ltac:(lia)) as H.
      change (c k - INR k * (c (k + 1)%nat - c k) + INR j * (c (k + 1)%nat - c k) <= c j). lra.
  Qed.

  Lemma bends_chord (f : R -> P) ps i t : traces f ps -> (2 <= length ps)%nat -> (i < p_dim (P := P))%nat -> bends_up ps i ->
    0 <= t <= 1 -> coord (f t) i <= (1 - t) * coord (f 0) i + t * coord (f 1) i.
  Proof.
    intros Hf H2 Hi Hb Ht. assert (Hne : ps <> []) by (destruct ps; [simpl in H2; lia|discriminate]).
    pose proof (bends_convex f ps i 0 1 t Hf Hne Hi Hb ltac:(lra) ltac:(lra) Ht) as H.
    replace ((1 - t) * 0 + t * 1) with t in H by ring. exact H.
  Qed.

  (** mean value *)
  Lemma mean_value (f : R -> P) ps m i : traces f ps -> ps <> [] -> mean_point ps m -> (i < p_dim (P := P))%nat ->
    is_RInt (fun t => coord (f t) i) 0 1 (coord m i).
  Proof.
    intros Hf Hne Hm Hi. assert (Hl : (0 < length ps)%nat) by (destruct ps; [contradiction|simpl; lia]).
    assert (HN : 0 < INR (length ps)) by now apply lt_0_INR.
    apply (is_RInt_ext (fun t => dc t (length ps - 1) (fun k => coord (nth k ps dflt) i) 0)).
    - intros t _. now rewrite Hf, curve_coord_dc.
    - evar_last; [apply dc_integral|]. replace (S (length ps - 1)) with (length ps) by lia.
      rewrite <- (Hm i Hi). field. lra.
  Qed.

  (** samples of a convex function: the curve lies above it *)
  Lemma cell_of x : forall n, (0 < n)%nat -> 0 <= x <= INR n -> exists k, (k < n)%nat /\ INR k <= x <= INR k + 1.
  Proof.
    induction n as [|n IH]; intros Hn Hx; [lia|]. rewrite S_INR in Hx.
    destruct (Rle_lt_dec x (INR n)) as [H|H]; [|exists n; split; [lia|lra]].
    destruct n as [|n]; [exists 0%nat; simpl in *; split; [lia|lra]|].
    destruct (IH ltac:(lia) ltac:(lra)) as (k & Hk & Hb). exists k. split; [lia|exact Hb].
  Qed.
  Lemma sampled_convex (f g : R -> P) ps i t : traces f ps -> samples g ps -> (2 <= length ps)%nat -> (i < p_dim (P := P))%nat ->
    (forall a b s, 0 <= a <= 1 -> 0 <= b <= 1 -> 0 <= s <= 1 ->
       coord (g ((1 - s) * a + s * b)) i <= (1 - s) * coord (g a) i + s * coord (g b) i) ->
    0 <= t <= 1 -> coord (g t) i <= coord (f t) i.
  Proof.
    intros Hf Hs H2 Hi Hg Ht. set (n := (length ps - 1)%nat). assert (Hn : (0 < n)%nat) by (unfold n; lia).
    assert (HN : 0 < INR n) by now apply lt_0_INR.
    assert (Hb : bends_up ps i).
    { intros k p q r Hp Hq Hr. assert (Hk : (S (S k) < length ps)%nat) by (apply nth_error_Some; rewrite Hr; discriminate).
      rewrite (Hs _ _ Hp), (Hs _ _ Hq), (Hs _ _ Hr). fold n.
      pose proof (Hg (INR k / INR n) (INR (S (S k)) / INR n) (1/2) ltac:(apply part; lia) ltac:(apply part; lia) ltac:(lra)) as H.
      replace ((1 - 1/2) * (INR k / INR n) + 1/2 * (INR (S (S k)) / INR n)) with (INR (S k) / INR n) in H
        by (rewrite !S_INR; field; lra). lra. }
    destruct (cell_of (INR n * t) n Hn ltac:(nra)) as (k & Hk & Hb1 & Hb2).
    pose proof (nth_error_nth' ps dflt (n := k) ltac:(lia)) as Hp.
    pose proof (nth_error_nth' ps dflt (n := S k) ltac:(lia)) as Hq.
    pose proof (bends_polygon f ps i k _ _ t Hf Hi Hb Hp Hq Ht) as H. fold n in H.
    rewrite (sample_nth g ps k Hs), (sample_nth g ps (S k) Hs) in H by lia. fold n in H.
    pose proof (Hg (INR k / INR n) (INR (S k) / INR n) (INR n * t - INR k) ltac:(apply part; lia) ltac:(apply part; lia) ltac:(lra)) as H'.
    replace ((1 - (INR n * t - INR k)) * (INR k / INR n) + (INR n * t - INR k) * (INR (S k) / INR n)) with t in H'
      by (rewrite S_INR; field; lra). lra.
  Qed.

  (** ** the three kinds of curves *)
  Lemma ne_of_2 (ps : list P) : (2 <= length ps)%nat -> ps <> [].
  Proof. destruct ps; [simpl; lia|discriminate]. Qed.

  Theorem bezier_sampled_lipschitz (g : R -> P) ps L t : samples g ps -> (2 <= length ps)%nat -> 0 <= t <= 1 ->
    (forall x y, 0 <= x <= 1 -> 0 <= y <= 1 -> dist (g x) (g y) <= L * Rabs (x - y)) ->
    exists x, bezier_eval (Bezier ps) t = Ret x /\ dist x (g t) <= L / (2 * sqrt (INR (length ps - 1))).
  Proof.
    intros Hs H2 Ht HL. destruct (bezier_function ps (ne_of_2 ps H2)) as (f & Hf). exists (f t). split; [apply Hf|].
    apply (sampled_lipschitz f g ps L t); auto using traces_bezier.
  Qed.
  Theorem bezier_sampled_smooth (g : R -> P) ps i M s t : samples g ps -> (2 <= length ps)%nat -> 0 <= t <= 1 -> (i < p_dim (P := P))%nat ->
    (forall x, 0 <= x <= 1 -> Rabs (coord (g x) i - coord (g t) i - s * (x - t)) <= M / 2 * ((x - t) * (x - t))) ->
    exists x, bezier_eval (Bezier ps) t = Ret x /\
      Rabs (coord x i - coord (g t) i) <= M * (t * (1 - t)) / (2 * INR (length ps - 1)).
  Proof.
    intros Hs H2 Ht Hi HM. destruct (bezier_function ps (ne_of_2 ps H2)) as (f & Hf). exists (f t). split; [apply Hf|].
    apply (sampled_smooth f g ps i M s t); auto using traces_bezier.
  Qed.
  Theorem bezier_sampled_converges (g : R -> P) :
    (forall i, (i < p_dim (P := P))%nat -> forall x, 0 <= x <= 1 -> continuity_pt (fun x => coord (g x) i) x) ->
    forall e, 0 < e -> exists N, forall ps t, (N <= length ps)%nat -> samples g ps -> 0 <= t <= 1 ->
      exists x, bezier_eval (Bezier ps) t = Ret x /\ dist x (g t) <= e.
  Proof.
    intros Hc e He. destruct (sampled_converges g Hc e He) as (N & HN). exists (N + 1)%nat. intros ps t Hl Hs Ht.
    destruct (bezier_function ps ltac:(destruct ps; [simpl in Hl; lia|discriminate])) as (f & Hf).
    exists (f t). split; [apply Hf|]. apply (HN ps f t); auto using traces_bezier. lia.
  Qed.
  Theorem bezier_sampled_convex (g : R -> P) ps i t : samples g ps -> (2 <= length ps)%nat -> (i < p_dim (P := P))%nat ->
    (forall a b s, 0 <= a <= 1 -> 0 <= b <= 1 -> 0 <= s <= 1 ->
       coord (g ((1 - s) * a + s * b)) i <= (1 - s) * coord (g a) i + s * coord (g b) i) ->
    0 <= t <= 1 -> exists x, bezier_eval (Bezier ps) t = Ret x /\ coord (g t) i <= coord x i.
  Proof.
    intros Hs H2 Hi Hg Ht. destruct (bezier_function ps (ne_of_2 ps H2)) as (f & Hf). exists (f t). split; [apply Hf|].
    apply (sampled_convex f g ps i t); auto using traces_bezier.
  Qed.

  Theorem bezier_convex ps i a b s : ps <> [] -> (i < p_dim (P := P))%nat -> bends_up ps i ->
    0 <= a <= 1 -> 0 <= b <= 1 -> 0 <= s <= 1 ->
    exists x y z, bezier_eval (Bezier ps) a = Ret x /\ bezier_eval (Bezier ps) b = Ret y /\
      bezier_eval (Bezier ps) ((1 - s) * a + s * b) = Ret z /\ coord z i <= (1 - s) * coord x i + s * coord y i.
  Proof.
    intros Hne Hi Hb Ha Hb' Hs. destruct (bezier_function ps Hne) as (f & Hf).
    exists (f a), (f b), (f ((1 - s) * a + s * b)). repeat split; [apply Hf..|].
    apply (bends_convex f ps i a b s); auto using traces_bezier.
  Qed.
  Theorem quad_convex (c : quad P) i a b s : (i < p_dim (P := P))%nat -> bends_up (quad_control_points c) i ->
    0 <= a <= 1 -> 0 <= b <= 1 -> 0 <= s <= 1 ->
    coord (quad_eval c ((1 - s) * a + s * b)) i <= (1 - s) * coord (quad_eval c a) i + s * coord (quad_eval c b) i.
  Proof. intros. apply (bends_convex (quad_eval c) (quad_control_points c)); auto using traces_quad. discriminate. Qed.
  Theorem cubic_convex (c : cubic P) i a b s : (i < p_dim (P := P))%nat -> bends_up (cubic_control_points c) i ->
    0 <= a <= 1 -> 0 <= b <= 1 -> 0 <= s <= 1 ->
    coord (cubic_eval c ((1 - s) * a + s * b)) i <= (1 - s) * coord (cubic_eval c a) i + s * coord (cubic_eval c b) i.
  Proof. intros. apply (bends_convex (cubic_eval c) (cubic_control_points c)); auto using traces_cubic. discriminate. Qed.

  Theorem bezier_polygon ps i k p q t : (i < p_dim (P := P))%nat -> bends_up ps i ->
    nth_error ps k = Some p -> nth_error ps (S k) = Some q -> 0 <= t <= 1 ->
    exists x, bezier_eval (Bezier ps) t = Ret x /\
      coord p i + (INR (length ps - 1) * t - INR k) * (coord q i - coord p i) <= coord x i.
  Proof.
    intros Hi Hb Hp Hq Ht.
    destruct (bezier_function ps ltac:(intros ->; destruct k; discriminate)) as (f & Hf). exists (f t). split; [apply Hf|].
    apply (bends_polygon f); auto using traces_bezier.
  Qed.
  Theorem quad_polygon (c : quad P) i k p q t : (i < p_dim (P := P))%nat -> bends_up (quad_control_points c) i ->
    nth_error (quad_control_points c) k = Some p -> nth_error (quad_control_points c) (S k) = Some q -> 0 <= t <= 1 ->
    coord p i + (2 * t - INR k) * (coord q i - coord p i) <= coord (quad_eval c t) i.
  Proof.
    intros Hi Hb Hp Hq Ht. pose proof (bends_polygon (quad_eval c) _ i k p q t (traces_quad c) Hi Hb Hp Hq Ht) as H.
    replace (INR (length (quad_control_points c) - 1)) with 2 in H by (simpl; ring). exact H.
  Qed.
  Theorem cubic_polygon (c : cubic P) i k p q t : (i < p_dim (P := P))%nat -> bends_up (cubic_control_points c) i ->
    nth_error (cubic_control_points c) k = Some p -> nth_error (cubic_control_points c) (S k) = Some q -> 0 <= t <= 1 ->
    coord p i + (3 * t - INR k) * (coord q i - coord p i) <= coord (cubic_eval c t) i.
  Proof.
    intros Hi Hb Hp Hq Ht. pose proof (bends_polygon (cubic_eval c) _ i k p q t (traces_cubic c) Hi Hb Hp Hq Ht) as H.
    replace (INR (length (cubic_control_points c) - 1)) with 3 in H by (simpl; ring). exact H.
  Qed.

  Theorem bezier_mean ps m : ps <> [] -> mean_point ps m ->
    exists f, (forall t, bezier_eval (Bezier ps) t = Ret (f t)) /\
      forall i, (i < p_dim (P := P))%nat -> is_RInt (fun t => coord (f t) i) 0 1 (coord m i).
  Proof.
    intros Hne Hm. destruct (bezier_function ps Hne) as (f & Hf). exists f. split; [exact Hf|]. intros i Hi.
    apply (mean_value f ps); auto using traces_bezier.
  Qed.
  Theorem quad_mean (c : quad P) m i : mean_point (quad_control_points c) m -> (i < p_dim (P := P))%nat ->
    is_RInt (fun t => coord (quad_eval c t) i) 0 1 (coord m i).
  Proof. intros. apply (mean_value (quad_eval c) (quad_control_points c)); auto using traces_quad. discriminate. Qed.
  Theorem cubic_mean (c : cubic P) m i : mean_point (cubic_control_points c) m -> (i < p_dim (P := P))%nat ->
    is_RInt (fun t => coord (cubic_eval c t) i) 0 1 (coord m i).
  Proof. intros. apply (mean_value (cubic_eval c) (cubic_control_points c)); auto using traces_cubic. discriminate. Qed.
End Curves.
