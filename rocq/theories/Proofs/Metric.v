(** Euclidean geometry: Cauchy-Schwarz, Minkowski, distances. *)
From Coq Require Import Reals List Arith Lia Lra Psatz.
From Verif Require Import Base.Outcome Base.Scalar Model.Point Inst.RealInst
  Spec.Sums Spec.Lawful Spec.Metric Proofs.OutcomeFacts Proofs.PointFacts Proofs.RealTac.
Import ListNotations.
Local Open Scope R_scope.

Definition sq (v : nat -> R) n := Rsum (fun i => v i * v i) n.
Definition nrm (v : nat -> R) n := sqrt (sq v n).

Lemma sq_nonneg v n : 0 <= sq v n.
Proof. apply Rsum_nonneg. intros. nra. Qed.
Lemma nrm_nonneg v n : 0 <= nrm v n.
Proof. apply sqrt_pos. Qed.
Lemma nrm_sq v n : nrm v n * nrm v n = sq v n.
Proof. apply sqrt_sqrt, sq_nonneg. Qed.
Lemma nrm_ext v w n : (forall i, (i < n)%nat -> v i = w i) -> nrm v n = nrm w n.
Proof. intros H. unfold nrm, sq. f_equal. apply Rsum_ext. intros i Hi. now rewrite H. Qed.

Lemma cauchy_schwarz v w n : Rabs (Rsum (fun i => v i * w i) n) <= nrm v n * nrm w n.
Proof.
  induction n as [|n IH].
  - unfold nrm, sq. simpl. rewrite Rabs_R0, sqrt_0. lra.
  - simpl.
    set (S := Rsum _ n) in *. set (a := v n). set (b := w n).
    pose proof (nrm_nonneg v n). pose proof (nrm_nonneg w n).
    pose proof (nrm_sq v n) as E1. pose proof (nrm_sq w n) as E2.
    assert (Ea : sq v (Datatypes.S n) = nrm v n * nrm v n + a * a) by (rewrite E1; reflexivity).
    assert (Eb : sq w (Datatypes.S n) = nrm w n * nrm w n + b * b) by (rewrite E2; reflexivity).
    unfold nrm at 1 2. rewrite Ea, Eb.
    set (x := nrm v n) in *. set (y := nrm w n) in *.
    rewrite <- sqrt_mult by nra.
    rewrite <- sqrt_Rsqr_abs. apply sqrt_le_1_alt. unfold Rsqr.
    assert (HS : S * S <= (x * y) * (x * y)).
    { apply Rsqr_le_abs_1. rewrite (Rabs_pos_eq (x * y)) by nra. exact IH. }
    assert (2 * S * (a * b) <= x*x*(b*b) + y*y*(a*a)).
    { destruct (Rle_dec (S * (a*b)) 0) as [Hn|Hn]; [nra|].
      assert (Hab : 0 <= Rabs (a*b)) by apply Rabs_pos.
      assert (H2 : S * (a*b) <= (x*y) * Rabs (a*b)).
      { apply Rle_trans with (Rabs S * Rabs (a*b)).
        - rewrite <- Rabs_mult. apply Rle_abs.
        - apply Rmult_le_compat_r; auto. }
      assert (H3 : (x*y) * Rabs (a*b) = (x * Rabs b) * (y * Rabs a)) by (rewrite Rabs_mult; ring).
      assert (H4 : Rabs a * Rabs a = a * a) by (rewrite <- Rabs_mult; apply Rabs_pos_eq; nra).
      assert (H5 : Rabs b * Rabs b = b * b) by (rewrite <- Rabs_mult; apply Rabs_pos_eq; nra).
      set (X := x * Rabs b) in *. set (Y := y * Rabs a) in *.
      assert (EX : X * X = x * x * (b * b)) by (unfold X; rewrite <- H5; ring).
      assert (EY : Y * Y = y * y * (a * a)) by (unfold Y; rewrite <- H4; ring).
      pose proof (Rle_0_sqr (X - Y)) as Hq. unfold Rsqr in Hq. lra. }
    nra.
Qed.

Lemma minkowski v w n : nrm (fun i => v i + w i) n <= nrm v n + nrm w n.
Proof.
  pose proof (nrm_nonneg v n). pose proof (nrm_nonneg w n).
  unfold nrm at 1. rewrite <- (sqrt_square (nrm v n + nrm w n)) by lra.
  apply sqrt_le_1_alt.
  pose proof (Rle_trans _ _ _ (Rle_abs _) (cauchy_schwarz v w n)) as C.
  assert (sq (fun i => v i + w i) n = sq v n + sq w n + 2 * Rsum (fun i => v i * w i) n).
  { unfold sq. rewrite <- Rsum_scal, <- !Rsum_plus. apply Rsum_ext. intros; ring. }
  pose proof (nrm_sq v n). pose proof (nrm_sq w n). nra.
Qed.

Lemma nrm_scal c v n : nrm (fun i => c * v i) n = Rabs c * nrm v n.
Proof.
  unfold nrm. assert (sq (fun i => c * v i) n = Rsqr c * sq v n).
  { unfold sq, Rsqr. rewrite <- Rsum_scal. apply Rsum_ext. intros; ring. }
  rewrite H, sqrt_mult; [|apply Rle_0_sqr|apply sq_nonneg].
  now rewrite sqrt_Rsqr_abs.
Qed.

Lemma nrm_0 n : nrm (fun _ => 0) n = 0.
Proof.
  unfold nrm, sq. rewrite (Rsum_ext _ (fun _ => 0)), Rsum_0, sqrt_0; auto. intros; ring.
Qed.

Lemma nrm_combination (w : nat -> R) (v : nat -> nat -> R) m n :
  nrm (fun i => Rsum (fun k => w k * v k i) m) n <= Rsum (fun k => Rabs (w k) * nrm (v k) n) m.
Proof.
  induction m as [|m IH]; simpl.
  - rewrite nrm_0. lra.
  - eapply Rle_trans; [apply minkowski|]. rewrite nrm_scal. lra.
Qed.

(** each coordinate is bounded by the norm *)



Section Dist.
  Context {P : Type} {PT : Point R P} {LP : LawfulPoint P}.
  Implicit Types p q r : P.

  Lemma dist_nrm p q : dist p q = nrm (fun i => coord p i - coord q i) (p_dim (P := P)).
  Proof. reflexivity. Qed.
  Lemma dist_nonneg p q : 0 <= dist p q.
  Proof. apply sqrt_pos. Qed.
  Lemma dist_sym p q : dist p q = dist q p.
  Proof. unfold dist. f_equal. apply Rsum_ext. intros; ring. Qed.
  Lemma dist_refl p : dist p p = 0.
  Proof.
    rewrite dist_nrm. rewrite (nrm_ext _ (fun _ => 0)); [apply nrm_0|]. intros; ring.
  Qed.
  Lemma dist_triangle p q r : dist p r <= dist p q + dist q r.
  Proof.
    rewrite !dist_nrm. eapply Rle_trans; [|apply minkowski].
    right. apply nrm_ext. intros; ring.
  Qed.
  Lemma sqlen_sub p q : p_sqlen (p_sub p q) = dist p q * dist p q.
  Proof.
    rewrite lp_sqlen, dist_nrm, nrm_sq. unfold sq. apply Rsum_ext. intros i Hi.
    now rewrite !lp_sub.
  Qed.
  Lemma sqrt_sqlen_sub p q : sqrt (p_sqlen (p_sub p q)) = dist p q.
  Proof. rewrite sqlen_sub. apply sqrt_square, dist_nonneg. Qed.
  Lemma dist_inner o p : dist p o * dist p o = inner o p p.
  Proof. rewrite dist_nrm, nrm_sq. reflexivity. Qed.

  Lemma dist_le_sq p q r s : dist p q * dist p q <= dist r s * dist r s -> dist p q <= dist r s.
  Proof. intros H. pose proof (dist_nonneg p q). pose proof (dist_nonneg r s). nra. Qed.

  (** Distance between two combinations with the same weights. *)
  Lemma dist_combination (w : nat -> R) (ps qs : nat -> P) m (x y : P) :
    (forall i, (i < p_dim (P := P))%nat -> coord x i = Rsum (fun k => w k * coord (ps k) i) m) ->
    (forall i, (i < p_dim (P := P))%nat -> coord y i = Rsum (fun k => w k * coord (qs k) i) m) ->
    dist x y <= Rsum (fun k => Rabs (w k) * dist (ps k) (qs k)) m.
  Proof.
    intros Hx Hy. rewrite dist_nrm.
    rewrite (nrm_ext _ (fun i => Rsum (fun k => w k * (coord (ps k) i - coord (qs k) i)) m)).
    - apply (nrm_combination w (fun k i => coord (ps k) i - coord (qs k) i)).
    - intros i Hi. rewrite Hx, Hy, <- Rsum_minus by assumption. apply Rsum_ext. intros; ring.
  Qed.
End Dist.
