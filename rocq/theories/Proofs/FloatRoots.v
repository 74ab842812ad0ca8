(** Proofs for C103: roots of quadratics and solve_t_for_axis in floating point. *)
From Coq Require Import Reals ZArith List Arith Lia Lra Psatz Bool.
From Flocq Require Import Core.Core IEEE754.BinarySingleNaN Mult_error.
From Verif Require Import Base.Outcome Base.Scalar Model.Point Model.Line Model.Quadratic
  Inst.FloatInst Spec.Bernstein Spec.Points Spec.Rounding Spec.Componentwise Spec.FloatPoints
  Proofs.OutcomeFacts Proofs.ExactEval Proofs.FloatFacts Proofs.FloatEval Proofs.FloatNorm Proofs.FloatBox Proofs.FloatBoxCubic.
Import ListNotations.
Local Open Scope R_scope.

(** ** Real arithmetic *)
Section Real.
  Variables u X a b c : R.
  Hypotheses (Hu : 0 <= u <= / 2048) (HX : 0 <= X) (Ha : a <> 0).
  Hypothesis HW : b * b + 4 * Rabs (a * c) <= X * X.
  Local Notation Dl := (b * b - 4 * (a * c)).

  Lemma b_le : Rabs b <= X.
  Proof.
    rewrite <- (Rabs_pos_eq X) by exact HX. apply Rsqr_le_abs_0. unfold Rsqr. pose proof (Rabs_pos (a * c)). lra.
  Qed.
  Lemma disc_le : Rabs Dl <= X * X.
  Proof.
    apply Rabs_le. pose proof (Rle_abs (a * c)). pose proof (Rle_abs (- (a * c))). rewrite Rabs_Ropp in H0.
    pose proof (Rle_0_sqr b). unfold Rsqr in H1. lra.
  Qed.

  (** value of the polynomial through 2 a t + b *)
  Lemma by_square t B : Rabs ((2 * a * t + b) * (2 * a * t + b) - Dl) <= 4 * B ->
    Rabs (a * t * t + b * t + c) <= B / Rabs a.
  Proof.
    intros H. assert (0 < Rabs a) by now apply Rabs_pos_lt.
    apply Rmult_le_reg_l with (4 * Rabs a); [lra|].
    replace (4 * Rabs a * (B / Rabs a)) with (4 * B) by (field; lra).
    replace (4 * Rabs a) with (Rabs (4 * a)) by (rewrite Rabs_mult, (Rabs_pos_eq 4); lra).
    rewrite <- Rabs_mult.
    replace (4 * a * (a * t * t + b * t + c)) with ((2 * a * t + b) * (2 * a * t + b) - Dl) by ring. exact H.
  Qed.

  Lemma two_core d s n t sg : 0 < d -> Rabs (d - Dl) <= 11 / 5 * u * (X * X) ->
    0 <= s -> Rabs (s - sqrt d) <= u * sqrt d + u * X / 8 -> sg = 1 \/ sg = -1 ->
    Rabs (n - (- b + sg * s)) <= u * Rabs (- b + sg * s) ->
    Rabs (2 * a * t - n) <= u * Rabs n + u * X / 4 ->
    s <= 101 / 100 * X /\ Rabs (s * s - d) <= 24 / 10 * (u * (X * X)) /\
    Rabs (2 * a * t + b - sg * s) <= 43 / 10 * (u * X).
  Proof.
    intros Hd Ed Hs Es Hsg En Et. pose proof b_le as Hb. pose proof disc_le as HD.
    assert (XX : 0 <= X * X) by nra.
    assert (uX : 0 <= u * X <= X / 2048) by (split; [apply Rmult_le_pos; lra|]; unfold Rdiv; rewrite (Rmult_comm X); apply Rmult_le_compat_r; lra).
    assert (uXX : 0 <= u * (X * X) <= X * X / 2048) by (split; [apply Rmult_le_pos; lra|]; unfold Rdiv; rewrite (Rmult_comm (X * X)); apply Rmult_le_compat_r; lra).
    set (q := sqrt d) in *. assert (Hq : q * q = d) by (apply sqrt_sqrt; lra). assert (q0 : 0 <= q) by apply sqrt_pos.
    apply Rabs_le_inv in Ed, HD, Hb.
    assert (q1 : q <= 1002 / 1000 * X).
    { apply Rsqr_incr_0_var; [|lra]. unfold Rsqr. nra. }
    assert (uq : 0 <= u * q <= 1002 / 1000 * (u * X)).
    { split; [apply Rmult_le_pos; lra|]. replace (1002 / 1000 * (u * X)) with (u * (1002 / 1000 * X)) by ring.
      apply Rmult_le_compat_l; lra. }
    apply Rabs_le_inv in Es.
    assert (s1 : s <= 101 / 100 * X) by lra.
    assert (es : Rabs (s * s - d) <= 24 / 10 * (u * (X * X))).
    { rewrite <- Hq. replace (s * s - q * q) with ((s - q) * (s + q)) by ring. rewrite Rabs_mult.
      assert (A : Rabs (s - q) <= 113 / 100 * (u * X)) by (apply Rabs_le; lra).
      assert (B : Rabs (s + q) <= 2012 / 1000 * X) by (apply Rabs_le; lra).
      eapply Rle_trans; [apply Rmult_le_compat; [apply Rabs_pos|apply Rabs_pos|exact A|exact B]|].
      nra. }
    set (g := - b + sg * s) in *.
    assert (g1 : Rabs g <= 201 / 100 * X).
    { unfold g. apply Rabs_le. destruct Hsg as [-> | ->]; lra. }
    assert (ug : u * Rabs g <= 201 / 100 * (u * X)).
    { replace (201 / 100 * (u * X)) with (u * (201 / 100 * X)) by ring. apply Rmult_le_compat_l; lra. }
    assert (n1 : Rabs n <= 202 / 100 * X).
    { replace n with ((n - g) + g) by ring. eapply Rle_trans; [apply Rabs_triang|]. lra. }
    assert (un : u * Rabs n <= 202 / 100 * (u * X)).
    { replace (202 / 100 * (u * X)) with (u * (202 / 100 * X)) by ring. apply Rmult_le_compat_l; lra. }
    split; [exact s1|split; [exact es|]].
    replace (2 * a * t + b - sg * s) with ((2 * a * t - n) + (n - g)) by (unfold g; ring).
    eapply Rle_trans; [apply Rabs_triang|]. lra.
  Qed.

  Lemma two_residual d s t sg : Rabs (d - Dl) <= 11 / 5 * u * (X * X) -> sg = 1 \/ sg = -1 ->
    0 <= s <= 101 / 100 * X -> Rabs (s * s - d) <= 24 / 10 * (u * (X * X)) ->
    Rabs (2 * a * t + b - sg * s) <= 43 / 10 * (u * X) ->
    Rabs (a * t * t + b * t + c) <= 4 * u * (X * X) / Rabs a.
  Proof.
    intros Ed Hsg Hs es e1.
    assert (XX : 0 <= X * X) by nra.
    assert (uX : 0 <= u * X) by (apply Rmult_le_pos; lra).
    assert (uXX : 0 <= u * (X * X) <= X * X / 2048) by (split; [apply Rmult_le_pos; lra|]; unfold Rdiv; rewrite (Rmult_comm (X * X)); apply Rmult_le_compat_r; lra).
    apply by_square. set (E := 2 * a * t + b - sg * s) in *.
    replace ((2 * a * t + b) * (2 * a * t + b) - Dl) with ((s * s - d) + (d - Dl) + 2 * (sg * s) * E + E * E)
      by (unfold E; destruct Hsg as [-> | ->]; ring).
    assert (c1 : Rabs (2 * (sg * s) * E) <= 202 / 100 * X * (43 / 10 * (u * X))).
    { rewrite Rabs_mult. apply Rmult_le_compat; try apply Rabs_pos; [|exact e1].
      apply Rabs_le. destruct Hsg as [-> | ->]; lra. }
    assert (c2 : Rabs (E * E) <= 43 / 10 * (u * X) * (43 / 10 * (u * X))).
    { rewrite Rabs_mult. apply Rmult_le_compat; try apply Rabs_pos; exact e1. }
    assert (c3 : u * X * (u * X) <= u * (X * X) / 2048).
    { replace (u * X * (u * X)) with (u * (u * (X * X))) by ring. unfold Rdiv. rewrite Rmult_assoc. apply Rmult_le_compat_l; lra. }
    eapply Rle_trans; [apply Rabs_triang|]. eapply Rle_trans; [apply Rplus_le_compat_r, Rabs_triang|].
    eapply Rle_trans; [apply Rplus_le_compat_r, Rplus_le_compat_r, Rabs_triang|].
    replace (202 / 100 * X * (43 / 10 * (u * X))) with (8686 / 1000 * (u * (X * X))) in c1 by field.
    replace (43 / 10 * (u * X) * (43 / 10 * (u * X))) with (1849 / 100 * (u * X * (u * X))) in c2 by field. lra.
  Qed.

  Lemma two_forward d s t sg : 0 < Dl -> Rabs (d - Dl) <= 11 / 5 * u * (X * X) -> sg = 1 \/ sg = -1 ->
    0 <= s -> Rabs (s * s - d) <= 24 / 10 * (u * (X * X)) ->
    Rabs (2 * a * t + b - sg * s) <= 43 / 10 * (u * X) ->
    Rabs (t - (- b + sg * sqrt Dl) / (2 * a)) <= 9 / 2 * u * (X * X) / (Rabs a * sqrt Dl).
  Proof.
    intros Hd Ed Hsg Hs es e1. assert (XX : 0 <= X * X) by nra.
    set (q := sqrt Dl). assert (q0 : 0 < q) by now apply sqrt_lt_R0. assert (qq : q * q = Dl) by (apply sqrt_sqrt; lra).
    assert (a0 : 0 < Rabs a) by now apply Rabs_pos_lt.
    pose proof disc_le as HD. rewrite <- qq in HD. rewrite (Rabs_pos_eq (q * q)) in HD by nra.
    assert (qX : q <= X) by (apply Rsqr_incr_0_var; [unfold Rsqr; lra|lra]).
    assert (uX : 0 <= u * X) by (apply Rmult_le_pos; lra).
    assert (uXX : 0 <= u * (X * X)) by (apply Rmult_le_pos; lra).
    apply Rmult_le_reg_l with (2 * (Rabs a * q)); [assert (0 < Rabs a * q) by (apply Rmult_lt_0_compat; lra); lra|].
    replace (2 * (Rabs a * q) * (9 / 2 * u * (X * X) / (Rabs a * q))) with (9 * (u * (X * X))) by (field; lra).
    replace (2 * (Rabs a * q)) with (q * Rabs (2 * a)) by (rewrite Rabs_mult, (Rabs_pos_eq 2); lra).
    rewrite Rmult_assoc, <- Rabs_mult.
    replace (2 * a * (t - (- b + sg * q) / (2 * a))) with ((2 * a * t + b - sg * s) + sg * (s - q)) by (field; lra).
    apply Rle_trans with (q * (43 / 10 * (u * X)) + q * Rabs (s - q)).
    { rewrite <- Rmult_plus_distr_l. apply Rmult_le_compat_l; [lra|]. eapply Rle_trans; [apply Rabs_triang|].
      apply Rplus_le_compat; [exact e1|]. rewrite Rabs_mult. destruct Hsg as [-> | ->].
      - rewrite Rabs_pos_eq; lra.
      - rewrite (Rabs_left (-1)); lra. }
    assert (k1 : q * (43 / 10 * (u * X)) <= 43 / 10 * (u * (X * X))).
    { replace (43 / 10 * (u * (X * X))) with (X * (43 / 10 * (u * X))) by ring. apply Rmult_le_compat_r; lra. }
    assert (k2 : q * Rabs (s - q) <= Rabs (s * s - q * q)).
    { replace (s * s - q * q) with ((s + q) * (s - q)) by ring. rewrite Rabs_mult.
      apply Rmult_le_compat_r; [apply Rabs_pos|]. rewrite Rabs_pos_eq; lra. }
    assert (k3 : Rabs (s * s - q * q) <= 46 / 10 * (u * (X * X))).
    { rewrite qq. replace (s * s - Dl) with ((s * s - d) + (d - Dl)) by ring. eapply Rle_trans; [apply Rabs_triang|]. lra. }
    lra.
  Qed.

  Lemma one_residual d t : d <= 0 -> Rabs d < 2 * u -> Rabs (d - Dl) <= 11 / 5 * u * (X * X) ->
    Rabs (2 * a * t - - b) <= u * Rabs b + u * X / 4 ->
    Rabs (a * t * t + b * t + c) <= (4 * u * (X * X) + u / 2) / Rabs a.
  Proof.
    intros Hd Ad Ed Et. pose proof b_le as Hb. apply by_square.
    assert (XX : 0 <= X * X) by nra.
    assert (uX : 0 <= u * X) by (apply Rmult_le_pos; lra).
    assert (uXX : 0 <= u * (X * X)) by (apply Rmult_le_pos; lra).
    assert (ub : u * Rabs b <= u * X) by (apply Rmult_le_compat_l; lra).
    assert (e1 : Rabs (2 * a * t + b) <= 5 / 4 * (u * X)) by (replace (2 * a * t + b) with (2 * a * t - - b) by ring; lra).
    assert (c2 : Rabs ((2 * a * t + b) * (2 * a * t + b)) <= 5 / 4 * (u * X) * (5 / 4 * (u * X))).
    { rewrite Rabs_mult. apply Rmult_le_compat; try apply Rabs_pos; exact e1. }
    assert (c3 : u * X * (u * X) <= u * (X * X) / 2048).
    { replace (u * X * (u * X)) with (u * (u * (X * X))) by ring. unfold Rdiv. rewrite Rmult_assoc. apply Rmult_le_compat_l; [lra|].
      apply Rle_trans with (/ 2048 * (X * X)); [apply Rmult_le_compat_r; lra|lra]. }
    apply Rabs_le_inv in c2, Ed. apply Rabs_def2 in Ad. apply Rabs_le. split; lra.
  Qed.
End Real.

(** ** Floats *)
Section Floats.
  Context {F : Format}.
  Lemma float_shift x (k : Z) : is_float x -> (0 <= k)%Z -> is_float (x * bpow radix2 k).
  Proof.
    intros H Hk. unfold is_float, fx in *.
    change (SpecFloat.fexp fprec femax) with (FLT_exp (SpecFloat.emin fprec femax) fprec) in *.
    now apply mult_bpow_pos_exact_FLT.
  Qed.
  (** multiplication by 2, -2 and 4 is exact *)
  Lemma mul_lit_exact (x : float) (z : Z) : fin x -> z = 2%Z \/ z = 4%Z \/ z = (-2)%Z -> Rabs (val x * IZR z) <= fmax ->
    fin (s_mul x (s_lit z)) /\ val (s_mul x (s_lit z)) = val x * IZR z.
  Proof.
    intros Fx Hz B. destruct (lit_small z) as [L1 L2]; [lia|].
    destruct (mul_ok x (s_lit z) Fx L1) as [Fm Em]; [now rewrite L2|]. split; [exact Fm|].
    rewrite Em, L2. apply rnd_float. pose proof (val_float x) as V. destruct Hz as [-> | [-> | ->]].
    - exact (float_shift _ 1 V ltac:(lia)).
    - exact (float_shift _ 2 V ltac:(lia)).
    - replace (val x * IZR (-2)) with (- (val x * 2)) by ring. apply float_opp. exact (float_shift _ 1 V ltac:(lia)).
  Qed.
  Lemma eta_le_uro : eta <= uro.
  Proof. unfold eta, uro. apply bpow_le. pose proof femax_ge. lia. Qed.

  Variables (fa fb fc : float) (M : R).
  Local Notation a := (val fa).
  Local Notation b := (val fb).
  Local Notation c := (val fc).
  Hypotheses (HM : 1 <= M) (H8 : 8 * (M * M) <= fmax) (Hq : 2 * M <= uro * fmax).
  Hypotheses (Fa : fin fa) (Fb : fin fb) (Fc : fin fc) (Ba : Rabs a <= M) (Bb : Rabs b <= M) (Bc : Rabs c <= M).
  (** b^2 + 4 |a c| with room for underflow *)
  Definition spread (a b c M : R) : R := b * b + 4 * Rabs (a * c) + 64 * (M * M) * (eta / uro).
  Local Notation W := (spread a b c M).
  Local Notation X := (sqrt W).
  Local Notation fD := (s_sub (s_mul fb fb) (s_mul (s_mul fa fc) (s_lit 4))).

  Lemma theta : 0 < eta / uro <= / 1024.
  Proof.
    pose proof uro_pos. pose proof eta_pos. split; [now apply Rdiv_lt_0_compat|].
    apply Rmult_le_reg_r with uro; [lra|]. unfold Rdiv. rewrite Rmult_assoc, Rinv_l, Rmult_1_r by lra.
    replace (/ 1024) with (bpow radix2 (-10)) by (cbn; lra). unfold eta, uro. rewrite <- bpow_plus.
    apply bpow_le. pose proof femax_ge. lia.
  Qed.
  Lemma MM1 : 1 <= M * M.
  Proof. nra. Qed.
  Lemma bb_le : 0 <= b * b <= M * M.
  Proof.
    replace (b * b) with (Rabs b * Rabs b) by (rewrite <- Rabs_mult, Rabs_pos_eq; [reflexivity|nra]).
    pose proof (Rabs_pos b). split; [nra|]. apply Rmult_le_compat; lra.
  Qed.
  Lemma ac_le : Rabs (a * c) <= M * M.
  Proof. rewrite Rabs_mult. apply Rmult_le_compat; try apply Rabs_pos; assumption. Qed.
  Lemma W_pos : 0 < W.
  Proof.
    unfold spread. pose proof bb_le. pose proof (Rabs_pos (a * c)). pose proof theta. pose proof MM1.
    assert (0 < 64 * (M * M) * (eta / uro)) by (apply Rmult_lt_0_compat; lra). lra.
  Qed.
  Lemma XX : X * X = W.
  Proof. apply sqrt_sqrt. pose proof W_pos. lra. Qed.
  Lemma X_ge0 : 0 <= X.
  Proof. apply sqrt_pos. Qed.
  Lemma HW : b * b + 4 * Rabs (a * c) <= X * X.
  Proof.
    rewrite XX. unfold spread. pose proof theta. pose proof MM1.
    assert (0 < 64 * (M * M) * (eta / uro)) by (apply Rmult_lt_0_compat; lra). lra.
  Qed.
  Lemma eta_W : 64 * eta <= uro * (X * X).
  Proof.
    rewrite XX. unfold spread. pose proof uro_pos as U. pose proof eta_pos as E. pose proof MM1. pose proof bb_le. pose proof (Rabs_pos (a * c)).
    assert (K : uro * (64 * (M * M) * (eta / uro)) = 64 * (M * M) * eta) by (field; lra).
    assert (64 * 1 * eta <= 64 * (M * M) * eta) by (apply Rmult_le_compat_r; lra).
    assert (0 <= uro * (b * b + 4 * Rabs (a * c))) by (apply Rmult_le_pos; lra). lra.
  Qed.
  Lemma eta_X : 8 * M * eta <= uro * X.
  Proof.
    pose proof uro_pos as U. pose proof eta_pos as E. pose proof theta as T.
    apply Rsqr_incr_0_var; [|apply Rmult_le_pos; [lra|apply X_ge0]]. unfold Rsqr.
    replace (uro * X * (uro * X)) with (uro * uro * (X * X)) by ring. rewrite XX. unfold spread.
    pose proof bb_le. pose proof (Rabs_pos (a * c)). pose proof MM1.
    assert (K : uro * uro * (64 * (M * M) * (eta / uro)) = uro * (64 * (M * M) * eta)) by (field; lra).
    assert (0 <= uro * uro * (b * b + 4 * Rabs (a * c))) by (apply Rmult_le_pos; nra).
    assert (L : eta * (64 * (M * M) * eta) <= uro * (64 * (M * M) * eta)).
    { apply Rmult_le_compat_r; [|apply eta_le_uro]. apply Rmult_le_pos; lra. }
    replace (8 * M * eta * (8 * M * eta)) with (eta * (64 * (M * M) * eta)) by ring. lra.
  Qed.
  Lemma X_le : X <= 226 / 100 * M.
  Proof.
    apply Rsqr_incr_0_var; [|lra]. unfold Rsqr. rewrite XX. unfold spread.
    pose proof bb_le. pose proof ac_le. pose proof theta. pose proof MM1.
    assert (64 * (M * M) * (eta / uro) <= 64 * (M * M) * / 1024) by (apply Rmult_le_compat_l; lra). lra.
  Qed.

  Lemma disc_ok : fin fD /\ Rabs (val fD - (b * b - 4 * (a * c))) <= 11 / 5 * uro * (X * X).
  Proof.
    pose proof uro_pos as U. pose proof uro_small as U'. pose proof eta_pos as E. pose proof bb_le as B2. pose proof ac_le as AC.
    pose proof MM1 as M1. pose proof eta_W as EW. pose proof HW as HWW. pose proof (Rabs_pos (a * c)) as A0.
    assert (Es : eta <= / 2048) by (pose proof eta_le_uro; lra).
    destruct (mul_ok fb fb Fb Fb) as [F1 V1]; [rewrite Rabs_pos_eq; lra|].
    destruct (mul_ok fa fc Fa Fc) as [F2 V2]; [lra|].
    pose proof (rnd_err (b * b)) as R1. rewrite <- V1, (Rabs_pos_eq (b * b)) in R1 by lra.
    pose proof (rnd_err (a * c)) as R2. rewrite <- V2 in R2.
    set (p1 := val (s_mul fb fb)) in *. set (p2 := val (s_mul fa fc)) in *.
    assert (ub : 0 <= uro * (b * b) <= M * M / 2048).
    { split; [apply Rmult_le_pos; lra|]. apply Rle_trans with (/ 2048 * (M * M)); [apply Rmult_le_compat; lra|lra]. }
    assert (uac : 0 <= uro * Rabs (a * c) <= M * M / 2048).
    { split; [apply Rmult_le_pos; lra|]. apply Rle_trans with (/ 2048 * (M * M)); [apply Rmult_le_compat; lra|lra]. }
    assert (P2 : Rabs p2 <= M * M + M * M / 2048 + eta).
    { replace p2 with ((p2 - a * c) + a * c) by ring. eapply Rle_trans; [apply Rabs_triang|]. lra. }
    destruct (mul_lit_exact (s_mul fa fc) 4 F2) as [F3 V3]; [auto|fold p2; rewrite Rabs_mult, (Rabs_pos_eq 4); lra|].
    fold p2 in V3. set (p3 := val (s_mul (s_mul fa fc) (s_lit 4))) in *.
    assert (N : Rabs (p1 - p3 - (b * b - 4 * (a * c))) <= uro * (b * b + 4 * Rabs (a * c)) + 5 * eta).
    { rewrite V3. replace (p1 - p2 * 4 - (b * b - 4 * (a * c))) with ((p1 - b * b) + (-4) * (p2 - a * c)) by ring.
      eapply Rle_trans; [apply Rabs_triang|]. rewrite Rabs_mult, (Rabs_left (-4)) by lra. lra. }
    assert (DL' : Rabs (b * b - 4 * (a * c)) <= b * b + 4 * Rabs (a * c)).
    { apply Rabs_le. pose proof (Rle_abs (a * c)). pose proof (Rle_abs (- (a * c))) as Q. rewrite Rabs_Ropp in Q. lra. }
    assert (N2 : Rabs (p1 - p3) <= (b * b + 4 * Rabs (a * c)) + (uro * (b * b + 4 * Rabs (a * c)) + 5 * eta)).
    { replace (p1 - p3) with ((p1 - p3 - (b * b - 4 * (a * c))) + (b * b - 4 * (a * c))) by ring.
      eapply Rle_trans; [apply Rabs_triang|]. lra. }
    assert (N3 : Rabs (p1 - p3) <= fmax) by lra.
    destruct (sub_err (s_mul fb fb) (s_mul (s_mul fa fc) (s_lit 4)) _ F1 F3 N2) as [F4 R4]; [lra|].
    split; [exact F4|]. fold p1 p3 in R4.
    replace (val fD - (b * b - 4 * (a * c))) with ((val fD - (p1 - p3)) + (p1 - p3 - (b * b - 4 * (a * c)))) by ring.
    eapply Rle_trans; [apply Rabs_triang|].
    set (w := b * b + 4 * Rabs (a * c)) in *. assert (w0 : 0 <= w) by (unfold w; lra).
    assert (K1 : uro * w <= uro * (X * X)) by (apply Rmult_le_compat_l; lra).
    assert (K2 : uro * (uro * w) <= / 2048 * (uro * (X * X))) by (apply Rmult_le_compat; try lra; apply Rmult_le_pos; lra).
    assert (K3 : uro * (5 * eta) <= / 2048 * (5 * eta)) by (apply Rmult_le_compat_r; lra).
    lra.
  Qed.

  (** the quotient of the two formulas *)
  Lemma quot_ok (fn : float) B : fin fn -> 2 * uro <= Rabs a -> Rabs (val fn) <= B -> B <= 20 * M ->
    5 * B <= 18 * uro * fmax ->
    fin (s_div fn (s_mul fa (s_lit 2))) /\
    Rabs (2 * a * val (s_div fn (s_mul fa (s_lit 2))) - val fn) <= uro * Rabs (val fn) + uro * X / 4.
  Proof.
    intros Fn La Bn BM Bq. pose proof uro_pos as U. pose proof eta_pos as E.
    assert (a0 : 0 < Rabs a) by lra. assert (an : a <> 0) by (intros Z; rewrite Z, Rabs_R0 in a0; lra).
    destruct (mul_lit_exact fa 2 Fa) as [F2 V2]; [auto|pose proof MM1; rewrite Rabs_mult, (Rabs_pos_eq 2); nra|].
    assert (Q : Rabs (val fn / (val fa * 2)) <= fmax).
    { unfold Rdiv. rewrite Rabs_mult, Rabs_inv, Rabs_mult, (Rabs_pos_eq 2) by lra.
      apply Rmult_le_reg_r with (Rabs a * 2); [lra|]. rewrite Rmult_assoc, Rinv_l, Rmult_1_r by lra.
      pose proof fmax_ge. assert (fmax * (4 * uro) <= fmax * (Rabs a * 2)) by (apply Rmult_le_compat_l; lra). nra. }
    destruct (div_ok fn (s_mul fa (s_lit 2)) Fn) as [Fd Vd]; [rewrite V2; lra|now rewrite V2|].
    split; [exact Fd|]. rewrite Vd, V2. set (r := val fn / (val fa * 2)) in *.
    pose proof (rnd_err r) as R. assert (Er : val fn = 2 * a * r) by (unfold r; field; lra).
    rewrite Er at 1. replace (2 * a * rnd r - 2 * a * r) with (2 * a * (rnd r - r)) by ring.
    rewrite Rabs_mult, (Rabs_mult 2), (Rabs_pos_eq 2) by lra.
    apply Rle_trans with (2 * Rabs a * (uro * Rabs r + eta)); [apply Rmult_le_compat_l; lra|].
    replace (Rabs (val fn)) with (2 * Rabs a * Rabs r)
      by (rewrite Er, Rabs_mult, (Rabs_mult 2), (Rabs_pos_eq 2); lra).
    pose proof eta_X. assert (Rabs a * eta <= M * eta) by (apply Rmult_le_compat_r; lra). lra.
  Qed.

  Lemma root_cases l : 2 * uro <= Rabs a -> quad_real_roots fa fb fc = Ret l ->
    (0 < val fD /\ l = [s_div (s_sub (s_neg fb) (s_sqrt fD)) (s_mul fa (s_lit 2));
                        s_div (s_add (s_neg fb) (s_sqrt fD)) (s_mul fa (s_lit 2))]) \/
    (val fD <= 0 /\ Rabs (val fD) < 2 * uro /\ l = [s_div (s_neg fb) (s_mul fa (s_lit 2))]) \/
    (val fD <= 0 /\ 2 * uro <= Rabs (val fD) /\ l = []).
  Proof.
    intros La. destruct disc_ok as [FD _]. destruct eps_ok as [Fe Ve]. destruct (lit_small 0) as [L1 L2]; [lia|].
    unfold quad_real_roots. cbv zeta.
    rewrite (ltb_val (s_abs fa) s_eps) by (auto; now apply abs_fin).
    rewrite abs_val, Ve, Rlt_bool_false by exact La.
    rewrite (ltb_val (s_lit 0) fD L1 FD), L2.
    destruct (Rlt_bool_spec 0 (val fD)) as [G|G].
    - cbn [av_push length Nat.ltb Nat.leb bind app]. intros [= <-]. left. split; [exact G|reflexivity].
    - rewrite (ltb_val (s_abs fD) s_eps) by (auto; now apply abs_fin). rewrite abs_val, Ve.
      destruct (Rlt_bool_spec (Rabs (val fD)) (2 * uro)) as [G'|G'].
      + cbn [av_push length Nat.ltb Nat.leb bind app]. intros [= <-]. right. left. auto.
      + intros [= <-]. right. right. auto.
  Qed.

  Lemma two_facts : 2 * uro <= Rabs a -> 0 < val fD ->
    exists s, 0 <= s <= 101 / 100 * X /\ Rabs (s * s - val fD) <= 24 / 10 * (uro * (X * X)) /\
    (forall t, (t = s_div (s_sub (s_neg fb) (s_sqrt fD)) (s_mul fa (s_lit 2)) ->
                fin t /\ Rabs (2 * a * val t + b - -1 * s) <= 43 / 10 * (uro * X)) /\
               (t = s_div (s_add (s_neg fb) (s_sqrt fD)) (s_mul fa (s_lit 2)) ->
                fin t /\ Rabs (2 * a * val t + b - 1 * s) <= 43 / 10 * (uro * X))).
  Proof.
    intros La G. pose proof uro_pos as U. pose proof uro_small as U'. pose proof fmax_ge as FM.
    assert (a0 : 0 < Rabs a) by lra. assert (an : a <> 0) by (intros Z; rewrite Z, Rabs_R0 in a0; lra).
    destruct disc_ok as [FD ED]. pose proof X_ge0 as X0. pose proof X_le as XM. pose proof HW as HWW.
    assert (Hu : 0 <= uro <= / 2048) by lra.
    assert (Mf : 40 * M <= fmax).
    { assert (uro * fmax <= / 2048 * fmax) by (apply Rmult_le_compat_r; lra). lra. }
    destruct (sqrt_ok fD FD ltac:(lra)) as [Fs Vs].
    pose proof (rnd_err (sqrt (val fD))) as Rs. rewrite <- Vs, (Rabs_pos_eq (sqrt _)) in Rs by apply sqrt_pos.
    assert (s0 : 0 <= val (s_sqrt fD)) by (rewrite Vs; apply rnd_nonneg, sqrt_pos).
    set (s := s_sqrt fD) in *.
    assert (Rs' : Rabs (val s - sqrt (val fD)) <= uro * sqrt (val fD) + uro * X / 8).
    { pose proof eta_X. pose proof eta_pos. assert (1 * eta <= M * eta) by (apply Rmult_le_compat_r; lra). lra. }
    assert (Fn : fin (s_neg fb)) by now apply neg_fin.
    assert (Sz : val s <= 101 / 100 * X /\ Rabs (val s * val s - val fD) <= 24 / 10 * (uro * (X * X))).
    { destruct (two_core uro X a b c Hu X0 HWW (val fD) (val s) (- b + 1 * val s) ((- b + 1 * val s) / (2 * a)) 1) as (Z & Z' & _); auto.
      - replace (- b + 1 * val s - (- b + 1 * val s)) with 0 by ring. rewrite Rabs_R0. apply Rmult_le_pos; [lra|apply Rabs_pos].
      - replace (2 * a * ((- b + 1 * val s) / (2 * a)) - (- b + 1 * val s)) with 0 by (field; lra). rewrite Rabs_R0.
        pose proof (Rabs_pos (- b + 1 * val s)). assert (0 <= uro * X) by (apply Rmult_le_pos; lra).
        assert (0 <= uro * Rabs (- b + 1 * val s)) by (apply Rmult_le_pos; lra). lra. }
    destruct Sz as [Sz Sq]. pose proof (b_le X a b c X0 HWW) as BX.
    assert (main : forall sg fn, sg = 1 \/ sg = -1 -> fin fn ->
      Rabs (val fn - (- b + sg * val s)) <= uro * Rabs (- b + sg * val s) ->
      forall t, t = s_div fn (s_mul fa (s_lit 2)) ->
      fin t /\ Rabs (2 * a * val t + b - sg * val s) <= 43 / 10 * (uro * X)).
    { intros sg fn Hsg Ffn En t ->.
      assert (g1 : Rabs (- b + sg * val s) <= 201 / 100 * X).
      { apply Rabs_le_inv in BX. apply Rabs_le. destruct Hsg as [-> | ->]; lra. }
      assert (n1 : Rabs (val fn) <= 202 / 100 * X).
      { replace (val fn) with ((val fn - (- b + sg * val s)) + (- b + sg * val s)) by ring.
        eapply Rle_trans; [apply Rabs_triang|].
        assert (uro * Rabs (- b + sg * val s) <= / 2048 * (201 / 100 * X)) by (apply Rmult_le_compat; try lra; apply Rabs_pos). lra. }
      assert (n2 : Rabs (val fn) <= 7 * M) by lra.
      destruct (quot_ok fn (7 * M) Ffn La n2) as [Fq Eq]; [lra|lra|]. split; [exact Fq|].
      now destruct (two_core uro X a b c Hu X0 HWW (val fD) (val s) (val fn) _ sg G ED s0 Rs' Hsg En Eq) as (_ & _ & Z). }
    assert (bnd : forall sg, sg = 1 \/ sg = -1 -> Rabs (- b + sg * val s) <= fmax).
    { intros sg Hsg. apply Rabs_le_inv in BX. apply Rabs_le. destruct Hsg as [-> | ->]; lra. }
    exists (val s). split; [lra|]. split; [exact Sq|]. intros t. split.
    - pose proof (bnd (-1) ltac:(auto)) as B1. replace (- b + -1 * val s) with (val (s_neg fb) - val s) in B1 by (rewrite neg_val; ring).
      destruct (sub_err (s_neg fb) s _ Fn Fs (Rle_refl _) B1) as [F1 E1].
      apply (main (-1) (s_sub (s_neg fb) s)); auto.
      replace (- b + -1 * val s) with (val (s_neg fb) - val s) by (rewrite neg_val; ring). exact E1.
    - pose proof (bnd 1 ltac:(auto)) as B1. replace (- b + 1 * val s) with (val (s_neg fb) + val s) in B1 by (rewrite neg_val; ring).
      destruct (add_err (s_neg fb) s _ Fn Fs (Rle_refl _) B1) as [F1 E1].
      apply (main 1 (s_add (s_neg fb) s)); auto.
      replace (- b + 1 * val s) with (val (s_neg fb) + val s) by (rewrite neg_val; ring). exact E1.
  Qed.

  Lemma root_residual l t : 2 * uro <= Rabs a -> quad_real_roots fa fb fc = Ret l -> In t l ->
    fin t /\ Rabs (a * val t * val t + b * val t + c) <= (4 * uro * W + uro / 2) / Rabs a.
  Proof.
    intros La H Ht. pose proof uro_pos as U. pose proof uro_small as U'. pose proof fmax_ge as FM.
    assert (a0 : 0 < Rabs a) by lra. assert (an : a <> 0) by (intros Z; rewrite Z, Rabs_R0 in a0; lra).
    destruct disc_ok as [FD ED]. pose proof X_ge0 as X0. pose proof HW as HWW.
    assert (Hu : 0 <= uro <= / 2048) by lra. rewrite <- XX.
    assert (W4 : 4 * uro * (X * X) / Rabs a <= (4 * uro * (X * X) + uro / 2) / Rabs a).
    { apply Rmult_le_compat_r; [left; now apply Rinv_0_lt_compat|lra]. }
    destruct (root_cases l La H) as [[G ->]|[[G [G' ->]]|[_ [_ ->]]]]; [| |destruct Ht].
    - destruct (two_facts La G) as (s & Hs & Es & K). destruct Ht as [<-|[<-|[]]].
      + destruct (K (s_div (s_sub (s_neg fb) (s_sqrt fD)) (s_mul fa (s_lit 2)))) as [[K1 K2] _]; [reflexivity|]. split; [exact K1|]. eapply Rle_trans; [|exact W4].
        apply (two_residual uro X a b c Hu X0 an (val fD) s _ (-1)); auto.
      + destruct (K (s_div (s_add (s_neg fb) (s_sqrt fD)) (s_mul fa (s_lit 2)))) as [_ [K1 K2]]; [reflexivity|].
        split; [exact K1|]. eapply Rle_trans; [|exact W4].
        apply (two_residual uro X a b c Hu X0 an (val fD) s _ 1); auto.
    - destruct Ht as [<-|[]]. assert (Fn : fin (s_neg fb)) by now apply neg_fin.
      destruct (quot_ok (s_neg fb) M Fn La) as [Fq Eq]; [rewrite neg_val, Rabs_Ropp; lra|lra|lra|].
      split; [exact Fq|]. rewrite neg_val, Rabs_Ropp in Eq.
      apply (one_residual uro X a b c Hu X0 an HWW (val fD)); auto.
  Qed.

  (** forward error: a discriminant above the noise *)
  Lemma two_roots l : 2 * uro <= Rabs a -> 11 / 5 * uro * W < b * b - 4 * (a * c) -> quad_real_roots fa fb fc = Ret l ->
    exists t1 t2, l = [t1; t2] /\
    Rabs (val t1 - (- b - sqrt (b * b - 4 * (a * c))) / (2 * a)) <= 9 / 2 * uro * W / (Rabs a * sqrt (b * b - 4 * (a * c))) /\
    Rabs (val t2 - (- b + sqrt (b * b - 4 * (a * c))) / (2 * a)) <= 9 / 2 * uro * W / (Rabs a * sqrt (b * b - 4 * (a * c))).
  Proof.
    intros La HD H. pose proof uro_pos as U. pose proof uro_small as U'.
    assert (a0 : 0 < Rabs a) by lra. assert (an : a <> 0) by (intros Z; rewrite Z, Rabs_R0 in a0; lra).
    destruct disc_ok as [FD ED]. pose proof X_ge0 as X0. pose proof HW as HWW.
    assert (Hu : 0 <= uro <= / 2048) by lra. pose proof W_pos. assert (0 <= uro * W) by (apply Rmult_le_pos; lra).
    assert (G0 : 0 < b * b - 4 * (a * c)) by lra.
    assert (G1 : 0 < val fD) by (rewrite XX in ED; apply Rabs_le_inv in ED; lra).
    destruct (root_cases l La H) as [[G ->]|[[G _]|[G _]]]; try lra.
    destruct (two_facts La G) as (s & Hs & Es & K). eexists; eexists; split; [reflexivity|].
    rewrite <- XX. split.
    - destruct (K (s_div (s_sub (s_neg fb) (s_sqrt fD)) (s_mul fa (s_lit 2)))) as [[_ K2] _]; [reflexivity|].
      replace (- b - sqrt (b * b - 4 * (a * c))) with (- b + -1 * sqrt (b * b - 4 * (a * c))) by ring.
      apply (two_forward uro X a b c Hu X0 an HWW (val fD) s _ (-1)); auto; lra.
    - destruct (K (s_div (s_add (s_neg fb) (s_sqrt fD)) (s_mul fa (s_lit 2)))) as [_ [_ K2]]; [reflexivity|].
      replace (- b + sqrt (b * b - 4 * (a * c))) with (- b + 1 * sqrt (b * b - 4 * (a * c))) by ring.
      apply (two_forward uro X a b c Hu X0 an HWW (val fD) s _ 1); auto; lra.
  Qed.

  Lemma no_roots l : 2 * uro <= Rabs a -> b * b - 4 * (a * c) < - (11 / 5 * uro * W + 2 * uro) -> quad_real_roots fa fb fc = Ret l -> l = [].
  Proof.
    intros La HD H. destruct disc_ok as [FD ED]. rewrite XX in ED. apply Rabs_le_inv in ED. pose proof uro_pos.
    pose proof W_pos. assert (0 <= uro * W) by (apply Rmult_le_pos; lra).
    destruct (root_cases l La H) as [[G ->]|[[G [G' ->]]|[_ [_ ->]]]]; [lra| |reflexivity].
    apply Rabs_def2 in G'. lra.
  Qed.

  (** the linear branch *)
  Lemma linear_roots l : Rabs a < 2 * uro -> quad_real_roots fa fb fc = Ret l ->
    (Rabs b < 2 * uro /\ l = []) \/
    (2 * uro <= Rabs b /\ exists t, l = [t] /\ fin t /\ Rabs (b * val t + c) <= uro * Rabs c + M * eta).
  Proof.
    intros La. destruct eps_ok as [Fe Ve]. unfold quad_real_roots. cbv zeta.
    rewrite (ltb_val (s_abs fa) s_eps) by (auto; now apply abs_fin).
    rewrite abs_val, Ve, Rlt_bool_true by exact La.
    rewrite (ltb_val (s_abs fb) s_eps) by (auto; now apply abs_fin). rewrite abs_val, Ve.
    destruct (Rlt_bool_spec (Rabs b) (2 * uro)) as [G|G].
    - intros [= <-]. left. auto.
    - cbn [av_push length Nat.ltb Nat.leb bind app]. intros H. assert (l = [s_div (s_neg fc) fb]) as -> by congruence.
      right. split; [exact G|]. exists (s_div (s_neg fc) fb); split; [reflexivity|].
      pose proof uro_pos as U. pose proof eta_pos as E. assert (b0 : 0 < Rabs b) by lra.
      assert (bn : b <> 0) by (intros Z; rewrite Z, Rabs_R0 in b0; lra).
      assert (Fn : fin (s_neg fc)) by now apply neg_fin.
      assert (Q : Rabs (val (s_neg fc) / b) <= fmax).
      { rewrite neg_val. unfold Rdiv. rewrite Rabs_mult, Rabs_inv, Rabs_Ropp.
        apply Rmult_le_reg_r with (Rabs b); [lra|]. rewrite Rmult_assoc, Rinv_l, Rmult_1_r by lra.
        pose proof fmax_ge. assert (fmax * (2 * uro) <= fmax * Rabs b) by (apply Rmult_le_compat_l; lra). lra. }
      destruct (div_ok (s_neg fc) fb Fn bn Q) as [Fd Vd]. split; [exact Fd|]. rewrite Vd, neg_val.
      set (r := - c / b). pose proof (rnd_err r) as R. assert (Er : c = - (b * r)) by (unfold r; field; lra).
      rewrite Er at 1. replace (b * rnd r + - (b * r)) with (b * (rnd r - r)) by ring. rewrite Rabs_mult.
      apply Rle_trans with (Rabs b * (uro * Rabs r + eta)); [apply Rmult_le_compat_l; lra|].
      replace (Rabs c) with (Rabs b * Rabs r) by (rewrite Er, Rabs_Ropp, Rabs_mult; reflexivity).
      assert (Rabs b * eta <= M * eta) by (apply Rmult_le_compat_r; lra). lra.
  Qed.
End Floats.

Lemma roots_total {T} {ST : Scalar T} (a b c : T) : exists l, quad_real_roots a b c = Ret l.
Proof.
  unfold quad_real_roots. cbv zeta. cbn [av_push length Nat.ltb Nat.leb bind app].
  repeat match goal with |- context [if ?b then _ else _] => destruct b end; eexists; reflexivity.
Qed.
Section Exists.
  Context {F : Format}.
  Variables (fa fb fc : float) (M : R).
  Local Notation a := (val fa).
  Local Notation b := (val fb).
  Local Notation c := (val fc).
  Hypotheses (HM : 1 <= M) (H8 : 8 * (M * M) <= fmax) (Hq : 2 * M <= uro * fmax).
  Hypotheses (Fa : fin fa) (Fb : fin fb) (Fc : fin fc) (Ba : Rabs a <= M) (Bb : Rabs b <= M) (Bc : Rabs c <= M).
  Local Notation W := (spread a b c M).
  Lemma two_roots' : 2 * uro <= Rabs a -> 11 / 5 * uro * W < b * b - 4 * (a * c) ->
    exists t1 t2, quad_real_roots fa fb fc = Ret [t1; t2] /\
    Rabs (val t1 - (- b - sqrt (b * b - 4 * (a * c))) / (2 * a)) <= 9 / 2 * uro * W / (Rabs a * sqrt (b * b - 4 * (a * c))) /\
    Rabs (val t2 - (- b + sqrt (b * b - 4 * (a * c))) / (2 * a)) <= 9 / 2 * uro * W / (Rabs a * sqrt (b * b - 4 * (a * c))).
  Proof.
    intros La HD. destruct (roots_total fa fb fc) as (l & El).
    destruct (two_roots fa fb fc M HM H8 Hq Fa Fb Fc Ba Bb Bc l La HD El) as (t1 & t2 & -> & A).
    exists t1, t2. auto.
  Qed.
  Lemma no_roots' : 2 * uro <= Rabs a -> b * b - 4 * (a * c) < - (11 / 5 * uro * W + 2 * uro) -> quad_real_roots fa fb fc = Ret [].
  Proof.
    intros La HD. destruct (roots_total fa fb fc) as (l & El). rewrite El. f_equal.
    exact (no_roots fa fb fc M HM H8 Fa Fb Fc Ba Bb Bc l La HD El).
  Qed.
  Lemma linear_roots' : Rabs a < 2 * uro -> 2 * uro <= Rabs b ->
    exists t, quad_real_roots fa fb fc = Ret [t] /\ fin t /\ Rabs (b * val t + c) <= uro * Rabs c + M * eta.
  Proof.
    intros La Lb. destruct (roots_total fa fb fc) as (l & El).
    destruct (linear_roots fa fb fc M HM Hq Fa Fb Fc Bb Bc l La El) as [[G _]|(_ & t & -> & A)]; [lra|]. exists t. auto.
  Qed.
End Exists.
Lemma filter_length_le {A} (f : A -> bool) l : (length (filter f l) <= length l)%nat.
Proof. induction l as [|x l IH]; simpl; [lia|]. destruct (f x); simpl; lia. Qed.
Lemma roots_length {T} {ST : Scalar T} (a b c : T) l : quad_real_roots a b c = Ret l -> (length l <= 2)%nat.
Proof.
  unfold quad_real_roots. cbv zeta. cbn [av_push length Nat.ltb Nat.leb bind app].
  repeat match goal with |- context [if ?b then _ else _] => destruct b end;
  intros H; match type of H with Ret ?x = _ => assert (l = x) as -> by congruence end; simpl; lia.
Qed.

(** ** solve_t_for_axis *)
Section Solve.
  Context {F : Format} {P : Type} {PT : Point float P} {CP : CwPoint float P}.
  Variables (q : quad P) (v : float) (M : R) (k : nat).
  Hypotheses (HM : 1 <= M) (H8 : 200 * (M * M) <= fmax) (Hq : 10 * M <= uro * fmax).
  Hypotheses (Bs : bounded M (q_start q)) (Bc : bounded M (q_ctrl q)) (Be : bounded M (q_end q)).
  Hypotheses (Fv : fin v) (Bv : Rabs (val v) <= M) (Hk : (k < p_dim (P := P))%nat).
  Local Notation s := (cw (q_start q) k).
  Local Notation c := (cw (q_ctrl q) k).
  Local Notation e := (cw (q_end q) k).
  Local Notation fA := (s_add (s_add s (s_mul c (s_lit (-2)))) e).
  Local Notation fB := (s_add (s_mul s (s_lit (-2))) (s_mul c (s_lit 2))).
  Local Notation fC := (s_sub s v).
  Local Notation A := (val s - 2 * val c + val e).

  Lemma coef_ok : fin fA /\ fin fB /\ fin fC /\
    Rabs (val fA - A) <= 71 / 10 * (uro * M) /\
    Rabs (val fB - 2 * (val c - val s)) <= 4 * (uro * M) /\
    Rabs (val fC - (val s - val v)) <= 2 * (uro * M) /\ (A = 0 -> val fA = 0).
  Proof.
    pose proof uro_pos as U. pose proof uro_small as U'. pose proof fmax_ge.
    destruct (Bs k Hk) as [Fs Vs]. destruct (Bc k Hk) as [Fc Vc]. destruct (Be k Hk) as [Fe Ve].
    assert (MM : M <= M * M) by nra. assert (Mf : 200 * M <= fmax) by lra.
    assert (uM : 0 <= uro * M <= M / 2048).
    { split; [apply Rmult_le_pos; lra|]. unfold Rdiv. rewrite (Rmult_comm M). apply Rmult_le_compat_r; lra. }
    assert (m2 : forall x, Rabs x <= M -> Rabs (x * 2) <= fmax /\ Rabs (x * -2) <= fmax).
    { intros x Hx. apply Rabs_le_inv in Hx. split; apply Rabs_le; lra. }
    destruct (mul_lit_exact c (-2) Fc) as [F1 E1]; [auto|now apply m2|].
    destruct (mul_lit_exact c 2 Fc) as [F2 E2]; [auto|now apply m2|].
    destruct (mul_lit_exact s (-2) Fs) as [F3 E3]; [auto|now apply m2|].
    apply Rabs_le_inv in Vs, Vc, Ve. pose proof Bv as Bv'. apply Rabs_le_inv in Bv'.
    destruct (add_err s (s_mul c (s_lit (-2))) (3 * M) Fs F1) as [F4 E4]; [rewrite E1; apply Rabs_le; lra|lra|].
    rewrite E1 in E4. pose proof E4 as E4'. apply Rabs_le_inv in E4'.
    destruct (add_err (s_add s (s_mul c (s_lit (-2)))) e (401 / 100 * M) F4 Fe) as [F5 E5]; [apply Rabs_le; lra|lra|].
    destruct (add_err (s_mul s (s_lit (-2))) (s_mul c (s_lit 2)) (4 * M) F3 F2) as [F6 E6]; [rewrite E2, E3; apply Rabs_le; lra|lra|].
    rewrite E2, E3 in E6.
    destruct (sub_err s v (2 * M) Fs Fv) as [F7 E7]; [apply Rabs_le; lra|lra|].
    split; [exact F5|]. split; [exact F6|]. split; [exact F7|]. split; [|split; [|split]].
    - replace (val fA - A) with ((val fA - (val (s_add s (s_mul c (s_lit (-2)))) + val e)) +
        (val (s_add s (s_mul c (s_lit (-2)))) - (val s + val c * -2))) by ring.
      eapply Rle_trans; [apply Rabs_triang|]. lra.
    - replace (2 * (val c - val s)) with (val s * -2 + val c * 2) by ring. lra.
    - lra.
    - intros Z. destruct (add_ok s (s_mul c (s_lit (-2))) Fs F1) as [_ V4]; [rewrite E1; apply Rabs_le; lra|].
      rewrite E1 in V4. replace (val s + val c * -2) with (- val e) in V4 by lra.
      rewrite rnd_float in V4 by (apply float_opp, val_float).
      destruct (add_ok (s_add s (s_mul c (s_lit (-2)))) e F4 Fe) as [_ V5]; [rewrite V4; apply Rabs_le; lra|].
      rewrite V5, V4. replace (- val e + val e) with 0 by ring. apply rnd_float, float_0.
  Qed.

  Lemma solve_inv l : quad_solve_t_for_axis q v k = Ret l ->
    forall t, In t l -> exists r, quad_real_roots fA fB fC = Ret r /\ In t r /\ in_unit t = true.
  Proof.
    unfold quad_solve_t_for_axis. intros H. apply bind_ret_inv in H as (b & _ & H).
    destruct b; [assert (l = []) as -> by congruence; intros t []|].
    rewrite !cw_axis in H. apply Nat.ltb_lt in Hk. rewrite Hk in H. cbn [bind] in H. cbv zeta in H.
    apply bind_ret_inv in H as (r & Hr & H). intros t Ht. exists r. split; [exact Hr|].
    pose proof (roots_length _ _ _ _ Hr) as L. pose proof (filter_length_le in_unit r) as L'.
    rewrite av_extend_le in H by (cbn [length]; lia). cbn [app] in H.
    assert (l = filter in_unit r) as -> by congruence. now apply filter_In in Ht.
  Qed.

  Lemma coef_size : Rabs (val fA) <= 5 * M /\ Rabs (val fB) <= 5 * M /\ Rabs (val fC) <= 5 * M /\
    spread (val fA) (val fB) (val fC) (5 * M) <= 51 * (M * M).
  Proof.
    pose proof uro_pos as U. pose proof uro_small as U'.
    destruct (Bs k Hk) as [Fs Vs]. destruct (Bc k Hk) as [Fc Vc]. destruct (Be k Hk) as [Fe Ve].
    destruct coef_ok as (_ & _ & _ & EA & EB & EC & _).
    assert (uM : 0 <= uro * M <= M / 2048).
    { split; [apply Rmult_le_pos; lra|]. unfold Rdiv. rewrite (Rmult_comm M). apply Rmult_le_compat_r; lra. }
    apply Rabs_le_inv in Vs, Vc, Ve, EA, EB, EC. pose proof Bv as Bv'. apply Rabs_le_inv in Bv'.
    assert (a1 : Rabs (val fA) <= 4004 / 1000 * M) by (apply Rabs_le; lra).
    assert (b1 : Rabs (val fB) <= 4002 / 1000 * M) by (apply Rabs_le; lra).
    assert (c1 : Rabs (val fC) <= 2001 / 1000 * M) by (apply Rabs_le; lra).
    split; [lra|]. split; [lra|]. split; [lra|]. unfold spread.
    assert (b2 : val fB * val fB <= 4002 / 1000 * M * (4002 / 1000 * M)).
    { replace (val fB * val fB) with (Rabs (val fB) * Rabs (val fB)) by (rewrite <- Rabs_mult, Rabs_pos_eq; [reflexivity|apply Rle_0_sqr]).
      apply Rmult_le_compat; try apply Rabs_pos; exact b1. }
    assert (ac : Rabs (val fA * val fC) <= 4004 / 1000 * M * (2001 / 1000 * M)).
    { rewrite Rabs_mult. apply Rmult_le_compat; try apply Rabs_pos; assumption. }
    destruct theta as [t0 t1]. assert (MM : 0 <= M * M) by nra.
    assert (64 * (5 * M * (5 * M)) * (eta / uro) <= 64 * (5 * M * (5 * M)) * / 1024) by (apply Rmult_le_compat_l; nra). lra.
  Qed.

  Lemma coef_poly t : 0 < t < 1 ->
    Rabs (bezier_poly [val s; val c; val e] t - val v) <=
    Rabs (val fA * t * t + val fB * t + val fC) + 131 / 10 * (uro * M).
  Proof.
    intros Ht. destruct coef_ok as (_ & _ & _ & EA & EB & EC & _).
    rewrite poly2.
    set (rA := val fA - A) in *. set (rB := val fB - 2 * (val c - val s)) in *. set (rC := val fC - (val s - val v)) in *.
    replace (_ - val v) with ((val fA * t * t + val fB * t + val fC) + - (rA * (t * t) + rB * t + rC))
      by (unfold rA, rB, rC; ring).
    eapply Rle_trans; [apply Rabs_triang|]. apply Rplus_le_compat_l. rewrite Rabs_Ropp.
    assert (tt : 0 <= t * t <= 1) by nra.
    eapply Rle_trans; [apply Rabs_triang|]. eapply Rle_trans; [apply Rplus_le_compat_r, Rabs_triang|].
    rewrite !(Rabs_mult _ _), (Rabs_pos_eq t) by lra.
    assert (Rabs rA * (t * t) <= 71 / 10 * (uro * M) * 1) by (apply Rmult_le_compat; try lra; apply Rabs_pos).
    assert (Rabs rB * t <= 4 * (uro * M) * 1) by (apply Rmult_le_compat; try lra; apply Rabs_pos). lra.
  Qed.

  Lemma linear_case r t : Rabs (val fA) < 2 * uro -> quad_real_roots fA fB fC = Ret r -> In t r -> 0 < val t < 1 ->
    Rabs (bezier_poly [val s; val c; val e] (val t) - val v) <= 18 * (uro * M).
  Proof.
    intros Sa Hr Hi Ut. pose proof uro_pos as U. pose proof uro_small as U'.
    destruct coef_ok as (FA & FB & FC & EA & EB & EC & _). destruct coef_size as (SA & SB & SC & _).
    assert (uM : uro * 1 <= uro * M <= M / 2048).
    { split; [apply Rmult_le_compat_l; lra|]. unfold Rdiv. rewrite (Rmult_comm M). apply Rmult_le_compat_r; lra. }
    destruct (linear_roots fA fB fC (5 * M)) with (l := r) as [[_ ->]|(_ & t' & -> & Ft & E)]; auto; try lra; [destruct Hi|].
    destruct Hi as [->|[]]. eapply Rle_trans; [now apply coef_poly|].
    assert (Hc : Rabs (val fC) <= 2001 / 1000 * M).
    { destruct (Bs k Hk) as [_ Vs]. apply Rabs_le_inv in Vs, EC. pose proof Bv as Bv'. apply Rabs_le_inv in Bv'. apply Rabs_le; lra. }
    assert (uC : uro * Rabs (val fC) <= 2001 / 1000 * (uro * M)).
    { replace (2001 / 1000 * (uro * M)) with (uro * (2001 / 1000 * M)) by ring. apply Rmult_le_compat_l; lra. }
    assert (et : M * eta <= / 1024 * (uro * M)).
    { destruct theta as [_ T]. replace eta with (eta / uro * uro) by (field; lra).
      replace (M * (eta / uro * uro)) with (eta / uro * (uro * M)) by ring. apply Rmult_le_compat_r; lra. }
    assert (aa : Rabs (val fA * val t * val t) <= 2 * uro * 1).
    { rewrite Rmult_assoc, Rabs_mult. apply Rmult_le_compat; try apply Rabs_pos; [lra|]. rewrite Rabs_pos_eq; nra. }
    replace (val fA * val t * val t + val fB * val t + val fC) with (val fA * val t * val t + (val fB * val t + val fC)) by ring.
    assert (Rabs (val fA * val t * val t + (val fB * val t + val fC)) <= Rabs (val fA * val t * val t) + Rabs (val fB * val t + val fC)) by apply Rabs_triang.
    lra.
  Qed.

  Theorem solve_sound l t : quad_solve_t_for_axis q v k = Ret l -> In t l -> 16 * (uro * M) <= Rabs A ->
    fin t /\ 0 < val t < 1 /\
    Rabs (bezier_poly [val s; val c; val e] (val t) - val v) <= 18 * (uro * M) + 410 * uro * (M * M) / Rabs A.
  Proof.
    intros H Ht HA. destruct (solve_inv l H t Ht) as (r & Hr & Hi & Hu).
    destruct (in_unit_fin t Hu) as [Ft Ut]. split; [exact Ft|]. split; [exact Ut|].
    pose proof uro_pos as U. pose proof uro_small as U'.
    destruct coef_ok as (FA & FB & FC & EA & EB & EC & EZ). destruct coef_size as (SA & SB & SC & SW).
    assert (uM : uro * 1 <= uro * M <= M / 2048).
    { split; [apply Rmult_le_compat_l; lra|]. unfold Rdiv. rewrite (Rmult_comm M). apply Rmult_le_compat_r; lra. }
    assert (MM : 1 <= M * M) by nra.
    assert (Q0 : 0 <= 410 * uro * (M * M) / Rabs A).
    { apply Rmult_le_pos; [apply Rmult_le_pos; lra|]. left. apply Rinv_0_lt_compat. lra. }
    destruct (Rlt_le_dec (Rabs (val fA)) (2 * uro)) as [Sa|La].
    { pose proof (linear_case r t Sa Hr Hi Ut). lra. }
    destruct (root_residual fA fB fC (5 * M)) with (l := r) (t := t) as [_ R]; auto; try lra.
    eapply Rle_trans; [now apply coef_poly|].
    assert (B1 : Rabs A / 2 <= Rabs (val fA)).
    { pose proof (Rabs_triang_inv A (A - val fA)) as TI. replace (A - (A - val fA)) with (val fA) in TI by ring.
      rewrite (Rabs_minus_sym A) in TI. lra. }
    assert (A0 : 0 < Rabs A) by lra.
    assert (B2 : (4 * uro * spread (val fA) (val fB) (val fC) (5 * M) + uro / 2) / Rabs (val fA) <= 410 * uro * (M * M) / Rabs A).
    { apply Rle_trans with (205 * uro * (M * M) / Rabs (val fA)).
      - apply Rmult_le_compat_r; [left; apply Rinv_0_lt_compat; lra|].
        assert (uro * spread (val fA) (val fB) (val fC) (5 * M) <= uro * (51 * (M * M))) by (apply Rmult_le_compat_l; lra).
        assert (uro * 1 <= uro * (M * M)) by (apply Rmult_le_compat_l; lra). lra.
      - apply Rmult_le_reg_r with (Rabs (val fA) * Rabs A); [apply Rmult_lt_0_compat; lra|].
        replace (205 * uro * (M * M) / Rabs (val fA) * (Rabs (val fA) * Rabs A)) with (205 * uro * (M * M) * Rabs A) by (field; lra).
        replace (410 * uro * (M * M) / Rabs A * (Rabs (val fA) * Rabs A)) with (205 * uro * (M * M) * (2 * Rabs (val fA))) by (field; lra).
        apply Rmult_le_compat_l; [nra|lra]. }
    lra.
  Qed.
  (** a coordinate that is linear in exact arithmetic *)
  Theorem solve_sound_linear l t : quad_solve_t_for_axis q v k = Ret l -> In t l -> A = 0 ->
    fin t /\ 0 < val t < 1 /\ Rabs (bezier_poly [val s; val c; val e] (val t) - val v) <= 18 * (uro * M).
  Proof.
    intros H Ht HA. destruct (solve_inv l H t Ht) as (r & Hr & Hi & Hu).
    destruct (in_unit_fin t Hu) as [Ft Ut]. split; [exact Ft|]. split; [exact Ut|]. pose proof uro_pos.
    apply (linear_case r t); auto. destruct coef_ok as (_ & _ & _ & _ & _ & _ & EZ). rewrite (EZ HA), Rabs_R0. lra.
  Qed.
End Solve.

(** ** A second difference as small as EPSILON *)
Section Small.
  Local Existing Instance Binary64.
  (** the coordinates 0, 1/2, 1 + 2^-52 *)
  Definition near_line : quad (PointN float 1) :=
    Quad (fpt1 (flt 0 0)) (fpt1 (flt 1 (-1))) (fpt1 (flt 4503599627370497 (-52))).
  Definition none (o : outcome (list float)) : bool := match o with Ret [] => true | _ => false end.
  Definition only (x : float) (o : outcome (list float)) : bool :=
    match o with Ret [t] => s_eqb t x && is_finite t | _ => false end.
  Lemma near_none : none (quad_solve_t_for_axis near_line (flt 1 (-2)) 0) = true.
  Proof. vm_compute. reflexivity. Qed.
  Lemma near_half : only (flt 1 (-1)) (quad_solve_t_for_axis near_line (flt 27 (-5)) 0) = true.
  Proof. vm_compute. reflexivity. Qed.
  Lemma none_spec o : none o = true -> o = Ret [].
  Proof. destruct o as [[|]| |]; try discriminate. reflexivity. Qed.
  Lemma only_spec x o : only x o = true -> exists t, o = Ret [t] /\ s_eqb t x = true /\ fin t.
  Proof.
    destruct o as [[|t [|]]| |]; try discriminate. intros H. apply andb_true_iff in H as [H Ft]. exists t. auto.
  Qed.

  Lemma dyadic m e : (Z.abs m < 2 ^ 53)%Z -> (-1000 <= e)%Z -> Rabs (IZR m * bpow radix2 e) <= 2 ->
    fin (flt m e) /\ val (flt m e) = IZR m * bpow radix2 e.
  Proof.
    intros Hm He Hb. assert (X : 2048 <= @fmax Binary64) by apply fmax_ge.
    apply flt_ok; [exact Hm|cbn; lia|lra].
  Qed.
  Lemma near_values : bounded 2 (q_start near_line) /\ bounded 2 (q_ctrl near_line) /\ bounded 2 (q_end near_line) /\
    val (cw (q_start near_line) 0) = 0 /\ val (cw (q_ctrl near_line) 0) = / 2 /\
    val (cw (q_end near_line) 0) = 1 + / 4503599627370496.
  Proof.
    assert (B52 : bpow radix2 (-52) = / 4503599627370496) by reflexivity.
    assert (B1 : bpow radix2 (-1) = / 2) by reflexivity. assert (B0 : bpow radix2 0 = 1) by reflexivity.
    destruct (dyadic 0 0) as [F0 V0]; [cbn; lia|lia|rewrite B0; apply Rabs_le; lra|].
    destruct (dyadic 1 (-1)) as [F1 V1]; [cbn; lia|lia|rewrite B1; apply Rabs_le; lra|].
    destruct (dyadic 4503599627370497 (-52)) as [F2 V2]; [cbn; lia|lia|rewrite B52; apply Rabs_le; lra|].
    assert (A : forall x, fin x -> Rabs (val x) <= 2 -> bounded 2 (fpt1 x)).
    { intros x Fx Hx i Hi. assert (i = 0)%nat as -> by (cbn in Hi; lia). split; [exact Fx|exact Hx]. }
    change (cw (q_start near_line) 0) with (flt 0 0). change (cw (q_ctrl near_line) 0) with (flt 1 (-1)).
    change (cw (q_end near_line) 0) with (flt 4503599627370497 (-52)).
    split; [apply A; [exact F0|]|split; [apply A; [exact F1|]|split; [apply A; [exact F2|]|]]];
      rewrite ?V0, ?V1, ?V2, ?B52, ?B1, ?B0; try (apply Rabs_le; lra). repeat split; lra.
  Qed.

  Theorem solve_misses : exists (q : quad (PointN float 1)) (v : float) t,
    bounded 2 (q_start q) /\ bounded 2 (q_ctrl q) /\ bounded 2 (q_end q) /\ fin v /\ Rabs (val v) <= 2 /\
    quad_solve_t_for_axis q v 0 = Ret [] /\ / 5 < t < / 3 /\
    bezier_poly [val (cw (q_start q) 0); val (cw (q_ctrl q) 0); val (cw (q_end q) 0)] t = val v.
  Proof.
    destruct near_values as (A & B & C & Vs & Vc & Ve). exists near_line, (flt 1 (-2)).
    set (ep := / 4503599627370496) in *. assert (E : 0 < ep < / 1000) by (unfold ep; lra).
    set (w := sqrt (1 + ep)). assert (W2 : w * w = 1 + ep) by (apply sqrt_sqrt; lra).
    assert (w0 : 0 <= w) by apply sqrt_pos. assert (w1 : 1 <= w <= 11 / 10) by (split; nra).
    exists (/ (2 * (1 + w))).
    destruct (dyadic 1 (-2)) as [F V]; [cbn; lia|lia|cbn; apply Rabs_le; lra|].
    assert (B2 : bpow radix2 (-2) = / 4) by reflexivity. rewrite B2 in V.
    split; [exact A|]. split; [exact B|]. split; [exact C|]. split; [exact F|]. split; [rewrite V; apply Rabs_le; lra|].
    split; [|split].
    - exact (none_spec _ near_none).
    - split; apply Rmult_lt_reg_r with (2 * (1 + w)); try lra; rewrite Rinv_l; lra.
    - rewrite Vs, Vc, Ve, V, poly2. apply Rmult_eq_reg_r with (4 * (1 + w) * (1 + w)); [|nra].
      field_simplify; nra.
  Qed.

  Theorem solve_wrong : exists (q : quad (PointN float 1)) (v : float) t,
    bounded 2 (q_start q) /\ bounded 2 (q_ctrl q) /\ bounded 2 (q_end q) /\ fin v /\ Rabs (val v) <= 2 /\
    quad_solve_t_for_axis q v 0 = Ret [t] /\ fin t /\
    / 3 < Rabs (bezier_poly [val (cw (q_start q) 0); val (cw (q_ctrl q) 0); val (cw (q_end q) 0)] (val t) - val v).
  Proof.
    destruct near_values as (A & B & C & Vs & Vc & Ve).
    destruct (dyadic 27 (-5)) as [F V]; [cbn; lia|lia|cbn; apply Rabs_le; lra|].
    destruct (dyadic 1 (-1)) as [F1 V1]; [cbn; lia|lia|cbn; apply Rabs_le; lra|].
    assert (B2 : bpow radix2 (-5) = / 32) by reflexivity. rewrite B2 in V.
    assert (B1 : bpow radix2 (-1) = / 2) by reflexivity. rewrite B1 in V1.
    destruct (only_spec _ _ near_half) as (t & Q & H & Ft). exists near_line, (flt 27 (-5)), t.
    split; [exact A|]. split; [exact B|]. split; [exact C|]. split; [exact F|]. split; [rewrite V; apply Rabs_le; lra|].
    split; [exact Q|]. split; [exact Ft|].
    rewrite eqb_val in H by assumption. destruct (Req_bool_spec (val t) (val (flt 1 (-1)))) as [Et|]; [|discriminate].
    rewrite Et, V1, Vs, Vc, Ve, V, poly2. rewrite Rabs_left; lra.
  Qed.
End Small.
