(** [distance_to_point] of a line, [is_linear] and [is_a_point] in IEEE arithmetic. *)
From Coq Require Import Reals ZArith List Arith Lia Lra Psatz Bool.
From Flocq Require Import Core.Core IEEE754.BinarySingleNaN.
From Verif Require Import Base.Outcome Base.Scalar Model.Point Model.Line Model.Quadratic
  Model.Cubic Model.Bezier Inst.RealInst Inst.FloatInst Spec.Sums Spec.Lawful Spec.Bernstein
  Spec.Metric Spec.Rounding Spec.Componentwise Spec.FloatPoints Spec.FloatCurves
  Proofs.OutcomeFacts Proofs.PointFacts Proofs.Metric Proofs.FloatFacts Proofs.ExactEval Proofs.LineFacts
  Proofs.Linearity Proofs.FloatBound Proofs.FloatEval Proofs.FloatNear Proofs.FloatNorm Proofs.FloatLength
  Proofs.FloatCurve Proofs.FloatTrueLength.
Import ListNotations.
Local Open Scope R_scope.

Section Clamp.
  Context {F : Format}.

  Lemma between_fin (x y z : float) : fin y -> fin z -> s_ltb x y = true -> s_ltb x z = false -> fin x.
  Proof.
    intros Hy Hz A B. destruct x as [s|[]| |s m e H]; try reflexivity.
    - destruct z as [|[]| |]; try discriminate Hz; cbv in B; discriminate B.
    - destruct y as [|[]| |]; try discriminate Hy; cbv in A; discriminate A.
    - rewrite ltb_nan_l in A by reflexivity. discriminate A.
  Qed.

  (** the parameter [distance_to_point] uses, whatever the quotient is *)
  Definition clamp (x : float) : float :=
    let t := if s_ltb x (s_lit 1) then x else s_lit 0 in
    if s_ltb t (s_lit 0) then s_lit 0 else t.

  Lemma clamp_ok (x : float) : fin (clamp x) /\ 0 <= val (clamp x) <= 1.
  Proof.
    destruct (lit_small 0) as [Z1 Z2]; [lia|]. destruct (lit_small 1) as [O1 O2]; [lia|].
    unfold clamp. destruct (s_ltb x (s_lit 1)) eqn:A.
    - destruct (s_ltb x (s_lit 0)) eqn:B; [rewrite Z2; split; [exact Z1|lra]|].
      assert (Fx : fin x) by (apply (between_fin x (s_lit 1) (s_lit 0)); assumption).
      split; [exact Fx|]. rewrite ltb_val in A, B by assumption. rewrite O2 in A. rewrite Z2 in B.
      destruct (Rlt_bool_spec (val x) 1); [|discriminate]. destruct (Rlt_bool_spec (val x) 0); [discriminate|]. lra.
    - destruct (s_ltb (s_lit 0) (s_lit 0)); rewrite Z2; (split; [exact Z1|lra]).
  Qed.

  Lemma clamp_val (x : float) : fin x -> val x < 1 -> val (clamp x) = Rmax 0 (val x).
  Proof.
    intros Fx H. destruct (lit_small 0) as [Z1 Z2]; [lia|]. destruct (lit_small 1) as [O1 O2]; [lia|].
    unfold clamp. rewrite (ltb_val x (s_lit 1)), O2, Rlt_bool_true by assumption.
    rewrite (ltb_val x (s_lit 0)), Z2 by assumption.
    destruct (Rlt_bool_spec (val x) 0).
    - rewrite Z2, Rmax_left by lra. reflexivity.
    - now rewrite Rmax_right by lra.
  Qed.
End Clamp.

Section Dot.
  Context {F : Format} {P : Type} {PT : Point float P} {CP : CwPoint float P}.
  Notation D := (p_dim (P := P)).

  Definition dot_step (v w : P) (acc : float) (i : nat) : float := s_add acc (s_mul (cw v i) (cw w i)).

  Lemma dot_fold_err (v w : P) W k : (k <= D)%nat -> 4 * INR (D + 1) * uro <= 1 -> 4 * INR D * (W * W) <= fmax ->
    (forall i, (i < D)%nat -> fin (cw v i) /\ Rabs (val (cw v i)) <= W) ->
    (forall i, (i < D)%nat -> fin (cw w i) /\ Rabs (val (cw w i)) <= W) ->
    let s := fold_left (dot_step v w) (seq 0 k) (s_lit 0) in
    let S := Rsum (fun i => val (cw v i) * val (cw w i)) k in
    let A := Rsum (fun i => Rabs (val (cw v i) * val (cw w i))) k in
    fin s /\ Rabs S <= A /\
    Rabs (val s - S) <= ((1 + uro) ^ (k + 1) - 1) * A + INR k * (1 + uro) ^ k * eta.
  Proof.
    intros Hk Hu Hov HV HW. pose proof uro_pos as U0. pose proof eta_pos as E0. pose proof uro_small as U1.
    pose proof eta_uro as EU. pose proof fmax_ge as FM.
    induction k as [|k IH].
    - cbn [seq fold_left Rsum]. destruct (lit_small 0) as [L1 L2]; [lia|]. rewrite L2.
      split; [exact L1|]. split; [rewrite Rabs_R0; lra|]. rewrite Rminus_diag_eq, Rabs_R0 by reflexivity. simpl. lra.
    - rewrite seq_S, fold_left_app. cbn [fold_left Nat.add].
      destruct IH as (A & B & C); [lia|]. cbn [Rsum].
      set (s := fold_left (dot_step v w) (seq 0 k) (s_lit 0)) in *.
      set (S := Rsum (fun i => val (cw v i) * val (cw w i)) k) in *.
      set (Z := Rsum (fun i => Rabs (val (cw v i) * val (cw w i))) k) in *.
      destruct (HV k) as [Vf Vb]; [lia|]. destruct (HW k) as [Wf Wb]; [lia|].
      set (m := val (cw v k) * val (cw w k)) in *.
      assert (Z0 : 0 <= Z) by (apply Rsum_nonneg; intros; apply Rabs_pos).
      pose proof (Rabs_pos m) as m0.
      assert (W0 : 0 <= W) by (pose proof (Rabs_pos (val (cw v k))); lra).
      assert (Bnd : forall j, (j <= D)%nat -> (1 + uro) ^ (j + 1) - 1 <= / 2 /\ (1 + uro) ^ j <= 2).
      { intros j Hj. assert (INR (j + 1) * uro <= / 4).
        { apply Rle_trans with (INR (D + 1) * uro); [|lra].
          apply Rmult_le_compat_r; [lra|]. apply le_INR. lia. }
        destruct (pow_lin uro (j + 1)) as [X _]; [lra|lra|].
        assert (INR j * uro <= / 2).
        { eapply Rle_trans; [|apply Rle_trans with (/ 4); [exact H|lra]].
          apply Rmult_le_compat_r; [lra|]. apply le_INR. lia. }
        destruct (pow_lin uro j) as [_ Y]; [lra|lra|]. lra. }
      assert (Pr : forall j, (j < D)%nat -> Rabs (val (cw v j) * val (cw w j)) <= W * W).
      { intros j Hj. rewrite Rabs_mult. apply Rmult_le_compat; try apply Rabs_pos; [apply HV|apply HW]; exact Hj. }
      assert (ZD : Z + Rabs m <= INR D * (W * W)).
      { assert (G : forall j, (j <= D)%nat -> Rsum (fun i => Rabs (val (cw v i) * val (cw w i))) j <= INR j * (W * W)).
        { induction j as [|j IHj]; intros Hj; [simpl; lra|]. cbn [Rsum]. rewrite S_INR.
          specialize (IHj ltac:(lia)). specialize (Pr j ltac:(lia)). lra. }
        specialize (G (Datatypes.S k) ltac:(lia)). cbn [Rsum] in G. fold Z m in G.
        eapply Rle_trans; [exact G|]. apply Rmult_le_compat_r; [apply Rle_0_sqr|]. apply le_INR. lia. }
      destruct (mul_ok (cw v k) (cw w k) Vf Wf) as [Q1 Q2].
      { fold m. pose proof (pos_INR D). lra. }
      fold m in Q2. set (q := val (s_mul (cw v k) (cw w k))) in *.
      assert (Q3 : Rabs (q - m) <= uro * Rabs m + eta) by (rewrite Q2; apply rnd_err).
      set (kap := (1 + uro) ^ (k + 1) - 1) in *. set (mu := INR k * (1 + uro) ^ k * eta) in *.
      assert (kap_u : uro <= kap).
      { unfold kap. rewrite Nat.add_1_r. cbn [pow].
        assert (1 <= (1 + uro) ^ k) by (apply pow_R1_Rle; lra). nra. }
      assert (X : Rabs (val s + q - (S + m)) <= kap * (Z + Rabs m) + (mu + eta)).
      { replace (val s + q - (S + m)) with ((val s - S) + (q - m)) by ring.
        eapply Rle_trans; [apply Rabs_triang|].
        assert (uro * Rabs m <= kap * Rabs m) by (apply Rmult_le_compat_r; lra). lra. }
      assert (mu0 : 0 <= mu).
      { unfold mu. apply Rmult_le_pos; [|lra]. apply Rmult_le_pos; [apply pos_INR|]. apply pow_le. lra. }
      assert (mu1 : mu <= 1).
      { unfold mu. destruct (Bnd k ltac:(lia)) as [_ Y].
        assert (INR k <= INR (D + 1)) by (apply le_INR; lia). pose proof (pos_INR k).
        assert (INR k * eta <= INR (D + 1) * uro) by (apply Rmult_le_compat; lra).
        assert (0 <= INR k * eta) by (apply Rmult_le_pos; lra).
        replace (INR k * (1 + uro) ^ k * eta) with ((1 + uro) ^ k * (INR k * eta)) by ring.
        apply Rle_trans with (2 * (INR k * eta)); [apply Rmult_le_compat_r; lra|lra]. }
      assert (Sm : Rabs (S + m) <= Z + Rabs m) by (eapply Rle_trans; [apply Rabs_triang|]; lra).
      set (E1 := Rabs (val s + q - (S + m))) in *.
      assert (Z1 : Rabs (val s + q) <= (Z + Rabs m) + E1).
      { replace (val s + q) with ((S + m) + (val s + q - (S + m))) at 1 by ring.
        eapply Rle_trans; [apply Rabs_triang|]. fold E1. lra. }
      assert (Ov : Rabs (val s + q) <= fmax).
      { destruct (Bnd k ltac:(lia)) as [Y _]. fold kap in Y.
        assert (kap * (Z + Rabs m) <= / 2 * (Z + Rabs m)) by (apply Rmult_le_compat_r; lra). lra. }
      destruct (add_ok s (s_mul (cw v k) (cw w k)) A Q1 Ov) as [R1 R2]. fold q in R2.
      unfold dot_step at 1 2. split; [exact R1|]. rewrite R2. split; [exact Sm|].
      pose proof (rnd_sum_err (val s) q (val_float _) (val_float _)) as Er.
      replace (rnd (val s + q) - (S + m))
        with ((rnd (val s + q) - (val s + q)) + (val s + q - (S + m))) by ring.
      eapply Rle_trans; [apply Rabs_triang|]. fold E1.
      apply Rle_trans with ((1 + uro) * E1 + uro * (Z + Rabs m)).
      { assert (uro * Rabs (val s + q) <= uro * ((Z + Rabs m) + E1)) by (apply Rmult_le_compat_l; lra). lra. }
      apply Rle_trans with ((1 + uro) * (kap * (Z + Rabs m) + (mu + eta)) + uro * (Z + Rabs m)).
      { apply Rplus_le_compat_r. apply Rmult_le_compat_l; lra. }
      replace ((1 + uro) ^ (Datatypes.S k + 1) - 1) with ((1 + uro) * (kap + 1) - 1)
        by (unfold kap; cbn [pow Nat.add]; ring).
      rewrite S_INR. cbn [pow].
      assert (1 <= (1 + uro) ^ k) by (apply pow_R1_Rle; lra).
      assert ((1 + uro) * (mu + eta) <= (INR k + 1) * ((1 + uro) * (1 + uro) ^ k) * eta).
      { replace ((INR k + 1) * ((1 + uro) * (1 + uro) ^ k) * eta)
          with ((1 + uro) * (mu + (1 + uro) ^ k * eta)) by (unfold mu; ring).
        apply Rmult_le_compat_l; [lra|]. apply Rplus_le_compat_l.
        rewrite <- (Rmult_1_l eta) at 1. apply Rmult_le_compat_r; lra. }
      lra.
  Qed.

  (** the same with a readable constant *)
  Lemma dot_err (v w : P) W : 4 * INR (D + 1) * uro <= 1 -> 4 * INR D * (W * W) <= fmax ->
    (forall i, (i < D)%nat -> fin (cw v i) /\ Rabs (val (cw v i)) <= W) ->
    (forall i, (i < D)%nat -> fin (cw w i) /\ Rabs (val (cw w i)) <= W) ->
    let s := fold_left (dot_step v w) (seq 0 D) (s_lit 0) in
    fin s /\
    Rabs (val s - Rsum (fun i => val (cw v i) * val (cw w i)) D)
      <= 2 * INR (D + 1) * uro * Rsum (fun i => Rabs (val (cw v i) * val (cw w i))) D + 2 * INR D * eta.
  Proof.
    intros Hu Hov HV HW. pose proof uro_pos as U0. pose proof eta_pos as E0. pose proof uro_small as U1.
    destruct (dot_fold_err v w W D (Nat.le_refl _) Hu Hov HV HW) as (A & B & C).
    split; [exact A|]. eapply Rle_trans; [exact C|].
    destruct (pow_lin uro (D + 1)) as [X _]; [lra|lra|].
    assert (INR D * uro <= INR (D + 1) * uro) by (apply Rmult_le_compat_r; [lra|apply le_INR; lia]).
    destruct (pow_lin uro D) as [_ Y]; [lra|lra|].
    assert (Z0 : 0 <= Rsum (fun i => Rabs (val (cw v i) * val (cw w i))) D)
      by (apply Rsum_nonneg; intros; apply Rabs_pos).
    apply Rplus_le_compat.
    - apply Rmult_le_compat_r; lra.
    - apply Rmult_le_compat_r; [lra|]. rewrite (Rmult_comm 2). apply Rmult_le_compat_l; [apply pos_INR|lra].
  Qed.

  Lemma dot_loop_fold (v w : P) : dot_loop v w = Ret (fold_left (dot_step v w) (seq 0 D) (s_lit 0)).
  Proof.
    unfold dot_loop.
    destruct (for_in_range_inv
      (fun i d => d = fold_left (dot_step v w) (seq 0 i) (s_lit 0)) 0 D (s_lit 0)
      (fun i dot => let! a := p_axis v i in let! b := p_axis w i in Ret (s_add dot (s_mul a b))))
      as (d & Hd & ->).
    - lia.
    - reflexivity.
    - intros i s Hi ->. rewrite !cw_axis. destruct (Nat.ltb_spec i D); [|lia]. simpl. eexists. split; [reflexivity|].
      rewrite Nat.add_1_r, seq_S, fold_left_app. reflexivity.
    - exact Hd.
  Qed.

  Definition quotient (a b p : P) : float :=
    s_div (fold_left (dot_step (p_sub p a) (p_sub b a)) (seq 0 D) (s_lit 0)) (p_sqlen (p_sub b a)).

  Lemma distance_cases (a b p : P) :
    line_distance_to_point (Line a b) p =
    Ret (if s_ltb (p_sqlen (p_sub b a)) s_eps then s_sqrt (p_sqlen (p_sub a p))
         else s_sqrt (p_sqlen (p_sub p (line_eval (Line a b) (clamp (quotient a b p)))))).
  Proof.
    unfold line_distance_to_point. cbn [l_start l_end].
    destruct (s_ltb (p_sqlen (p_sub b a)) s_eps); [reflexivity|].
    rewrite dot_loop_fold. reflexivity.
  Qed.

  Lemma at_0 (a b : P) i : exact_at [a; b] 0 i = val (cw a i).
  Proof. unfold exact_at. cbn [map]. rewrite line_poly. ring. Qed.
  Lemma gap_sym (v w : nat -> R) : gap (P := P) v w = gap (P := P) w v.
  Proof. unfold gap. f_equal. apply Rsum_ext. intros; ring. Qed.
  Lemma gap_ext (v v' w w' : nat -> R) : (forall i, (i < D)%nat -> v i = v' i) -> (forall i, (i < D)%nat -> w i = w' i) ->
    gap (P := P) v w = gap (P := P) v' w'.
  Proof. intros A B. unfold gap. f_equal. apply Rsum_ext. intros i Hi. now rewrite A, B. Qed.
End Dot.

Section Flat.
  Context {F : Format} {P : Type} {PT : Point float P} {CP : CwPoint float P}.
  Notation D := (p_dim (P := P)).
  Notation ex p := (fun i => val (cw p i)).
  Variable M : R.
  Hypothesis HM : 0 <= M.
  Hypothesis HD0 : (0 < D)%nat.
  Hypothesis HD : 64 * INR (D + 1) * uro <= 1.
  Hypothesis Big : 64 * INR (D + 1) * ((M + 1) * (M + 1)) <= fmax.

  (** rounding error of one distance *)
  Definition flat_err : R := sqrt (INR D) * ((6 * INR D + 35) * uro * M + 4 * sqrt eta).

  Lemma fD1 : 1 <= INR (D + 1). Proof. rewrite plus_INR. simpl (INR 1). pose proof (pos_INR D). lra. Qed.
  Lemma fHD4 : 4 * INR (D + 1) * uro <= 1.
  Proof. pose proof fD1. pose proof uro_pos. nra. Qed.
  Definition fE : R := 6 * uro * M + 2 * eta.
  Lemma fE_pos : 0 <= fE.
  Proof. unfold fE. pose proof uro_pos. pose proof eta_pos. nra. Qed.
  Lemma feta : eta <= / 1000.
  Proof. pose proof (@eta_u F). pose proof (@root_small F). pose proof (@sqrt_eta F). pose proof uro_small. nra. Qed.
  Lemma fME : 0 <= M + fE <= 5 / 4 * (M + 1).
  Proof. unfold fE. pose proof uro_pos. pose proof uro_small. pose proof eta_pos. pose proof feta. nra. Qed.
  Lemma fbig : 64 * ((M + 1) * (M + 1)) <= fmax.
  Proof. eapply Rle_trans; [|exact Big]. pose proof fD1. assert (0 <= (M + 1) * (M + 1)) by nra. nra. Qed.
  Lemma fH4 : 4 * M <= fmax.
  Proof. pose proof fbig. nra. Qed.
  Lemma fHW : 36 * INR D * ((M + fE) * (M + fE)) <= fmax.
  Proof.
    eapply Rle_trans; [|exact Big]. pose proof fME as [A B]. pose proof (pos_INR D) as D0.
    assert ((M + fE) * (M + fE) <= 25 / 16 * ((M + 1) * (M + 1))).
    { replace (25 / 16 * ((M + 1) * (M + 1))) with ((5 / 4 * (M + 1)) * (5 / 4 * (M + 1))) by field.
      apply Rmult_le_compat; lra. }
    rewrite plus_INR. simpl (INR 1). nra.
  Qed.
  Lemma fHW2 : 3 * (M + fE) <= fmax.
  Proof. pose proof fbig. pose proof fME. nra. Qed.

  Lemma err_bound (d : R) : 0 <= d <= fE ->
    sqrt (INR D) * (2 * d + (6 * INR D + 14) * uro * (M + fE)) + 2 * sqrt (2 * INR D * eta) + eta
    <= flat_err.
  Proof.
    intros Hd. unfold flat_err. set (sd := sqrt (INR D)).
    pose proof (@sqrt_eta F) as [S0 S1]. pose proof uro_pos as U0. pose proof uro_small as U1.
    pose proof (pos_INR D) as D0. pose proof fE_pos as C0. pose proof (@eta_u F) as EU. pose proof eta_pos as T0.
    assert (Sd : 0 <= sd) by apply sqrt_pos.
    assert (Sd1 : 1 <= sd).
    { unfold sd. rewrite <- sqrt_1. apply sqrt_le_1_alt. change 1 with (INR 1). apply le_INR. lia. }
    assert (X1 : (6 * INR D + 14) * uro * fE <= / 4 * fE).
    { apply Rmult_le_compat_r; [exact C0|]. rewrite plus_INR in HD. simpl (INR 1) in HD. nra. }
    assert (X2 : 2 * sqrt (2 * INR D * eta) <= sd * (2.9 * sqrt eta)).
    { rewrite (Rmult_comm 2 (INR D)), Rmult_assoc, sqrt_mult by (assumption || lra). fold sd.
      rewrite sqrt_mult by lra.
      assert (sqrt 2 <= 1.45).
      { rewrite <- (sqrt_square 1.45) by lra. apply sqrt_le_1_alt. lra. }
      replace (2 * (sd * (sqrt 2 * sqrt eta))) with (sd * (2 * sqrt 2 * sqrt eta)) by ring.
      apply Rmult_le_compat_l; [exact Sd|]. apply Rmult_le_compat_r; lra. }
    assert (EtaS : eta <= / 100 * sqrt eta) by (eapply Rle_trans; [exact EU|]; nra).
    assert (Y : sd * eta >= 1 * eta) by nra.
    assert (0 <= uro * M) by (apply Rmult_le_pos; lra).
    assert (Main : 2 * d + (6 * INR D + 14) * uro * (M + fE) + 2.9 * sqrt eta + eta
                   <= (6 * INR D + 35) * uro * M + 4 * sqrt eta).
    { replace ((6 * INR D + 14) * uro * (M + fE)) with ((6 * INR D + 14) * uro * M + (6 * INR D + 14) * uro * fE) by ring.
      unfold fE in *. lra. }
    assert (sd * (2 * d + (6 * INR D + 14) * uro * (M + fE) + 2.9 * sqrt eta + eta)
            <= sd * ((6 * INR D + 35) * uro * M + 4 * sqrt eta)) by (apply Rmult_le_compat_l; assumption).
    lra.
  Qed.

  (** the length of the difference of two points *)
  Lemma sub_length (p q : P) : bounded M p -> bounded M q ->
    fin (p_sqlen (p_sub p q)) /\ 0 <= val (p_sqlen (p_sub p q)) /\
    fin (s_sqrt (p_sqlen (p_sub p q))) /\ 0 <= val (s_sqrt (p_sqlen (p_sub p q))) /\
    Rabs (val (s_sqrt (p_sqlen (p_sub p q))) - gap (P := P) (ex p) (ex q)) <= flat_err.
  Proof.
    intros Hp Hq.
    destruct (diff_length M fE fE_pos HM fHD4 fHW fHW2 p q (ex p) (ex q) 0 (Rle_refl 0)) as (A & B & C & E & G).
    - intros i Hi. destruct (Hp i Hi) as [X Y]. pose proof fE_pos. split; [exact X|]. split; [lra|].
      rewrite Rminus_diag_eq, Rabs_R0 by reflexivity. lra.
    - intros i Hi. destruct (Hq i Hi) as [X Y]. pose proof fE_pos. split; [exact X|]. split; [lra|].
      rewrite Rminus_diag_eq, Rabs_R0 by reflexivity. lra.
    - repeat (split; [assumption|]). change (gap (P := P) (ex p) (ex q)) with (nrm (fun i => val (cw p i) - val (cw q i)) D).
      eapply Rle_trans; [exact G|]. apply err_bound. pose proof fE_pos. lra.
  Qed.

  (** the distance from p to the point of the segment at a float parameter *)
  Lemma param_length (a b p : P) (t : float) : bounded M a -> bounded M b -> bounded M p ->
    fin t -> 0 <= val t <= 1 ->
    let d := s_sqrt (p_sqlen (p_sub p (line_eval (Line a b) t))) in
    fin d /\ 0 <= val d /\
    Rabs (val d - gap (P := P) (ex p) (exact_at [a; b] (val t))) <= flat_err.
  Proof.
    intros Ha Hb Hp Ht Hr d.
    destruct (diff_length M fE fE_pos HM fHD4 fHW fHW2 p (line_eval (Line a b) t) (ex p) (exact_at [a; b] (val t)) fE fE_pos)
      as (_ & _ & C & E & G).
    - intros i Hi. destruct (Hp i Hi) as [X Y]. pose proof fE_pos. split; [exact X|]. split; [lra|].
      rewrite Rminus_diag_eq, Rabs_R0 by reflexivity. lra.
    - intros i Hi.
      destruct (line_eval_err M HM fH4 (Line a b) t i Hi Ht Hr (Ha i Hi) (Hb i Hi)) as [X Y].
      cbn [l_start l_end] in Y. fold fE in Y. split; [exact X|].
      assert (Z : Rabs (bezier_poly [val (cw a i); val (cw b i)] (val t)) <= M).
      { apply poly_bound; [discriminate|exact Hr|]. intros x [<-|[<-|[]]]; [apply (Ha i Hi)|apply (Hb i Hi)]. }
      split; [|exact Y].
      replace (val (cw (line_eval (Line a b) t) i))
        with ((val (cw (line_eval (Line a b) t) i) - bezier_poly [val (cw a i); val (cw b i)] (val t))
              + bezier_poly [val (cw a i); val (cw b i)] (val t)) by ring.
      eapply Rle_trans; [apply Rabs_triang|]. lra.
    - split; [exact C|]. split; [exact E|].
      change (gap (P := P) (ex p) (exact_at [a; b] (val t)))
        with (nrm (fun i => val (cw p i) - exact_at [a; b] (val t) i) D).
      eapply Rle_trans; [exact G|]. apply err_bound. pose proof fE_pos. lra.
  Qed.

  (** the result is the distance to some point of the segment, up to rounding *)
  Theorem distance_on_segment (a b p : P) : bounded M a -> bounded M b -> bounded M p ->
    exists d u, line_distance_to_point (Line a b) p = Ret d /\ fin d /\ 0 <= val d /\ 0 <= u <= 1 /\
      Rabs (val d - gap (P := P) (ex p) (exact_at [a; b] u)) <= flat_err.
  Proof.
    intros Ha Hb Hp. rewrite distance_cases. destruct (s_ltb (p_sqlen (p_sub b a)) s_eps).
    - destruct (sub_length a p Ha Hp) as (_ & _ & A & B & C).
      exists (s_sqrt (p_sqlen (p_sub a p))), 0. split; [reflexivity|]. split; [exact A|]. split; [exact B|]. split; [lra|].
      rewrite (gap_ext (ex p) (ex p) (exact_at [a; b] 0) (ex a)) by (intros; (reflexivity || apply at_0)).
      rewrite gap_sym. exact C.
    - destruct (clamp_ok (quotient a b p)) as [T1 T2].
      destruct (param_length a b p _ Ha Hb Hp T1 T2) as (A & B & C).
      eexists _, (val (clamp (quotient a b p))). split; [reflexivity|]. auto.
  Qed.

  (** ** Flatness *)
  #[local] Existing Instance Eps64.
  Notation X p := (exact_point p).

  Lemma line_coord (a b : P) u i : (i < D)%nat -> coord (line_eval (Line (X a) (X b)) u) i = exact_at [a; b] u i.
  Proof.
    intros Hi. rewrite line_eval_coord by exact Hi. cbn [l_start l_end]. rewrite !coord_exact by exact Hi.
    unfold exact_at. cbn [map]. rewrite line_poly. reflexivity.
  Qed.
  Lemma dist_gap (f g : nat -> R) (p q : PointN R D) : (forall i, (i < D)%nat -> coord p i = f i) ->
    (forall i, (i < D)%nat -> coord q i = g i) -> dist p q = gap (P := P) f g.
  Proof. intros A B. unfold dist, gap. f_equal. apply Rsum_ext. intros i Hi. now rewrite A, B. Qed.

  Lemma distance_near (a b p : P) d (tol : R) : bounded M a -> bounded M b -> bounded M p ->
    line_distance_to_point (Line a b) p = Ret d -> val d <= tol ->
    0 <= tol /\ Linearity.near (Line (X a) (X b)) (tol + flat_err) (X p).
  Proof.
    intros Ha Hb Hp Hd Ht. destruct (distance_on_segment a b p Ha Hb Hp) as (d' & u & E & _ & D0 & Hu & G).
    rewrite E in Hd. injection Hd as <-. split; [lra|]. exists u. split; [exact Hu|].
    rewrite (dist_gap (ex p) (exact_at [a; b] u)).
    - apply Rabs_le_inv in G. lra.
    - intros i Hi. now apply coord_exact.
    - intros i Hi. now apply line_coord.
  Qed.

  Lemma flat_err_pos : 0 <= flat_err.
  Proof.
    unfold flat_err. pose proof uro_pos. pose proof (@sqrt_eta F). pose proof (pos_INR D).
    apply Rmult_le_pos; [apply sqrt_pos|]. apply Rplus_le_le_0_compat; [|lra].
    apply Rmult_le_pos; [|exact HM]. apply Rmult_le_pos; lra.
  Qed.

  Lemma quad_X_coord (q : quad P) t i : (i < D)%nat ->
    coord (quad_eval (Quad (X (q_start q)) (X (q_ctrl q)) (X (q_end q))) t) i = exact_at (quad_control_points q) t i.
  Proof.
    intros Hi. rewrite quad_eval_coord by exact Hi. cbn [q_start q_ctrl q_end]. rewrite !coord_exact by exact Hi.
    unfold exact_at, quad_control_points. cbn [map]. rewrite quad_poly. ring.
  Qed.
  Lemma cubic_X_coord (c : cubic P) t i : (i < D)%nat ->
    coord (cubic_eval (Cubic (X (c_start c)) (X (c_ctrl1 c)) (X (c_ctrl2 c)) (X (c_end c))) t) i
    = exact_at (cubic_control_points c) t i.
  Proof.
    intros Hi. rewrite cubic_eval_coord by exact Hi. cbn [c_start c_ctrl1 c_ctrl2 c_end]. rewrite !coord_exact by exact Hi.
    unfold exact_at, cubic_control_points. cbn [map]. rewrite cubic_poly. ring.
  Qed.

  Lemma near_gap (a b : P) r (x : PointN R D) (f : nat -> R) : Linearity.near (Line (X a) (X b)) r x ->
    (forall i, (i < D)%nat -> coord x i = f i) ->
    exists u, 0 <= u <= 1 /\ gap (P := P) f (exact_at [a; b] u) <= r.
  Proof.
    intros (u & Hu & Hn) Hf. exists u. split; [exact Hu|].
    rewrite <- (dist_gap f (exact_at [a; b] u) x (line_eval (Line (X a) (X b)) u)); [exact Hn|exact Hf|].
    intros i Hi. now apply line_coord.
  Qed.

  Theorem quad_flat (q : quad P) (tol : float) : (forall p, In p (quad_control_points q) -> bounded M p) ->
    fin tol -> quad_is_linear q tol = Ret true ->
    forall t, 0 <= t <= 1 -> exists u, 0 <= u <= 1 /\
      gap (P := P) (exact_at (quad_control_points q) t) (exact_at [q_start q; q_end q] u) <= val tol + flat_err.
  Proof.
    intros B Ft. destruct q as [a c b]. unfold quad_is_linear. cbn [q_start q_end].
    destruct (s_ltb _ s_eps); [discriminate|]. unfold quad_are_points_colinear, quad_baseline. cbn [q_start q_ctrl q_end].
    intros H t Ht. apply bind_ret_inv in H as (d & Hd & H).
    assert (Ba : bounded M a) by (apply B; cbn; auto). assert (Bb : bounded M b) by (apply B; cbn; auto).
    assert (Bc : bounded M c) by (apply B; cbn; auto).
    destruct (distance_on_segment a b c Ba Bb Bc) as (d' & u' & E' & Fd & _).
    assert (d' = d) by congruence. subst d'. rewrite leb_val in H by assumption.
    destruct (Rle_bool_spec (val d) (val tol)) as [L|]; [|discriminate].
    destruct (distance_near a b c d (val tol) Ba Bb Bc Hd L) as [T0 N].
    assert (R0 : 0 <= val tol + flat_err) by (pose proof flat_err_pos; lra).
    apply (near_gap a b _ (quad_eval (Quad (X a) (X c) (X b)) t)).
    - apply (hull_near [X a; X c; X b]); [apply (quad_in_hull (Quad (X a) (X c) (X b)) t Ht)|].
      intros p [<-|[<-|[<-|[]]]]; auto.
      + now apply (near_start (Line (X a) (X b))).
      + now apply (near_end (Line (X a) (X b))).
    - intros i Hi. exact (quad_X_coord (Quad a c b) t i Hi).
  Qed.

  Theorem cubic_flat (c : cubic P) (tol : float) : (forall p, In p (cubic_control_points c) -> bounded M p) ->
    fin tol -> cubic_is_linear c tol = Ret true ->
    forall t, 0 <= t <= 1 -> exists u, 0 <= u <= 1 /\
      gap (P := P) (exact_at (cubic_control_points c) t) (exact_at [c_start c; c_end c] u) <= val tol + flat_err.
  Proof.
    intros B Ft. destruct c as [a c e b]. unfold cubic_is_linear. cbn [c_start c_end].
    destruct (s_ltb _ s_eps); [discriminate|]. unfold cubic_are_points_colinear, cubic_baseline.
    cbn [c_start c_ctrl1 c_ctrl2 c_end].
    intros H t Ht. apply bind_ret_inv in H as (d & Hd & H).
    assert (Ba : bounded M a) by (apply B; cbn; auto). assert (Bb : bounded M b) by (apply B; cbn; auto).
    assert (Bc : bounded M c) by (apply B; cbn; auto). assert (Be : bounded M e) by (apply B; cbn; auto).
    destruct (distance_on_segment a b c Ba Bb Bc) as (d' & u' & E' & Fd & _).
    assert (d' = d) by congruence. subst d'. rewrite leb_val in H by assumption.
    destruct (Rle_bool_spec (val d) (val tol)) as [L|]; [|discriminate].
    apply bind_ret_inv in H as (d2 & Hd2 & H).
    destruct (distance_on_segment a b e Ba Bb Be) as (d' & u2 & E2 & Fd2 & _).
    assert (d' = d2) by congruence. subst d'. rewrite leb_val in H by assumption.
    destruct (Rle_bool_spec (val d2) (val tol)) as [L2|]; [|discriminate].
    destruct (distance_near a b c d (val tol) Ba Bb Bc Hd L) as [T0 N].
    destruct (distance_near a b e d2 (val tol) Ba Bb Be Hd2 L2) as [_ N2].
    assert (R0 : 0 <= val tol + flat_err) by (pose proof flat_err_pos; lra).
    apply (near_gap a b _ (cubic_eval (Cubic (X a) (X c) (X e) (X b)) t)).
    - apply (hull_near [X a; X c; X e; X b]); [apply (cubic_in_hull (Cubic (X a) (X c) (X e) (X b)) t Ht)|].
      intros p [<-|[<-|[<-|[<-|[]]]]]; auto.
      + now apply (near_start (Line (X a) (X b))).
      + now apply (near_end (Line (X a) (X b))).
    - intros i Hi. exact (cubic_X_coord (Cubic a c e b) t i Hi).
  Qed.
End Flat.
