(** Bezier evaluation in IEEE arithmetic: exact end points and a rounding error
    bound for De Casteljau's algorithm, any number of control points. *)
From Coq Require Import Reals ZArith List Arith Lia Lra Bool.
From Flocq Require Import Core.Core IEEE754.BinarySingleNaN.
From Verif Require Import Base.Outcome Base.Scalar Model.Point Model.Line Model.Quadratic
  Model.Cubic Model.Bezier Inst.RealInst Inst.FloatInst Spec.Sums Spec.Lawful Spec.Bernstein
  Spec.Rounding Spec.Componentwise Spec.FloatPoints
  Proofs.OutcomeFacts Proofs.PointFacts Proofs.RealTac Proofs.FloatFacts Proofs.BezierGeneric Proofs.BezierReal.
Import ListNotations.
Local Open Scope R_scope.

Section Scalars.
  Context {F : Format}.
  Implicit Types x y t : float.

  Lemma mul_1 x y : fin x -> fin y -> val y = 1 -> fin (s_mul x y) /\ val (s_mul x y) = val x.
  Proof.
    intros Hx Hy Ey. destruct (mul_ok x y Hx Hy) as [H1 H2].
    - rewrite Ey, Rmult_1_r. apply val_le_fmax.
    - split; [exact H1|]. rewrite H2, Ey, Rmult_1_r. apply rnd_float, val_float.
  Qed.

  Lemma mul_0 x y : fin x -> fin y -> val y = 0 -> fin (s_mul x y) /\ val (s_mul x y) = 0.
  Proof.
    intros Hx Hy Ey. destruct (mul_ok x y Hx Hy) as [H1 H2].
    - rewrite Ey, Rmult_0_r, Rabs_R0. pose proof fmax_ge. lra.
    - split; [exact H1|]. rewrite H2, Ey, Rmult_0_r. apply rnd_0.
  Qed.

  Lemma mul_0_l x y : fin x -> fin y -> val x = 0 -> fin (s_mul x y) /\ val (s_mul x y) = 0.
  Proof.
    intros Hx Hy Ex. destruct (mul_ok x y Hx Hy) as [H1 H2].
    - rewrite Ex, Rmult_0_l, Rabs_R0. pose proof fmax_ge. lra.
    - split; [exact H1|]. rewrite H2, Ex, Rmult_0_l. apply rnd_0.
  Qed.

  Lemma add_0_r x y : fin x -> fin y -> val y = 0 -> fin (s_add x y) /\ val (s_add x y) = val x.
  Proof.
    intros Hx Hy Ey. destruct (add_ok x y Hx Hy) as [H1 H2].
    - rewrite Ey, Rplus_0_r. apply val_le_fmax.
    - split; [exact H1|]. rewrite H2, Ey, Rplus_0_r. apply rnd_float, val_float.
  Qed.

  Lemma add_0_l x y : fin x -> fin y -> val x = 0 -> fin (s_add x y) /\ val (s_add x y) = val y.
  Proof.
    intros Hx Hy Ex. destruct (add_ok x y Hx Hy) as [H1 H2].
    - rewrite Ex, Rplus_0_l. apply val_le_fmax.
    - split; [exact H1|]. rewrite H2, Ex, Rplus_0_l. apply rnd_float, val_float.
  Qed.

  Lemma lit1 : fin (s_lit 1) /\ val (s_lit 1) = 1.
  Proof. apply (lit_small 1). lia. Qed.

  Lemma float_1 : is_float 1.
  Proof. rewrite <- (proj2 lit1). apply val_float. Qed.

  (** 1 - t *)
  Lemma one_minus t : fin t -> 0 <= val t <= 1 ->
    fin (s_add (s_neg t) (s_lit 1)) /\
    val (s_add (s_neg t) (s_lit 1)) = rnd (1 - val t) /\
    0 <= val (s_add (s_neg t) (s_lit 1)) <= 1 /\
    Rabs (val (s_add (s_neg t) (s_lit 1)) - (1 - val t)) <= uro * (1 - val t).
  Proof.
    intros Ht Hr. destruct lit1 as [F1 V1].
    assert (E : val (s_neg t) + val (s_lit 1) = 1 - val t) by (rewrite neg_val, V1; ring).
    destruct (add_ok (s_neg t) (s_lit 1)) as [A1 A2].
    - now apply neg_fin.
    - exact F1.
    - rewrite E, Rabs_pos_eq; pose proof fmax_ge; lra.
    - rewrite E in A2. split; [exact A1|]. split; [exact A2|]. rewrite A2. split.
      + split; [apply rnd_ge_float; [apply float_0|lra]|apply rnd_le_float; [apply float_1|lra]].
      + pose proof (rnd_sum_err (- val t) 1 (float_opp _ (val_float t)) float_1) as H.
        replace (- val t + 1) with (1 - val t) in H by ring.
        rewrite (Rabs_pos_eq (1 - val t)) in H by lra. exact H.
  Qed.

  Lemma one_minus_0 t : fin t -> val t = 0 ->
    fin (s_add (s_neg t) (s_lit 1)) /\ val (s_add (s_neg t) (s_lit 1)) = 1.
  Proof.
    intros Ht E. destruct (one_minus t Ht) as (A & B & _ & C); [lra|].
    split; [exact A|]. rewrite B, E, Rminus_0_r. apply rnd_float, float_1.
  Qed.

  Lemma one_minus_1 t : fin t -> val t = 1 ->
    fin (s_add (s_neg t) (s_lit 1)) /\ val (s_add (s_neg t) (s_lit 1)) = 0.
  Proof.
    intros Ht E. destruct (one_minus t Ht) as (A & B & _ & C); [lra|].
    split; [exact A|]. rewrite B, E. replace (1 - 1) with 0 by ring. apply rnd_0.
  Qed.

  (** one De Casteljau step on floats *)
  Definition flerp t a b : float := s_add (s_mul a (s_add (s_neg t) (s_lit 1))) (s_mul b t).

  Lemma flerp_0 t a b : fin t -> val t = 0 -> fin a -> fin b ->
    fin (flerp t a b) /\ val (flerp t a b) = val a.
  Proof.
    intros Ht E Ha Hb. destruct (one_minus_0 t Ht E) as [O1 O2].
    destruct (mul_1 a _ Ha O1 O2) as [A1 A2].
    destruct (mul_0 b t Hb Ht E) as [B1 B2].
    destruct (add_0_r _ _ A1 B1 B2) as [C1 C2].
    split; [exact C1|]. unfold flerp. now rewrite C2.
  Qed.

  Lemma flerp_1 t a b : fin t -> val t = 1 -> fin a -> fin b ->
    fin (flerp t a b) /\ val (flerp t a b) = val b.
  Proof.
    intros Ht E Ha Hb. destruct (one_minus_1 t Ht E) as [O1 O2].
    destruct (mul_0 a _ Ha O1 O2) as [A1 A2].
    destruct (mul_1 b t Hb Ht E) as [B1 B2].
    destruct (add_0_l _ _ A1 B1 A2) as [C1 C2].
    split; [exact C1|]. unfold flerp. now rewrite C2.
  Qed.

  Definition gro : R := (1 + uro) ^ 3.
  Definition hro : R := 2 * eta * (1 + uro).

  (** a mix with weights t and w, w an approximation of 1 - t *)
  Lemma mix_err t w a b (ra rb M E : R) :
    fin t -> 0 <= val t <= 1 -> fin w -> 0 <= val w <= 1 ->
    Rabs (val w - (1 - val t)) <= uro * (1 - val t) -> fin a -> fin b -> 0 <= E ->
    Rabs (val a - ra) <= E -> Rabs (val b - rb) <= E -> Rabs ra <= M -> Rabs rb <= M ->
    (M + E) * (1 + uro) ^ 2 + 2 * eta <= fmax ->
    fin (s_add (s_mul a w) (s_mul b t)) /\
    Rabs (val (s_add (s_mul a w) (s_mul b t)) - ((1 - val t) * ra + val t * rb))
      <= gro * E + (gro - 1) * M + hro.
  Proof.
    intros Ht Hr O1 O3 O4 Ha Hb HE Ea Eb Ma Mb Hov.
    set (x := val a) in *. set (y := val b) in *. set (s := val t) in *. set (v := val w) in *.
    set (A := M + E).
    pose proof uro_pos as Hu. pose proof eta_pos as He.
    assert (HA : 0 <= A) by (unfold A; pose proof (Rabs_pos ra); lra).
    assert (Xa : Rabs x <= A).
    { unfold A. replace x with ((x - ra) + ra) by ring. eapply Rle_trans; [apply Rabs_triang|]. lra. }
    assert (Xb : Rabs y <= A).
    { unfold A. replace y with ((y - rb) + rb) by ring. eapply Rle_trans; [apply Rabs_triang|]. lra. }
    (* products *)
    assert (Pw : Rabs (x * v) <= Rabs x).
    { rewrite Rabs_mult, (Rabs_pos_eq v) by lra.
      rewrite <- (Rmult_1_r (Rabs x)) at 2. apply Rmult_le_compat_l; [apply Rabs_pos|lra]. }
    assert (Pt : Rabs (y * s) <= Rabs y).
    { rewrite Rabs_mult, (Rabs_pos_eq s) by lra.
      rewrite <- (Rmult_1_r (Rabs y)) at 2. apply Rmult_le_compat_l; [apply Rabs_pos|lra]. }
    destruct (mul_ok a w Ha O1) as [P1 P2].
    { fold x v. eapply Rle_trans; [exact Pw|]. apply val_le_fmax. }
    destruct (mul_ok b t Hb Ht) as [Q1 Q2].
    { fold y s. eapply Rle_trans; [exact Pt|]. apply val_le_fmax. }
    fold x v in P2. fold y s in Q2.
    set (p := val (s_mul a w)) in *. set (q := val (s_mul b t)) in *.
    assert (Ep : Rabs (p - x * v) <= uro * (A * v) + eta).
    { rewrite P2. eapply Rle_trans; [apply rnd_err|]. apply Rplus_le_compat_r.
      apply Rmult_le_compat_l; [lra|]. rewrite Rabs_mult, (Rabs_pos_eq v) by lra.
      apply Rmult_le_compat_r; lra. }
    assert (Eq : Rabs (q - y * s) <= uro * (A * s) + eta).
    { rewrite Q2. eapply Rle_trans; [apply rnd_err|]. apply Rplus_le_compat_r.
      apply Rmult_le_compat_l; [lra|]. rewrite Rabs_mult, (Rabs_pos_eq s) by lra.
      apply Rmult_le_compat_r; lra. }
    set (k2 := (1 + uro) ^ 2 - 1).
    assert (Hv : v <= (1 - s) * (1 + uro)).
    { apply Rabs_le_inv in O4. lra. }
    assert (Bp : Rabs (p - (1 - s) * ra) <= (1 - s) * (A * k2 + E) + eta).
    { replace (p - (1 - s) * ra) with ((p - x * v) + (x * (v - (1 - s)) + (1 - s) * (x - ra))) by ring.
      eapply Rle_trans; [apply Rabs_triang|].
      assert (T1 : Rabs (x * (v - (1 - s)) + (1 - s) * (x - ra)) <= A * (uro * (1 - s)) + (1 - s) * E).
      { eapply Rle_trans; [apply Rabs_triang|]. rewrite !Rabs_mult.
        rewrite (Rabs_pos_eq (1 - s)) by lra. apply Rplus_le_compat.
        - apply Rmult_le_compat; try apply Rabs_pos; auto.
        - apply Rmult_le_compat_l; [lra|exact Ea]. }
      assert (T2 : uro * (A * v) <= uro * (A * ((1 - s) * (1 + uro)))).
      { apply Rmult_le_compat_l; [lra|]. apply Rmult_le_compat_l; lra. }
      replace ((1 - s) * (A * k2 + E) + eta)
        with ((uro * (A * ((1 - s) * (1 + uro))) + eta) + (A * (uro * (1 - s)) + (1 - s) * E))
        by (unfold k2; ring).
      lra. }
    assert (Bq : Rabs (q - s * rb) <= s * (A * k2 + E) + eta).
    { replace (q - s * rb) with ((q - y * s) + s * (y - rb)) by ring.
      eapply Rle_trans; [apply Rabs_triang|]. rewrite (Rabs_mult s), (Rabs_pos_eq s) by lra.
      assert (T2 : s * Rabs (y - rb) <= s * E) by (apply Rmult_le_compat_l; lra).
      assert (T3 : uro * (A * s) <= s * (A * k2)).
      { replace (s * (A * k2)) with ((A * s) * k2) by ring. rewrite (Rmult_comm uro).
        apply Rmult_le_compat_l; [apply Rmult_le_pos; lra|].
        unfold k2. cbn [pow]. nra. }
      lra. }
    assert (Bs : Rabs (p + q - ((1 - s) * ra + s * rb)) <= A * k2 + E + 2 * eta).
    { replace (p + q - ((1 - s) * ra + s * rb)) with ((p - (1 - s) * ra) + (q - s * rb)) by ring.
      eapply Rle_trans; [apply Rabs_triang|].
      replace (A * k2 + E + 2 * eta)
        with (((1 - s) * (A * k2 + E) + eta) + (s * (A * k2 + E) + eta)) by ring.
      lra. }
    assert (Mr : Rabs ((1 - s) * ra + s * rb) <= M).
    { eapply Rle_trans; [apply Rabs_triang|]. rewrite !Rabs_mult.
      rewrite (Rabs_pos_eq (1 - s)), (Rabs_pos_eq s) by lra.
      replace M with ((1 - s) * M + s * M) at 1 by ring.
      apply Rplus_le_compat; apply Rmult_le_compat_l; lra. }
    assert (Ms : Rabs (p + q) <= A * (1 + uro) ^ 2 + 2 * eta).
    { replace (p + q) with ((p + q - ((1 - s) * ra + s * rb)) + ((1 - s) * ra + s * rb)) by ring.
      eapply Rle_trans; [apply Rabs_triang|].
      replace (A * (1 + uro) ^ 2 + 2 * eta) with ((A * k2 + E + 2 * eta) + M)
        by (unfold k2, A; ring). lra. }
    destruct (add_ok (s_mul a w) (s_mul b t) P1 Q1) as [S1 S2].
    { fold p q. eapply Rle_trans; [exact Ms|exact Hov]. }
    split; [exact S1|].
    rewrite S2. fold p q.
    pose proof (rnd_sum_err p q (val_float _) (val_float _)) as Er.
    replace (rnd (p + q) - ((1 - s) * ra + s * rb))
      with ((rnd (p + q) - (p + q)) + (p + q - ((1 - s) * ra + s * rb))) by ring.
    eapply Rle_trans; [apply Rabs_triang|].
    assert (T4 : uro * Rabs (p + q) <= uro * (A * (1 + uro) ^ 2 + 2 * eta))
      by (apply Rmult_le_compat_l; lra).
    replace (gro * E + (gro - 1) * M + hro)
      with (uro * (A * (1 + uro) ^ 2 + 2 * eta) + (A * k2 + E + 2 * eta))
      by (unfold gro, hro, k2, A; ring).
    lra.
  Qed.

  Lemma flerp_err t a b (ra rb M E : R) :
    fin t -> 0 <= val t <= 1 -> fin a -> fin b -> 0 <= E ->
    Rabs (val a - ra) <= E -> Rabs (val b - rb) <= E -> Rabs ra <= M -> Rabs rb <= M ->
    (M + E) * (1 + uro) ^ 2 + 2 * eta <= fmax ->
    fin (flerp t a b) /\
    Rabs (val (flerp t a b) - ((1 - val t) * ra + val t * rb)) <= gro * E + (gro - 1) * M + hro.
  Proof.
    intros Ht Hr. destruct (one_minus t Ht Hr) as (O1 & _ & O3 & O4). now apply mix_err.
  Qed.

  (** the accumulated bound after [k] levels *)
  Definition casteljau_err (M : R) (k : nat) : R :=
    (gro ^ k - 1) * M + INR k * gro ^ k * hro.

  Lemma gro_ge_1 : 1 <= gro.
  Proof. unfold gro. pose proof uro_pos. cbn [pow]. nra. Qed.
  Lemma hro_pos : 0 < hro.
  Proof.
    unfold hro. pose proof uro_pos. pose proof eta_pos.
    apply Rmult_lt_0_compat; [apply Rmult_lt_0_compat|]; lra.
  Qed.
  Lemma gro_pow_ge_1 k : 1 <= gro ^ k.
  Proof. apply pow_R1_Rle, gro_ge_1. Qed.
  Lemma gro_pow_le j k : (j <= k)%nat -> gro ^ j <= gro ^ k.
  Proof. apply Rle_pow, gro_ge_1. Qed.

  Lemma casteljau_err_ge0 M k : 0 <= M -> 0 <= casteljau_err M k.
  Proof.
    intros HM. unfold casteljau_err. pose proof (gro_pow_ge_1 k). pose proof hro_pos.
    apply Rplus_le_le_0_compat.
    - apply Rmult_le_pos; lra.
    - apply Rmult_le_pos; [apply Rmult_le_pos|]; try lra. apply pos_INR.
  Qed.

  Lemma casteljau_err_step M k : 0 <= M ->
    gro * casteljau_err M k + (gro - 1) * M + hro <= casteljau_err M (S k).
  Proof.
    intros HM. unfold casteljau_err. rewrite S_INR. cbn [pow].
    pose proof (gro_pow_ge_1 k). pose proof hro_pos. pose proof gro_ge_1.
    assert (1 <= gro * gro ^ k) by nra.
    assert (hro <= gro * gro ^ k * hro) by nra. lra.
  Qed.

  Lemma casteljau_err_mono M j k : 0 <= M -> (j <= k)%nat -> casteljau_err M j <= casteljau_err M k.
  Proof.
    intros HM H. unfold casteljau_err. pose proof (gro_pow_le j k H). pose proof hro_pos.
    pose proof (gro_pow_ge_1 j). apply Rplus_le_compat.
    - apply Rmult_le_compat_r; lra.
    - apply Rmult_le_compat_r; [lra|]. apply Rmult_le_compat; try lra.
      + apply pos_INR.
      + now apply le_INR.
  Qed.
End Scalars.

Section Points.
  Context {F : Format} {P : Type} {PT : Point float P} {CP : CwPoint float P}.

  Lemma cw_lerp t (a b : P) i : (i < p_dim (P := P))%nat ->
    cw (lerp t a b) i = flerp t (cw a i) (cw b i).
  Proof. intros H. unfold lerp, flerp. rewrite cw_add, !cw_mul by exact H. reflexivity. Qed.

  Lemma tri_0 t (p : nat -> P) m j i : fin t -> val t = 0 -> (i < p_dim (P := P))%nat ->
    (forall k, (j <= k <= j + m)%nat -> fin (cw (p k) i)) ->
    fin (cw (tri t p m j) i) /\ val (cw (tri t p m j) i) = val (cw (p j) i).
  Proof.
    intros Ht E Hi. revert j. induction m as [|m IH]; intros j H; simpl.
    - split; [apply H; lia|reflexivity].
    - rewrite cw_lerp by exact Hi.
      destruct (IH j) as [A1 A2]; [intros; apply H; lia|].
      destruct (IH (j + 1)%nat) as [B1 B2]; [intros; apply H; lia|].
      destruct (flerp_0 t _ _ Ht E A1 B1) as [C1 C2]. split; [exact C1|]. now rewrite C2.
  Qed.

  Lemma tri_1 t (p : nat -> P) m j i : fin t -> val t = 1 -> (i < p_dim (P := P))%nat ->
    (forall k, (j <= k <= j + m)%nat -> fin (cw (p k) i)) ->
    fin (cw (tri t p m j) i) /\ val (cw (tri t p m j) i) = val (cw (p (j + m)%nat) i).
  Proof.
    intros Ht E Hi. revert j. induction m as [|m IH]; intros j H; simpl.
    - rewrite Nat.add_0_r. split; [apply H; lia|reflexivity].
    - rewrite cw_lerp by exact Hi.
      destruct (IH j) as [A1 A2]; [intros; apply H; lia|].
      destruct (IH (j + 1)%nat) as [B1 B2]; [intros; apply H; lia|].
      destruct (flerp_1 t _ _ Ht E A1 B1) as [C1 C2]. split; [exact C1|].
      rewrite C2, B2. do 3 f_equal. lia.
  Qed.

  Theorem bezier_start_exact (ps : list P) t d : ps <> [] ->
    (forall p, In p ps -> fin_point p) -> fin t -> val t = 0 ->
    exists p, bezier_eval (Bezier ps) t = Ret p /\
      forall i, (i < p_dim (P := P))%nat -> fin (cw p i) /\ val (cw p i) = val (cw (hd d ps) i).
  Proof.
    intros Hne Hf Ht E. rewrite (bezier_eval_closed ps t d Hne).
    eexists. split; [reflexivity|]. intros i Hi.
    assert (0 < length ps)%nat by (destruct ps; [contradiction|simpl; lia]).
    destruct (tri_0 t (fun k => nth k ps d) (length ps - 1) 0 i Ht E Hi) as [A1 A2].
    - intros k Hk. apply Hf; [|exact Hi]. apply nth_In. lia.
    - split; [exact A1|]. rewrite A2. now destruct ps.
  Qed.

  Theorem bezier_end_exact (ps : list P) t d : ps <> [] ->
    (forall p, In p ps -> fin_point p) -> fin t -> val t = 1 ->
    exists p, bezier_eval (Bezier ps) t = Ret p /\
      forall i, (i < p_dim (P := P))%nat -> fin (cw p i) /\ val (cw p i) = val (cw (last ps d) i).
  Proof.
    intros Hne Hf Ht E. rewrite (bezier_eval_closed ps t d Hne).
    eexists. split; [reflexivity|]. intros i Hi.
    assert (0 < length ps)%nat by (destruct ps; [contradiction|simpl; lia]).
    destruct (tri_1 t (fun k => nth k ps d) (length ps - 1) 0 i Ht E Hi) as [A1 A2].
    - intros k Hk. apply Hf; [|exact Hi]. apply nth_In. lia.
    - split; [exact A1|]. rewrite A2. rewrite Nat.add_0_l.
      replace (nth (length ps - 1) ps d) with (last ps d); [reflexivity|].
      clear - Hne. induction ps as [|a l IH]; [contradiction|].
      destruct l as [|b l]; [reflexivity|].
      change (last (a :: b :: l) d) with (last (b :: l) d). rewrite IH by discriminate.
      cbn [length]. replace (S (S (length l)) - 1)%nat with (S (length l)) by lia.
      replace (S (length l) - 1)%nat with (length l) by lia. reflexivity.
  Qed.

  (** C54 *)
  Lemma tri_err t (p : nat -> P) m j i M n :
    fin t -> 0 <= val t <= 1 -> (i < p_dim (P := P))%nat -> (m <= n)%nat -> 0 <= M ->
    (forall k, (j <= k <= j + m)%nat -> fin (cw (p k) i) /\ Rabs (val (cw (p k) i)) <= M) ->
    (M + casteljau_err M n) * (1 + uro) ^ 2 + 2 * eta <= fmax ->
    fin (cw (tri t p m j) i) /\
    Rabs (val (cw (tri t p m j) i) - dc (val t) m (fun k => val (cw (p k) i)) j) <= casteljau_err M m.
  Proof.
    intros Ht Hr Hi Hn HM H Hov. revert j H. induction m as [|m IH]; intros j H.
    - simpl. destruct (H j) as [A B]; [lia|]. split; [exact A|].
      rewrite Rminus_diag_eq by reflexivity. rewrite Rabs_R0. now apply casteljau_err_ge0.
    - cbn [tri dc]. rewrite cw_lerp by exact Hi.
      destruct (IH ltac:(lia) j) as [A1 A2]; [intros; apply H; lia|].
      destruct (IH ltac:(lia) (j + 1)%nat) as [B1 B2]; [intros; apply H; lia|].
      assert (Hdc : forall j', (j <= j' <= j + 1)%nat ->
                Rabs (dc (val t) m (fun k => val (cw (p k) i)) j') <= M).
      { intros j' Hj'. apply Rabs_le. apply dc_between; [exact Hr|].
        intros k Hk. apply Rabs_le_inv. apply H. lia. }
      destruct (flerp_err t _ _ _ _ M (casteljau_err M m) Ht Hr A1 B1
                  (casteljau_err_ge0 M m HM) A2 B2 (Hdc j ltac:(lia)) (Hdc (j + 1)%nat ltac:(lia))) as [C1 C2].
      { eapply Rle_trans; [|exact Hov]. apply Rplus_le_compat_r.
        apply Rmult_le_compat_r; [apply pow2_ge_0|].
        apply Rplus_le_compat_l. apply casteljau_err_mono; [exact HM|lia]. }
      split; [exact C1|]. eapply Rle_trans; [exact C2|]. now apply casteljau_err_step.
  Qed.

  Theorem bezier_eval_err (ps : list P) t M : ps <> [] ->
    fin t -> 0 <= val t <= 1 -> 0 <= M ->
    (forall p i, In p ps -> (i < p_dim (P := P))%nat -> fin (cw p i) /\ Rabs (val (cw p i)) <= M) ->
    (M + casteljau_err M (length ps - 1)) * (1 + uro) ^ 2 + 2 * eta <= fmax ->
    exists p, bezier_eval (Bezier ps) t = Ret p /\
      forall i, (i < p_dim (P := P))%nat ->
        fin (cw p i) /\
        Rabs (val (cw p i) - bezier_poly (map (fun q => val (cw q i)) ps) (val t))
          <= casteljau_err M (length ps - 1).
  Proof.
    intros Hne Ht Hr HM H Hov.
    assert (L : (0 < length ps)%nat) by (destruct ps; [contradiction|simpl; lia]).
    destruct ps as [|d ps0] eqn:Eps; [contradiction|]. rewrite <- Eps in *.
    rewrite (bezier_eval_closed ps t d Hne).
    eexists. split; [reflexivity|]. intros i Hi.
    destruct (tri_err t (fun k => nth k ps d) (length ps - 1) 0 i M (length ps - 1) Ht Hr Hi) as [A B]; auto.
    - intros k Hk. apply H; [|exact Hi]. apply nth_In. lia.
    - split; [exact A|].
      replace (bezier_poly (map (fun q => val (cw q i)) ps) (val t))
        with (dc (val t) (length ps - 1) (fun k => val (cw (nth k ps d) i)) 0); [exact B|].
      rewrite dc_bernstein. unfold bezier_poly. rewrite map_length.
      replace (S (length ps - 1)) with (length ps) by lia.
      apply Rsum_ext. intros k Hk. f_equal. cbn [Nat.add].
      rewrite (nth_indep _ 0 (val (cw d i))) by now rewrite map_length.
      now rewrite (map_nth (fun q => val (cw q i))).
  Qed.
End Points.
