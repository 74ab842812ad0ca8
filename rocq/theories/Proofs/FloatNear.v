(** Rounding error of fixed expressions: a small calculus of error bounds of the
    form [a u M + b eta], used for the specialised curves. *)
From Coq Require Import Reals ZArith List Arith Lia Lra Bool.
From Flocq Require Import Core.Core IEEE754.BinarySingleNaN.
From Verif Require Import Base.Outcome Base.Scalar Model.Point Model.Line Model.Quadratic
  Model.Cubic Inst.FloatInst Spec.Sums Spec.Bernstein Spec.Rounding Spec.Componentwise
  Proofs.FloatFacts Proofs.FloatEval Proofs.FloatBound.
Import ListNotations.
Local Open Scope R_scope.

Section Near.
  Context {F : Format}.
  Variable M : R.
  Hypothesis HM : 0 <= M.
  Hypothesis H4 : 4 * M <= fmax.
  Implicit Types x y w : float.

  (** [x] approximates [r], a quantity of size at most [m M] *)
  Definition near x (r m a b : R) : Prop :=
    fin x /\ Rabs (val x - r) <= a * (uro * M) + b * eta /\ Rabs r <= m * M /\
    0 <= m <= 3 /\ 0 <= a <= 50 /\ 0 <= b <= 50.
  (** [w] approximates a weight in [0,1] *)
  Definition wnear w (r c : R) : Prop :=
    fin w /\ Rabs (val w - r) <= c * uro /\ 0 <= r <= 1 /\ 0 <= c <= 20.

  Let UP := uro_pos.
  Let US := uro_small.
  Let EP := eta_pos.
  Let EU := eta_uro.
  Let FM := fmax_ge.

  Lemma uM_ge0 : 0 <= uro * M.
  Proof. apply Rmult_le_pos; lra. Qed.
  Lemma uM_small : uro * M <= / 2048 * M.
  Proof. apply Rmult_le_compat_r; lra. Qed.

  Lemma near_init x m : fin x -> Rabs (val x) <= m * M -> 0 <= m <= 3 -> near x (val x) m 0 0.
  Proof.
    intros Hx Hm H. repeat split; try lra; auto.
    rewrite Rminus_diag_eq, Rabs_R0 by reflexivity. lra.
  Qed.



  Lemma near_size x r m a b : near x r m a b -> Rabs (val x) <= (m + a / 2048) * M + b * eta.
  Proof.
    intros (_ & He & Hr & Hm & Ha & Hb).
    replace (val x) with ((val x - r) + r) by ring.
    eapply Rle_trans; [apply Rabs_triang|].
    assert (a * (uro * M) <= a * (/ 2048 * M))
      by (apply Rmult_le_compat_l; [lra|apply uM_small]). lra.
  Qed.

  Lemma near_sum_gen x y r s (op : R) m1 a1 b1 m2 a2 b2 m a b v :
    near x r m1 a1 b1 -> near y s m2 a2 b2 ->
    Rabs (v - op) <= (a1 + a2) * (uro * M) + (b1 + b2) * eta ->
    Rabs (rnd v - v) <= uro * Rabs v ->
    Rabs op <= m * M -> 0 <= m <= 3 ->
    (a1 + a2) * (1 + / 2048) + m <= a <= 50 -> (b1 + b2) * (1 + / 2048) <= b <= 50 ->
    Rabs v <= fmax /\ Rabs (rnd v - op) <= a * (uro * M) + b * eta.
  Proof.
    intros (Hx & Hxe & Hxr & Hm1 & Ha1 & Hb1) (Hy & Hye & Hyr & Hm2 & Ha2 & Hb2) Hv Hrv Hop Hm Ha Hb.
    set (A := a1 + a2) in *. set (B := b1 + b2) in *.
    pose proof uM_ge0 as U0. pose proof uM_small as U1.
    assert (Sz : Rabs v <= m * M + (A * (uro * M) + B * eta)).
    { replace v with ((v - op) + op) by ring. eapply Rle_trans; [apply Rabs_triang|]. lra. }
    assert (A0 : 0 <= A <= 50) by (split; [unfold A; lra|lra]).
    assert (B0 : 0 <= B <= 50) by (split; [unfold B; lra|lra]).
    assert (AM : A * (uro * M) <= 50 * (/ 2048 * M)) by (apply Rmult_le_compat; lra).
    assert (BE : B * eta <= 50 * (/ 2048 * / 1024)).
    { apply Rmult_le_compat; lra. }
    assert (mM : m * M <= 3 * M) by (apply Rmult_le_compat_r; lra).
    split.
    - eapply Rle_trans; [exact Sz|]. destruct (Rle_or_lt M 4); lra.
    - replace (rnd v - op) with ((rnd v - v) + (v - op)) by ring.
      eapply Rle_trans; [apply Rabs_triang|].
      assert (uro * Rabs v <= uro * (m * M + (A * (uro * M) + B * eta)))
        by (apply Rmult_le_compat_l; lra).
      assert (uro * (m * M + (A * (uro * M) + B * eta))
              <= m * (uro * M) + (A * / 2048) * (uro * M) + (B * / 2048) * eta).
      { replace (uro * (m * M + (A * (uro * M) + B * eta)))
          with (m * (uro * M) + uro * (A * (uro * M)) + uro * (B * eta)) by ring.
        assert (uro * (A * (uro * M)) <= / 2048 * (A * (uro * M))).
        { apply Rmult_le_compat_r; [|lra]. apply Rmult_le_pos; lra. }
        assert (uro * (B * eta) <= / 2048 * (B * eta)).
        { apply Rmult_le_compat_r; [|lra]. apply Rmult_le_pos; lra. }
        lra. }
      assert ((A * (1 + / 2048) + m) * (uro * M) <= a * (uro * M)) by (apply Rmult_le_compat_r; lra).
      assert (B * (1 + / 2048) * eta <= b * eta) by (apply Rmult_le_compat_r; lra).
      lra.
  Qed.

  Lemma near_add x y r s m1 a1 b1 m2 a2 b2 m a b :
    near x r m1 a1 b1 -> near y s m2 a2 b2 -> Rabs (r + s) <= m * M -> 0 <= m <= 3 ->
    (a1 + a2) * (1 + / 2048) + m <= a <= 50 -> (b1 + b2) * (1 + / 2048) <= b <= 50 ->
    near (s_add x y) (r + s) m a b.
  Proof.
    intros Nx Ny Hop Hm Ha Hb.
    destruct (near_sum_gen x y r s (r + s) m1 a1 b1 m2 a2 b2 m a b (val x + val y) Nx Ny) as [Sz Er]; auto.
    - destruct Nx as (_ & Hxe & _), Ny as (_ & Hye & _).
      replace (val x + val y - (r + s)) with ((val x - r) + (val y - s)) by ring.
      eapply Rle_trans; [apply Rabs_triang|]. lra.
    - apply rnd_sum_err; apply val_float.
    - destruct (add_ok x y (proj1 Nx) (proj1 Ny) Sz) as [C1 C2].
      destruct Nx as (_ & _ & _ & _ & Ha1 & Hb1), Ny as (_ & _ & _ & _ & Ha2 & Hb2).
      repeat split; auto; try lra. now rewrite C2.
  Qed.


  Lemma wnear_size w r c : wnear w r c -> Rabs (val w) <= 1 + c / 2048.
  Proof.
    intros (_ & He & Hr & Hc). replace (val w) with ((val w - r) + r) by ring.
    eapply Rle_trans; [apply Rabs_triang|]. rewrite (Rabs_pos_eq r) by lra.
    assert (c * uro <= c * / 2048) by (apply Rmult_le_compat_l; lra). lra.
  Qed.

  Lemma near_mul x w r s m a b c m' a' b' :
    near x r m a b -> wnear w s c -> Rabs (r * s) <= m' * M -> 0 <= m' <= 3 ->
    a * (1 + c / 2048) + m * c + (m + a / 2048) * (1 + c / 2048) <= a' <= 50 ->
    b * (1 + c / 2048) * (1 + / 2048) + 1 <= b' <= 50 ->
    near (s_mul x w) (r * s) m' a' b'.
  Proof.
    intros Nx Nw Hop Hm' Ha' Hb'.
    pose proof (near_size _ _ _ _ _ Nx) as Sx. pose proof (wnear_size _ _ _ Nw) as Sw.
    destruct Nx as (Hx & Hxe & Hxr & Hm & Ha & Hb), Nw as (Hw & Hwe & Hs & Hc).
    pose proof uM_ge0 as U0. pose proof uM_small as U1.
    set (k := 1 + c / 2048) in *.
    assert (Hk : 1 <= k <= 1 + / 100) by (unfold k; lra).
    assert (Hkm : m + a / 2048 <= 3 + 50 / 2048) by lra.
    assert (BE : b * eta <= 50 * (/ 2048 * / 1024)) by (apply Rmult_le_compat; lra).
    assert (S0 : 0 <= (m + a / 2048) * M + b * eta).
    { apply Rplus_le_le_0_compat; apply Rmult_le_pos; lra. }
    assert (Sz : Rabs (val x * val w) <= ((m + a / 2048) * M + b * eta) * k).
    { rewrite Rabs_mult. apply Rmult_le_compat; try apply Rabs_pos; auto. }
    assert (Ov : Rabs (val x * val w) <= fmax).
    { eapply Rle_trans; [exact Sz|].
      apply Rle_trans with (((3 + 50 / 2048) * M + 50 * (/ 2048 * / 1024)) * (1 + / 100)).
      - apply Rmult_le_compat; try lra. apply Rplus_le_compat; [|lra].
        apply Rmult_le_compat_r; lra.
      - destruct (Rle_or_lt M 4); lra. }
    destruct (mul_ok x w Hx Hw Ov) as [C1 C2].
    assert (0 <= a').
    { eapply Rle_trans; [|apply Ha'].
      repeat apply Rplus_le_le_0_compat; repeat apply Rmult_le_pos; lra. }
    assert (0 <= b').
    { eapply Rle_trans; [|apply Hb'].
      repeat apply Rplus_le_le_0_compat; repeat apply Rmult_le_pos; lra. }
    repeat split; auto; try lra.
    rewrite C2.
    replace (rnd (val x * val w) - r * s)
      with ((rnd (val x * val w) - val x * val w) + ((val x - r) * val w + r * (val w - s))) by ring.
    eapply Rle_trans; [apply Rabs_triang|].
    pose proof (rnd_err (val x * val w)) as Er.
    assert (E1 : Rabs ((val x - r) * val w + r * (val w - s))
                 <= (a * (uro * M) + b * eta) * k + (m * M) * (c * uro)).
    { eapply Rle_trans; [apply Rabs_triang|]. rewrite !Rabs_mult.
      apply Rplus_le_compat; apply Rmult_le_compat; try apply Rabs_pos; auto. }
    assert (E2 : uro * Rabs (val x * val w)
                 <= (m + a / 2048) * k * (uro * M) + (b * k * / 2048) * eta).
    { apply Rle_trans with (uro * (((m + a / 2048) * M + b * eta) * k)).
      - apply Rmult_le_compat_l; lra.
      - replace (uro * (((m + a / 2048) * M + b * eta) * k))
          with ((m + a / 2048) * k * (uro * M) + uro * (b * eta * k)) by ring.
        apply Rplus_le_compat_l. replace (b * k * / 2048 * eta) with (/ 2048 * (b * eta * k)) by ring.
        apply Rmult_le_compat_r; [|lra]. apply Rmult_le_pos; [|lra]. apply Rmult_le_pos; lra. }
    assert (Fa : (a * k + m * c + (m + a / 2048) * k) * (uro * M) <= a' * (uro * M))
      by (apply Rmult_le_compat_r; lra).
    assert (Fb : (b * k * (1 + / 2048) + 1) * eta <= b' * eta) by (apply Rmult_le_compat_r; lra).
    lra.
  Qed.

  (** doubling: [p * 2.0] *)
  Lemma near_double x r m a b m' a' b' : near x r m a b -> 2 * m <= m' <= 3 ->
    2 * a * (1 + / 2048) + m' <= a' <= 50 -> 2 * b * (1 + / 2048) <= b' <= 50 ->
    near (s_mul x (s_lit 2)) (r * 2) m' a' b'.
  Proof.
    intros Nx Hm Ha Hb.
    destruct (near_sum_gen x x r r (r + r) m a b m a b m' a' b' (val x + val x) Nx Nx) as [Sz Er];
      try lra.
    - destruct Nx as (_ & Hxe & _).
      replace (val x + val x - (r + r)) with ((val x - r) + (val x - r)) by ring.
      eapply Rle_trans; [apply Rabs_triang|]. lra.
    - apply rnd_sum_err; apply val_float.
    - destruct Nx as (_ & _ & Hxr & Hm0 & _). eapply Rle_trans; [apply Rabs_triang|].
      assert (2 * m * M <= m' * M) by (apply Rmult_le_compat_r; lra). lra.
    - destruct Nx as (_ & _ & _ & Hm0 & _). lra.
    - destruct (lit_small 2) as [L1 L2]; [lia|].
      assert (E2 : val x * val (s_lit 2) = val x + val x) by (rewrite L2; ring).
      destruct (mul_ok x (s_lit 2) (proj1 Nx) L1) as [C1 C2]; [now rewrite E2|].
      rewrite E2 in C2. destruct Nx as (_ & _ & Hxr & Hm0 & Ha0 & Hb0).
      repeat split; auto; try lra.
      + rewrite C2. replace (r * 2) with (r + r) by ring. exact Er.
      + replace (r * 2) with (r + r) by ring. eapply Rle_trans; [apply Rabs_triang|].
        assert (2 * m * M <= m' * M) by (apply Rmult_le_compat_r; lra). lra.
  Qed.

  (** weights *)
  Lemma wnear_init t : fin t -> 0 <= val t <= 1 -> wnear t (val t) 0.
  Proof.
    intros Ht Hr. repeat split; auto; try lra.
    rewrite Rminus_diag_eq, Rabs_R0 by reflexivity. lra.
  Qed.

  Lemma wnear_one_minus t : fin t -> 0 <= val t <= 1 ->
    wnear (s_add (s_neg t) (s_lit 1)) (1 - val t) 1.
  Proof.
    intros Ht Hr. destruct (one_minus t Ht Hr) as (A & _ & _ & B).
    repeat split; auto; try lra. eapply Rle_trans; [exact B|].
    rewrite (Rmult_comm 1). apply Rmult_le_compat_l; lra.
  Qed.

  Lemma wnear_mul v w r s c1 c2 c : wnear v r c1 -> wnear w s c2 ->
    c1 * (1 + c2 / 2048) + c2 + (1 + c1 / 2048) * (1 + c2 / 2048) + / 1024 <= c <= 20 ->
    wnear (s_mul v w) (r * s) c.
  Proof.
    intros Nv Nw Hc. pose proof (wnear_size _ _ _ Nv) as Sv. pose proof (wnear_size _ _ _ Nw) as Sw.
    destruct Nv as (Hv & Ev & Hr & Hc1), Nw as (Hw & Ew & Hs & Hc2).
    assert (Sz : Rabs (val v * val w) <= (1 + c1 / 2048) * (1 + c2 / 2048)).
    { rewrite Rabs_mult. apply Rmult_le_compat; auto using Rabs_pos. }
    destruct (mul_ok v w Hv Hw) as [C1 C2].
    { eapply Rle_trans; [exact Sz|]. apply Rle_trans with (2 * 2); [|lra].
      apply Rmult_le_compat; lra. }
    repeat split; auto; try nra.
    - rewrite C2.
      replace (rnd (val v * val w) - r * s)
        with ((rnd (val v * val w) - val v * val w) + ((val v - r) * val w + r * (val w - s))) by ring.
      eapply Rle_trans; [apply Rabs_triang|].
      pose proof (rnd_err (val v * val w)) as Er.
      assert (E1 : Rabs ((val v - r) * val w + r * (val w - s)) <= (c1 * uro) * (1 + c2 / 2048) + 1 * (c2 * uro)).
      { eapply Rle_trans; [apply Rabs_triang|]. rewrite !Rabs_mult.
        apply Rplus_le_compat; apply Rmult_le_compat; try apply Rabs_pos; auto.
        rewrite Rabs_pos_eq; lra. }
      assert (E2 : uro * Rabs (val v * val w) <= uro * ((1 + c1 / 2048) * (1 + c2 / 2048)))
        by (apply Rmult_le_compat_l; lra).
      assert (Fc : (c1 * (1 + c2 / 2048) + c2 + (1 + c1 / 2048) * (1 + c2 / 2048) + / 1024) * uro <= c * uro)
        by (apply Rmult_le_compat_r; lra).
      lra.
  Qed.

  (** [w * 3.0], for a weight that stays below 1 *)
  Lemma wnear_triple v r c c' : wnear v r c -> r * 3 <= 1 ->
    3 * c * (1 + / 2048) + 1 + / 1024 <= c' <= 20 -> wnear (s_mul v (s_lit 3)) (r * 3) c'.
  Proof.
    intros Nv H3 Hc. destruct Nv as (Hv & Ev & Hr & Hc1).
    destruct (lit_small 3) as [L1 L2]; [lia|].
    assert (E : Rabs (val v * 3 - r * 3) <= 3 * (c * uro)).
    { replace (val v * 3 - r * 3) with ((val v - r) * 3) by ring. rewrite Rabs_mult.
      rewrite (Rabs_pos_eq 3) by lra. lra. }
    assert (Sz : Rabs (val v * 3) <= 1 + 3 * c / 2048).
    { replace (val v * 3) with ((val v * 3 - r * 3) + r * 3) by ring.
      eapply Rle_trans; [apply Rabs_triang|]. rewrite (Rabs_pos_eq (r * 3)) by lra.
      assert (c * uro <= c * / 2048) by (apply Rmult_le_compat_l; lra). lra. }
    destruct (mul_ok v (s_lit 3) Hv L1) as [C1 C2]; [rewrite L2; lra|]. rewrite L2 in C2.
    repeat split; auto; try lra.
    rewrite C2. replace (rnd (val v * 3) - r * 3) with ((rnd (val v * 3) - val v * 3) + (val v * 3 - r * 3)) by ring.
    eapply Rle_trans; [apply Rabs_triang|]. pose proof (rnd_err (val v * 3)) as Er.
    assert (uro * Rabs (val v * 3) <= uro * (1 + 3 * c / 2048)) by (apply Rmult_le_compat_l; lra).
    assert ((3 * c * (1 + / 2048) + 1 + / 1024) * uro <= c' * uro) by (apply Rmult_le_compat_r; lra).
    lra.
  Qed.

  (** [a + (b - a) * t] on approximations, the step of [eval_casteljau] *)
  Definition fmix (t a b : float) : float := s_add a (s_mul (s_sub b a) t).

  Lemma mix_bound t r s : 0 <= t <= 1 -> Rabs r <= M -> Rabs s <= M -> Rabs (r + (s - r) * t) <= M.
  Proof. intros Ht Hr Hs. apply Rabs_le_inv in Hr, Hs. apply Rabs_le. nra. Qed.

  Lemma near_mix t x y r s a b : fin t -> 0 <= val t <= 1 ->
    near x r 1 a b -> near y s 1 a b -> a <= 20 -> b <= 20 ->
    near (fmix t x y) (r + (s - r) * val t) 1 (a + 5 + / 16) (b + 1 + / 16).
  Proof.
    intros Ht Hr Nx Ny Ha20 Hb20.
    pose proof (near_size _ _ _ _ _ Nx) as Sx. pose proof (near_size _ _ _ _ _ Ny) as Sy.
    destruct Nx as (Hx & Ex & Rx & _ & Ha & Hb), Ny as (Hy & Ey & Ry & _ & _ & _).
    rewrite Rmult_1_l in Rx, Ry.
    pose proof uM_ge0 as U0. pose proof uM_small as U1.
    set (S := (1 + a / 2048) * M + b * eta) in *.
    set (E := a * (uro * M) + b * eta) in *.
    set (X := val x) in *. set (Y := val y) in *. set (T := val t) in *.
    assert (BE : b * eta <= 20 * (/ 2048 * / 1024)) by (apply Rmult_le_compat; lra).
    assert (BE0 : 0 <= b * eta) by (apply Rmult_le_pos; lra).
    assert (AM : (1 + a / 2048) * M <= (1 + 20 / 2048) * M) by (apply Rmult_le_compat_r; lra).
    assert (S0 : 0 <= S) by (pose proof (Rabs_pos X); lra).
    assert (SF : S * 3 <= fmax) by (unfold S; destruct (Rle_or_lt M 4); lra).
    assert (uS0 : 0 <= uro * S) by (apply Rmult_le_pos; lra).
    assert (uS : uro * S <= / 2048 * S) by (apply Rmult_le_compat_r; lra).
    assert (uuS : uro * (uro * S) <= / 2048 * (uro * S)) by (apply Rmult_le_compat_r; lra).
    assert (uuS0 : 0 <= uro * (uro * S)) by (apply Rmult_le_pos; lra).
    (* difference *)
    assert (D0 : Rabs (Y - X) <= 2 * S).
    { unfold Rminus. eapply Rle_trans; [apply Rabs_triang|]. rewrite Rabs_Ropp. lra. }
    destruct (sub_ok y x Hy Hx) as [D1 D2]; [fold X Y; lra|]. fold X Y in D2.
    set (V := val (s_sub y x)) in *.
    assert (D3 : Rabs (V - (Y - X)) <= 2 * (uro * S)).
    { rewrite D2. eapply Rle_trans; [apply (rnd_sum_err Y (- X)); [apply val_float|apply float_opp, val_float]|].
      fold (Y - X). replace (2 * (uro * S)) with (uro * (2 * S)) by ring. apply Rmult_le_compat_l; lra. }
    assert (D4 : Rabs V <= 2 * S + 2 * (uro * S)).
    { replace V with ((V - (Y - X)) + (Y - X)) by ring. eapply Rle_trans; [apply Rabs_triang|]. lra. }
    (* product *)
    assert (P0 : Rabs (V * T) <= Rabs V).
    { rewrite Rabs_mult, (Rabs_pos_eq T) by lra.
      rewrite <- (Rmult_1_r (Rabs V)) at 2. apply Rmult_le_compat_l; [apply Rabs_pos|lra]. }
    destruct (mul_ok (s_sub y x) t D1 Ht) as [P1 P2]; [fold V T; lra|]. fold V T in P2.
    set (Q := val (s_mul (s_sub y x) t)) in *.
    assert (P3 : Rabs (Q - V * T) <= 2 * (uro * S) + 2 * (uro * (uro * S)) + eta).
    { rewrite P2. eapply Rle_trans; [apply rnd_err|]. apply Rplus_le_compat_r.
      replace (2 * (uro * S) + 2 * (uro * (uro * S))) with (uro * (2 * S + 2 * (uro * S))) by ring.
      apply Rmult_le_compat_l; lra. }
    assert (P4 : Rabs (Q - (Y - X) * T) <= 4 * (uro * S) + 2 * (uro * (uro * S)) + eta).
    { replace (Q - (Y - X) * T) with ((Q - V * T) + (V - (Y - X)) * T) by ring.
      eapply Rle_trans; [apply Rabs_triang|]. rewrite (Rabs_mult (V - (Y - X))), (Rabs_pos_eq T) by lra.
      assert (Rabs (V - (Y - X)) * T <= Rabs (V - (Y - X)) * 1)
        by (apply Rmult_le_compat_l; [apply Rabs_pos|lra]). lra. }
    (* sum *)
    assert (Z0 : Rabs (X + (Y - X) * T) <= S).
    { apply Rabs_le_inv in Sx, Sy. apply Rabs_le. nra. }
    assert (Z1 : Rabs (X + Q) <= S + (4 * (uro * S) + 2 * (uro * (uro * S)) + eta)).
    { replace (X + Q) with ((X + (Y - X) * T) + (Q - (Y - X) * T)) by ring.
      eapply Rle_trans; [apply Rabs_triang|]. lra. }
    destruct (add_ok x (s_mul (s_sub y x) t) Hx P1) as [Z2 Z3].
    { fold X Q. eapply Rle_trans; [exact Z1|]. destruct (Rle_or_lt S 1); lra. }
    fold X Q in Z3. split; [exact Z2|].
    assert (Z4 : Rabs (rnd (X + Q) - (X + Q)) <= uro * S + / 2048 * (4 * (uro * S) + 2 * (uro * (uro * S)) + eta)).
    { eapply Rle_trans; [apply rnd_sum_err; apply val_float|].
      apply Rle_trans with (uro * (S + (4 * (uro * S) + 2 * (uro * (uro * S)) + eta))).
      - apply Rmult_le_compat_l; lra.
      - rewrite Rmult_plus_distr_l. apply Rplus_le_compat_l. apply Rmult_le_compat_r; lra. }
    assert (Z5 : Rabs (X + (Y - X) * T - (r + (s - r) * T)) <= E).
    { replace (X + (Y - X) * T - (r + (s - r) * T)) with ((1 - T) * (X - r) + T * (Y - s)) by ring.
      apply Rabs_le_inv in Ex, Ey. apply Rabs_le. nra. }
    split; [|split].
    - unfold fmix. rewrite Z3.
      replace (rnd (X + Q) - (r + (s - r) * T))
        with ((rnd (X + Q) - (X + Q)) + ((Q - (Y - X) * T) + (X + (Y - X) * T - (r + (s - r) * T)))) by ring.
      eapply Rle_trans; [apply Rabs_triang|].
      assert (Rabs ((Q - (Y - X) * T) + (X + (Y - X) * T - (r + (s - r) * T)))
              <= (4 * (uro * S) + 2 * (uro * (uro * S)) + eta) + E).
      { eapply Rle_trans; [apply Rabs_triang|]. lra. }
      assert (US' : uro * S <= (1 + 20 / 2048) * (uro * M) + / 2048 * (20 * eta)).
      { unfold S. replace (uro * ((1 + a / 2048) * M + b * eta))
          with ((1 + a / 2048) * (uro * M) + uro * (b * eta)) by ring.
        apply Rplus_le_compat.
        - apply Rmult_le_compat_r; lra.
        - apply Rmult_le_compat; try lra. apply Rmult_le_compat_r; lra. }
      replace ((a + 5 + / 16) * (uro * M) + (b + 1 + / 16) * eta)
        with (E + (5 + / 16) * (uro * M) + (1 + / 16) * eta) by (unfold E; ring).
      lra.
    - rewrite Rmult_1_l. apply mix_bound; auto.
    - lra.
  Qed.
End Near.

Section Curves.
  Context {F : Format} {P : Type} {PT : Point float P} {CP : CwPoint float P}.
  Variable M : R.
  Hypothesis HM : 0 <= M.
  Hypothesis H4 : 4 * M <= fmax.

  (** the [i]-th coordinate of [p] is finite and at most [M] *)
  Definition bounded_at (p : P) (i : nat) : Prop := fin (cw p i) /\ Rabs (val (cw p i)) <= M.

  Lemma bounded_near p i : bounded_at p i -> near M (cw p i) (val (cw p i)) 1 0 0.
  Proof. intros [A B]. apply near_init; try lra. exact A. Qed.

  Lemma line_poly a b t : bezier_poly [a; b] t = a + (b - a) * t.
  Proof. unfold bezier_poly, bernstein. cbn. ring. Qed.
  Lemma quad_poly a b c t :
    bezier_poly [a; b; c] t = a * ((1 - t) * (1 - t)) + b * 2 * (1 - t) * t + c * (t * t).
  Proof. unfold bezier_poly, bernstein. cbn. ring. Qed.
  Lemma cubic_poly a b c d t :
    bezier_poly [a; b; c; d] t
    = a * ((1 - t) * (1 - t) * (1 - t)) + b * (t * (1 - t) * (1 - t) * 3)
      + c * (t * t * (1 - t) * 3) + d * (t * t * t).
  Proof. unfold bezier_poly, bernstein. cbn. ring. Qed.

  Lemma cw_mix t (a b : P) i : (i < p_dim (P := P))%nat ->
    cw (p_add a (p_mul (p_sub b a) t)) i = fmix t (cw a i) (cw b i).
  Proof. intros H. unfold fmix. now rewrite cw_add, cw_mul, cw_sub by exact H. Qed.

  Theorem line_eval_err (l : line P) t i : (i < p_dim (P := P))%nat -> fin t -> 0 <= val t <= 1 ->
    bounded_at (l_start l) i -> bounded_at (l_end l) i ->
    fin (cw (line_eval l t) i) /\
    Rabs (val (cw (line_eval l t) i)
          - bezier_poly [val (cw (l_start l) i); val (cw (l_end l) i)] (val t)) <= 6 * uro * M + 2 * eta.
  Proof.
    intros Hi Ht Hr B1 B2. unfold line_eval. rewrite cw_mix by exact Hi. rewrite line_poly.
    destruct (near_mix M HM H4 t _ _ _ _ 0 0 Ht Hr (bounded_near _ _ B1) (bounded_near _ _ B2)) as (A & B & _); try lra.
    split; [exact A|]. pose proof (uM_ge0 M HM). pose proof eta_pos. lra.
  Qed.

  Theorem quad_casteljau_err (q : quad P) t i : (i < p_dim (P := P))%nat -> fin t -> 0 <= val t <= 1 ->
    bounded_at (q_start q) i -> bounded_at (q_ctrl q) i -> bounded_at (q_end q) i ->
    fin (cw (quad_eval_casteljau q t) i) /\
    Rabs (val (cw (quad_eval_casteljau q t) i)
          - bezier_poly [val (cw (q_start q) i); val (cw (q_ctrl q) i); val (cw (q_end q) i)] (val t))
      <= 11 * uro * M + 3 * eta.
  Proof.
    intros Hi Ht Hr B1 B2 B3. unfold quad_eval_casteljau. rewrite !cw_mix by exact Hi. rewrite quad_poly.
    apply bounded_near in B1, B2, B3.
    pose proof (near_mix M HM H4 t _ _ _ _ 0 0 Ht Hr B1 B2 ltac:(lra) ltac:(lra)) as N1.
    pose proof (near_mix M HM H4 t _ _ _ _ 0 0 Ht Hr B2 B3 ltac:(lra) ltac:(lra)) as N2.
    pose proof (near_mix M HM H4 t _ _ _ _ _ _ Ht Hr N1 N2 ltac:(lra) ltac:(lra)) as N3.
    destruct N3 as (A & B & _). split; [exact A|].
    pose proof (uM_ge0 M HM). pose proof eta_pos.
    match type of B with Rabs (?v - ?r) <= _ =>
      match goal with |- Rabs (_ - ?s) <= _ => replace s with r by ring end end.
    lra.
  Qed.

  Theorem cubic_casteljau_err (c : cubic P) t i : (i < p_dim (P := P))%nat -> fin t -> 0 <= val t <= 1 ->
    bounded_at (c_start c) i -> bounded_at (c_ctrl1 c) i -> bounded_at (c_ctrl2 c) i -> bounded_at (c_end c) i ->
    fin (cw (cubic_eval_casteljau c t) i) /\
    Rabs (val (cw (cubic_eval_casteljau c t) i)
          - bezier_poly [val (cw (c_start c) i); val (cw (c_ctrl1 c) i); val (cw (c_ctrl2 c) i); val (cw (c_end c) i)] (val t))
      <= 16 * uro * M + 4 * eta.
  Proof.
    intros Hi Ht Hr B1 B2 B3 B4. unfold cubic_eval_casteljau. rewrite !cw_mix by exact Hi. rewrite cubic_poly.
    apply bounded_near in B1, B2, B3, B4.
    pose proof (near_mix M HM H4 t _ _ _ _ 0 0 Ht Hr B1 B2 ltac:(lra) ltac:(lra)) as N1.
    pose proof (near_mix M HM H4 t _ _ _ _ 0 0 Ht Hr B2 B3 ltac:(lra) ltac:(lra)) as N2.
    pose proof (near_mix M HM H4 t _ _ _ _ 0 0 Ht Hr B3 B4 ltac:(lra) ltac:(lra)) as N3.
    pose proof (near_mix M HM H4 t _ _ _ _ _ _ Ht Hr N1 N2 ltac:(lra) ltac:(lra)) as N4.
    pose proof (near_mix M HM H4 t _ _ _ _ _ _ Ht Hr N2 N3 ltac:(lra) ltac:(lra)) as N5.
    pose proof (near_mix M HM H4 t _ _ _ _ _ _ Ht Hr N4 N5 ltac:(lra) ltac:(lra)) as N6.
    destruct N6 as (A & B & _). split; [exact A|].
    pose proof (uM_ge0 M HM). pose proof eta_pos.
    match type of B with Rabs (?v - ?r) <= _ =>
      match goal with |- Rabs (_ - ?s) <= _ => replace s with r by ring end end.
    lra.
  Qed.

  Lemma wsum_bound (ra rb wa wb : R) : Rabs ra <= M -> Rabs rb <= M -> 0 <= wa -> 0 <= wb ->
    Rabs (ra * wa + rb * wb) <= (wa + wb) * M.
  Proof. intros Ha Hb Hwa Hwb. apply Rabs_le_inv in Ha, Hb. apply Rabs_le. nra. Qed.

  Lemma wbound (r w k : R) : Rabs r <= M -> 0 <= w <= k -> Rabs (r * w) <= k * M.
  Proof.
    intros Hr Hw. rewrite Rabs_mult, (Rabs_pos_eq w) by lra. rewrite Rmult_comm.
    apply Rmult_le_compat; try lra. apply Rabs_pos.
  Qed.

  Theorem quad_eval_err (q : quad P) t i : (i < p_dim (P := P))%nat -> fin t -> 0 <= val t <= 1 ->
    bounded_at (q_start q) i -> bounded_at (q_ctrl q) i -> bounded_at (q_end q) i ->
    fin (cw (quad_eval q t) i) /\
    Rabs (val (cw (quad_eval q t) i)
          - bezier_poly [val (cw (q_start q) i); val (cw (q_ctrl q) i); val (cw (q_end q) i)] (val t))
      <= 17 * uro * M + 5 * eta.
  Proof.
    intros Hi Ht Hr B1 B2 B3. unfold quad_eval. rewrite !cw_add, !cw_mul by exact Hi. rewrite quad_poly.
    assert (M1 : Rabs (val (cw (q_start q) i)) <= M) by apply B1.
    assert (M2 : Rabs (val (cw (q_ctrl q) i)) <= M) by apply B2.
    assert (M3 : Rabs (val (cw (q_end q) i)) <= M) by apply B3.
    apply bounded_near in B1, B2, B3.
    pose proof (wnear_init t Ht Hr) as Wt. pose proof (wnear_one_minus t Ht Hr) as W1.
    set (o := s_add (s_neg t) (s_lit 1)) in *. set (T := val t) in *.
    assert (W11 : wnear (s_mul o o) ((1 - T) * (1 - T)) (3 + / 64)) by (apply (wnear_mul o o _ _ 1 1 _ W1 W1); lra).
    assert (Wtt : wnear (s_mul t t) (T * T) (1 + / 64)) by (apply (wnear_mul t t _ _ 0 0 _ Wt Wt); lra).
    assert (H11 : 0 <= (1 - T) * (1 - T) <= 1) by nra.
    assert (Htt : 0 <= T * T <= 1) by nra.
    assert (H1t : 0 <= 2 * ((1 - T) * T) <= 1) by nra.
    assert (N1 : near M (s_mul (cw (q_start q) i) (s_mul o o)) (val (cw (q_start q) i) * ((1 - T) * (1 - T))) 1 (4 + / 16) (1 + / 64)).
    { apply (near_mul M HM H4 _ _ _ _ _ _ _ _ _ _ _ B1 W11); try lra. apply wbound; lra. }
    assert (N2a : near M (s_mul (cw (q_ctrl q) i) (s_lit 2)) (val (cw (q_ctrl q) i) * 2) 2 2 0).
    { apply (near_double M HM H4 _ _ _ _ _ _ _ _ B2); lra. }
    assert (N2b : near M (s_mul (s_mul (cw (q_ctrl q) i) (s_lit 2)) o) (val (cw (q_ctrl q) i) * 2 * (1 - T)) 2 (6 + / 16) (1 + / 64)).
    { apply (near_mul M HM H4 _ _ _ _ _ _ _ _ _ _ _ N2a W1); try lra.
      rewrite Rmult_assoc. apply wbound; lra. }
    assert (N2 : near M (s_mul (s_mul (s_mul (cw (q_ctrl q) i) (s_lit 2)) o) t) (val (cw (q_ctrl q) i) * 2 * (1 - T) * T) 1 (8 + / 8) (2 + / 32)).
    { apply (near_mul M HM H4 _ _ _ _ _ _ _ _ _ _ _ N2b Wt); try lra.
      rewrite !Rmult_assoc. apply wbound; lra. }
    assert (N3 : near M (s_mul (cw (q_end q) i) (s_mul t t)) (val (cw (q_end q) i) * (T * T)) 1 (2 + / 16) (1 + / 64)).
    { apply (near_mul M HM H4 _ _ _ _ _ _ _ _ _ _ _ B3 Wtt); try lra. apply wbound; lra. }
    assert (N12 : near M (s_add (s_mul (cw (q_start q) i) (s_mul o o))
                     (s_mul (s_mul (s_mul (cw (q_ctrl q) i) (s_lit 2)) o) t))
                  (val (cw (q_start q) i) * ((1 - T) * (1 - T)) + val (cw (q_ctrl q) i) * 2 * (1 - T) * T)
                  1 (13 + / 4) (3 + / 16)).
    { apply (near_add M HM H4 _ _ _ _ _ _ _ _ _ _ _ _ _ N1 N2); try lra.
      replace (val (cw (q_ctrl q) i) * 2 * (1 - T) * T) with (val (cw (q_ctrl q) i) * (2 * ((1 - T) * T))) by ring.
      eapply Rle_trans; [apply wsum_bound; lra|]. apply Rmult_le_compat_r; [exact HM|]. nra. }
    match goal with |- fin ?e /\ _ => assert (N : near M e (val (cw (q_start q) i) * ((1 - T) * (1 - T)) + val (cw (q_ctrl q) i) * 2 * (1 - T) * T + val (cw (q_end q) i) * (T * T)) 1 (16 + / 2) (4 + / 4)) end.
    { apply (near_add M HM H4 _ _ _ _ _ _ _ _ _ _ _ _ _ N12 N3); try lra.
      apply Rabs_le_inv in M1, M2, M3. apply Rabs_le.
      replace (1 * M) with ((1 - T) * (1 - T) * M + 2 * ((1 - T) * T) * M + T * T * M) by ring.
      nra. }
    destruct N as (A & B & _). split; [exact A|].
    pose proof (uM_ge0 M HM). pose proof eta_pos. lra.
  Qed.

  Theorem cubic_eval_err (c : cubic P) t i : (i < p_dim (P := P))%nat -> fin t -> 0 <= val t <= 1 ->
    bounded_at (c_start c) i -> bounded_at (c_ctrl1 c) i -> bounded_at (c_ctrl2 c) i -> bounded_at (c_end c) i ->
    fin (cw (cubic_eval c t) i) /\
    Rabs (val (cw (cubic_eval c t) i)
          - bezier_poly [val (cw (c_start c) i); val (cw (c_ctrl1 c) i); val (cw (c_ctrl2 c) i); val (cw (c_end c) i)] (val t))
      <= 39 * uro * M + 5 * eta.
  Proof.
    intros Hi Ht Hr B1 B2 B3 B4. unfold cubic_eval. rewrite !cw_add, !cw_mul by exact Hi. rewrite cubic_poly.
    assert (M1 : Rabs (val (cw (c_start c) i)) <= M) by apply B1.
    assert (M2 : Rabs (val (cw (c_ctrl1 c) i)) <= M) by apply B2.
    assert (M3 : Rabs (val (cw (c_ctrl2 c) i)) <= M) by apply B3.
    assert (M4 : Rabs (val (cw (c_end c) i)) <= M) by apply B4.
    apply bounded_near in B1, B2, B3, B4.
    pose proof (wnear_init t Ht Hr) as Wt. pose proof (wnear_one_minus t Ht Hr) as W1.
    set (o := s_add (s_neg t) (s_lit 1)) in *. set (T := val t) in *. clearbody T.
    set (a := val (cw (c_start c) i)) in *. set (b := val (cw (c_ctrl1 c) i)) in *.
    set (k := val (cw (c_ctrl2 c) i)) in *. set (d := val (cw (c_end c) i)) in *.
    assert (W11 : wnear (s_mul o o) ((1 - T) * (1 - T)) (3 + / 64)) by (apply (wnear_mul o o _ _ 1 1 _ W1 W1); lra).
    assert (W111 : wnear (s_mul (s_mul o o) o) ((1 - T) * (1 - T) * (1 - T)) (5 + / 20)) by (apply (wnear_mul _ o _ _ _ 1 _ W11 W1); lra).
    assert (Wt1 : wnear (s_mul t o) (T * (1 - T)) (2 + / 128)) by (apply (wnear_mul t o _ _ 0 1 _ Wt W1); lra).
    assert (Wt11 : wnear (s_mul (s_mul t o) o) (T * (1 - T) * (1 - T)) (4 + / 64)) by (apply (wnear_mul _ o _ _ _ 1 _ Wt1 W1); lra).
    assert (Q0 : 0 <= T * (1 - T) <= / 4) by (pose proof (pow2_ge_0 (T - / 2)); nra).
    assert (Q1 : 0 <= T * (1 - T) * (1 - T) * 3 <= 1) by nra.
    assert (Q2 : 0 <= T * T * (1 - T) * 3 <= 1) by (replace (T * T * (1 - T) * 3) with (T * (T * (1 - T)) * 3) by ring; nra).
    assert (Q3 : 0 <= (1 - T) * (1 - T) * (1 - T) <= 1) by (assert (0 <= (1 - T) * (1 - T) <= 1) by nra; nra).
    assert (Q4 : 0 <= T * T * T <= 1) by (assert (0 <= T * T <= 1) by nra; nra).
    assert (W2 : wnear (s_mul (s_mul (s_mul t o) o) (s_lit 3)) (T * (1 - T) * (1 - T) * 3) (13 + / 8)).
    { apply (wnear_triple _ _ _ _ Wt11); lra. }
    assert (Wtt : wnear (s_mul t t) (T * T) (1 + / 128)) by (apply (wnear_mul t t _ _ 0 0 _ Wt Wt); lra).
    assert (Wtt1 : wnear (s_mul (s_mul t t) o) (T * T * (1 - T)) (3 + / 64)) by (apply (wnear_mul _ o _ _ _ 1 _ Wtt W1); lra).
    assert (W3 : wnear (s_mul (s_mul (s_mul t t) o) (s_lit 3)) (T * T * (1 - T) * 3) (10 + / 8)).
    { apply (wnear_triple _ _ _ _ Wtt1); lra. }
    assert (W4 : wnear (s_mul (s_mul t t) t) (T * T * T) (2 + / 64)) by (apply (wnear_mul _ t _ _ _ 0 _ Wtt Wt); lra).
    assert (N1 : near M (s_mul (cw (c_start c) i) (s_mul (s_mul o o) o)) (a * ((1 - T) * (1 - T) * (1 - T))) 1 (6 + / 8) (1 + / 64)).
    { apply (near_mul M HM H4 _ _ _ _ _ _ _ _ _ _ _ B1 W111); try lra. apply wbound; lra. }
    assert (N2 : near M (s_mul (cw (c_ctrl1 c) i) (s_mul (s_mul (s_mul t o) o) (s_lit 3))) (b * (T * (1 - T) * (1 - T) * 3)) 1 (14 + / 4) (1 + / 64)).
    { apply (near_mul M HM H4 _ _ _ _ _ _ _ _ _ _ _ B2 W2); try lra. apply wbound; lra. }
    assert (N3 : near M (s_mul (cw (c_ctrl2 c) i) (s_mul (s_mul (s_mul t t) o) (s_lit 3))) (k * (T * T * (1 - T) * 3)) 1 (11 + / 4) (1 + / 64)).
    { apply (near_mul M HM H4 _ _ _ _ _ _ _ _ _ _ _ B3 W3); try lra. apply wbound; lra. }
    assert (N4 : near M (s_mul (cw (c_end c) i) (s_mul (s_mul t t) t)) (d * (T * T * T)) 1 (3 + / 16) (1 + / 64)).
    { apply (near_mul M HM H4 _ _ _ _ _ _ _ _ _ _ _ B4 W4); try lra. apply wbound; lra. }
    assert (S1 : Rabs (a * ((1 - T) * (1 - T) * (1 - T)) + b * (T * (1 - T) * (1 - T) * 3))
                 <= ((1 - T) * (1 - T) * (1 - T) + T * (1 - T) * (1 - T) * 3) * M)
      by (apply wsum_bound; lra).
    assert (S2 : Rabs (a * ((1 - T) * (1 - T) * (1 - T)) + b * (T * (1 - T) * (1 - T) * 3) + k * (T * T * (1 - T) * 3))
                 <= ((1 - T) * (1 - T) * (1 - T) + T * (1 - T) * (1 - T) * 3 + T * T * (1 - T) * 3) * M).
    { eapply Rle_trans; [apply Rabs_triang|]. rewrite (Rmult_plus_distr_r _ (T * T * (1 - T) * 3)).
      apply Rplus_le_compat; [exact S1|]. apply wbound; lra. }
    assert (S3 : Rabs (a * ((1 - T) * (1 - T) * (1 - T)) + b * (T * (1 - T) * (1 - T) * 3) + k * (T * T * (1 - T) * 3) + d * (T * T * T))
                 <= ((1 - T) * (1 - T) * (1 - T) + T * (1 - T) * (1 - T) * 3 + T * T * (1 - T) * 3 + T * T * T) * M).
    { eapply Rle_trans; [apply Rabs_triang|]. rewrite (Rmult_plus_distr_r _ (T * T * T)).
      apply Rplus_le_compat; [exact S2|]. apply wbound; lra. }
    assert (U : (1 - T) * (1 - T) * (1 - T) + T * (1 - T) * (1 - T) * 3 + T * T * (1 - T) * 3 + T * T * T = 1) by ring.
    assert (N12 := near_add M HM H4 _ _ _ _ _ _ _ _ _ _ 1 (21 + / 2) (2 + / 16) N1 N2).
    assert (C1 : near M (s_add (s_mul (cw (c_start c) i) (s_mul (s_mul o o) o)) (s_mul (cw (c_ctrl1 c) i) (s_mul (s_mul (s_mul t o) o) (s_lit 3))))
              (a * ((1 - T) * (1 - T) * (1 - T)) + b * (T * (1 - T) * (1 - T) * 3)) 1 (21 + / 2) (2 + / 16)).
    { apply N12; try lra. eapply Rle_trans; [exact S1|]. apply Rmult_le_compat_r; lra. }
    clear N12.
    assert (C2 := near_add M HM H4 _ _ _ _ _ _ _ _ _ _ 1 34 (3 + / 8) C1 N3).
    assert (C2' := C2 ltac:(eapply Rle_trans; [exact S2|]; apply Rmult_le_compat_r; lra) ltac:(lra) ltac:(lra) ltac:(lra)).
    clear C2.
    assert (C3 := near_add M HM H4 _ _ _ _ _ _ _ _ _ _ 1 39 5 C2' N4).
    assert (C3' := C3 ltac:(eapply Rle_trans; [exact S3|]; apply Rmult_le_compat_r; lra) ltac:(lra) ltac:(lra) ltac:(lra)).
    destruct C3' as (A & B & _). split; [exact A|].
    pose proof (uM_ge0 M HM). pose proof eta_pos. lra.
  Qed.
End Curves.
