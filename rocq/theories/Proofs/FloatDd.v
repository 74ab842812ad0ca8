(** C143: [dd] of quadratics and cubics in IEEE-754 arithmetic. *)
From Coq Require Import Reals List Arith ZArith Lia Lra Psatz.
From Flocq Require Import Core.Core IEEE754.BinarySingleNaN.
From Verif Require Import Base.Outcome Base.Scalar Model.Point Model.Line Model.Quadratic Model.Cubic Model.Repairs Inst.FloatInst
  Spec.Sums Spec.Bernstein Spec.Rounding Spec.Componentwise Spec.FloatPoints Spec.FloatCurves
  Proofs.FloatFacts Proofs.FloatBound Proofs.FloatPoint Proofs.FloatNear Proofs.FloatSplit Proofs.BBoxFacts.
Import ListNotations.
Local Open Scope R_scope.

Section Track.
  Context {F : Format}.

  (** a coefficient: the value v, of magnitude at most C, up to k roundings *)
  Definition co (x : float) (v C k : R) : Prop := fin x /\ Rabs v <= C /\ Rabs (val x - v) <= k * uro.

  Lemma co_same x C : fin x -> Rabs (val x) <= C -> co x (val x) C 0.
  Proof. intros H B. split; [exact H|]. split; [exact B|]. rewrite Rminus_diag_eq, Rabs_R0 by reflexivity. lra. Qed.
  Lemma co_lit z C : (Z.abs z <= 2048)%Z -> Rabs (IZR z) <= C -> co (s_lit z) (IZR z) C 0.
  Proof. intros Hz B. destruct (lit_small z Hz) as [H V]. rewrite <- V. apply co_same; [exact H|now rewrite V]. Qed.

  Lemma co_plus x y v w C D B k l m : co x v C k -> co y w D l -> Rabs (v + w) <= B -> 0 <= k -> 0 <= l -> k + l <= 500 -> B <= 1000 ->
    k + l + B + 1 <= m -> co (s_add x y) (v + w) B m.
  Proof.
    intros (Fx & _ & Ex) (Fy & _ & Ey) HB K0 L0 KL B1 Hm. pose proof (@uro_pos F) as U0. pose proof (@uro_small F) as U1. pose proof (@fmax_ge F) as M0.
    assert (Es : Rabs ((val x + val y) - (v + w)) <= (k + l) * uro).
    { replace (val x + val y - (v + w)) with ((val x - v) + (val y - w)) by ring. eapply Rle_trans; [apply Rabs_triang|lra]. }
    assert (Sm : (k + l) * uro <= / 4) by nra.
    assert (Bs : Rabs (val x + val y) <= B + / 4).
    { replace (val x + val y) with ((v + w) + ((val x + val y) - (v + w))) by ring. eapply Rle_trans; [apply Rabs_triang|lra]. }
    destruct (add_ok x y Fx Fy) as [Fs Vs]; [lra|]. split; [exact Fs|]. split; [exact HB|]. rewrite Vs.
    pose proof (rnd_sum_err (val x) (val y) (val_float x) (val_float y)) as R0.
    replace (rnd (val x + val y) - (v + w)) with ((rnd (val x + val y) - (val x + val y)) + ((val x + val y) - (v + w))) by ring.
    eapply Rle_trans; [apply Rabs_triang|].
    assert (uro * Rabs (val x + val y) <= uro * (B + / 4)) by (apply Rmult_le_compat_l; lra).
    assert ((k + l + B + 1) * uro <= m * uro) by (apply Rmult_le_compat_r; lra). lra.
  Qed.
  Lemma co_minus x y v w C D B k l m : co x v C k -> co y w D l -> Rabs (v - w) <= B -> 0 <= k -> 0 <= l -> k + l <= 500 -> B <= 1000 ->
    k + l + B + 1 <= m -> co (s_sub x y) (v - w) B m.
  Proof.
    intros (Fx & _ & Ex) (Fy & _ & Ey) HB K0 L0 KL B1 Hm. pose proof (@uro_pos F) as U0. pose proof (@uro_small F) as U1. pose proof (@fmax_ge F) as M0.
    assert (Es : Rabs ((val x - val y) - (v - w)) <= (k + l) * uro).
    { replace (val x - val y - (v - w)) with ((val x - v) + - (val y - w)) by ring. eapply Rle_trans; [apply Rabs_triang|].
      rewrite Rabs_Ropp. lra. }
    assert (Sm : (k + l) * uro <= / 4) by nra.
    assert (Bs : Rabs (val x - val y) <= B + / 4).
    { replace (val x - val y) with ((v - w) + ((val x - val y) - (v - w))) by ring. eapply Rle_trans; [apply Rabs_triang|lra]. }
    destruct (sub_ok x y Fx Fy) as [Fs Vs]; [lra|]. split; [exact Fs|]. split; [exact HB|]. rewrite Vs.
    pose proof (rnd_sum_err (val x) (- val y) (val_float x) (float_opp _ (val_float y))) as R0. change (val x + - val y) with (val x - val y) in R0.
    replace (rnd (val x - val y) - (v - w)) with ((rnd (val x - val y) - (val x - val y)) + ((val x - val y) - (v - w))) by ring.
    eapply Rle_trans; [apply Rabs_triang|].
    assert (uro * Rabs (val x - val y) <= uro * (B + / 4)) by (apply Rmult_le_compat_l; lra).
    assert ((k + l + B + 1) * uro <= m * uro) by (apply Rmult_le_compat_r; lra). lra.
  Qed.
  Lemma prod_near a b v w C D k l u : Rabs v <= C -> Rabs w <= D -> Rabs (a - v) <= k * u -> Rabs (b - w) <= l * u ->
    Rabs (a * b - v * w) <= (C * l + D * k) * u + (k * u) * (l * u).
  Proof.
    intros V W A B. replace (a * b - v * w) with ((a - v) * (b - w) + (v * (b - w) + w * (a - v))) by ring.
    eapply Rle_trans; [apply Rabs_triang|]. rewrite Rabs_mult.
    assert (H1 : Rabs (a - v) * Rabs (b - w) <= (k * u) * (l * u)) by (apply Rmult_le_compat; try apply Rabs_pos; assumption).
    assert (H2 : Rabs (v * (b - w) + w * (a - v)) <= C * (l * u) + D * (k * u)).
    { eapply Rle_trans; [apply Rabs_triang|]. rewrite !Rabs_mult. apply Rplus_le_compat; apply Rmult_le_compat; try apply Rabs_pos; assumption. }
    lra.
  Qed.
  Lemma co_mult x y v w C D B k l m : co x v C k -> co y w D l -> Rabs (v * w) <= B -> 0 <= k -> 0 <= l ->
    C * l + D * k <= 500 -> k * l <= 500 -> B <= 1000 -> C * l + D * k + B + 2 <= m -> co (s_mul x y) (v * w) B m.
  Proof.
    intros (Fx & HC & Ex) (Fy & HD & Ey) HB K0 L0 CL KL B1 Hm. pose proof (@uro_pos F) as U0. pose proof (@uro_small F) as U1.
    pose proof (@fmax_ge F) as M0. pose proof (@eta_uro F) as EU. pose proof (@eta_pos F) as E0.
    pose proof (prod_near _ _ _ _ _ _ _ _ _ HC HD Ex Ey) as Es.
    assert (Q : (k * uro) * (l * uro) <= / 4 * uro) by (replace ((k * uro) * (l * uro)) with (k * l * uro * uro) by ring; apply Rmult_le_compat_r; nra).
    assert (N0 : 0 <= C * l + D * k).
    { apply Rplus_le_le_0_compat; apply Rmult_le_pos; try assumption; eapply Rle_trans; try apply Rabs_pos; eassumption. }
    assert (Sm : (C * l + D * k) * uro <= / 4) by nra.
    assert (Bs : Rabs (val x * val y) <= B + / 2).
    { replace (val x * val y) with ((v * w) + ((val x * val y) - (v * w))) by ring. eapply Rle_trans; [apply Rabs_triang|lra]. }
    destruct (mul_ok x y Fx Fy) as [Fs Vs]; [lra|]. split; [exact Fs|]. split; [exact HB|]. rewrite Vs.
    pose proof (rnd_err (val x * val y)) as R0.
    replace (rnd (val x * val y) - v * w) with ((rnd (val x * val y) - (val x * val y)) + ((val x * val y) - v * w)) by ring.
    eapply Rle_trans; [apply Rabs_triang|].
    assert (uro * Rabs (val x * val y) <= uro * (B + / 2)) by (apply Rmult_le_compat_l; lra).
    assert ((C * l + D * k + B + 2) * uro <= m * uro) by (apply Rmult_le_compat_r; lra). lra.
  Qed.

  (** a term: at most B M in magnitude, up to k (uro M + eta) *)
  Variable M : R.
  Hypothesis HM : 0 <= M.
  Hypothesis HF : 16 * M <= fmax.
  Definition tm (x : float) (v B k : R) : Prop := fin x /\ Rabs v <= B * M /\ Rabs (val x - v) <= k * (uro * M + eta).

  Lemma small k B : 0 <= k <= 500 -> B <= 12 -> B * M + k * (uro * M + eta) <= fmax.
  Proof.
    intros Hk HB. pose proof (@uro_pos F) as U0. pose proof (@uro_small F) as U1.
    pose proof (@fmax_ge F) as M0. pose proof (@eta_uro F) as EU. pose proof (@eta_pos F) as E0.
    assert (B * M <= 12 * M) by (apply Rmult_le_compat_r; lra).
    assert (k * uro <= / 4) by nra. assert (k * uro * M <= / 4 * M) by (apply Rmult_le_compat_r; lra).
    assert (k * eta <= 500 * eta) by (apply Rmult_le_compat_r; lra). lra.
  Qed.

  Lemma tm_mult x c v w C k B m : fin x -> Rabs v <= M -> val x = v -> co c w C k -> C <= B -> 0 <= k <= 490 -> B <= 12 ->
    k + B + 2 <= m -> tm (s_mul x c) (v * w) B m.
  Proof.
    intros Fx Hv Vx (Fc & HC & Ec) CB Hk B1 Hm. pose proof (@uro_pos F) as U0. pose proof (@uro_small F) as U1. pose proof (@eta_pos F) as E0.
    assert (C0 : 0 <= C) by (eapply Rle_trans; [apply Rabs_pos|exact HC]).
    assert (HB : Rabs (v * w) <= B * M).
    { rewrite Rabs_mult, (Rmult_comm B). apply Rmult_le_compat; try apply Rabs_pos; lra. }
    assert (Es : Rabs (val x * val c - v * w) <= k * uro * M).
    { rewrite Vx, <- Rmult_minus_distr_l, Rabs_mult, (Rmult_comm (k * uro)). apply Rmult_le_compat; try apply Rabs_pos; assumption. }
    assert (Bs : Rabs (val x * val c) <= B * M + k * uro * M).
    { replace (val x * val c) with ((v * w) + ((val x * val c) - (v * w))) by ring. eapply Rle_trans; [apply Rabs_triang|lra]. }
    pose proof (small k B ltac:(lra) B1) as S0. assert (KE : 0 <= k * eta) by (apply Rmult_le_pos; lra).
    destruct (mul_ok x c Fx Fc) as [Fs Vs]; [lra|]. split; [exact Fs|]. split; [exact HB|]. rewrite Vs.
    pose proof (rnd_err (val x * val c)) as R0.
    replace (rnd (val x * val c) - v * w) with ((rnd (val x * val c) - (val x * val c)) + ((val x * val c) - v * w)) by ring.
    eapply Rle_trans; [apply Rabs_triang|].
    assert (KU : k * uro * M <= M) by (rewrite <- (Rmult_1_l M) at 2; apply Rmult_le_compat_r; [lra|nra]).
    assert (uro * Rabs (val x * val c) <= uro * (B * M + M)) by (apply Rmult_le_compat_l; lra).
    assert (UM : 0 <= uro * M) by (apply Rmult_le_pos; lra).
    assert (A1 : (k + B + 2) * (uro * M + eta) <= m * (uro * M + eta)) by (apply Rmult_le_compat_r; lra).
    assert (A2 : 0 <= (k + B + 1) * eta) by (apply Rmult_le_pos; lra). lra.
  Qed.
  Lemma tm_plus x y v w B1 B2 B k l m : tm x v B1 k -> tm y w B2 l -> B1 + B2 <= B -> 0 <= k -> 0 <= l -> k + l <= 480 -> 0 <= B <= 12 ->
    k + l + B + 1 <= m -> tm (s_add x y) (v + w) B m.
  Proof.
    intros (Fx & Hv & Ex) (Fy & Hw & Ey) BB K0 L0 KL B12 Hm. pose proof (@uro_pos F) as U0. pose proof (@uro_small F) as U1. pose proof (@eta_pos F) as E0.
    assert (UM : 0 <= uro * M) by (apply Rmult_le_pos; lra). set (g := uro * M + eta) in *.
    assert (HB : Rabs (v + w) <= B * M).
    { eapply Rle_trans; [apply Rabs_triang|]. assert ((B1 + B2) * M <= B * M) by (apply Rmult_le_compat_r; lra). lra. }
    assert (Es : Rabs ((val x + val y) - (v + w)) <= (k + l) * g).
    { replace (val x + val y - (v + w)) with ((val x - v) + (val y - w)) by ring. eapply Rle_trans; [apply Rabs_triang|lra]. }
    assert (Bs : Rabs (val x + val y) <= B * M + (k + l) * g).
    { replace (val x + val y) with ((v + w) + ((val x + val y) - (v + w))) by ring. eapply Rle_trans; [apply Rabs_triang|lra]. }
    pose proof (small (k + l) B ltac:(lra) (proj2 B12)) as S0. fold g in S0.
    destruct (add_ok x y Fx Fy) as [Fs Vs]; [lra|]. split; [exact Fs|]. split; [exact HB|]. rewrite Vs.
    pose proof (rnd_sum_err (val x) (val y) (val_float x) (val_float y)) as R0.
    replace (rnd (val x + val y) - (v + w)) with ((rnd (val x + val y) - (val x + val y)) + ((val x + val y) - (v + w))) by ring.
    eapply Rle_trans; [apply Rabs_triang|].
    assert (A0 : uro * Rabs (val x + val y) <= uro * (B * M + (k + l) * g)) by (apply Rmult_le_compat_l; lra).
    assert (A1 : uro * ((k + l) * g) <= 1 * g).
    { rewrite <- Rmult_assoc. apply Rmult_le_compat_r; [unfold g; lra|]. nra. }
    assert (A2 : (k + l + B + 1) * g <= m * g) by (apply Rmult_le_compat_r; unfold g; lra).
    assert (B0 : 0 <= B * eta) by (apply Rmult_le_pos; lra).
    assert (A3 : uro * (B * M) <= B * g) by (unfold g; lra). fold g. lra.
  Qed.
End Track.

Lemma lim_ext f g x l : (forall y, f y = g y) -> derivable_pt_lim f x l -> derivable_pt_lim g x l.
Proof. intros E H e He. destruct (H e He) as [d Hd]. exists d. intros h. rewrite <- !E. apply Hd. Qed.

Section Curves.
  Context {F : Format} {P : Type} {PT : Point float P} {CP : CwPoint float P}.
  Variable M : R.
  Hypothesis HM : 0 <= M.
  Hypothesis HF : 16 * M <= fmax.

  Ltac bnd := apply Rabs_le; split; first [lra|nra].
  Ltac lit := apply co_lit; [lia|apply Rabs_le; lra].

  Lemma quad_lim a b c x : derivable_pt_lim (bezier_poly [a; b; c]) x (a * (x * 2 - 2) + b * (2 - 4 * x) + c * (2 * x)).
  Proof.
    apply (lim_ext (poly a (2 * (b - a)) (a - 2 * b + c) 0)); [intro y; rewrite quad_poly; unfold poly; ring|].
    replace (a * (x * 2 - 2) + b * (2 - 4 * x) + c * (2 * x)) with (dpoly (2 * (b - a)) (a - 2 * b + c) 0 x) by (unfold dpoly; ring).
    apply poly_derivable.
  Qed.
  Lemma cubic_lim a b c d x : derivable_pt_lim (bezier_poly [a; b; c; d]) x
    (a * (x * x * -3 + x * 6 - 3) + b * (x * x * 9 - x * 12 + 3) + c * (x * x * -9 + x * 6) + d * (x * x * 3)).
  Proof.
    apply (lim_ext (poly a (3 * (b - a)) (3 * (a - 2 * b + c)) (d - 3 * c + 3 * b - a))); [intro y; rewrite cubic_poly; unfold poly; ring|].
    replace (a * (x * x * -3 + x * 6 - 3) + b * (x * x * 9 - x * 12 + 3) + c * (x * x * -9 + x * 6) + d * (x * x * 3))
      with (dpoly (3 * (b - a)) (3 * (a - 2 * b + c)) (d - 3 * c + 3 * b - a) x) by (unfold dpoly; ring).
    apply poly_derivable.
  Qed.

  Lemma axis_ok (p : P) i : (i < p_dim (P := P))%nat -> p_axis p i = Ret (cw p i).
  Proof. intros Hi. rewrite cw_axis. apply Nat.ltb_lt in Hi. now rewrite Hi. Qed.

  Theorem quad_dd_err (q : quad P) t i : (i < p_dim (P := P))%nat -> fin t -> 0 <= val t <= 1 ->
    (forall p, In p (quad_control_points q) -> bounded M p) ->
    exists x dv, quad_dd q t i = Ret x /\ fin x /\
      derivable_pt_lim (fun s => exact_at (quad_control_points q) s i) (val t) dv /\
      Rabs (val x - dv) <= 44 * (uro * M + eta).
  Proof.
    intros Hi Ft Ht B. unfold quad_dd. rewrite !axis_ok by exact Hi. cbn [bind].
    destruct (B (q_start q) ltac:(cbn; auto) i Hi) as [F0 B0]. destruct (B (q_ctrl q) ltac:(cbn; auto) i Hi) as [F1 B1].
    destruct (B (q_end q) ltac:(cbn; auto) i Hi) as [F2 B2].
    unfold exact_at, quad_control_points. cbn [map].
    pose proof (co_same t 1 Ft ltac:(apply Rabs_le; lra)) as CT. set (x := val t) in *.
    assert (C0 : co (s_sub (s_mul t (s_lit 2)) (s_lit 2)) (x * 2 - 2) 2 7).
    { apply (co_minus _ _ _ _ 2 2 2 4 0); try lra; try bnd; [|lit].
      apply (co_mult _ _ _ _ 1 2 2 0 0); try lra; try bnd; [exact CT|lit]. }
    assert (C1 : co (s_sub (s_lit 2) (s_mul (s_lit 4) t)) (2 - 4 * x) 2 9).
    { apply (co_minus _ _ _ _ 2 4 2 0 6); try lra; try bnd; [lit|].
      apply (co_mult _ _ _ _ 4 1 4 0 0); try lra; try bnd; [lit|exact CT]. }
    assert (C2 : co (s_mul (s_lit 2) t) (2 * x) 2 4).
    { apply (co_mult _ _ _ _ 2 1 2 0 0); try lra; try bnd; [lit|exact CT]. }
    set (a := val (cw (q_start q) i)) in *. set (b := val (cw (q_ctrl q) i)) in *. set (e := val (cw (q_end q) i)) in *.
    pose proof (tm_mult M HM HF _ _ a _ 2 7 2 11 F0 B0 eq_refl C0 ltac:(lra) ltac:(lra) ltac:(lra) ltac:(lra)) as T0.
    pose proof (tm_mult M HM HF _ _ b _ 2 9 2 13 F1 B1 eq_refl C1 ltac:(lra) ltac:(lra) ltac:(lra) ltac:(lra)) as T1.
    pose proof (tm_mult M HM HF _ _ e _ 2 4 2 8 F2 B2 eq_refl C2 ltac:(lra) ltac:(lra) ltac:(lra) ltac:(lra)) as T2.
    pose proof (tm_plus M HM HF _ _ _ _ 2 2 4 11 13 29 T0 T1 ltac:(lra) ltac:(lra) ltac:(lra) ltac:(lra) ltac:(lra) ltac:(lra)) as S1.
    pose proof (tm_plus M HM HF _ _ _ _ 4 2 6 29 8 44 S1 T2 ltac:(lra) ltac:(lra) ltac:(lra) ltac:(lra) ltac:(lra) ltac:(lra)) as S2.
    destruct S2 as (FS & _ & ES).
    eexists _, _. split; [reflexivity|]. split; [exact FS|]. split; [apply quad_lim|exact ES].
  Qed.

  (** the four coefficients: only the first differs between the code and its repair *)
  Lemma cubic_sum_err (a b c d z t : float) v0 k0 : fin t -> 0 <= val t <= 1 ->
    fin a -> Rabs (val a) <= M -> fin b -> Rabs (val b) <= M -> fin c -> Rabs (val c) <= M -> fin d -> Rabs (val d) <= M ->
    co z v0 3 k0 -> 0 <= k0 <= 30 ->
    let t2 := s_mul t t in
    let y := s_add (s_add (s_add (s_mul a z)
               (s_mul b (s_add (s_sub (s_mul t2 (s_lit 9)) (s_mul t (s_lit 12))) (s_lit 3))))
               (s_mul c (s_add (s_mul t2 (s_lit (-9))) (s_mul t (s_lit 6)))))
               (s_mul d (s_mul t2 (s_lit 3))) in
    fin y /\ Rabs (val y - (val a * v0 + val b * (val t * val t * 9 - val t * 12 + 3)
                            + val c * (val t * val t * -9 + val t * 6) + val d * (val t * val t * 3))) <= (k0 + 175) * (uro * M + eta).
  Proof.
    intros Ft Ht F0 B0 F1 B1 F2 B2 F3 B3 C0 K0 t2.
    pose proof (co_same t 1 Ft ltac:(apply Rabs_le; lra)) as CT. set (x := val t) in *.
    assert (XX : 0 <= x * x <= x) by nra.
    assert (X1 : 0 <= (3 * x - 2) * (3 * x - 2)) by apply Rle_0_sqr. assert (X2 : 0 <= (3 * x - 1) * (3 * x - 1)) by apply Rle_0_sqr.
    assert (CT2 : co t2 (x * x) 1 3) by (apply (co_mult _ _ _ _ 1 1 1 0 0); try lra; try bnd; exact CT).
    assert (C1 : co (s_add (s_sub (s_mul t2 (s_lit 9)) (s_mul t (s_lit 12))) (s_lit 3)) (x * x * 9 - x * 12 + 3) 3 61).
    { apply (co_plus _ _ _ _ 4 3 3 57 0); try lra; try bnd; [|lit].
      apply (co_minus _ _ _ _ 9 12 4 38 14); try lra; try bnd.
      - apply (co_mult _ _ _ _ 1 9 9 3 0); try lra; try bnd; [exact CT2|lit].
      - apply (co_mult _ _ _ _ 1 12 12 0 0); try lra; try bnd; [exact CT|lit]. }
    assert (C2 : co (s_add (s_mul t2 (s_lit (-9))) (s_mul t (s_lit 6))) (x * x * -9 + x * 6) 3 50).
    { apply (co_plus _ _ _ _ 9 6 3 38 8); try lra; try bnd.
      - apply (co_mult _ _ _ _ 1 9 9 3 0); try lra; try bnd; [exact CT2|lit].
      - apply (co_mult _ _ _ _ 1 6 6 0 0); try lra; try bnd; [exact CT|lit]. }
    assert (C3 : co (s_mul t2 (s_lit 3)) (x * x * 3) 3 14) by (apply (co_mult _ _ _ _ 1 3 3 3 0); try lra; try bnd; [exact CT2|lit]).
    pose proof (tm_mult M HM HF _ _ (val a) _ 3 k0 3 (k0 + 5) F0 B0 eq_refl C0 ltac:(lra) ltac:(lra) ltac:(lra) ltac:(lra)) as T0.
    pose proof (tm_mult M HM HF _ _ (val b) _ 3 61 3 66 F1 B1 eq_refl C1 ltac:(lra) ltac:(lra) ltac:(lra) ltac:(lra)) as T1.
    pose proof (tm_mult M HM HF _ _ (val c) _ 3 50 3 55 F2 B2 eq_refl C2 ltac:(lra) ltac:(lra) ltac:(lra) ltac:(lra)) as T2.
    pose proof (tm_mult M HM HF _ _ (val d) _ 3 14 3 19 F3 B3 eq_refl C3 ltac:(lra) ltac:(lra) ltac:(lra) ltac:(lra)) as T3.
    pose proof (tm_plus M HM HF _ _ _ _ 3 3 6 (k0 + 5) 66 (k0 + 78) T0 T1 ltac:(lra) ltac:(lra) ltac:(lra) ltac:(lra) ltac:(lra) ltac:(lra)) as S1.
    pose proof (tm_plus M HM HF _ _ _ _ 6 3 9 (k0 + 78) 55 (k0 + 143) S1 T2 ltac:(lra) ltac:(lra) ltac:(lra) ltac:(lra) ltac:(lra) ltac:(lra)) as S2.
    pose proof (tm_plus M HM HF _ _ _ _ 9 3 12 (k0 + 143) 19 (k0 + 175) S2 T3 ltac:(lra) ltac:(lra) ltac:(lra) ltac:(lra) ltac:(lra) ltac:(lra)) as S3.
    destruct S3 as (FS & _ & ES). split; [exact FS|exact ES].
  Qed.

  Theorem cubic_dd_err (c : cubic P) t i : (i < p_dim (P := P))%nat -> fin t -> 0 <= val t <= 1 ->
    (forall p, In p (cubic_control_points c) -> bounded M p) ->
    exists x dv, cubic_dd c t i = Ret x /\ fin x /\
      derivable_pt_lim (fun s => exact_at (cubic_control_points c) s i) (val t) dv /\
      Rabs (val x - (dv - 3 * val t * (1 - val t) * val (cw (c_start c) i))) <= 196 * (uro * M + eta).
  Proof.
    intros Hi Ft Ht B. unfold cubic_dd. rewrite !axis_ok by exact Hi. cbn [bind].
    destruct (B (c_start c) ltac:(cbn; auto) i Hi) as [F0 B0]. destruct (B (c_ctrl1 c) ltac:(cbn; auto) i Hi) as [F1 B1].
    destruct (B (c_ctrl2 c) ltac:(cbn; auto) i Hi) as [F2 B2]. destruct (B (c_end c) ltac:(cbn; auto 6) i Hi) as [F3 B3].
    unfold exact_at, cubic_control_points. cbn [map].
    assert (C0 : co (s_sub (s_add (s_mul t (s_lit (-3))) (s_mul t (s_lit 6))) (s_lit 3)) (val t * -3 + val t * 6 - 3) 3 21).
    { pose proof (co_same t 1 Ft ltac:(apply Rabs_le; lra)) as CT.
      apply (co_minus _ _ _ _ 3 3 3 17 0); try lra; try bnd; [|lit].
      apply (co_plus _ _ _ _ 3 6 3 5 8); try lra; try bnd.
      - apply (co_mult _ _ _ _ 1 3 3 0 0); try lra; try bnd; [exact CT|lit].
      - apply (co_mult _ _ _ _ 1 6 6 0 0); try lra; try bnd; [exact CT|lit]. }
    destruct (cubic_sum_err _ _ _ _ _ t _ 21 Ft Ht F0 B0 F1 B1 F2 B2 F3 B3 C0 ltac:(lra)) as [FS ES].
    eexists _, _. split; [reflexivity|]. split; [exact FS|]. split; [apply cubic_lim|].
    eapply Rle_trans; [|eapply Rle_trans; [exact ES|lra]]. right. f_equal. ring.
  Qed.

  Theorem fixed_cubic_dd_err (c : cubic P) t i : (i < p_dim (P := P))%nat -> fin t -> 0 <= val t <= 1 ->
    (forall p, In p (cubic_control_points c) -> bounded M p) ->
    exists x dv, fixed_cubic_dd c t i = Ret x /\ fin x /\
      derivable_pt_lim (fun s => exact_at (cubic_control_points c) s i) (val t) dv /\
      Rabs (val x - dv) <= 205 * (uro * M + eta).
  Proof.
    intros Hi Ft Ht B. unfold fixed_cubic_dd. rewrite !axis_ok by exact Hi. cbn [bind].
    destruct (B (c_start c) ltac:(cbn; auto) i Hi) as [F0 B0]. destruct (B (c_ctrl1 c) ltac:(cbn; auto) i Hi) as [F1 B1].
    destruct (B (c_ctrl2 c) ltac:(cbn; auto) i Hi) as [F2 B2]. destruct (B (c_end c) ltac:(cbn; auto 6) i Hi) as [F3 B3].
    unfold exact_at, cubic_control_points. cbn [map].
    assert (C0 : co (s_sub (s_add (s_mul (s_mul t t) (s_lit (-3))) (s_mul t (s_lit 6))) (s_lit 3)) (val t * val t * -3 + val t * 6 - 3) 3 30).
    { pose proof (co_same t 1 Ft ltac:(apply Rabs_le; lra)) as CT.
      apply (co_minus _ _ _ _ 3 3 3 26 0); try lra; try bnd; [|lit].
      apply (co_plus _ _ _ _ 3 6 3 14 8); try lra; try bnd.
      - apply (co_mult _ _ _ _ 1 3 3 3 0); try lra; try bnd; [|lit]. apply (co_mult _ _ _ _ 1 1 1 0 0); try lra; try bnd; exact CT.
      - apply (co_mult _ _ _ _ 1 6 6 0 0); try lra; try bnd; [exact CT|lit]. }
    destruct (cubic_sum_err _ _ _ _ _ t _ 30 Ft Ht F0 B0 F1 B1 F2 B2 F3 B3 C0 ltac:(lra)) as [FS ES].
    eexists _, _. split; [reflexivity|]. split; [exact FS|]. split; [apply cubic_lim|].
    eapply Rle_trans; [exact ES|lra].
  Qed.
End Curves.
