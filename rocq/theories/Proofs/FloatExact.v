(** Proofs for C109: on coarse data the computations are exact. *)
From Coq Require Import Reals ZArith List Arith Lia Lra Bool.
From Flocq Require Import Core.Core IEEE754.BinarySingleNaN.
From Verif Require Import Base.Outcome Base.Scalar Model.Point Model.Line Model.Quadratic Model.Cubic Model.Bezier
  Inst.FloatInst Spec.Rounding Spec.Componentwise Spec.FloatPoints Spec.FloatCurves Spec.Bernstein Spec.Scaling Spec.Exact
  Proofs.OutcomeFacts Proofs.FloatFacts Proofs.FloatPoint Proofs.ExactEval Proofs.Poison
  Proofs.BezierGeneric Proofs.BezierReal Proofs.FloatSplit Proofs.FloatScale.
Import ListNotations.
Local Open Scope R_scope.

Section Ops.
  Context {F : Format}.
  Implicit Types x y t : float.

  Lemma room_float g B r : room g B -> multiple g r -> Rabs r <= B -> is_float r.
  Proof.
    intros (L & H & _) M Hr. destruct (Req_dec r 0) as [->|N]; [apply generic_format_0|].
    destruct (Rle_lt_or_eq_dec _ _ (Rle_trans _ _ _ Hr H)) as [S|S].
    - apply multiple_format with g; auto. assert (mag radix2 r <= g + fprec)%Z; [|lia]. now apply mag_le_bpow.
    - pose proof fprec_ge. assert (E : r = bpow radix2 (g + fprec) \/ r = - bpow radix2 (g + fprec)).
      { unfold Rabs in S. destruct (Rcase_abs r); lra. }
      assert (G : is_float (bpow radix2 (g + fprec))) by (apply generic_format_bpow; rewrite fx_eq; lia).
      destruct E as [-> | ->]; [exact G|]. unfold is_float. apply generic_format_opp. exact G.
  Qed.
  Lemma room_max B g : room g B -> B < bpow radix2 femax.
  Proof.
    intros (_ & _ & H). eapply Rle_lt_trans; [exact H|]. apply bpow_lt. lia.
  Qed.
  Lemma room_lower g h B C : room g C -> (g <= h)%Z -> B <= C -> room h B.
  Proof.
    intros (L & H & K) Hg HB. split; [lia|]. split; [|lra]. eapply Rle_trans; [exact HB|]. eapply Rle_trans; [exact H|]. apply bpow_le. lia.
  Qed.

  (** x is the float r, a multiple of 2^g of magnitude at most B *)
  Definition ex (g : Z) (B : R) x (r : R) : Prop := fin x /\ val x = r /\ multiple g r /\ Rabs r <= B.
  Lemma ex_weaken g h B C x r : ex h B x r -> (g <= h)%Z -> B <= C -> ex g C x r.
  Proof. intros (A & E & M & L) Hg HB. repeat split; auto; [now apply multiple_lower with h|lra]. Qed.
  Lemma ex_eq g B x r r' : ex g B x r -> r = r' -> ex g B x r'.
  Proof. now intros H <-. Qed.

  Lemma ex_add g B B1 B2 x y a b : room g B -> ex g B1 x a -> ex g B2 y b -> Rabs (a + b) <= B -> ex g B (s_add x y) (a + b).
  Proof.
    intros R (Fx & Vx & Mx & _) (Fy & Vy & My & _) H. pose proof (multiple_plus g a b Mx My) as M.
    pose proof (room_float g B _ R M H) as G. pose proof (room_max _ _ R) as X.
    pose proof (Bplus_correct fprec femax _ _ mode_NE x y Fx Fy) as A.
    change (round_mode mode_NE) with ZnearestE in A. fold fx in A. fold (rnd (B2R x + B2R y)) in A.
    change (B2R x) with (val x) in A. change (B2R y) with (val y) in A. rewrite Vx, Vy, (rnd_float _ G) in A.
    rewrite Rlt_bool_true in A by lra. destruct A as (A1 & A2 & _). repeat split; auto.
  Qed.
  Lemma ex_sub g B B1 B2 x y a b : room g B -> ex g B1 x a -> ex g B2 y b -> Rabs (a - b) <= B -> ex g B (s_sub x y) (a - b).
  Proof.
    intros R (Fx & Vx & Mx & _) (Fy & Vy & My & _) H. pose proof (multiple_plus g a _ Mx (multiple_opp g b My)) as M.
    pose proof (room_float g B _ R M H) as G. pose proof (room_max _ _ R) as X.
    pose proof (Bminus_correct fprec femax _ _ mode_NE x y Fx Fy) as A.
    change (round_mode mode_NE) with ZnearestE in A. fold fx in A. fold (rnd (B2R x - B2R y)) in A.
    change (B2R x) with (val x) in A. change (B2R y) with (val y) in A. rewrite Vx, Vy in A. unfold Rminus in A. rewrite (rnd_float _ G) in A.
    rewrite Rlt_bool_true in A by (unfold Rminus in H; lra). destruct A as (A1 & A2 & _). repeat split; auto.
  Qed.
  Lemma ex_mul g h B B1 B2 x y a b : room (g + h) B -> ex g B1 x a -> ex h B2 y b -> Rabs (a * b) <= B ->
    ex (g + h) B (s_mul x y) (a * b).
  Proof.
    intros R (Fx & Vx & Mx & _) (Fy & Vy & My & _) H. pose proof (multiple_mult g h a b Mx My) as M.
    pose proof (room_float _ B _ R M H) as G. pose proof (room_max _ _ R) as X.
    pose proof (Bmult_correct fprec femax _ _ mode_NE x y) as A.
    change (round_mode mode_NE) with ZnearestE in A. fold fx in A. fold (rnd (B2R x * B2R y)) in A.
    change (B2R x) with (val x) in A. change (B2R y) with (val y) in A. rewrite Vx, Vy, (rnd_float _ G) in A.
    rewrite Rlt_bool_true in A by lra. destruct A as (A1 & A2 & _).
    split; [|split; [|split]]; auto. unfold fin in *. change (s_mul x y) with (Bmult mode_NE x y). rewrite A2, Fx, Fy. reflexivity.
  Qed.
  Lemma ex_mul' g h k B B1 B2 x y a b : k = (g + h)%Z -> room k B -> ex g B1 x a -> ex h B2 y b -> Rabs (a * b) <= B ->
    ex k B (s_mul x y) (a * b).
  Proof. intros ->. apply ex_mul. Qed.
  Lemma ex_neg g B x a : ex g B x a -> ex g B (s_neg x) (- a).
  Proof.
    intros (A & E & M & L). split; [|split; [|split]].
    - now apply neg_fin.
    - now rewrite neg_val, E.
    - now apply multiple_opp.
    - now rewrite Rabs_Ropp.
  Qed.
  Lemma ex_lit z : (Z.abs z <= 2048)%Z -> ex 0 (Rabs (IZR z)) (s_lit z) (IZR z).
  Proof.
    intros H. destruct (lit_small z H) as [A B]. split; [exact A|]. split; [exact B|]. split; [|lra]. exists z. cbn. ring.
  Qed.

  (** weights *)
  Lemma abs_w M a w : Rabs a <= M -> 0 <= w <= 1 -> Rabs (a * w) <= M.
  Proof. intros H Hw. rewrite Rabs_mult, (Rabs_pos_eq w) by lra. pose proof (Rabs_pos a). nra. Qed.
  Lemma abs_w2 M a b v w : Rabs a <= M -> Rabs b <= M -> 0 <= v -> 0 <= w -> v + w <= 1 -> Rabs (a * v + b * w) <= M.
  Proof.
    intros H H' Hv Hw Hs. apply Rabs_le_inv in H. apply Rabs_le_inv in H'. assert (0 <= M) by lra. apply Rabs_le. split.
    - assert (- M * v <= a * v) by (apply Rmult_le_compat_r; lra). assert (- M * w <= b * w) by (apply Rmult_le_compat_r; lra).
      assert (M * (v + w) <= M * 1) by (apply Rmult_le_compat_l; lra). lra.
    - assert (a * v <= M * v) by (apply Rmult_le_compat_r; lra). assert (b * w <= M * w) by (apply Rmult_le_compat_r; lra).
      assert (M * (v + w) <= M * 1) by (apply Rmult_le_compat_l; lra). lra.
  Qed.
  Lemma abs_w3 M a b c u v w : Rabs a <= M -> Rabs b <= M -> Rabs c <= M -> 0 <= u -> 0 <= v -> 0 <= w -> u + v + w <= 1 ->
    Rabs (a * u + b * v + c * w) <= M.
  Proof.
    intros Ha Hb Hc Hu Hv Hw Hs. apply Rabs_le_inv in Ha. apply Rabs_le_inv in Hb. apply Rabs_le_inv in Hc. assert (0 <= M) by lra.
    assert (- M * u <= a * u <= M * u) by (split; apply Rmult_le_compat_r; lra).
    assert (- M * v <= b * v <= M * v) by (split; apply Rmult_le_compat_r; lra).
    assert (- M * w <= c * w <= M * w) by (split; apply Rmult_le_compat_r; lra).
    assert (M * (u + v + w) <= M * 1) by (apply Rmult_le_compat_l; lra). apply Rabs_le. lra.
  Qed.
  Lemma abs_w4 M a b c d s u v w : Rabs a <= M -> Rabs b <= M -> Rabs c <= M -> Rabs d <= M ->
    0 <= s -> 0 <= u -> 0 <= v -> 0 <= w -> s + u + v + w <= 1 -> Rabs (a * s + b * u + c * v + d * w) <= M.
  Proof.
    intros Ha Hb Hc Hd Hs Hu Hv Hw Ht. apply Rabs_le_inv in Ha. apply Rabs_le_inv in Hb. apply Rabs_le_inv in Hc.
    apply Rabs_le_inv in Hd. assert (0 <= M) by lra.
    assert (- M * s <= a * s <= M * s) by (split; apply Rmult_le_compat_r; lra).
    assert (- M * u <= b * u <= M * u) by (split; apply Rmult_le_compat_r; lra).
    assert (- M * v <= c * v <= M * v) by (split; apply Rmult_le_compat_r; lra).
    assert (- M * w <= d * w <= M * w) by (split; apply Rmult_le_compat_r; lra).
    assert (M * (s + u + v + w) <= M * 1) by (apply Rmult_le_compat_l; lra). apply Rabs_le. lra.
  Qed.

  Section Weights.
    Variables (b : Z) (t : float).
    Hypotheses (Hb : (b <= 0)%Z) (Ft : fin t) (Gt : on_grid b t) (Rt : 0 <= val t <= 1).
    Local Notation o := (s_add (s_neg t) (s_lit 1)).
    Lemma ex_t : ex b 1 t (val t).
    Proof. repeat split; auto. rewrite Rabs_pos_eq; lra. Qed.
    Lemma ex_o : room b 1 -> ex b 1 o (1 - val t).
    Proof.
      intros R. apply ex_eq with (- val t + 1); [|ring]. apply ex_add with 1 1; [exact R|apply ex_neg, ex_t| |].
      - apply ex_weaken with 0%Z (Rabs (IZR 1)); [apply ex_lit; lia|exact Hb|rewrite Rabs_pos_eq; lra].
      - rewrite Rabs_pos_eq; lra.
    Qed.

    (** x + (y - x) t *)
    Lemma ex_toward g M x y a c : room (g + b) (2 * M) -> ex g M x a -> ex g M y c ->
      ex (g + b) M (s_add x (s_mul (s_sub y x) t)) ((1 - val t) * a + val t * c).
    Proof.
      intros R X Y. pose proof X as (_ & _ & _ & Ba). pose proof Y as (_ & _ & _ & Bc).
      assert (M0 : 0 <= M) by (pose proof (Rabs_pos a); lra).
      apply ex_eq with (a + (c - a) * val t); [|ring].
      assert (D : Rabs (c - a) <= 2 * M) by (apply Rabs_le_inv in Ba; apply Rabs_le_inv in Bc; apply Rabs_le; lra).
      apply ex_add with M (2 * M).
      - apply room_lower with (g + b)%Z (2 * M); [exact R|lia|lra].
      - apply ex_weaken with g M; [exact X|lia|lra].
      - apply ex_mul with (2 * M) 1; [exact R| |apply ex_t|now apply abs_w].
        apply ex_sub with M M; auto. apply room_lower with (g + b)%Z (2 * M); [exact R|lia|lra].
      - replace (a + (c - a) * val t) with (a * (1 - val t) + c * val t) by ring. apply abs_w2; lra.
    Qed.
    (** x (1 - t) + y t *)
    Lemma ex_lerp g M x y a c : room (g + b) M -> room b 1 -> ex g M x a -> ex g M y c ->
      ex (g + b) M (s_add (s_mul x o) (s_mul y t)) ((1 - val t) * a + val t * c).
    Proof.
      intros R R1 X Y. pose proof X as (_ & _ & _ & Ba). pose proof Y as (_ & _ & _ & Bc).
      apply ex_eq with (a * (1 - val t) + c * val t); [|ring].
      apply ex_add with M M; [exact R| | |apply abs_w2; lra].
      - apply ex_mul with M 1; [exact R|exact X|now apply ex_o|apply abs_w; lra].
      - apply ex_mul with M 1; [exact R|exact Y|apply ex_t|apply abs_w; lra].
    Qed.
  End Weights.
End Ops.

Section Curves.
  Context {F : Format} {P : Type} {PT : Point float P} {CP : CwPoint float P}.
  Variables (g b : Z) (M : R) (t : float) (i : nat).
  Hypotheses (Hg : (g <= 0)%Z) (Hb : (b <= 0)%Z) (HM : 1 <= M).
  Hypotheses (Ft : fin t) (Gt : on_grid b t) (Rt : 0 <= val t <= 1) (Hi : (i < p_dim (P := P))%nat).
  Local Notation o := (s_add (s_neg t) (s_lit 1)).

  Lemma coarse_ex p : coarse_point g M p -> ex g M (cw p i) (val (cw p i)).
  Proof. intros H. destruct (H i Hi) as (A & B & C). repeat split; auto. Qed.

  Theorem line_exact (c : line P) : room (g + b) (2 * M) -> coarse_point g M (l_start c) -> coarse_point g M (l_end c) ->
    ex (g + b) M (cw (line_eval c t) i) (exact_at [l_start c; l_end c] (val t) i).
  Proof.
    intros R A B. unfold line_eval, exact_at. cbn [map]. rewrite poly1, cw_add, cw_mul, cw_sub by exact Hi.
    apply ex_toward; auto using coarse_ex.
  Qed.

  Lemma cw_toward (p q : P) : cw (p_add p (p_mul (p_sub q p) t)) i = s_add (cw p i) (s_mul (s_sub (cw q i) (cw p i)) t).
  Proof. now rewrite cw_add, cw_mul, cw_sub by exact Hi. Qed.

  Lemma toward2 h p q a c : room (h + b) (2 * M) -> ex h M (cw p i) a -> ex h M (cw q i) c ->
    ex (h + b) M (cw (p_add p (p_mul (p_sub q p) t)) i) ((1 - val t) * a + val t * c).
  Proof. intros. rewrite cw_toward. now apply ex_toward. Qed.

  Section Quad.
    Variable c : quad P.
    Hypotheses (A : coarse_point g M (q_start c)) (B : coarse_point g M (q_ctrl c)) (C : coarse_point g M (q_end c)).
    Hypothesis R : room (g + 2 * b) (2 * M).

    Theorem quad_casteljau_exact : ex (g + 2 * b) M (cw (quad_eval_casteljau c t) i) (exact_at (quad_control_points c) (val t) i).
    Proof.
      unfold quad_eval_casteljau, exact_at, quad_control_points. cbn [map]. rewrite poly2.
      replace (g + 2 * b)%Z with (g + b + b)%Z in * by lia.
      eapply ex_eq; [apply toward2; [exact R| |]|].
      1,2: apply toward2; [apply room_lower with (g + b + b)%Z (2 * M); [exact R|lia|lra]| |]; now apply coarse_ex.
      cbv beta. ring.
    Qed.

    Lemma quad_terms : room b 1 /\ room (b + b) 1 /\ room g (2 * M) /\ room (g + b) (2 * M).
    Proof. split; [|split; [|split]]; apply room_lower with (g + 2 * b)%Z (2 * M); auto; try lia; lra. Qed.

    Lemma quad_sum : ex (g + 2 * b) M
      (s_add (s_add (s_mul (cw (q_start c) i) (s_mul o o)) (s_mul (s_mul (s_mul (cw (q_ctrl c) i) (s_lit 2)) o) t))
             (s_mul (cw (q_end c) i) (s_mul t t))) (exact_at (quad_control_points c) (val t) i).
    Proof.
      destruct quad_terms as (R1 & R2 & R3 & R4).
      pose proof (coarse_ex _ A) as EA. pose proof (coarse_ex _ B) as EB. pose proof (coarse_ex _ C) as EC.
      unfold exact_at, quad_control_points. cbn [map]. rewrite poly2.
      set (x := val (cw (q_start c) i)) in *. set (y := val (cw (q_ctrl c) i)) in *. set (z := val (cw (q_end c) i)) in *.
      pose proof EA as (_ & _ & _ & BA). pose proof EB as (_ & _ & _ & BB). pose proof EC as (_ & _ & _ & BC).
      pose proof (ex_t b t Ft Gt Rt) as Et. pose proof (ex_o b t Hb Ft Gt Rt R1) as Eo.
      set (u := val t) in *.
      assert (Rm : room (g + 2 * b) M) by (apply room_lower with (g + 2 * b)%Z (2 * M); auto; try lia; lra).
      assert (W : 0 <= (1 - u) * (1 - u) <= 1) by nra. assert (W' : 0 <= u * u <= 1) by nra.
      assert (W2 : 0 <= 2 * (1 - u) * u <= 1) by nra.
      assert (T0 : ex (g + 2 * b) M (s_mul (cw (q_start c) i) (s_mul o o)) (x * ((1 - u) * (1 - u)))).
      { apply ex_mul' with g (b + b)%Z M 1; [lia|exact Rm|exact EA| |now apply abs_w].
        apply ex_mul with 1 1; auto. rewrite Rabs_pos_eq; lra. }
      assert (T2 : ex (g + 2 * b) M (s_mul (cw (q_end c) i) (s_mul t t)) (z * (u * u))).
      { apply ex_mul' with g (b + b)%Z M 1; [lia|exact Rm|exact EC| |now apply abs_w].
        apply ex_mul with 1 1; auto. rewrite Rabs_pos_eq; lra. }
      assert (T1 : ex (g + 2 * b) M (s_mul (s_mul (s_mul (cw (q_ctrl c) i) (s_lit 2)) o) t) (y * 2 * (1 - u) * u)).
      { assert (Y2 : Rabs (y * 2) <= 2 * M) by (rewrite Rabs_mult, (Rabs_pos_eq 2); lra).
        apply ex_mul' with (g + b)%Z b (2 * M) 1; [lia|exact Rm| |exact Et|].
        - apply ex_mul with (2 * M) 1; auto.
          + replace g with (g + 0)%Z at 1 by lia. apply ex_mul with M 2; auto.
            * now replace (g + 0)%Z with g by lia.
            * eapply ex_weaken; [apply ex_lit; lia|lia|rewrite Rabs_pos_eq; lra].
          + apply abs_w; lra.
        - replace (y * 2 * (1 - u) * u) with (y * (2 * (1 - u) * u)) by ring. now apply abs_w. }
      apply ex_eq with (x * ((1 - u) * (1 - u)) + y * 2 * (1 - u) * u + z * (u * u)); [|ring].
      apply ex_add with M M; auto.
      - apply ex_add with M M; auto. replace (y * 2 * (1 - u) * u) with (y * (2 * (1 - u) * u)) by ring. apply abs_w2; nra.
      - replace (y * 2 * (1 - u) * u) with (y * (2 * (1 - u) * u)) by ring. apply abs_w3; nra.
    Qed.
    Theorem quad_exact : ex (g + 2 * b) M (cw (quad_eval c t) i) (exact_at (quad_control_points c) (val t) i).
    Proof. unfold quad_eval. cbv zeta. rewrite !cw_add, !cw_mul by exact Hi. exact quad_sum. Qed.
    Theorem quad_axis_exact : exists x, quad_axis c t i = Ret x /\ ex (g + 2 * b) M x (exact_at (quad_control_points c) (val t) i).
    Proof.
      unfold quad_axis. cbv zeta. rewrite !cw_axis. apply Nat.ltb_lt in Hi as H. rewrite H. cbn [bind].
      eexists. split; [reflexivity|]. exact quad_sum.
    Qed.

    Theorem quad_split_exact : let '(l, r) := quad_split c t in
      (forall p, In p (quad_control_points l ++ quad_control_points r) -> ex (g + 2 * b) M (cw p i) (val (cw p i))) /\
      forall s, exact_at (quad_control_points l) s i = exact_at (quad_control_points c) (val t * s) i /\
                exact_at (quad_control_points r) s i = exact_at (quad_control_points c) (val t + s * (1 - val t)) i.
    Proof.
      destruct quad_terms as (R1 & R2 & R3 & R4).
      pose proof (coarse_ex _ A) as EA. pose proof (coarse_ex _ B) as EB. pose proof (coarse_ex _ C) as EC.
      pose proof (toward2 g _ _ _ _ R4 EA EB) as E1. pose proof (toward2 g _ _ _ _ R4 EB EC) as E2.
      pose proof quad_casteljau_exact as E3.
      unfold quad_split. unfold quad_eval_casteljau in E3. cbv zeta in E3.
      set (p1 := p_add (q_start c) _) in *. set (p2 := p_add (q_ctrl c) _) in *. set (p3 := p_add p1 _) in *.
      assert (Sf : forall h p r, (g + 2 * b <= h)%Z -> ex h M (cw p i) r -> ex (g + 2 * b) M (cw p i) (val (cw p i))).
      { intros h p r Hh H. pose proof H as (_ & -> & _). apply ex_weaken with h M; [exact H|exact Hh|lra]. }
      split.
      - cbn. intros p [<-|[<-|[<-|[<-|[<-|[<-|[]]]]]]].
        + exact (Sf g _ _ ltac:(lia) EA).
        + exact (Sf (g + b)%Z _ _ ltac:(lia) E1).
        + exact (Sf (g + 2 * b)%Z _ _ ltac:(lia) E3).
        + exact (Sf (g + 2 * b)%Z _ _ ltac:(lia) E3).
        + exact (Sf (g + b)%Z _ _ ltac:(lia) E2).
        + exact (Sf g _ _ ltac:(lia) EC).
      - destruct E1 as (_ & E1 & _), E2 as (_ & E2 & _), E3 as (_ & E3 & _). revert E3. unfold exact_at. cbn [quad_control_points map q_start q_ctrl q_end].
        intros E3 s. rewrite E1, E2, E3, !poly2. split; ring.
    Qed.
  End Quad.

  Section Cubic.
    Variable c : cubic P.
    Hypotheses (A : coarse_point g M (c_start c)) (B : coarse_point g M (c_ctrl1 c))
               (C : coarse_point g M (c_ctrl2 c)) (D : coarse_point g M (c_end c)).

    Section Casteljau.
    Hypothesis R : room (g + 3 * b) (2 * M).
    Theorem cubic_casteljau_exact : ex (g + 3 * b) M (cw (cubic_eval_casteljau c t) i) (exact_at (cubic_control_points c) (val t) i).
    Proof.
      unfold cubic_eval_casteljau, exact_at, cubic_control_points. cbn [map]. rewrite poly3.
      assert (R2 : room (g + b + b) (2 * M)) by (apply room_lower with (g + 3 * b)%Z (2 * M); [exact R|lia|lra]).
      assert (R1 : room (g + b) (2 * M)) by (apply room_lower with (g + 3 * b)%Z (2 * M); [exact R|lia|lra]).
      replace (g + 3 * b)%Z with (g + b + b + b)%Z in * by lia.
      eapply ex_eq; [apply toward2; [exact R| |]; apply toward2; try exact R2; apply toward2; try exact R1; now apply coarse_ex|].
      cbv beta. ring.
    Qed.
    Theorem cubic_split_exact : let '(l, r) := cubic_split c t in
      (forall p, In p (cubic_control_points l ++ cubic_control_points r) -> ex (g + 3 * b) M (cw p i) (val (cw p i))) /\
      forall s, exact_at (cubic_control_points l) s i = exact_at (cubic_control_points c) (val t * s) i /\
                exact_at (cubic_control_points r) s i = exact_at (cubic_control_points c) (val t + s * (1 - val t)) i.
    Proof.
      assert (R2 : room (g + b + b) (2 * M)) by (apply room_lower with (g + 3 * b)%Z (2 * M); [exact R|lia|lra]).
      assert (R1 : room (g + b) (2 * M)) by (apply room_lower with (g + 3 * b)%Z (2 * M); [exact R|lia|lra]).
      pose proof (coarse_ex _ A) as EA. pose proof (coarse_ex _ B) as EB. pose proof (coarse_ex _ C) as EC. pose proof (coarse_ex _ D) as ED.
      pose proof (toward2 g _ _ _ _ R1 EA EB) as E1. pose proof (toward2 g _ _ _ _ R1 EB EC) as E2. pose proof (toward2 g _ _ _ _ R1 EC ED) as E3.
      pose proof (toward2 _ _ _ _ _ R2 E1 E2) as E4. pose proof (toward2 _ _ _ _ _ R2 E2 E3) as E5.
      assert (R' : room (g + b + b + b) (2 * M)) by (replace (g + b + b + b)%Z with (g + 3 * b)%Z by lia; exact R).
      pose proof (toward2 _ _ _ _ _ R' E4 E5) as E6.
      unfold cubic_split. cbv zeta.
      set (p1 := p_add (c_start c) _) in *. set (p2 := p_add (c_ctrl1 c) _) in *. set (p3 := p_add (c_ctrl2 c) _) in *.
      set (p4 := p_add p1 _) in *. set (p5 := p_add p2 _) in *. set (p6 := p_add p4 _) in *.
      assert (Sf : forall h p r, (g + 3 * b <= h)%Z -> ex h M (cw p i) r -> ex (g + 3 * b) M (cw p i) (val (cw p i))).
      { intros h p r Hh H. pose proof H as (_ & -> & _). apply ex_weaken with h M; [exact H|exact Hh|lra]. }
      split.
      - cbn. intros p [<-|[<-|[<-|[<-|[<-|[<-|[<-|[<-|[]]]]]]]]].
        + exact (Sf g _ _ ltac:(lia) EA).
        + exact (Sf (g + b)%Z _ _ ltac:(lia) E1).
        + exact (Sf (g + b + b)%Z _ _ ltac:(lia) E4).
        + exact (Sf (g + b + b + b)%Z _ _ ltac:(lia) E6).
        + exact (Sf (g + b + b + b)%Z _ _ ltac:(lia) E6).
        + exact (Sf (g + b + b)%Z _ _ ltac:(lia) E5).
        + exact (Sf (g + b)%Z _ _ ltac:(lia) E3).
        + exact (Sf g _ _ ltac:(lia) ED).
      - destruct E1 as (_ & E1 & _), E2 as (_ & E2 & _), E3 as (_ & E3 & _), E4 as (_ & E4 & _), E5 as (_ & E5 & _), E6 as (_ & E6 & _).
        unfold exact_at. cbn [cubic_control_points map c_start c_ctrl1 c_ctrl2 c_end].
        intros s. rewrite E1, E3, E4, E5, E6, !poly3. split; ring.
    Qed.
    End Casteljau.

    Section Eval.
    Hypothesis R : room (g + 3 * b) (3 * M).
    Local Notation x := (val (cw (c_start c) i)).
    Local Notation y := (val (cw (c_ctrl1 c) i)).
    Local Notation z := (val (cw (c_ctrl2 c) i)).
    Local Notation w := (val (cw (c_end c) i)).
    Local Notation u := (val t).
    Lemma cubic_facts : room b 1 /\ room (b + b) 1 /\ room (b + b + b) 3 /\ room (g + 3 * b) M /\
      ex b 1 t u /\ ex b 1 o (1 - u) /\
      0 <= (1 - u) * (1 - u) * (1 - u) <= 1 /\ 0 <= u * (1 - u) * (1 - u) * 3 <= 1 /\ 0 <= u * u * (1 - u) * 3 <= 1 /\ 0 <= u * u * u <= 1 /\
      (1 - u) * (1 - u) * (1 - u) + u * (1 - u) * (1 - u) * 3 + u * u * (1 - u) * 3 + u * u * u = 1 /\
      0 <= (1 - u) * (1 - u) <= 1 /\ 0 <= u * u <= 1 /\ 0 <= u * (1 - u) <= 1.
    Proof.
      assert (Q : room b 1) by (apply room_lower with (g + 3 * b)%Z (3 * M); [exact R|lia|lra]).
      split; [exact Q|]. split; [apply room_lower with (g + 3 * b)%Z (3 * M); [exact R|lia|lra]|].
      split; [apply room_lower with (g + 3 * b)%Z (3 * M); [exact R|lia|lra]|].
      split; [apply room_lower with (g + 3 * b)%Z (3 * M); [exact R|lia|lra]|].
      split; [now apply ex_t|]. split; [now apply ex_o|].
      assert (O1 : 0 <= (1 - u) * (1 - u) <= 1) by nra. assert (O2 : 0 <= u * u <= 1) by nra. assert (O3 : 0 <= u * (1 - u) <= 1) by nra.
      assert (S : (1 - u) * (1 - u) * (1 - u) + u * (1 - u) * (1 - u) * 3 + u * u * (1 - u) * 3 + u * u * u = 1) by ring.
      assert (P0 : 0 <= (1 - u) * (1 - u) * (1 - u)) by (apply Rmult_le_pos; lra).
      assert (P1 : 0 <= u * (1 - u) * (1 - u)) by (apply Rmult_le_pos; lra).
      assert (P2 : 0 <= u * u * (1 - u)) by (apply Rmult_le_pos; lra).
      assert (P3 : 0 <= u * u * u) by (apply Rmult_le_pos; lra).
      repeat (split; [lra|]). lra.
    Qed.

    Theorem cubic_exact : ex (g + 3 * b) M (cw (cubic_eval c t) i) (exact_at (cubic_control_points c) (val t) i).
    Proof.
      destruct cubic_facts as (R1 & R2 & R3 & Rm & Et & Eo & W0 & W1 & W2 & W3 & WS & V0 & V1 & V2).
      pose proof (coarse_ex _ A) as EA. pose proof (coarse_ex _ B) as EB. pose proof (coarse_ex _ C) as EC. pose proof (coarse_ex _ D) as ED.
      pose proof EA as (_ & _ & _ & BA). pose proof EB as (_ & _ & _ & BB). pose proof EC as (_ & _ & _ & BC). pose proof ED as (_ & _ & _ & BD).
      assert (R3' : room (b + b + b) 1) by (apply room_lower with (b + b + b)%Z 3; [exact R3|lia|lra]).
      assert (L3 : ex 0 3 (s_lit 3) 3) by (eapply ex_weaken; [apply ex_lit; lia|lia|rewrite Rabs_pos_eq; lra]).
      unfold cubic_eval, exact_at, cubic_control_points. cbn [map]. rewrite poly3. rewrite !cw_add, !cw_mul by exact Hi.
      set (q := s_add (s_neg t) (s_lit 1)) in *.
      assert (T0 : ex (g + 3 * b) M (s_mul (cw (c_start c) i) (s_mul (s_mul q q) q)) (x * ((1 - u) * (1 - u) * (1 - u)))).
      { apply ex_mul' with g (b + b + b)%Z M 1; [lia|exact Rm|exact EA| |now apply abs_w].
        apply ex_mul with 1 1; auto; [|rewrite Rabs_pos_eq; lra]. apply ex_mul with 1 1; auto. rewrite Rabs_pos_eq; lra. }
      assert (T3 : ex (g + 3 * b) M (s_mul (cw (c_end c) i) (s_mul (s_mul t t) t)) (w * (u * u * u))).
      { apply ex_mul' with g (b + b + b)%Z M 1; [lia|exact Rm|exact ED| |now apply abs_w].
        apply ex_mul with 1 1; auto; [|rewrite Rabs_pos_eq; lra]. apply ex_mul with 1 1; auto. rewrite Rabs_pos_eq; lra. }
      assert (T1 : ex (g + 3 * b) M (s_mul (cw (c_ctrl1 c) i) (s_mul (s_mul (s_mul t q) q) (s_lit 3))) (y * (u * (1 - u) * (1 - u) * 3))).
      { apply ex_mul' with g (b + b + b)%Z M 3; [lia|exact Rm|exact EB| |now apply abs_w].
        apply ex_mul' with (b + b + b)%Z 0%Z 1 3; [lia|exact R3| |exact L3|rewrite Rabs_pos_eq; lra].
        apply ex_mul with 1 1; auto; [|rewrite Rabs_pos_eq; lra]. apply ex_mul with 1 1; auto. rewrite Rabs_pos_eq; lra. }
      assert (T2 : ex (g + 3 * b) M (s_mul (cw (c_ctrl2 c) i) (s_mul (s_mul (s_mul t t) q) (s_lit 3))) (z * (u * u * (1 - u) * 3))).
      { apply ex_mul' with g (b + b + b)%Z M 3; [lia|exact Rm|exact EC| |now apply abs_w].
        apply ex_mul' with (b + b + b)%Z 0%Z 1 3; [lia|exact R3| |exact L3|rewrite Rabs_pos_eq; lra].
        apply ex_mul with 1 1; auto; [|rewrite Rabs_pos_eq; lra]. apply ex_mul with 1 1; auto. rewrite Rabs_pos_eq; lra. }
      apply ex_eq with (x * ((1 - u) * (1 - u) * (1 - u)) + y * (u * (1 - u) * (1 - u) * 3) + z * (u * u * (1 - u) * 3) + w * (u * u * u)); [|ring].
      apply ex_add with M M; auto; [apply ex_add with M M; auto; [apply ex_add with M M; auto; apply abs_w2; lra|apply abs_w3; lra]|apply abs_w4; lra].
    Qed.

    Theorem cubic_axis_exact : exists r, cubic_axis c t i = Ret r /\ ex (g + 3 * b) M r (exact_at (cubic_control_points c) (val t) i).
    Proof.
      destruct cubic_facts as (R1 & R2 & R3 & Rm & Et & Eo & W0 & W1 & W2 & W3 & WS & V0 & V1 & V2).
      pose proof (coarse_ex _ A) as EA. pose proof (coarse_ex _ B) as EB. pose proof (coarse_ex _ C) as EC. pose proof (coarse_ex _ D) as ED.
      pose proof EA as (_ & _ & _ & BA). pose proof EB as (_ & _ & _ & BB). pose proof EC as (_ & _ & _ & BC). pose proof ED as (_ & _ & _ & BD).
      assert (R3' : room (b + b + b) 1) by (apply room_lower with (b + b + b)%Z 3; [exact R3|lia|lra]).
      assert (L3 : ex 0 3 (s_lit 3) 3) by (eapply ex_weaken; [apply ex_lit; lia|lia|rewrite Rabs_pos_eq; lra]).
      unfold cubic_axis. cbv zeta. rewrite !cw_axis. apply Nat.ltb_lt in Hi as H. rewrite H. cbn [bind].
      eexists. split; [reflexivity|]. unfold exact_at, cubic_control_points. cbn [map]. rewrite poly3.
      set (q := s_add (s_neg t) (s_lit 1)) in *.
      assert (O2 : ex (b + b) 1 (s_mul q q) ((1 - u) * (1 - u))) by (apply ex_mul with 1 1; auto; rewrite Rabs_pos_eq; lra).
      assert (U2 : ex (b + b) 1 (s_mul t t) (u * u)) by (apply ex_mul with 1 1; auto; rewrite Rabs_pos_eq; lra).
      assert (T0 : ex (g + 3 * b) M (s_mul (s_mul (s_mul q q) q) (cw (c_start c) i)) ((1 - u) * (1 - u) * (1 - u) * x)).
      { apply ex_mul' with (b + b + b)%Z g 1 M; [lia|exact Rm| |exact EA|rewrite Rmult_comm; now apply abs_w].
        apply ex_mul with 1 1; auto. rewrite Rabs_pos_eq; lra. }
      assert (T3 : ex (g + 3 * b) M (s_mul (s_mul (s_mul t t) t) (cw (c_end c) i)) (u * u * u * w)).
      { apply ex_mul' with (b + b + b)%Z g 1 M; [lia|exact Rm| |exact ED|rewrite Rmult_comm; now apply abs_w].
        apply ex_mul with 1 1; auto. rewrite Rabs_pos_eq; lra. }
      assert (T1 : ex (g + 3 * b) M (s_mul (s_mul (s_mul (s_mul q q) t) (cw (c_ctrl1 c) i)) (s_lit 3)) ((1 - u) * (1 - u) * u * y * 3)).
      { apply ex_mul' with (g + 3 * b)%Z 0%Z M 3; [lia|exact Rm| |exact L3|].
        - apply ex_mul' with (b + b + b)%Z g 1 M; [lia|exact Rm| |exact EB|].
          + apply ex_mul with 1 1; auto. rewrite Rabs_pos_eq; lra.
          + rewrite Rmult_comm. apply abs_w; lra.
        - replace ((1 - u) * (1 - u) * u * y * 3) with (y * (u * (1 - u) * (1 - u) * 3)) by ring. now apply abs_w. }
      assert (T2 : ex (g + 3 * b) M (s_mul (s_mul (s_mul q (s_mul t t)) (cw (c_ctrl2 c) i)) (s_lit 3)) ((1 - u) * (u * u) * z * 3)).
      { apply ex_mul' with (g + 3 * b)%Z 0%Z M 3; [lia|exact Rm| |exact L3|].
        - apply ex_mul' with (b + (b + b))%Z g 1 M; [lia|exact Rm| |exact EC|].
          + apply ex_mul with 1 1; auto; [now replace (b + (b + b))%Z with (b + b + b)%Z by lia|]. rewrite Rabs_pos_eq; lra.
          + rewrite Rmult_comm. apply abs_w; lra.
        - replace ((1 - u) * (u * u) * z * 3) with (z * (u * u * (1 - u) * 3)) by ring. now apply abs_w. }
      eapply ex_eq; [apply ex_add with M M; [exact Rm|apply ex_add with M M; [exact Rm|apply ex_add with M M; [exact Rm|exact T0|exact T1|]|exact T2|]|exact T3|]|].
      - replace (_ + _) with (x * ((1 - u) * (1 - u) * (1 - u)) + y * (u * (1 - u) * (1 - u) * 3)) by ring. apply abs_w2; lra.
      - replace (_ + _) with (x * ((1 - u) * (1 - u) * (1 - u)) + y * (u * (1 - u) * (1 - u) * 3) + z * (u * u * (1 - u) * 3)) by ring. apply abs_w3; lra.
      - replace (_ + _) with (x * ((1 - u) * (1 - u) * (1 - u)) + y * (u * (1 - u) * (1 - u) * 3) + z * (u * u * (1 - u) * 3) + w * (u * u * u)) by ring.
        apply abs_w4; lra.
      - ring.
    Qed.
    End Eval.
  End Cubic.

  (** any degree *)
  Lemma tri_exact (f : nat -> P) n : (forall j, (j <= n)%nat -> coarse_point g M (f j)) ->
    room (g + Z.of_nat n * b) M ->
    forall m j, (m + j <= n)%nat ->
    ex (g + Z.of_nat m * b) M (cw (tri t f m j) i) (dc (val t) m (fun k => val (cw (f k) i)) j).
  Proof.
    intros H R. induction m as [|m IH]; intros j Hj.
    - cbn [tri dc]. replace (g + Z.of_nat 0 * b)%Z with g by lia. apply coarse_ex, H. lia.
    - cbn [tri dc]. unfold lerp. rewrite cw_add, !cw_mul by exact Hi.
      replace (g + Z.of_nat (S m) * b)%Z with (g + Z.of_nat m * b + b)%Z by lia.
      apply ex_lerp; auto.
      + apply room_lower with (g + Z.of_nat n * b)%Z M; [exact R|nia|lra].
      + apply room_lower with (g + Z.of_nat n * b)%Z M; [exact R|nia|lra].
      + apply IH. lia.
      + apply IH. lia.
  Qed.

  Theorem bezier_exact ps n : length ps = S n -> room (g + Z.of_nat n * b) M -> (forall p, In p ps -> coarse_point g M p) ->
    exists p, bezier_eval (Bezier ps) t = Ret p /\ ex (g + Z.of_nat n * b) M (cw p i) (exact_at ps (val t) i).
  Proof.
    intros Hn R H. assert (Ne : ps <> []) by (intros ->; discriminate).
    rewrite (bezier_eval_closed ps t p_default) by exact Ne. eexists. split; [reflexivity|].
    unfold exact_at. rewrite (coords_dc ps p_default i (val t) Ne). rewrite Hn. replace (S n - 1)%nat with n by lia.
    apply tri_exact with n; auto; [|lia]. intros j Hj. apply H, nth_In. lia.
  Qed.

  Theorem bezier_split_exact ps n : length ps = S n -> room (g + Z.of_nat n * b) M -> (forall p, In p ps -> coarse_point g M p) ->
    exists l r, bezier_split (Bezier ps) t = Ret (Bezier l, Bezier r) /\
      (forall p, In p (l ++ r) -> ex (g + Z.of_nat n * b) M (cw p i) (val (cw p i))) /\
      forall s, exact_at l s i = exact_at ps (val t * s) i /\ exact_at r s i = exact_at ps (val t + s * (1 - val t)) i.
  Proof.
    intros Hn R H. assert (Ne : ps <> []) by (intros ->; discriminate). set (d := p_default (P := P)).
    destruct (bezier_split_closed ps t d) as (l & r & Hs & Ll & Lr & Vl & Vr).
    assert (Nl : l <> []) by (destruct l; [simpl in Ll; lia|discriminate]).
    assert (Nr : r <> []) by (destruct r; [simpl in Lr; lia|discriminate]).
    assert (TE : forall m j, (m + j <= n)%nat ->
      ex (g + Z.of_nat m * b) M (cw (tri t (fun k => nth k ps d) m j) i) (dc (val t) m (fun k => val (cw (nth k ps d) i)) j)).
    { intros m j. apply tri_exact; auto. intros k Hk. apply H, nth_In. lia. }
    exists l, r. split; [exact Hs|]. split.
    - assert (Sf : forall m p x, (m <= n)%nat -> ex (g + Z.of_nat m * b) M (cw p i) x -> ex (g + Z.of_nat n * b) M (cw p i) (val (cw p i))).
      { intros m p x Hm K. pose proof K as (_ & -> & _). apply ex_weaken with (g + Z.of_nat m * b)%Z M; [exact K|nia|lra]. }
      intros p Hp. apply in_app_or in Hp. destruct Hp as [Hp|Hp]; apply (In_nth _ _ d) in Hp; destruct Hp as (k & Hk & <-).
      + rewrite Vl by lia. apply (Sf k _ _ ltac:(lia) (TE k 0%nat ltac:(lia))).
      + rewrite Vr by lia. apply (Sf (length ps - 1 - k)%nat _ _ ltac:(lia) (TE (length ps - 1 - k)%nat k ltac:(lia))).
    - intros s. unfold exact_at. rewrite !(coords_dc _ d) by assumption. rewrite Ll, Lr. set (N := (length ps - 1)%nat). split.
      + rewrite <- (dc_0 N (dc (val t * s) N (fun k => val (cw (nth k ps d) i))) 0).
        replace (dc 0 N (dc (val t * s) N (fun k => val (cw (nth k ps d) i))) 0)
          with (dc s N (fun k => dc (val t) k (fun k => val (cw (nth k ps d) i)) 0) 0)
          by (rewrite dc_left, dc_0; reflexivity).
        apply dc_ext. intros k Hk. rewrite Vl by (unfold N in Hk; lia). apply TE. unfold N in Hk. lia.
      + replace (dc (val t + s * (1 - val t)) N (fun k => val (cw (nth k ps d) i)) 0)
          with (dc s N (fun j => dc (val t) (N - j) (fun k => val (cw (nth k ps d) i)) j) 0).
        2:{ rewrite dc_right by lia. replace (N - N - 0)%nat with 0%nat by lia. reflexivity. }
        apply dc_ext. intros k Hk. rewrite Vr by (unfold N in Hk; lia). apply TE. unfold N in *. lia.
  Qed.
End Curves.

Section Derivative.
  Context {F : Format} {P : Type} {PT : Point float P} {CP : CwPoint float P}.
  Variables (g : Z) (M : R) (i : nat).
  Hypotheses (Hi : (i < p_dim (P := P))%nat).

  Lemma difference_exact (p q : P) (k : float) (K : R) : 1 <= K -> ex 0 K k K -> room g (2 * K * M) ->
    coarse_point g M p -> coarse_point g M q ->
    ex g (2 * K * M) (cw (p_mul (p_sub q p) k) i) ((val (cw q i) - val (cw p i)) * K).
  Proof.
    intros HK Ek R Hp Hq. rewrite cw_mul, cw_sub by exact Hi.
    destruct (Hp i Hi) as (A1 & A2 & A3). destruct (Hq i Hi) as (B1 & B2 & B3).
    pose proof (Rabs_pos (val (cw p i))).
    assert (D : Rabs (val (cw q i) - val (cw p i)) <= 2 * M) by (apply Rabs_le_inv in A3; apply Rabs_le_inv in B3; apply Rabs_le; lra).
    assert (M2 : 2 * M <= 2 * K * M) by nra.
    apply ex_mul' with g 0%Z (2 * M) K; [lia|exact R| |exact Ek|].
    - apply ex_sub with M M; [apply room_lower with g (2 * K * M); [exact R|lia|exact M2]| | |exact D]; repeat split; auto.
    - rewrite Rabs_mult, (Rabs_pos_eq K) by lra. replace (2 * K * M) with (2 * M * K) by ring. apply Rmult_le_compat_r; lra.
  Qed.

  Lemma deriv_exact (l m : list R) s : (2 <= length l)%nat -> length m = (length l - 1)%nat ->
    (forall k, (k < length l - 1)%nat -> nth k m 0 = (nth (k + 1) l 0 - nth k l 0) * INR (length l - 1)) ->
    derivable_pt_lim (bezier_poly l) s (bezier_poly m s).
  Proof.
    intros Hl Hm H. replace (bezier_poly m s) with (poly_deriv l s); [now apply poly_deriv_ok|].
    unfold poly_deriv. set (f := fun k => nth (k + 1) l 0 - nth k l 0).
    assert (Nm : m <> []) by (intros ->; simpl in Hm; lia).
    assert (Ng : map f (seq 0 (length l - 1)) <> []) by (apply map_seq_ne; lia).
    rewrite !poly_dc by assumption. rewrite map_length, seq_length, Hm. set (n := length l) in *.
    rewrite (dc_ext s _ (fun k => nth k (map f (seq 0 (n - 1))) 0) f).
    - rewrite (dc_ext s _ (fun k => nth k m 0) (fun k => INR (n - 1) * f k + 0 * f k)).
      + rewrite dc_lin. ring.
      + intros k Hk. rewrite H by lia. unfold f. ring.
    - intros k Hk. rewrite (nth_indep (map _ _) 0 (f 0%nat)) by (rewrite map_length, seq_length; lia).
      rewrite map_nth, seq_nth by lia. reflexivity.
  Qed.

  Lemma lit_ex z : (1 <= z <= 2048)%Z -> ex 0 (IZR z) (s_lit z : float) (IZR z).
  Proof. intros H. rewrite <- (Rabs_pos_eq (IZR z)) at 1 by (apply IZR_le; lia). apply ex_lit. lia. Qed.

  Theorem line_derivative_exact (c : line P) : room g (2 * M) -> coarse_point g M (l_start c) -> coarse_point g M (l_end c) ->
    ex g (2 * M) (cw (line_derivative c) i) (val (cw (l_end c) i) - val (cw (l_start c) i)).
  Proof.
    intros R A B. unfold line_derivative. rewrite cw_sub by exact Hi.
    destruct (A i Hi) as (A1 & A2 & A3). destruct (B i Hi) as (B1 & B2 & B3).
    apply ex_sub with M M; [exact R| | |]; [repeat split; auto..|].
    apply Rabs_le_inv in A3; apply Rabs_le_inv in B3; apply Rabs_le; lra.
  Qed.
  Theorem quad_derivative_exact (c : quad P) s : room g (4 * M) ->
    (forall p, In p (quad_control_points c) -> coarse_point g M p) ->
    let l := quad_derivative c in
    ex g (4 * M) (cw (l_start l) i) (val (cw (l_start l) i)) /\ ex g (4 * M) (cw (l_end l) i) (val (cw (l_end l) i)) /\
    derivable_pt_lim (fun s => exact_at (quad_control_points c) s i) s (exact_at [l_start l; l_end l] s i).
  Proof.
    intros R H l. assert (R' : room g (2 * 2 * M)) by (replace (2 * 2 * M) with (4 * M) by ring; exact R).
    pose proof (lit_ex 2 ltac:(lia)) as L2.
    pose proof (difference_exact (q_start c) (q_ctrl c) (s_lit 2) 2 ltac:(lra) L2 R' (H _ (or_introl eq_refl)) (H _ (or_intror (or_introl eq_refl)))) as E1.
    pose proof (difference_exact (q_ctrl c) (q_end c) (s_lit 2) 2 ltac:(lra) L2 R' (H _ (or_intror (or_introl eq_refl))) (H _ (or_intror (or_intror (or_introl eq_refl))))) as E2.
    unfold l, quad_derivative. cbn [l_start l_end].
    pose proof E1 as (_ & V1 & _). pose proof E2 as (_ & V2 & _). rewrite V1, V2.
    replace (4 * M) with (2 * 2 * M) by ring. split; [exact E1|]. split; [exact E2|].
    unfold exact_at. cbn [map]. rewrite V1, V2. apply deriv_exact; [cbn; lia|reflexivity|].
    intros [|[|k]] Hk; cbn in *; try lia; lra.
  Qed.
  Theorem cubic_derivative_exact (c : cubic P) s : room g (6 * M) ->
    (forall p, In p (cubic_control_points c) -> coarse_point g M p) ->
    let q := cubic_derivative c in
    (forall p, In p (quad_control_points q) -> ex g (6 * M) (cw p i) (val (cw p i))) /\
    derivable_pt_lim (fun s => exact_at (cubic_control_points c) s i) s (exact_at (quad_control_points q) s i).
  Proof.
    intros R H q. assert (R' : room g (2 * 3 * M)) by (replace (2 * 3 * M) with (6 * M) by ring; exact R).
    pose proof (lit_ex 3 ltac:(lia)) as L3.
    assert (H0 := H _ (or_introl eq_refl)). assert (H1 := H _ (or_intror (or_introl eq_refl))).
    assert (H2 := H _ (or_intror (or_intror (or_introl eq_refl)))). assert (H3 := H _ (or_intror (or_intror (or_intror (or_introl eq_refl))))).
    pose proof (difference_exact _ _ (s_lit 3) 3 ltac:(lra) L3 R' H0 H1) as E1.
    pose proof (difference_exact _ _ (s_lit 3) 3 ltac:(lra) L3 R' H1 H2) as E2.
    pose proof (difference_exact _ _ (s_lit 3) 3 ltac:(lra) L3 R' H2 H3) as E3.
    pose proof E1 as (_ & V1 & _). pose proof E2 as (_ & V2 & _). pose proof E3 as (_ & V3 & _).
    unfold q, cubic_derivative. split.
    - replace (6 * M) with (2 * 3 * M) by ring. cbn [quad_control_points In q_start q_ctrl q_end]. intros p [<-|[<-|[<-|[]]]]; [rewrite V1|rewrite V2|rewrite V3]; assumption.
    - unfold exact_at. cbn [map quad_control_points q_start q_ctrl q_end]. rewrite V1, V2, V3.
      apply deriv_exact; [cbn; lia|reflexivity|]. intros [|[|[|k]]] Hk; cbn in *; try lia; lra.
  Qed.
  Theorem bezier_derivative_exact ps n s : length ps = S n -> (1 <= n)%nat -> (Z.of_nat n <= 2 ^ fprec)%Z ->
    room g (2 * INR n * M) -> (forall p, In p ps -> coarse_point g M p) ->
    exists qs, bezier_derivative (Bezier ps) = Ret (Bezier qs) /\
      (forall p, In p qs -> ex g (2 * INR n * M) (cw p i) (val (cw p i))) /\
      derivable_pt_lim (fun s => exact_at ps s i) s (exact_at qs s i).
  Proof.
    intros Hn N1 Np R H. set (d := p_default (P := P)).
    rewrite (bezier_derivative_closed ps d) by lia. eexists. split; [reflexivity|].
    assert (En : (length ps - 1)%nat = n) by lia. rewrite En.
    set (f := fun k => p_mul (p_sub (nth (k + 1) ps d) (nth k ps d)) (s_of_usize n)).
    assert (K1 : 1 <= INR n) by (change 1 with (INR 1); now apply le_INR).
    destruct (usize_ok n Np) as [U1 U2].
    assert (Ek : ex 0 (INR n) (s_of_usize n : float) (INR n)).
    { split; [exact U1|]. split; [exact U2|]. split; [exists (Z.of_nat n); rewrite <- INR_IZR_INZ; cbn; ring|]. rewrite Rabs_pos_eq; lra. }
    assert (G : forall k, (k < n)%nat -> ex g (2 * INR n * M) (cw (f k) i) ((val (cw (nth (k + 1) ps d) i) - val (cw (nth k ps d) i)) * INR n)).
    { intros k Hk. apply difference_exact; auto; apply H, nth_In; lia. }
    split.
    - intros p Hp. apply in_map_iff in Hp. destruct Hp as (k & <- & Hk). apply in_seq in Hk.
      pose proof (G k ltac:(lia)) as X. pose proof X as (_ & -> & _). exact X.
    - unfold exact_at. apply deriv_exact; rewrite ?map_length, ?seq_length; try lia.
      intros k Hk. rewrite map_map.
      rewrite (nth_indep (map _ (seq 0 n)) 0 (val (cw (f 0%nat) i))) by (rewrite map_length, seq_length; lia).
      rewrite (map_nth (fun q => val (cw (f q) i))), seq_nth by lia. cbn [Nat.add].
      rewrite !(nth_indep (map _ ps) 0 (val (cw d i))) by (rewrite map_length; lia).
      rewrite !(map_nth (fun q => val (cw q i))). rewrite En. apply G. lia.
  Qed.
End Derivative.
