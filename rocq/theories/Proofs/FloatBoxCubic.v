(** Bounding boxes of cubics in floating point. *)
From Coq Require Import Reals ZArith List Arith Lia Lra Psatz Bool.
From Flocq Require Import Core.Core IEEE754.BinarySingleNaN.
From Verif Require Import Base.Outcome Base.Scalar Model.Point Model.Line Model.Quadratic Model.Cubic Proofs.OutcomeFacts
  Inst.FloatInst Spec.Bernstein Spec.Rounding Spec.Componentwise Spec.FloatPoints Spec.FloatBoxes
  Proofs.FloatFacts Proofs.FloatEval Proofs.FloatBound Proofs.FloatNorm Proofs.FloatNear Proofs.FloatEnds Proofs.ExactEval Proofs.BoxGeneric
  Proofs.FloatBox Proofs.FloatBoxQuad.
Import ListNotations.
Local Open Scope R_scope.

(** ** A box that misses its curve *)
Section Flt.
  Context {F : Format}.
  Lemma flt_ok m e : (Z.abs m < 2 ^ fprec)%Z -> (3 - femax - fprec <= e)%Z -> Rabs (IZR m * bpow radix2 e) <= fmax ->
    fin (flt m e) /\ val (flt m e) = IZR m * bpow radix2 e.
  Proof.
    intros Hm He Ho.
    pose proof (binary_normalize_correct fprec femax _ _ mode_NE m e false) as C.
    cbv zeta in C. change (round_mode mode_NE) with ZnearestE in C.
    assert (Hv : F2R (Float radix2 m e) = IZR m * bpow radix2 e) by reflexivity.
    rewrite Hv in C. fold fx in C. fold (rnd (IZR m * bpow radix2 e)) in C.
    rewrite no_overflow in C by exact Ho.
    destruct C as (C1 & C2 & _). split; [exact C2|]. unfold val, flt. rewrite C1. apply rnd_float.
    change fx with (FLT_exp (3 - femax - fprec) fprec). apply generic_format_FLT.
    apply (FLT_spec radix2 (3 - femax - fprec) fprec _ (Float radix2 m e)); [reflexivity|exact Hm|exact He].
  Qed.
End Flt.

Section Elevated.
  Local Existing Instance Binary64.
  (** the coordinates 1, -1, -0.9, 1.3: in exact arithmetic the cubic term is 0 *)
  Definition elev : cubic (PointN float 1) :=
    Cubic (fpt1 (flt 1 0)) (fpt1 (flt (-1) 0)) (fpt1 (flt (-8106479329266893) (-53))) (fpt1 (flt 5854679515581645 (-52))).
  Definition box_above (c : cubic (PointN float 1)) (x : float) : bool :=
    match cubic_bounding_box c with Ret [(lo, hi)] => s_leb x lo && is_finite lo | _ => false end.
  Lemma above_spec c x : box_above c x = true ->
    exists lo hi, cubic_bounding_box c = Ret [(lo, hi)] /\ s_leb x lo = true /\ fin lo.
  Proof.
    unfold box_above. destruct (cubic_bounding_box c) as [[|[lo hi] [|]]| |]; try discriminate.
    intros H. apply andb_true_iff in H as [H Fl]. exists lo, hi. auto.
  Qed.
  Lemma elev_above : box_above elev (flt 1 0) = true.
  Proof. vm_compute. reflexivity. Qed.

  Lemma elev_bounded : bounded 2 (c_start elev) /\ bounded 2 (c_ctrl1 elev) /\ bounded 2 (c_ctrl2 elev) /\ bounded 2 (c_end elev).
  Proof.
    assert (X : 2048 <= @fmax Binary64) by apply fmax_ge.
    assert (B53 : bpow radix2 (-53) = / 9007199254740992) by reflexivity.
    assert (B52 : bpow radix2 (-52) = / 4503599627370496) by reflexivity.
    assert (B0 : bpow radix2 0 = 1) by reflexivity.
    assert (A : forall m e, (Z.abs m < 2 ^ 53)%Z -> (-1000 <= e)%Z -> Rabs (IZR m * bpow radix2 e) <= 2 ->
      bounded 2 (fpt1 (flt m e))).
    { intros m e Hm He Hb i Hi. destruct (flt_ok m e) as [Ff Fv]; [exact Hm|cbn; lia|lra|].
      assert (i = 0)%nat as -> by (cbn in Hi; lia). change (cw (fpt1 (flt m e)) 0) with (flt m e).
      rewrite Fv. auto. }
    split; [|split; [|split]]; apply A; try (cbn; lia); rewrite ?B53, ?B52, ?B0; apply Rabs_le; lra.
  Qed.
  Lemma elev_half : bezier_poly [val (cw (c_start elev) 0); val (cw (c_ctrl1 elev) 0);
    val (cw (c_ctrl2 elev) 0); val (cw (c_end elev) 0)] (/ 2) < - (4 / 10).
  Proof.
    assert (X : 2048 <= @fmax Binary64) by apply fmax_ge.
    assert (B53 : bpow radix2 (-53) = / 9007199254740992) by reflexivity.
    assert (B52 : bpow radix2 (-52) = / 4503599627370496) by reflexivity.
    change (cw (c_start elev) 0) with (flt 1 0). change (cw (c_ctrl1 elev) 0) with (flt (-1) 0).
    change (cw (c_ctrl2 elev) 0) with (flt (-8106479329266893) (-53)). change (cw (c_end elev) 0) with (flt 5854679515581645 (-52)).
    destruct (flt_ok (-8106479329266893) (-53)) as [_ ->];
      [cbn; lia|cbn; lia|rewrite B53; apply Rabs_le; lra|].
    destruct (flt_ok 5854679515581645 (-52)) as [_ ->];
      [cbn; lia|cbn; lia|rewrite B52; apply Rabs_le; lra|].
    destruct (flt_ok 1 0) as [_ ->]; [cbn; lia|cbn; lia|cbn; apply Rabs_le; lra|].
    destruct (flt_ok (-1) 0) as [_ ->]; [cbn; lia|cbn; lia|cbn; apply Rabs_le; lra|].
    rewrite B53, B52. cbn [bpow]. rewrite poly3. lra.
  Qed.

  Theorem cubic_box_misses : exists (c : cubic (PointN float 1)) lo hi,
    bounded 2 (c_start c) /\ bounded 2 (c_ctrl1 c) /\ bounded 2 (c_ctrl2 c) /\ bounded 2 (c_end c) /\
    cubic_bounding_box c = Ret [(lo, hi)] /\ fin lo /\
    bezier_poly [val (cw (c_start c) 0); val (cw (c_ctrl1 c) 0); val (cw (c_ctrl2 c) 0); val (cw (c_end c) 0)] (/ 2)
      < val lo - 14 / 10.
  Proof.
    destruct (above_spec _ _ elev_above) as (lo & hi & E & H & Fl). exists elev, lo, hi. destruct elev_bounded as (A & B & C & D).
    split; [exact A|]. split; [exact B|]. split; [exact C|]. split; [exact D|]. split; [exact E|]. split; [exact Fl|].
    pose proof elev_half as V. rewrite leb_val in H; [|apply (lit_small 1 ltac:(lia))|exact Fl].
    change (flt 1 0) with (s_lit 1 : float) in H.
    rewrite (proj2 (lit_small 1 ltac:(lia))) in H.
    destruct (Rle_bool_spec 1 (val lo)); [|discriminate]. lra.
  Qed.
End Elevated.

(** ** Cubic polynomials over [0,1] *)
Section Poly.
  Variables x0 a b c : R.
  Let x t := x0 + c * t + b / 2 * (t * t) + a / 3 * (t * t * t).
  Let p t := a * (t * t) + b * t + c.

  Lemma x_deriv t : derivable_pt_lim x t (p t).
  Proof.
    unfold x, p.
    replace (a * (t * t) + b * t + c)
      with (0 + c * 1 + b / 2 * (1 * t + t * 1) + a / 3 * ((1 * t + t * 1) * t + t * t * 1)) by field.
    assert (I : derivable_pt_lim (fun t => t) t 1) by apply derivable_pt_lim_id.
    assert (I2 : derivable_pt_lim (fun t => t * t) t (1 * t + t * 1))
      by apply (derivable_pt_lim_mult (fun t => t) (fun t => t) t 1 1 I I).
    assert (I3 : derivable_pt_lim (fun t => t * t * t) t ((1 * t + t * 1) * t + t * t * 1))
      by apply (derivable_pt_lim_mult (fun t => t * t) (fun t => t) t _ 1 I2 I).
    apply (derivable_pt_lim_plus (fun t => x0 + c * t + b / 2 * (t * t)) (fun t => a / 3 * (t * t * t))).
    - apply (derivable_pt_lim_plus (fun t => x0 + c * t) (fun t => b / 2 * (t * t))).
      + apply (derivable_pt_lim_plus (fun t => x0) (fun t => c * t)).
        * apply (derivable_pt_lim_const x0).
        * apply (derivable_pt_lim_scal (fun t => t) c t 1 I).
      + apply (derivable_pt_lim_scal (fun t => t * t) (b / 2) t _ I2).
    - apply (derivable_pt_lim_scal (fun t => t * t * t) (a / 3) t _ I3).
  Qed.

  Lemma crit_min t : 0 <= t <= 1 -> exists t', 0 <= t' <= 1 /\ x t' <= x t /\ (t' = 0 \/ t' = 1 \/ p t' = 0).
  Proof.
    intros Ht. destruct (continuity_ab_min x 0 1) as (m & Hm & H01); [lra| |].
    { intros z _. apply derivable_continuous_pt. exists (p z). apply x_deriv. }
    exists m. split; [exact H01|]. split; [apply Hm, Ht|].
    destruct (Req_dec m 0); [now left|]. destruct (Req_dec m 1); [now right; left|]. right. right.
    assert (pr : derivable_pt x m) by (exists (p m); apply x_deriv).
    rewrite <- (derive_pt_eq_0 x m (p m) pr (x_deriv m)).
    apply deriv_minimum with (a := 0) (b := 1); [lra|lra|]. intros z Hz1 Hz2. apply Hm. lra.
  Qed.

  Lemma gap r t : p t = 0 -> x r - x t = (2 * a * t + b) / 2 * ((r - t) * (r - t)) + a / 3 * ((r - t) * (r - t) * (r - t)).
  Proof. intros Hp. replace (x r - x t) with (p t * (r - t) + (2 * a * t + b) / 2 * ((r - t) * (r - t)) + a / 3 * ((r - t) * (r - t) * (r - t))) by (unfold x, p; field). rewrite Hp. ring. Qed.

  Lemma gap_le r t Y : p t = 0 -> Rabs (r - t) <= Y ->
    Rabs (x r - x t) <= Rabs (2 * a * t + b) / 2 * (Y * Y) + Rabs a / 3 * (Y * Y * Y).
  Proof.
    intros Hp Hy. rewrite (gap r t Hp). pose proof (Rabs_pos (r - t)) as P0.
    assert (P2 : Rabs (r - t) * Rabs (r - t) <= Y * Y) by (apply Rmult_le_compat; assumption).
    assert (P3 : Rabs (r - t) * Rabs (r - t) * Rabs (r - t) <= Y * Y * Y)
      by (apply Rmult_le_compat; try assumption; now apply Rmult_le_pos).
    eapply Rle_trans; [apply Rabs_triang|]. unfold Rdiv. rewrite !Rabs_mult, !Rabs_inv, (Rabs_pos_eq 2), (Rabs_pos_eq 3) by lra.
    apply Rplus_le_compat; (apply Rmult_le_compat_l; [apply Rmult_le_pos; [apply Rabs_pos|lra]|assumption]).
  Qed.

  Lemma cube_le s z : 0 <= s -> 0 <= z -> 3 * s * (z * z) - 2 * (z * z * z) <= s * s * s.
  Proof.
    intros Hs Hz. assert (Q : 0 <= (s - z) * (s - z) * (s + 2 * z)) by (apply Rmult_le_pos; [apply Rle_0_sqr|lra]).
    replace ((s - z) * (s - z) * (s + 2 * z)) with (s * s * s - (3 * s * (z * z) - 2 * (z * z * z))) in Q by ring. lra.
  Qed.

  (** a critical point where x'' is small is hardly lower than one of the ends *)
  Lemma flat_crit t s : 0 <= t <= 1 -> p t = 0 -> a <> 0 -> 0 <= s -> Rabs (2 * a * t + b) <= s ->
    (x 0 <= x t + s * s * s / (6 * (a * a)) \/ x 1 <= x t + s * s * s / (6 * (a * a))).
  Proof.
    intros Ht Hp Ha Hs HS. apply Rabs_le_inv in HS. set (S := 2 * a * t + b) in *.
    assert (A2 : 0 < a * a) by nra.
    assert (K : forall y, (a < 0 -> 0 <= y) -> (0 < a -> y <= 0) ->
      S / 2 * (y * y) + a / 3 * (y * y * y) <= s * s * s / (6 * (a * a))).
    { intros y H1 H2. apply Rmult_le_reg_r with (6 * (a * a)); [lra|].
      replace (s * s * s / (6 * (a * a)) * (6 * (a * a))) with (s * s * s) by (field; exact Ha).
      assert (Hz : 0 <= - (a * y)) by (destruct (Rtotal_order a 0) as [N|[N|N]]; [specialize (H1 N); nra|lra|specialize (H2 N); nra]).
      pose proof (cube_le s (- (a * y)) Hs Hz) as Q.
      assert (Y2 : 0 <= a * y * (a * y)) by apply Rle_0_sqr.
      assert (S * (a * y * (a * y)) <= s * (a * y * (a * y))) by (apply Rmult_le_compat_r; lra).
      replace ((S / 2 * (y * y) + a / 3 * (y * y * y)) * (6 * (a * a)))
        with (3 * (S * (a * y * (a * y))) + 2 * (a * y * (a * y) * (a * y))) by field.
      lra. }
    destruct (Rtotal_order a 0) as [N|[N|N]]; [right|lra|left].
    - pose proof (gap 1 t Hp) as G. fold S in G. pose proof (K (1 - t)) as Q. rewrite <- G in Q.
      specialize (Q ltac:(lra) ltac:(lra)). lra.
    - pose proof (gap 0 t Hp) as G. fold S in G. pose proof (K (0 - t)) as Q. rewrite <- G in Q.
      specialize (Q ltac:(lra) ltac:(lra)). lra.
  Qed.

  Lemma crit_disc t : p t = 0 -> (2 * a * t + b) * (2 * a * t + b) = b * b - 4 * a * c.
  Proof. intros Hp. replace (b * b - 4 * a * c) with ((2 * a * t + b) * (2 * a * t + b) - 4 * a * p t) by (unfold p; ring). rewrite Hp. ring. Qed.
End Poly.

Lemma abs_prod x y X Y : Rabs x <= X -> Rabs y <= Y -> Rabs (x * y) <= X * Y.
Proof. intros. rewrite Rabs_mult. apply Rmult_le_compat; auto using Rabs_pos. Qed.
Lemma abs_plus x y X Y : Rabs x <= X -> Rabs y <= Y -> Rabs (x + y) <= X + Y.
Proof. intros. eapply Rle_trans; [apply Rabs_triang|lra]. Qed.
Lemma abs_minus x y X Y : Rabs x <= X -> Rabs y <= Y -> Rabs (x - y) <= X + Y.
Proof. intros. unfold Rminus. apply abs_plus; [assumption|now rewrite Rabs_Ropp]. Qed.
Lemma abs_near x y X E : Rabs y <= X -> Rabs (x - y) <= E -> Rabs x <= X + E.
Proof. intros. replace x with (y + (x - y)) by ring. now apply abs_plus. Qed.

(** the distance between a critical point and a computed root, in terms of x'' there *)
Lemma near_root a S Sh k e Y m : a <> 0 -> 0 <= Sh -> 0 <= e -> 0 <= k -> 0 <= Y ->
  Rabs (S * S - Sh * Sh) <= e * e -> Rabs m * Y <= Rabs (Rabs S - Sh) + k -> 19 / 10 * Rabs a <= Rabs m ->
  (Rabs S / 2 * (Y * Y) + Rabs a / 3 * (Y * Y * Y)) * (a * a)
    <= (e * e * e + Rabs S * (k * k)) * (100 / 361) + (e + k) * (e + k) * (e + k) * (1000 / 20577).
Proof.
  intros Ha HSh He Hk HY HS Hm Hma.
  set (A := Rabs a) in *. assert (PA : 0 < A) by now apply Rabs_pos_lt.
  assert (AA : a * a = A * A) by (unfold A; rewrite <- Rabs_mult; symmetry; apply Rabs_pos_eq, Rle_0_sqr).
  rewrite AA. set (d := Rabs (Rabs S - Sh)) in *. set (s := Rabs S) in *.
  assert (P1 : 0 <= s) by apply Rabs_pos. assert (P2 : 0 <= d) by apply Rabs_pos.
  assert (SS : S * S = s * s) by (unfold s; rewrite <- Rabs_mult; symmetry; apply Rabs_pos_eq, Rle_0_sqr).
  rewrite SS in HS. replace (s * s - Sh * Sh) with ((s - Sh) * (s + Sh)) in HS by ring.
  rewrite Rabs_mult, (Rabs_pos_eq (s + Sh)) in HS by lra. fold d in HS.
  assert (D1 : d <= s + Sh) by (unfold d; apply Rabs_le; lra).
  assert (D2 : d * d <= e * e) by (apply Rle_trans with (2 := HS); apply Rmult_le_compat_l; assumption).
  assert (D3 : d <= e) by (apply Rsqr_incr_0; assumption).
  assert (D4 : s * (d * d) <= e * e * e).
  { apply Rle_trans with (d * (s + Sh) * d).
    - replace (s * (d * d)) with (d * s * d) by ring. apply Rmult_le_compat_r; [exact P2|]. apply Rmult_le_compat_l; lra.
    - apply Rmult_le_compat; try lra. apply Rmult_le_pos; lra. }
  set (Q := 19 / 10 * A * Y). assert (Q0 : 0 <= Q) by (unfold Q; apply Rmult_le_pos; [lra|exact HY]).
  assert (Q1 : Q <= d + k) by (apply Rle_trans with (2 := Hm); unfold Q; apply Rmult_le_compat_r; assumption).
  replace ((s / 2 * (Y * Y) + A / 3 * (Y * Y * Y)) * (A * A))
    with (s * (Q * Q) * (50 / 361) + Q * Q * Q * (1000 / 20577)) by (unfold Q; field).
  assert (Q2 : Q * Q <= 2 * (d * d) + 2 * (k * k)).
  { apply Rle_trans with ((d + k) * (d + k)); [apply Rmult_le_compat; assumption|].
    pose proof (Rle_0_sqr (d - k)) as Z. unfold Rsqr in Z. lra. }
  assert (Q3 : s * (Q * Q) <= s * (2 * (d * d) + 2 * (k * k))) by (apply Rmult_le_compat_l; assumption).
  assert (Q4 : Q * Q * Q <= (e + k) * (e + k) * (e + k)).
  { assert (Q <= e + k) by lra. apply Rmult_le_compat; try assumption; [now apply Rmult_le_pos|]. apply Rmult_le_compat; assumption. }
  lra.
Qed.

Section Cub.
  Context {F : Format}.
  Variable M : R.
  Hypotheses (HM : 0 < M) (HO : 2048 * (M * M) <= fmax) (HU : eta <= uro * (M * M)).
  Let w := uro * M.
  Let W := uro * (M * M).

  Lemma sizes3 : 32 * M <= fmax /\ 4 * M <= fmax /\ eta <= w /\ w <= M / 2048 /\ W <= M * M / 2048 /\ 0 < w /\ 0 < W.
  Proof.
    pose proof uro_small. pose proof uro_pos. pose proof fmax_ge. pose proof eta_uro. pose proof eta_pos.
    assert (M2 : 0 < M * M) by (apply Rmult_lt_0_compat; exact HM).
    assert (w <= M / 2048) by (unfold w, Rdiv; rewrite (Rmult_comm M); apply Rmult_le_compat_r; lra).
    assert (W <= M * M / 2048) by (unfold W, Rdiv; rewrite (Rmult_comm (M * M)); apply Rmult_le_compat_r; lra).
    assert (0 < w) by (unfold w; apply Rmult_lt_0_compat; assumption).
    assert (0 < W) by (unfold W; apply Rmult_lt_0_compat; assumption).
    destruct (Rle_or_lt M 1) as [L|L].
    - assert (M * M <= M * 1) by (apply Rmult_le_compat_l; lra).
      assert (uro * (M * M) <= w) by (unfold w; apply Rmult_le_compat_l; lra). repeat split; lra.
    - assert (M * 1 <= M * M) by (apply Rmult_le_compat_l; lra).
      assert (uro * 1 <= w) by (unfold w; apply Rmult_le_compat_l; lra). repeat split; lra.
  Qed.

  Lemma mul_lit_err (x : float) (z : Z) X : fin x -> Rabs (val x) <= X -> (Z.abs z <= 8)%Z -> Rabs (IZR z) * X <= fmax ->
    fin (s_mul x (s_lit z)) /\ Rabs (val (s_mul x (s_lit z)) - val x * IZR z) <= uro * (Rabs (IZR z) * X) + eta.
  Proof.
    intros Fx Bx Hz HX. destruct (lit_small z) as [L1 L2]; [lia|].
    assert (B : Rabs (val x * IZR z) <= Rabs (IZR z) * X).
    { rewrite Rabs_mult, Rmult_comm. apply Rmult_le_compat_l; [apply Rabs_pos|exact Bx]. }
    destruct (mul_ok x (s_lit z) Fx L1) as [Fm Em]; [rewrite L2; lra|]. split; [exact Fm|].
    rewrite Em, L2. pose proof (rnd_err (val x * IZR z)). pose proof uro_pos.
    assert (uro * Rabs (val x * IZR z) <= uro * (Rabs (IZR z) * X)) by (apply Rmult_le_compat_l; lra). lra.
  Qed.
  Lemma add_err (x y : float) B : fin x -> fin y -> Rabs (val x + val y) <= B -> B <= fmax ->
    fin (s_add x y) /\ Rabs (val (s_add x y) - (val x + val y)) <= uro * B.
  Proof.
    intros Fx Fy HB HX. destruct (add_ok x y Fx Fy) as [Fa Ea]; [lra|]. split; [exact Fa|]. rewrite Ea.
    pose proof (rnd_sum_err (val x) (val y) (val_float x) (val_float y)). pose proof uro_pos.
    assert (uro * Rabs (val x + val y) <= uro * B) by (apply Rmult_le_compat_l; lra). lra.
  Qed.
  Lemma sub_err (x y : float) B : fin x -> fin y -> Rabs (val x - val y) <= B -> B <= fmax ->
    fin (s_sub x y) /\ Rabs (val (s_sub x y) - (val x - val y)) <= uro * B.
  Proof.
    intros Fx Fy HB HX. destruct (sub_ok x y Fx Fy) as [Fa Ea]; [lra|]. split; [exact Fa|]. rewrite Ea.
    pose proof (rnd_sum_err (val x) (- val y) (val_float x) (float_opp _ (val_float y))) as Q. pose proof uro_pos.
    replace (val x + - val y) with (val x - val y) in Q by ring.
    assert (uro * Rabs (val x - val y) <= uro * B) by (apply Rmult_le_compat_l; lra). lra.
  Qed.

  Section Axis.
    Variables s k1 k2 e : float.
    Hypotheses (Fs : fin s) (F1 : fin k1) (F2 : fin k2) (Fe : fin e).
    Hypotheses (Bs : Rabs (val s) <= M) (B1 : Rabs (val k1) <= M) (B2 : Rabs (val k2) <= M) (Be : Rabs (val e) <= M).
    Let d0 := s_mul (s_sub k1 s) (s_lit 3).
    Let d1 := s_mul (s_sub k2 k1) (s_lit 3).
    Let d2 := s_mul (s_sub e k2) (s_lit 3).
    Let fa := s_add (s_add d0 (s_mul d1 (s_lit (-2)))) d2.
    Let fb := s_add (s_mul d0 (s_lit (-2))) (s_mul d1 (s_lit 2)).
    Let a := 3 * (val e - 3 * val k2 + 3 * val k1 - val s).
    Let b := 6 * (val k2 - 2 * val k1 + val s).
    Let c := 3 * (val k1 - val s).

    Lemma coeffs : (fin fa /\ Rabs (val fa - a) <= 112 * w) /\ (fin fb /\ Rabs (val fb - b) <= 107 * w) /\
      (fin d0 /\ Rabs (val d0 - c) <= 14 * w).
    Proof.
      destruct sizes3 as (H32 & H4 & Hw & Hw2 & _ & W0 & _). pose proof uro_pos as U0.
      assert (DS : forall x y, fin x -> fin y -> Rabs (val x) <= M -> Rabs (val y) <= M ->
        fin (s_mul (s_sub y x) (s_lit 3)) /\ Rabs (val (s_mul (s_sub y x) (s_lit 3)) - 3 * (val y - val x)) <= 14 * w /\
        Rabs (val (s_mul (s_sub y x) (s_lit 3))) <= 601 / 100 * M).
      { intros x y Fx Fy Bx By. destruct (diff_scaled x y 3 M Fx Fy Bx By) as [Fd Ed]; [lia|exact H32|].
        fold w in Ed. split; [exact Fd|]. split; [lra|].
        assert (Rabs (3 * (val y - val x)) <= 3 * (M + M)).
        { apply abs_prod; [rewrite Rabs_pos_eq; lra|now apply abs_minus]. }
        apply Rle_trans with (3 * (M + M) + 14 * w); [|lra]. apply abs_near with (3 * (val y - val x)); lra. }
      destruct (DS s k1) as (Fd0 & Ed0 & Bd0); try assumption. destruct (DS k1 k2) as (Fd1 & Ed1 & Bd1); try assumption.
      destruct (DS k2 e) as (Fd2 & Ed2 & Bd2); try assumption. clear DS.
      fold d0 in Fd0, Ed0, Bd0. fold d1 in Fd1, Ed1, Bd1. fold d2 in Fd2, Ed2, Bd2.
      assert (A2 : Rabs (IZR (-2)) = 2) by (rewrite Rabs_left; lra).
      assert (A2' : Rabs (IZR 2) = 2) by (apply Rabs_pos_eq; lra).
      assert (UU : uro * (2 * (601 / 100 * M)) = 1202 / 100 * w) by (unfold w; field).
      assert (ML : forall x z, fin x -> Rabs (val x) <= 601 / 100 * M -> (z = -2 \/ z = 2)%Z ->
        fin (s_mul x (s_lit z)) /\ Rabs (val (s_mul x (s_lit z)) - val x * IZR z) <= 1302 / 100 * w /\
        Rabs (val (s_mul x (s_lit z))) <= 1203 / 100 * M).
      { intros x z Fx Bx Hz.
        assert (AZ : Rabs (IZR z) = 2) by (destruct Hz as [-> | ->]; assumption).
        destruct (mul_lit_err x z (601 / 100 * M) Fx Bx) as [Fm Em]; [lia|rewrite AZ; lra|].
        rewrite AZ, UU in Em. split; [exact Fm|]. split; [lra|].
        apply Rle_trans with (601 / 100 * M * 2 + 1302 / 100 * w); [|lra].
        apply abs_near with (val x * IZR z); [|lra]. apply abs_prod; lra. }
      destruct (ML d1 (-2)%Z Fd1 Bd1 (or_introl eq_refl)) as (Fm1 & Em1 & Bm1).
      destruct (ML d1 2%Z Fd1 Bd1 (or_intror eq_refl)) as (Fm2 & Em2 & Bm2).
      destruct (ML d0 (-2)%Z Fd0 Bd0 (or_introl eq_refl)) as (Fm0 & Em0 & Bm0). clear ML.
      apply Rabs_le_inv in Ed0. apply Rabs_le_inv in Ed1. apply Rabs_le_inv in Ed2.
      split; [|split].
      - destruct (add_err d0 (s_mul d1 (s_lit (-2))) (181 / 10 * M) Fd0 Fm1) as [Fp Ep];
          [apply Rle_trans with (601 / 100 * M + 1203 / 100 * M); [now apply abs_plus|lra]|lra|].
        replace (uro * (181 / 10 * M)) with (181 / 10 * w) in Ep by (unfold w; field).
        assert (Bp : Rabs (val (s_add d0 (s_mul d1 (s_lit (-2))))) <= 1806 / 100 * M).
        { apply Rle_trans with (601 / 100 * M + 1203 / 100 * M + 181 / 10 * w); [|lra].
          apply abs_near with (val d0 + val (s_mul d1 (s_lit (-2)))); [now apply abs_plus|exact Ep]. }
        destruct (add_err _ d2 (241 / 10 * M) Fp Fd2) as [Fq Eq];
          [apply Rle_trans with (1806 / 100 * M + 601 / 100 * M); [now apply abs_plus|lra]|lra|].
        fold fa in Fq, Eq. replace (uro * (241 / 10 * M)) with (241 / 10 * w) in Eq by (unfold w; field).
        split; [exact Fq|]. apply Rabs_le_inv in Ep. apply Rabs_le_inv in Eq. apply Rabs_le_inv in Em1.
        apply Rabs_le. unfold a. lra.
      - destruct (add_err (s_mul d0 (s_lit (-2))) (s_mul d1 (s_lit 2)) (241 / 10 * M) Fm0 Fm2) as [Fp Ep];
          [apply Rle_trans with (1203 / 100 * M + 1203 / 100 * M); [now apply abs_plus|lra]|lra|].
        fold fb in Fp, Ep. replace (uro * (241 / 10 * M)) with (241 / 10 * w) in Ep by (unfold w; field).
        split; [exact Fp|]. apply Rabs_le_inv in Ep. apply Rabs_le_inv in Em2. apply Rabs_le_inv in Em0.
        apply Rabs_le. unfold b. lra.
      - split; [exact Fd0|]. apply Rabs_le. unfold c. lra.
    Qed.

    Lemma coeff_sizes : Rabs a <= 24 * M /\ Rabs b <= 24 * M /\ Rabs c <= 6 * M /\
      Rabs (val fa) <= 2406 / 100 * M /\ Rabs (val fb) <= 2406 / 100 * M /\ Rabs (val d0) <= 601 / 100 * M.
    Proof.
      destruct sizes3 as (H32 & H4 & Hw & Hw2 & _ & W0 & _). destruct coeffs as ([_ Ea] & [_ Eb] & [_ Ec]).
      assert (A : Rabs a <= 24 * M).
      { unfold a. apply Rabs_le_inv in Bs, B1, B2, Be. apply Rabs_le. lra. }
      assert (B : Rabs b <= 24 * M).
      { unfold b. apply Rabs_le_inv in Bs, B1, B2. apply Rabs_le. lra. }
      assert (C : Rabs c <= 6 * M).
      { unfold c. apply Rabs_le_inv in Bs, B1. apply Rabs_le. lra. }
      split; [exact A|]. split; [exact B|]. split; [exact C|].
      split; [|split].
      - apply Rle_trans with (24 * M + 112 * w); [exact (abs_near _ _ _ _ A Ea)|lra].
      - apply Rle_trans with (24 * M + 107 * w); [exact (abs_near _ _ _ _ B Eb)|lra].
      - apply Rle_trans with (6 * M + 14 * w); [exact (abs_near _ _ _ _ C Ec)|lra].
    Qed.

    Let fD := s_sub (s_mul fb fb) (s_mul (s_mul fa d0) (s_lit 4)).
    Lemma disc_err : fin fD /\ Rabs (val fD - (b * b - 4 * a * c)) <= 12321 * W /\ Rabs (val fD) <= 1164 * (M * M).
    Proof.
      destruct sizes3 as (H32 & H4 & Hw & Hw2 & HW2 & W0 & W00). destruct coeffs as ([Ffa Ea] & [Ffb Eb] & [Fc Ec]).
      destruct coeff_sizes as (Ba & Bb & Bc & Bfa & Bfb & Bfc). pose proof uro_pos as U0.
      fold W in HU. assert (M2 : 0 < M * M) by (apply Rmult_lt_0_compat; exact HM).
      (* b*b *)
      assert (P1 : Rabs (val fb * val fb) <= 579 * (M * M)).
      { apply Rle_trans with (2406 / 100 * M * (2406 / 100 * M)); [now apply abs_prod|lra]. }
      destruct (mul_ok fb fb Ffb Ffb) as [Fbb Ebb]; [lra|].
      pose proof (rnd_err (val fb * val fb)) as R1. rewrite <- Ebb in R1.
      assert (R1' : Rabs (val (s_mul fb fb) - val fb * val fb) <= 580 * W).
      { assert (uro * Rabs (val fb * val fb) <= uro * (579 * (M * M))) by (apply Rmult_le_compat_l; lra).
        replace (uro * (579 * (M * M))) with (579 * W) in H by (unfold W; ring). lra. }
      (* a*c *)
      assert (P2 : Rabs (val fa * val d0) <= 1447 / 10 * (M * M)).
      { apply Rle_trans with (2406 / 100 * M * (601 / 100 * M)); [now apply abs_prod|lra]. }
      destruct (mul_ok fa d0 Ffa Fc) as [Fac Eac]; [lra|].
      pose proof (rnd_err (val fa * val d0)) as R2. rewrite <- Eac in R2.
      assert (R2' : Rabs (val (s_mul fa d0) - val fa * val d0) <= 146 * W).
      { assert (uro * Rabs (val fa * val d0) <= uro * (1447 / 10 * (M * M))) by (apply Rmult_le_compat_l; lra).
        replace (uro * (1447 / 10 * (M * M))) with (1447 / 10 * W) in H by (unfold W; field). lra. }
      assert (P3 : Rabs (val (s_mul fa d0)) <= 1448 / 10 * (M * M)).
      { apply Rle_trans with (1447 / 10 * (M * M) + 146 * W); [exact (abs_near _ _ _ _ P2 R2')|lra]. }
      assert (A4 : Rabs (IZR 4) = 4) by (apply Rabs_pos_eq; lra).
      destruct (mul_lit_err (s_mul fa d0) 4 (1448 / 10 * (M * M)) Fac P3) as [Fm Em]; [lia|rewrite A4; lra|].
      rewrite A4 in Em. replace (uro * (4 * (1448 / 10 * (M * M)))) with (5792 / 10 * W) in Em by (unfold W; field).
      assert (P4 : Rabs (val (s_mul fb fb)) <= 5793 / 10 * (M * M)).
      { apply Rle_trans with (579 * (M * M) + 580 * W); [exact (abs_near _ _ _ _ P1 R1')|lra]. }
      assert (P5 : Rabs (val (s_mul (s_mul fa d0) (s_lit 4))) <= 580 * (M * M)).
      { apply Rle_trans with (1448 / 10 * (M * M) * 4 + (5792 / 10 * W + eta)); [|lra].
        eapply abs_near; [|exact Em]. apply abs_prod; [assumption|lra]. }
      destruct (sub_err (s_mul fb fb) (s_mul (s_mul fa d0) (s_lit 4)) (1160 * (M * M)) Fbb Fm) as [Fd Ed];
        [apply Rle_trans with (5793 / 10 * (M * M) + 580 * (M * M)); [now apply abs_minus|lra]|lra|].
      fold fD in Fd, Ed. replace (uro * (1160 * (M * M))) with (1160 * W) in Ed by (unfold W; ring).
      split; [exact Fd|]. split.
      - assert (X1 : Rabs (val fb * val fb - b * b) <= 5144 * W).
        { replace (val fb * val fb - b * b) with ((val fb - b) * (val fb + b)) by ring.
          apply Rle_trans with (107 * w * (2406 / 100 * M + 24 * M)); [apply abs_prod; [exact Eb|now apply abs_plus]|].
          replace (107 * w * (2406 / 100 * M + 24 * M)) with (107 * (4806 / 100) * W) by (unfold w, W; field). lra. }
        assert (X2 : Rabs (val fa * val d0 - a * c) <= 1009 * W).
        { replace (val fa * val d0 - a * c) with ((val fa - a) * c + val fa * (val d0 - c)) by ring.
          apply Rle_trans with (112 * w * (6 * M) + 2406 / 100 * M * (14 * w)); [apply abs_plus; now apply abs_prod|].
          replace (112 * w * (6 * M) + 2406 / 100 * M * (14 * w)) with ((672 + 33684 / 100) * W) by (unfold w, W; field). lra. }
        apply Rabs_le_inv in X1. apply Rabs_le_inv in X2. apply Rabs_le_inv in Ed. apply Rabs_le_inv in Em.
        apply Rabs_le_inv in R1'. apply Rabs_le_inv in R2'. apply Rabs_le. lra.
      - apply Rle_trans with (5793 / 10 * (M * M) + 580 * (M * M) + 1160 * W); [|lra].
        eapply abs_near; [|exact Ed]. now apply abs_minus.
    Qed.

    Variable lam : R.
    Hypotheses (Hlam : 3 * M <= lam * Rabs a) (Hlu : 2048 * lam * uro <= 1) (HM1 : 1 <= M).

    Lemma lead_ok : 0 < lam /\ a <> 0 /\ w <= Rabs a / 6144 /\ 2 * uro <= Rabs (val fa).
    Proof.
      pose proof uro_pos as U0. pose proof (Rabs_pos a) as A0.
      assert (L : 0 < lam).
      { apply Rnot_le_lt. intros C. assert (lam * Rabs a <= 0 * Rabs a) by (apply Rmult_le_compat_r; lra). lra. }
      assert (Ha : 0 < Rabs a).
      { apply Rnot_le_lt. intros C. assert (Z : Rabs a = 0) by lra. rewrite Z in Hlam. lra. }
      assert (Hw : w <= Rabs a / 6144).
      { unfold w. apply Rle_trans with (uro * (lam * Rabs a / 3)); [apply Rmult_le_compat_l; lra|].
        replace (uro * (lam * Rabs a / 3)) with ((2048 * lam * uro) * (Rabs a / 6144)) by field.
        rewrite <- (Rmult_1_l (Rabs a / 6144)) at 2. apply Rmult_le_compat_r; lra. }
      split; [exact L|]. split; [intros Z; rewrite Z, Rabs_R0 in Ha; lra|]. split; [exact Hw|].
      destruct coeffs as ([_ Ea] & _). assert (uro * 1 <= w) by (unfold w; apply Rmult_le_compat_l; lra).
      assert (Rabs a <= Rabs (val fa) + 112 * w).
      { apply (abs_near a (val fa)); [lra|]. rewrite <- Rabs_Ropp. replace (- (a - val fa)) with (val fa - a) by ring. exact Ea. }
      lra.
    Qed.

    Let fm := s_mul fa (s_lit 2).
    Lemma den_ok : fin fm /\ Rabs (val fm - 2 * a) <= 274 * w /\ 19 / 10 * Rabs a <= Rabs (val fm) /\ Rabs (val fm) <= 483 / 10 * M.
    Proof.
      destruct sizes3 as (H32 & H4 & Hw & Hw2 & HW2 & W0 & W00). destruct coeffs as ([Ffa Ea] & _).
      destruct coeff_sizes as (Ba & _ & _ & Bfa & _). destruct lead_ok as (L & Na & Hwa & _).
      assert (A2 : Rabs (IZR 2) = 2) by (apply Rabs_pos_eq; lra).
      assert (XM : 48 * M + 274 * w <= 483 / 10 * M) by lra.
      assert (M1 : M * 1 <= M * M) by (apply Rmult_le_compat_l; lra).
      destruct (mul_lit_err fa 2 (2406 / 100 * M) Ffa Bfa) as [Fm Em]; [lia|rewrite A2; lra|].
      fold fm in Fm, Em. rewrite A2 in Em. replace (uro * (2 * (2406 / 100 * M))) with (4812 / 100 * w) in Em by (unfold w; field).
      assert (E2 : Rabs (val fm - 2 * a) <= 274 * w).
      { apply Rabs_le_inv in Em. apply Rabs_le_inv in Ea. apply Rabs_le. lra. }
      split; [exact Fm|]. split; [exact E2|].
      assert (AA : Rabs (2 * a) = 2 * Rabs a) by (rewrite Rabs_mult, A2; reflexivity). split.
      - assert (Rabs (2 * a) <= Rabs (val fm) + 274 * w).
        { apply (abs_near (2 * a) (val fm)); [lra|]. rewrite <- Rabs_Ropp. replace (- (2 * a - val fm)) with (val fm - 2 * a) by ring. exact E2. }
        lra.
      - apply Rle_trans with (2 * Rabs a + 274 * w); [|lra]. apply (abs_near (val fm) (2 * a)); lra.
    Qed.

    Definition pm (sg : bool) (x y : float) : float := if sg then s_add x y else s_sub x y.
    Definition pmr (sg : bool) (x y : R) : R := if sg then x + y else x - y.

    Lemma root_ok (sg : bool) : 0 < val fD ->
      let r := s_div (pm sg (s_neg fb) (s_sqrt fD)) fm in
      fin r /\ forall t, 0 <= t <= 1 ->
        Rabs (val fm) * Rabs (val r - t) <= Rabs (pmr sg (- (2 * a * t + b)) (sqrt (val fD))) + 535 * w.
    Proof.
      intros HD r. destruct sizes3 as (H32 & H4 & Hw & Hw2 & HW2 & W0 & W00).
      destruct coeffs as (_ & [Ffb Eb] & _). destruct coeff_sizes as (_ & _ & _ & _ & Bfb & _).
      destruct disc_err as (FD & _ & BD). destruct den_ok as (Fm & Em & Bm & Bm2). destruct lead_ok as (L & Na & Hwa & _).
      pose proof uro_pos as U0. pose proof eta_uro as TU. pose proof eta_pos as T0. pose proof fmax_ge as FX.
      assert (M1 : M * 1 <= M * M) by (apply Rmult_le_compat_l; lra).
      set (Sh := sqrt (val fD)) in *. assert (S0 : 0 <= Sh) by apply sqrt_pos.
      assert (S1 : Sh <= 3412 / 100 * M).
      { apply Rsqr_incr_0; [|exact S0|lra]. unfold Rsqr, Sh. rewrite sqrt_def by lra. rewrite Rabs_pos_eq in BD by lra. lra. }
      destruct (sqrt_ok fD FD ltac:(lra)) as [Fq Eq]. fold Sh in Eq.
      assert (E1 : Rabs (val (s_sqrt fD) - Sh) <= 352 / 10 * w).
      { rewrite Eq. pose proof (rnd_err Sh) as Q. rewrite (Rabs_pos_eq Sh) in Q by exact S0.
        assert (uro * Sh <= uro * (3412 / 100 * M)) by (apply Rmult_le_compat_l; lra).
        replace (uro * (3412 / 100 * M)) with (3412 / 100 * w) in H by (unfold w; field). lra. }
      assert (B1' : Rabs (val (s_sqrt fD)) <= 3414 / 100 * M).
      { apply Rle_trans with (3412 / 100 * M + 352 / 10 * w); [|lra]. apply abs_near with Sh; [rewrite Rabs_pos_eq; lra|exact E1]. }
      assert (Fn : fin (s_neg fb)) by now apply neg_fin.
      assert (Bn : Rabs (val (s_neg fb)) <= 2406 / 100 * M) by (rewrite neg_val, Rabs_Ropp; exact Bfb).
      set (n := pm sg (s_neg fb) (s_sqrt fD)) in *.
      assert (N : fin n /\ Rabs (val n - pmr sg (- val fb) (val (s_sqrt fD))) <= 583 / 10 * w).
      { replace (583 / 10 * w) with (uro * (583 / 10 * M)) by (unfold w; field). unfold n, pm, pmr. rewrite <- neg_val. destruct sg.
        - apply add_err; try assumption; [|lra]. apply Rle_trans with (2406 / 100 * M + 3414 / 100 * M); [now apply abs_plus|lra].
        - apply sub_err; try assumption; [|lra]. apply Rle_trans with (2406 / 100 * M + 3414 / 100 * M); [now apply abs_minus|lra]. }
      destruct N as [FN EN].
      assert (BN : Rabs (val n) <= 584 / 10 * M).
      { apply Rle_trans with (582 / 10 * M + 583 / 10 * w); [|lra].
        apply abs_near with (pmr sg (- val fb) (val (s_sqrt fD))); [|exact EN]. rewrite <- neg_val.
        apply Rle_trans with (2406 / 100 * M + 3414 / 100 * M); [|lra].
        unfold pmr. destruct sg; [now apply abs_plus|now apply abs_minus]. }
      assert (Pm : 0 < Rabs (val fm)) by (apply Rlt_le_trans with (2 := Bm); apply Rmult_lt_0_compat; [lra|now apply Rabs_pos_lt]).
      assert (Nm : val fm <> 0) by (intros Z; rewrite Z, Rabs_R0 in Pm; lra).
      assert (FQ : Rabs (val n / val fm) <= fmax).
      { unfold Rdiv. rewrite Rabs_mult, Rabs_inv.
        apply Rle_trans with (584 / 10 * M * / (19 / 10 * Rabs a)).
        { apply Rmult_le_compat; [apply Rabs_pos|left; now apply Rinv_0_lt_compat|exact BN|].
          apply Rinv_le_contravar; [|exact Bm]. apply Rmult_lt_0_compat; [lra|now apply Rabs_pos_lt]. }
        assert (PA : 0 < Rabs a) by now apply Rabs_pos_lt.
        apply Rle_trans with (11 * lam).
        { apply Rmult_le_reg_r with (19 / 10 * Rabs a); [lra|]. rewrite Rmult_assoc, Rinv_l, Rmult_1_r by lra. lra. }
        apply Rle_trans with (/ uro).
        - apply Rmult_le_reg_r with uro; [exact U0|]. rewrite Rinv_l by lra.
          assert (0 <= lam * uro) by (apply Rmult_le_pos; lra). lra.
        - apply Rle_trans with (bpow radix2 fprec); [|apply bpow_prec_le_fmax].
          unfold uro. rewrite bpow_opp, Rinv_inv. lra. }
      destruct (div_ok n fm FN Nm FQ) as [Fr Er]. fold r in Fr, Er. split; [exact Fr|].
      pose proof (rnd_err (val n / val fm)) as RE. rewrite <- Er in RE.
      assert (RR : Rabs (val fm * val r - val n) <= 586 / 10 * w).
      { replace (val fm * val r - val n) with (val fm * (val r - val n / val fm)) by (field; exact Nm).
        rewrite Rabs_mult.
        apply Rle_trans with (Rabs (val fm) * (uro * Rabs (val n / val fm) + eta)); [apply Rmult_le_compat_l; lra|].
        replace (Rabs (val fm) * (uro * Rabs (val n / val fm) + eta))
          with (uro * (Rabs (val fm) * Rabs (val n / val fm)) + eta * Rabs (val fm)) by ring.
        rewrite <- Rabs_mult. replace (val fm * (val n / val fm)) with (val n) by (field; exact Nm).
        assert (uro * Rabs (val n) <= uro * (584 / 10 * M)) by (apply Rmult_le_compat_l; lra).
        assert (eta * Rabs (val fm) <= uro / 1024 * (483 / 10 * M)) by (apply Rmult_le_compat; lra).
        replace (uro * (584 / 10 * M)) with (584 / 10 * w) in H by (unfold w; field).
        replace (uro / 1024 * (483 / 10 * M)) with (483 / 10240 * w) in H0 by (unfold w; field). lra. }
      intros t Ht. rewrite <- Rabs_mult.
      assert (MU : - (274 * w) <= (val fm - 2 * a) * t <= 274 * w) by (apply mul_unit; [now apply Rabs_le_inv|exact Ht]).
      set (T := pmr sg (- (2 * a * t + b)) Sh) in *.
      replace (val fm * (val r - t)) with (T + (val fm * (val r - t) - T)) by ring.
      apply Rle_trans with (Rabs T + Rabs (val fm * (val r - t) - T)); [apply Rabs_triang|]. apply Rplus_le_compat_l.
      apply Rabs_le_inv in RR. apply Rabs_le_inv in EN. apply Rabs_le_inv in E1. apply Rabs_le_inv in Eb.
      apply Rabs_le. unfold T, pmr in *. destruct sg; lra.
    Qed.

    Let v := sqrt uro.
    Let slack0 := 65536 * (lam * lam) * (uro * v) * M.

    Lemma v_facts : 0 < v /\ v * v = uro /\ v <= / 45.
    Proof.
      pose proof uro_pos. pose proof uro_small.
      assert (V0 : 0 < v) by now apply sqrt_lt_R0.
      assert (V2 : v * v = uro) by (apply sqrt_def; lra).
      split; [exact V0|]. split; [exact V2|]. apply Rsqr_incr_0; [unfold Rsqr; lra|lra|lra].
    Qed.

    Lemma scale B : B * (a * a) <= 589824 * (v * v * v) * (M * M * M) -> B <= slack0.
    Proof.
      intros H. destruct v_facts as (V0 & V2 & _). destruct lead_ok as (L & Na & _).
      assert (A2 : 0 < a * a) by now apply Rsqr_pos_lt.
      apply Rmult_le_reg_r with (a * a); [exact A2|]. apply Rle_trans with (1 := H).
      assert (AA : Rabs a * Rabs a = a * a) by (rewrite <- Rabs_mult; apply Rabs_pos_eq; lra).
      assert (K : 3 * M * (3 * M) <= lam * Rabs a * (lam * Rabs a)) by (apply Rmult_le_compat; lra).
      replace (lam * Rabs a * (lam * Rabs a)) with (lam * lam * (a * a)) in K by (rewrite <- AA; ring).
      unfold slack0. rewrite <- V2.
      replace (589824 * (v * v * v) * (M * M * M)) with (65536 * (v * v * v) * M * (3 * M * (3 * M))) by ring.
      replace (65536 * (lam * lam) * (v * v * v) * M * (a * a)) with (65536 * (v * v * v) * M * (lam * lam * (a * a))) by ring.
      apply Rmult_le_compat_l; [|exact K]. repeat apply Rmult_le_pos; lra.
    Qed.

    Let X t := val s + c * t + b / 2 * (t * t) + a / 3 * (t * t * t).
    Lemma X_poly t : bezier_poly [val s; val k1; val k2; val e] t = X t.
    Proof. rewrite poly3. unfold X, a, b, c. field. Qed.

    Lemma disc_square : 111 * v * M * (111 * v * M) = 12321 * W.
    Proof. destruct v_facts as (_ & V2 & _). unfold W. rewrite <- V2. ring. Qed.
    Lemma cubes : 111 * v * M * (111 * v * M) * (111 * v * M) = 1367631 * (v * v * v) * (M * M * M).
    Proof. ring. Qed.

    Lemma cubic_axis_box (l : list float) : quad_real_roots fa fb d0 = Ret l ->
      (forall t, fin t -> 0 <= val t <= 1 -> fin (cubic_at s k1 k2 e t) /\
         Rabs (val (cubic_at s k1 k2 e t) - bezier_poly [val s; val k1; val k2; val e] (val t)) <= 16 * uro * M + 4 * eta) ->
      exists lo hi, box_of (map (cubic_at s k1 k2 e) (filter in_unit l) ++ [s; e]) = Ret (lo, hi) /\
        holds_axis lo hi (bezier_poly [val s; val k1; val k2; val e]) (16 * uro * M + 4 * eta + slack0) /\
        tight_axis lo hi (bezier_poly [val s; val k1; val k2; val e]) (16 * uro * M + 4 * eta).
    Proof.
      intros Hl Hev. pose proof uro_pos as U0. pose proof eta_pos as T0.
      destruct v_facts as (V0 & V2 & V45). destruct lead_ok as (L & Na & Hwa & Hfa).
      destruct coeffs as ([Ffa _] & _). destruct disc_err as (FD & ED & _). destruct coeff_sizes as (Ba & Bb & Bc & _).
      assert (Pv : 0 < v * v * v) by (repeat apply Rmult_lt_0_compat; assumption).
      assert (PM : 0 < M * M * M) by (repeat apply Rmult_lt_0_compat; assumption).
      assert (Z0 : 0 <= slack0) by (unfold slack0; repeat apply Rmult_le_pos; lra).
      set (dd := 16 * uro * M + 4 * eta) in *.
      assert (Dd : 0 <= dd) by (unfold dd; assert (0 <= 16 * uro * M) by (repeat apply Rmult_le_pos; lra); lra).
      assert (Fl : forall z, In z (map (cubic_at s k1 k2 e) (filter in_unit l) ++ [s; e]) -> fin z).
      { intros z Hz. apply in_app_or in Hz as [Hz|Hz].
        - apply in_map_iff in Hz as (t & <- & Ht). apply filter_In in Ht as [_ Ht].
          destruct (in_unit_fin t Ht) as [Ft Vt]. apply Hev; [exact Ft|lra].
        - destruct Hz as [<-|[<-|[]]]; assumption. }
      destruct (box_fin _ (tail_len (cubic_at s k1 k2 e) (filter in_unit l) s e) Fl) as (lo & hi & Eb' & Ilo & Ihi & Hin).
      exists lo, hi. split; [exact Eb'|].
      assert (X0 : X 0 = val s) by (unfold X; ring). assert (X1 : X 1 = val e) by (unfold X, a, b, c; field).
      assert (Is : val lo <= X 0 <= val hi) by (rewrite X0; apply Hin, in_or_app; right; left; reflexivity).
      assert (Ie : val lo <= X 1 <= val hi) by (rewrite X1; apply Hin, in_or_app; right; right; left; reflexivity).
      split.
      - split; [auto|]. split; [auto|].
        (* at critical points *)
        assert (C : forall t, 0 <= t <= 1 -> a * (t * t) + b * t + c = 0 ->
          val lo - (dd + slack0) <= X t <= val hi + (dd + slack0)).
        { intros t Ht Hp. pose proof (crit_disc a b c t Hp) as HS. set (S := 2 * a * t + b) in *.
          unfold quad_real_roots in Hl. rewrite ltb_val in Hl; [|now apply abs_fin|apply eps_ok].
          rewrite abs_val, (proj2 eps_ok), Rlt_bool_false in Hl by exact Hfa. cbv zeta in Hl. fold fD fm in Hl.
          destruct (lit_small 0) as [L0 V0']; [lia|]. rewrite ltb_val in Hl by assumption. rewrite V0' in Hl.
          rewrite <- HS in ED.
          destruct (Rlt_bool_spec 0 (val fD)) as [HD|HD].
          - rewrite av_push_lt in Hl by (cbn; lia). cbn [bind app] in Hl. rewrite av_push_lt in Hl by (cbn; lia).
            cbn [app] in Hl. injection Hl as <-.
            set (sg := if Rle_dec 0 S then true else false).
            destruct (root_ok sg HD) as [Fr Er]. set (r := s_div (pm sg (s_neg fb) (s_sqrt fD)) fm) in *.
            specialize (Er t Ht). fold S in Er.
            assert (Sg : Rabs (pmr sg (- S) (sqrt (val fD))) = Rabs (Rabs S - sqrt (val fD))).
            { unfold sg, pmr. destruct (Rle_dec 0 S) as [S0|S0].
              - rewrite (Rabs_pos_eq S) by exact S0. rewrite <- Rabs_Ropp. f_equal. ring.
              - rewrite (Rabs_left S) by lra. f_equal. }
            rewrite Sg in Er. destruct den_ok as (_ & _ & Bm & _).
            assert (HE : Rabs (S * S - sqrt (val fD) * sqrt (val fD)) <= 111 * v * M * (111 * v * M)).
            { rewrite sqrt_def by lra. rewrite disc_square, <- Rabs_Ropp. replace (- (S * S - val fD)) with (val fD - S * S) by ring. exact ED. }
            pose proof (near_root a S (sqrt (val fD)) (535 * w) (111 * v * M) (Rabs (val r - t)) (val fm) Na (sqrt_pos _)) as NR.
            assert (Kw : 535 * w = 535 * (v * v) * M) by (unfold w; rewrite V2; ring).
            assert (VM : 0 < v * M) by (now apply Rmult_lt_0_compat).
            assert (Kw2 : 535 * w <= 12 * (v * M)).
            { rewrite Kw. replace (535 * (v * v) * M) with (535 * v * (v * M)) by ring. apply Rmult_le_compat_r; lra. }
            assert (Kw0 : 0 <= 535 * w) by (rewrite Kw; repeat apply Rmult_le_pos; lra).
            specialize (NR ltac:(lra) Kw0 (Rabs_pos _) HE Er Bm).
            assert (BS : Rabs S <= 34 * M).
            { apply Rsqr_incr_0; [|apply Rabs_pos|lra]. unfold Rsqr. rewrite <- Rabs_mult, HS.
              apply Rle_trans with (24 * M * (24 * M) + 4 * (24 * M) * (6 * M)).
              - apply abs_minus; [now apply abs_prod|]. replace (4 * a * c) with (4 * a * c) by ring.
                apply abs_prod; [|exact Bc]. rewrite Rabs_mult, (Rabs_pos_eq 4) by lra. lra.
              - assert (0 <= M * M) by (apply Rmult_le_pos; lra). lra. }
            assert (G : Rabs S / 2 * (Rabs (val r - t) * Rabs (val r - t)) +
              Rabs a / 3 * (Rabs (val r - t) * Rabs (val r - t) * Rabs (val r - t)) <= slack0).
            { apply scale. apply Rle_trans with (1 := NR).
              assert (Q1 : Rabs S * (535 * w * (535 * w)) <= 216300 * (v * v * v) * (M * M * M)).
              { apply Rle_trans with (34 * M * (535 * w * (535 * w))); [apply Rmult_le_compat_r; [now apply Rmult_le_pos|exact BS]|].
                rewrite Kw. replace (34 * M * (535 * (v * v) * M * (535 * (v * v) * M))) with (9731650 * v * ((v * v * v) * (M * M * M))) by ring.
                replace (216300 * (v * v * v) * (M * M * M)) with (216300 * ((v * v * v) * (M * M * M))) by ring.
                apply Rmult_le_compat_r; [apply Rmult_le_pos; lra|lra]. }
              assert (Q2 : (111 * v * M + 535 * w) * (111 * v * M + 535 * w) * (111 * v * M + 535 * w)
                <= 1860867 * (v * v * v) * (M * M * M)).
              { assert (Q3 : 111 * v * M + 535 * w <= 123 * (v * M)) by lra.
                assert (Q4 : 0 <= 111 * v * M + 535 * w) by lra.
                replace (1860867 * (v * v * v) * (M * M * M)) with (123 * (v * M) * (123 * (v * M)) * (123 * (v * M))) by ring.
                apply Rmult_le_compat; try assumption; [now apply Rmult_le_pos|]. apply Rmult_le_compat; assumption. }
              rewrite cubes. assert (Q5 : 0 < v * v * v * (M * M * M)) by now apply Rmult_lt_0_compat. lra. }
            (* the root, or the end it was clamped to *)
            assert (K : forall q, Rabs (q - t) <= Rabs (val r - t) -> val lo - dd <= X q <= val hi + dd ->
              val lo - (dd + slack0) <= X t <= val hi + (dd + slack0)).
            { intros q Hq HX. pose proof (gap_le (val s) a b c q t _ Hp Hq) as GL. fold S in GL.
              assert (GL' : Rabs (X q - X t) <= slack0) by (eapply Rle_trans; [exact GL|exact G]).
              apply Rabs_le_inv in GL'. lra. }
            destruct (Rle_or_lt (val r) 0) as [R0|R0]; [|destruct (Rle_or_lt 1 (val r)) as [R1|R1]].
            + apply (K 0); [|lra]. rewrite !Rabs_left1 by lra. lra.
            + apply (K 1); [|lra]. rewrite !Rabs_pos_eq by lra. lra.
            + apply (K (val r)); [lra|].
              assert (I : in_unit r = true).
              { unfold in_unit. destruct (lit_small 1) as [A1 B1']; [lia|].
                rewrite !ltb_val by assumption. rewrite V0', B1'. rewrite !Rlt_bool_true by assumption. reflexivity. }
              assert (Ir : In r [s_div (s_sub (s_neg fb) (s_sqrt fD)) fm; s_div (s_add (s_neg fb) (s_sqrt fD)) fm]).
              { unfold r, pm. destruct sg; [right; left|left]; reflexivity. }
              assert (Hr : val lo <= val (cubic_at s k1 k2 e r) <= val hi).
              { apply Hin, in_or_app. left. apply in_map. apply filter_In. split; [exact Ir|exact I]. }
              destruct (Hev r Fr) as [_ Ev]; [lra|]. rewrite X_poly in Ev. apply Rabs_le_inv in Ev. lra.
          - assert (BS : Rabs S <= 111 * v * M).
            { apply Rsqr_incr_0; [|apply Rabs_pos|repeat apply Rmult_le_pos; lra]. unfold Rsqr. rewrite disc_square, <- Rabs_mult.
              rewrite (Rabs_pos_eq (S * S)) by apply Rle_0_sqr. apply Rabs_le_inv in ED. lra. }
            assert (P0 : 0 <= 111 * v * M) by (repeat apply Rmult_le_pos; lra).
            assert (A2 : 0 < a * a) by now apply Rsqr_pos_lt.
            assert (G : 111 * v * M * (111 * v * M) * (111 * v * M) / (6 * (a * a)) <= slack0).
            { apply scale. replace (111 * v * M * (111 * v * M) * (111 * v * M) / (6 * (a * a)) * (a * a))
                with (111 * v * M * (111 * v * M) * (111 * v * M) / 6) by (field; exact Na).
              rewrite cubes. assert (Q5 : 0 < v * v * v * (M * M * M)) by now apply Rmult_lt_0_compat. lra. }
            pose proof (flat_crit (val s) a b c t _ Ht Hp Na P0 BS) as FC.
            assert (Hp' : - a * (t * t) + - b * t + - c = 0) by lra.
            assert (BS' : Rabs (2 * - a * t + - b) <= 111 * v * M).
            { replace (2 * - a * t + - b) with (- S) by (unfold S; ring). now rewrite Rabs_Ropp. }
            assert (Na' : - a <> 0) by lra.
            pose proof (flat_crit (- val s) (- a) (- b) (- c) t _ Ht Hp' Na' P0 BS') as FC'.
            replace (- a * - a) with (a * a) in FC' by ring.
            assert (NX : forall q, - val s + - c * q + - b / 2 * (q * q) + - a / 3 * (q * q * q) = - X q) by (intros; unfold X; field).
            rewrite !NX in FC'. change (X 0 <= X t + 111 * v * M * (111 * v * M) * (111 * v * M) / (6 * (a * a)) \/
              X 1 <= X t + 111 * v * M * (111 * v * M) * (111 * v * M) / (6 * (a * a))) in FC. split.
            + destruct FC as [FC|FC]; lra.
            + destruct FC' as [FC'|FC']; lra. }
        intros t Ht. rewrite X_poly. split.
        + destruct (crit_min (val s) a b c t Ht) as (m & Hm & Hle & Cm). change (X m <= X t) in Hle.
          destruct Cm as [-> |[-> |Cm]]; [lra|lra|]. pose proof (C m Hm Cm). lra.
        + destruct (crit_min (- val s) (- a) (- b) (- c) t Ht) as (m & Hm & Hle & Cm).
          assert (NX : forall q, - val s + - c * q + - b / 2 * (q * q) + - a / 3 * (q * q * q) = - X q) by (intros; unfold X; field).
          rewrite !NX in Hle.
          destruct Cm as [-> |[-> |Cm]]; [lra|lra|].
          assert (Cm' : a * (m * m) + b * m + c = 0) by lra. pose proof (C m Hm Cm'). lra.
      - assert (G : forall z, In z (map (cubic_at s k1 k2 e) (filter in_unit l) ++ [s; e]) ->
          exists t, 0 <= t <= 1 /\ Rabs (val z - bezier_poly [val s; val k1; val k2; val e] t) <= dd).
        { intros z Hz. apply in_app_or in Hz as [Hz|Hz].
          - apply in_map_iff in Hz as (t & <- & Ht). apply filter_In in Ht as [_ Ht].
            destruct (in_unit_fin t Ht) as [Ft Vt]. exists (val t). split; [lra|]. apply Hev; [exact Ft|lra].
          - destruct Hz as [<-|[<-|[]]]; [exists 0|exists 1]; (split; [lra|]); rewrite X_poly, ?X0, ?X1;
              unfold Rminus; rewrite Rplus_opp_r, Rabs_R0; exact Dd. }
        split; apply G; assumption.
    Qed.
  End Axis.
End Cub.

Section CubicBox.
  Context {F : Format} {P : Type} {PT : Point float P} {CP : CwPoint float P}.

  Theorem cubic_box_float (q : cubic P) M lam : 1 <= M -> 2048 * (M * M) <= fmax -> 2048 * lam * uro <= 1 ->
    bounded M (c_start q) -> bounded M (c_ctrl1 q) -> bounded M (c_ctrl2 q) -> bounded M (c_end q) ->
    (forall i, (i < p_dim (P := P))%nat ->
       M <= lam * Rabs (val (cw (c_end q) i) - 3 * val (cw (c_ctrl2 q) i) + 3 * val (cw (c_ctrl1 q) i) - val (cw (c_start q) i))) ->
    exists bounds, cubic_bounding_box q = Ret bounds /\ length bounds = p_dim (P := P) /\
      encloses (p_dim (P := P)) bounds (fun i =>
        bezier_poly [val (cw (c_start q) i); val (cw (c_ctrl1 q) i); val (cw (c_ctrl2 q) i); val (cw (c_end q) i)])
        (16 * uro * M + 4 * eta + 65536 * (lam * lam) * (uro * sqrt uro) * M) (16 * uro * M + 4 * eta).
  Proof.
    intros HM HO Hlu Bs B1 B2 Be Hl.
    pose proof uro_pos as U0. pose proof eta_uro as TU. pose proof eta_pos.
    assert (M1 : 1 * 1 <= M * M) by (apply Rmult_le_compat; lra).
    assert (M2 : M * 1 <= M * M) by (apply Rmult_le_compat_l; lra).
    assert (HU : eta <= uro * (M * M)).
    { assert (uro * 1 <= uro * (M * M)) by (apply Rmult_le_compat_l; lra). lra. }
    assert (H4 : 4 * M <= fmax) by lra.
    assert (A : forall i, (i < p_dim (P := P))%nat -> exists lo hi, cubic_bbox_axis q i = Ret (lo, hi) /\
      holds_axis lo hi (bezier_poly [val (cw (c_start q) i); val (cw (c_ctrl1 q) i); val (cw (c_ctrl2 q) i); val (cw (c_end q) i)])
        (16 * uro * M + 4 * eta + 65536 * (lam * lam) * (uro * sqrt uro) * M) /\
      tight_axis lo hi (bezier_poly [val (cw (c_start q) i); val (cw (c_ctrl1 q) i); val (cw (c_ctrl2 q) i); val (cw (c_end q) i)])
        (16 * uro * M + 4 * eta)).
    { intros i Hi. destruct (cubic_bbox_axis_roots q i Hi) as (l & El & ->).
      destruct (Bs i Hi) as [Fs Vs], (B1 i Hi) as [F1 V1], (B2 i Hi) as [F2 V2], (Be i Hi) as [Fe Ve].
      apply cubic_axis_box; try assumption; [lra| |].
      - specialize (Hl i Hi). rewrite Rabs_mult, (Rabs_pos_eq 3) by lra.
        replace (lam * (3 * Rabs (val (cw (c_end q) i) - 3 * val (cw (c_ctrl2 q) i) + 3 * val (cw (c_ctrl1 q) i) - val (cw (c_start q) i))))
          with (3 * (lam * Rabs (val (cw (c_end q) i) - 3 * val (cw (c_ctrl2 q) i) + 3 * val (cw (c_ctrl1 q) i) - val (cw (c_start q) i)))) by ring.
        lra.
      - intros t Ft Ht.
        assert (HM0 : 0 <= M) by lra.
        pose proof (cubic_casteljau_err M HM0 H4 q t i Hi Ft Ht (Bs i Hi) (B1 i Hi) (B2 i Hi) (Be i Hi)) as Q.
        unfold cubic_eval_casteljau in Q. rewrite !cw_mixg in Q by exact Hi. exact Q. }
    destruct (fill_ret (cubic_bbox_axis q) (repeat (s_lit 0, s_lit 0) (p_dim (P := P))) (p_dim (P := P)))
      as (bs & E & L & N).
    - apply len_init.
    - intros i Hi. destruct (A i Hi) as (lo & hi & -> & _). eauto.
    - exists bs. rewrite cubic_box_fill. split; [exact E|]. rewrite repeat_length in L. split; [exact L|].
      intros i Hi. destruct (A i Hi) as (lo & hi & E1 & H1 & T). destruct (N i Hi) as (z & E2 & E3).
      rewrite E1 in E2. injection E2 as <-. exists lo, hi. auto.
  Qed.
End CubicBox.
