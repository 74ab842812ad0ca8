(** Bounding boxes of quadratics in floating point: the curve is inside up to rounding. *)
From Coq Require Import Reals ZArith List Arith Lia Lra Psatz Bool.
From Flocq Require Import Core.Core IEEE754.BinarySingleNaN.
From Verif Require Import Base.Outcome Base.Scalar Model.Point Model.Line Model.Quadratic Proofs.OutcomeFacts
  Inst.FloatInst Spec.Bernstein Spec.Rounding Spec.Componentwise Spec.FloatPoints Spec.FloatBoxes
  Proofs.FloatFacts Proofs.FloatEval Proofs.FloatBound Proofs.FloatNear Proofs.ExactEval Proofs.BoxGeneric Proofs.FloatBox.
Import ListNotations.
Local Open Scope R_scope.

(** ** Parabolas over [0,1] *)
Section Parabola.
  Variables s k e : R.
  Let a := 2 * (s - 2 * k + e).
  Let b := 2 * (k - s).
  Let x t := (1 - t) * (1 - t) * s + 2 * t * (1 - t) * k + t * t * e.
  Variables lo hi : R.
  Hypotheses (Hs : lo <= s <= hi) (He : lo <= e <= hi).

  Lemma chord_in t : 0 <= t <= 1 -> lo <= (1 - t) * s + t * e <= hi.
  Proof. intros Ht. split; nra. Qed.
  Lemma x_chord t : x t = (1 - t) * s + t * e - a / 2 * (t * (1 - t)).
  Proof. unfold x, a. field. Qed.
  Lemma tt4 t : 0 <= t <= 1 -> 0 <= t * (1 - t) <= / 4.
  Proof. intros Ht. pose proof (Rle_0_sqr (t - / 2)) as Q. unfold Rsqr in Q. split; nra. Qed.

  Lemma flat_in A t : 0 <= t <= 1 -> Rabs a <= A -> lo - A / 8 <= x t <= hi + A / 8.
  Proof.
    intros Ht Ha. pose proof (chord_in t Ht). pose proof (tt4 t Ht). rewrite x_chord.
    apply Rabs_le_inv in Ha. split; nra.
  Qed.
  Lemma vertex_in r rho d t : 0 <= t <= 1 -> 0 <= r <= 1 -> 0 <= rho -> 0 <= d ->
    Rabs (b + a * r) <= rho -> lo - d <= x r <= hi + d -> lo - (d + rho) <= x t <= hi + (d + rho).
  Proof.
    intros Ht Hr Hp Hd Hb Hx. pose proof (chord_in t Ht). pose proof (tt4 t Ht). apply Rabs_le_inv in Hb.
    assert (E : x t = x r + (b + a * r) * (t - r) + a / 2 * ((t - r) * (t - r))) by (unfold x, a, b; field).
    assert (Q : 0 <= (t - r) * (t - r)) by apply Rle_0_sqr.
    assert (L : - rho <= (b + a * r) * (t - r) <= rho) by (split; nra).
    pose proof (x_chord t) as C. destruct (Rle_or_lt 0 a).
    - assert (0 <= a / 2 * (t * (1 - t))) by (apply Rmult_le_pos; lra).
      assert (0 <= a / 2 * ((t - r) * (t - r))) by (apply Rmult_le_pos; lra). lra.
    - assert (0 <= - a / 2 * (t * (1 - t))) by (apply Rmult_le_pos; lra).
      assert (0 <= - a / 2 * ((t - r) * (t - r))) by (apply Rmult_le_pos; lra). lra.
  Qed.
  Lemma left_in rho t : 0 <= t <= 1 -> 0 <= rho -> (0 <= a -> - rho <= b) -> (a <= 0 -> b <= rho) ->
    lo - rho <= x t <= hi + rho.
  Proof.
    intros Ht Hp H1 H2. pose proof (chord_in t Ht). pose proof (tt4 t Ht). pose proof (x_chord t) as C.
    assert (E : x t = s + b * t + a / 2 * (t * t)) by (unfold x, a, b; field).
    assert (0 <= t * t) by nra. destruct (Rle_or_lt 0 a).
    - assert (0 <= a / 2 * (t * (1 - t))) by (apply Rmult_le_pos; lra).
      assert (0 <= a / 2 * (t * t)) by (apply Rmult_le_pos; lra).
      assert (- rho <= b * t) by nra. lra.
    - assert (0 <= - a / 2 * (t * (1 - t))) by (apply Rmult_le_pos; lra).
      assert (0 <= - a / 2 * (t * t)) by (apply Rmult_le_pos; lra).
      assert (b * t <= rho) by nra. lra.
  Qed.
  Lemma right_in rho t : 0 <= t <= 1 -> 0 <= rho -> (0 <= a -> a + b <= rho) -> (a <= 0 -> - rho <= a + b) ->
    lo - rho <= x t <= hi + rho.
  Proof.
    intros Ht Hp H1 H2. pose proof (chord_in t Ht). pose proof (tt4 t Ht). pose proof (x_chord t) as C.
    assert (E : x t = e - (a + b) * (1 - t) + a / 2 * ((1 - t) * (1 - t))) by (unfold x, a, b; field).
    assert (0 <= (1 - t) * (1 - t)) by nra. destruct (Rle_or_lt 0 a).
    - assert (0 <= a / 2 * (t * (1 - t))) by (apply Rmult_le_pos; lra).
      assert (0 <= a / 2 * ((1 - t) * (1 - t))) by (apply Rmult_le_pos; lra).
      assert ((a + b) * (1 - t) <= rho) by nra. lra.
    - assert (0 <= - a / 2 * (t * (1 - t))) by (apply Rmult_le_pos; lra).
      assert (0 <= - a / 2 * ((1 - t) * (1 - t))) by (apply Rmult_le_pos; lra).
      assert (- rho <= (a + b) * (1 - t)) by nra. lra.
  Qed.
End Parabola.

Section Lists.
  Context {F : Format}.

  (** the box of finite values *)
  Lemma box_fin (vs : list float) : (2 <= length vs)%nat -> (forall x, In x vs -> fin x) ->
    exists lo hi, box_of vs = Ret (lo, hi) /\ In lo vs /\ In hi vs /\
      forall x, In x vs -> val lo <= val x <= val hi.
  Proof.
    intros L Hf. assert (N : existsb s_is_nan vs = false).
    { destruct (existsb s_is_nan vs) eqn:N; [|reflexivity]. apply existsb_exists in N as (x & Hx & Nx).
      rewrite fin_not_nan in Nx by auto. discriminate. }
    destruct (box_of_ok vs L N) as (lo & hi & E & _). exists lo, hi.
    destruct (box_of_spec vs (lo, hi) L E) as (H1 & H2 & H3). cbn [fst snd] in *.
    split; [exact E|]. split; [exact H1|]. split; [exact H2|]. intros x Hx.
    destruct (H3 x Hx) as (_ & A & B). rewrite leb_val in A, B by auto.
    split; [destruct (Rle_bool_spec (val lo) (val x)); [assumption|discriminate]
           |destruct (Rle_bool_spec (val x) (val hi)); [assumption|discriminate]].
  Qed.

  (** a coefficient: (y - x) * z for a small integer z *)
  Lemma diff_scaled (x y : float) (z : Z) M : fin x -> fin y -> Rabs (val x) <= M -> Rabs (val y) <= M ->
    (1 <= z <= 8)%Z -> 32 * M <= fmax ->
    fin (s_mul (s_sub y x) (s_lit z)) /\
    Rabs (val (s_mul (s_sub y x) (s_lit z)) - IZR z * (val y - val x)) <= (4 * IZR z + / 8) * (uro * M) + eta.
  Proof.
    intros Fx Fy Bx By Hz HM. pose proof uro_pos. pose proof uro_small. pose proof fmax_ge.
    assert (M0 : 0 <= M) by (apply Rle_trans with (2 := Bx), Rabs_pos).
    assert (D : Rabs (val y - val x) <= 2 * M).
    { unfold Rminus. eapply Rle_trans; [apply Rabs_triang|]. rewrite Rabs_Ropp. lra. }
    destruct (sub_ok y x Fy Fx) as [S1 S2]; [lra|].
    pose proof (rnd_sum_err (val y) (- val x) (val_float y) (float_opp _ (val_float x))) as SE.
    change (val y + - val x) with (val y - val x) in SE. rewrite <- S2 in SE.
    set (r := val (s_sub y x)) in *. set (d := val y - val x) in *.
    assert (SE' : Rabs (r - d) <= 2 * (uro * M)).
    { eapply Rle_trans; [exact SE|]. apply Rle_trans with (uro * (2 * M)); [apply Rmult_le_compat_l; lra|lra]. }
    assert (R3 : Rabs r <= 2 * M + 2 * (uro * M)).
    { replace r with (d + (r - d)) by ring. eapply Rle_trans; [apply Rabs_triang|]. lra. }
    assert (U1 : 0 <= uro * M) by (apply Rmult_le_pos; lra).
    assert (U2 : uro * M <= M / 2048) by (unfold Rdiv; rewrite (Rmult_comm M); apply Rmult_le_compat_r; lra).
    destruct (lit_small z) as [L1 L2]; [lia|].
    assert (Z1 : 1 <= IZR z <= 8) by (split; apply IZR_le; lia).
    assert (PR : Rabs (r * IZR z) <= IZR z * (2 * M + 2 * (uro * M))).
    { rewrite Rabs_mult, (Rabs_pos_eq (IZR z)) by lra. rewrite Rmult_comm. apply Rmult_le_compat_l; lra. }
    assert (ZM : IZR z * M <= 8 * M) by (apply Rmult_le_compat_r; lra).
    assert (ZU : IZR z * (uro * M) <= 8 * (uro * M)) by (apply Rmult_le_compat_r; lra).
    destruct (mul_ok (s_sub y x) (s_lit z) S1 L1) as [P1 P2].
    { fold r. rewrite L2. lra. }
    split; [exact P1|]. fold r in P2. rewrite L2 in P2. rewrite P2.
    pose proof (rnd_err (r * IZR z)) as RE.
    assert (UR : uro * Rabs (r * IZR z) <= 2 * (IZR z * (uro * M)) + uro * (2 * (8 * (uro * M)))).
    { apply Rle_trans with (uro * (IZR z * (2 * M + 2 * (uro * M)))); [apply Rmult_le_compat_l; lra|].
      replace (uro * (IZR z * (2 * M + 2 * (uro * M)))) with (2 * (IZR z * (uro * M)) + uro * (2 * (IZR z * (uro * M)))) by ring.
      apply Rplus_le_compat_l, Rmult_le_compat_l; lra. }
    assert (UR2 : uro * (2 * (8 * (uro * M))) <= / 8 * (uro * M)).
    { replace (uro * (2 * (8 * (uro * M)))) with (16 * uro * (uro * M)) by ring. apply Rmult_le_compat_r; lra. }
    replace (rnd (r * IZR z) - IZR z * d) with ((rnd (r * IZR z) - r * IZR z) + IZR z * (r - d)) by ring.
    eapply Rle_trans; [apply Rabs_triang|]. rewrite (Rabs_mult (IZR z)), (Rabs_pos_eq (IZR z)) by lra.
    assert (IZR z * Rabs (r - d) <= IZR z * (2 * (uro * M))) by (apply Rmult_le_compat_l; lra).
    lra.
  Qed.
End Lists.

Lemma sign_far (a a' : R) : a * a' <= 0 -> Rabs a <= Rabs (a' - a).
Proof.
  intros H. apply Rsqr_le_abs_0. unfold Rsqr. pose proof (Rle_0_sqr a') as Q. unfold Rsqr in Q.
  replace ((a' - a) * (a' - a)) with (a' * a' - 2 * (a * a') + a * a) by ring. lra.
Qed.
Lemma same_sign (a a' : R) : 0 < a * a' -> 0 < a /\ 0 < a' \/ a < 0 /\ a' < 0.
Proof.
  intros H. destruct (Rtotal_order a 0) as [N|[->|N]]; [right|lra|left]; (split; [assumption|]).
  - apply Rnot_le_lt. intros C. nra.
  - apply Rnot_le_lt. intros C. nra.
Qed.
Lemma mul_unit (x r c : R) : - c <= x <= c -> 0 <= r <= 1 -> - c <= x * r <= c.
Proof. intros H Hr. split; nra. Qed.

Section Quad.
  Context {F : Format} {P : Type} {PT : Point float P} {CP : CwPoint float P}.
  Variable M : R.
  Hypotheses (HM : 0 <= M) (HB : 4 * M <= uro * fmax).

  Lemma sizes_ok : 32 * M <= fmax /\ 4 * M <= fmax.
  Proof.
    pose proof uro_small. pose proof uro_pos. pose proof fmax_ge.
    assert (uro * fmax <= / 2048 * fmax) by (apply Rmult_le_compat_r; lra). lra.
  Qed.

  (** one axis *)
  Lemma quad_axis_box (s k e : float) (l : list float) :
    let d0 := s_mul (s_sub k s) (s_lit 2) in let d1 := s_mul (s_sub e k) (s_lit 2) in
    fin s -> fin k -> fin e -> Rabs (val s) <= M -> Rabs (val k) <= M -> Rabs (val e) <= M ->
    line_root (s_add (s_mul d0 (s_lit (-1))) d1) d0 = Ret l ->
    (forall t, fin t -> 0 <= val t <= 1 -> fin (quad_at s k e t) /\
       Rabs (val (quad_at s k e t) - bezier_poly [val s; val k; val e] (val t)) <= 11 * uro * M + 3 * eta) ->
    exists lo hi, box_of (map (quad_at s k e) (filter in_unit l) ++ [s; e]) = Ret (lo, hi) /\
      holds_axis lo hi (bezier_poly [val s; val k; val e]) (uro / 4 + 54 * uro * M + 9 * eta) /\
      tight_axis lo hi (bezier_poly [val s; val k; val e]) (11 * uro * M + 3 * eta).
  Proof.
    intros d0 d1 Fs Fk Fe Bs Bk Be Hl Hev.
    pose proof uro_pos as U0. pose proof uro_small as U1. pose proof eta_pos as T0. pose proof eta_uro as T1.
    pose proof fmax_ge as X0. destruct sizes_ok as [H32 H4].
    assert (W0 : 0 <= uro * M) by (apply Rmult_le_pos; lra).
    assert (W1 : uro * M <= M / 2048) by (unfold Rdiv; rewrite (Rmult_comm M); apply Rmult_le_compat_r; lra).
    destruct (diff_scaled s k 2 M) as [Fd0 Ed0]; try assumption; [lia|].
    destruct (diff_scaled k e 2 M) as [Fd1 Ed1]; try assumption; [lia|].
    fold d0 in Fd0, Ed0. fold d1 in Fd1, Ed1.
    set (b := 2 * (val k - val s)) in *. set (b1 := 2 * (val e - val k)) in *.
    assert (Bb : Rabs b <= 4 * M).
    { unfold b. rewrite Rabs_mult, (Rabs_pos_eq 2) by lra. unfold Rminus.
      pose proof (Rabs_triang (val k) (- val s)) as Q. rewrite Rabs_Ropp in Q. lra. }
    assert (Bb1 : Rabs b1 <= 4 * M).
    { unfold b1. rewrite Rabs_mult, (Rabs_pos_eq 2) by lra. unfold Rminus.
      pose proof (Rabs_triang (val e) (- val k)) as Q. rewrite Rabs_Ropp in Q. lra. }
    set (b' := val d0) in *. set (b1' := val d1) in *.
    assert (Bb' : Rabs b' <= 4 * M + (9 * (uro * M) + eta)).
    { replace b' with (b + (b' - b)) by ring. eapply Rle_trans; [apply Rabs_triang|]. lra. }
    assert (Bb1' : Rabs b1' <= 4 * M + (9 * (uro * M) + eta)).
    { replace b1' with (b1 + (b1' - b1)) by ring. eapply Rle_trans; [apply Rabs_triang|]. lra. }
    (* the negated first coefficient is exact *)
    destruct (lit_small (-1)) as [Lm1 Lm2]; [lia|].
    destruct (mul_ok d0 (s_lit (-1)) Fd0 Lm1) as [Fn En].
    { rewrite Lm2. replace (val d0 * -1) with (- val d0) by ring. rewrite Rabs_Ropp. apply val_le_fmax. }
    rewrite Lm2 in En. replace (val d0 * -1) with (- val d0) in En by ring.
    rewrite (rnd_float (- val d0)) in En by apply float_opp, val_float. fold b' in En.
    assert (SS : Rabs (- b' + b1') <= 8 * M + (18 * (uro * M) + 2 * eta)).
    { eapply Rle_trans; [apply Rabs_triang|]. rewrite Rabs_Ropp. lra. }
    destruct (add_ok (s_mul d0 (s_lit (-1))) d1 Fn Fd1) as [Fa Ea].
    { rewrite En. fold b1'. lra. }
    rewrite En in Ea. fold b1' in Ea.
    pose proof (rnd_sum_err (- b') b1' (float_opp _ (val_float d0)) (val_float d1)) as SE. rewrite <- Ea in SE.
    set (fa := s_add (s_mul d0 (s_lit (-1))) d1) in *. set (a' := val fa) in *.
    set (a := 2 * (val s - 2 * val k + val e)).
    assert (US : uro * Rabs (- b' + b1') <= 8 * (uro * M) + / 64 * (uro * M) + / 512 * eta).
    { apply Rle_trans with (uro * (8 * M + (18 * (uro * M) + 2 * eta))); [apply Rmult_le_compat_l; lra|].
      replace (uro * (8 * M + (18 * (uro * M) + 2 * eta))) with (8 * (uro * M) + 18 * uro * (uro * M) + 2 * uro * eta) by ring.
      assert (18 * uro * (uro * M) <= / 64 * (uro * M)) by (apply Rmult_le_compat_r; lra).
      assert (2 * uro * eta <= / 512 * eta) by (apply Rmult_le_compat_r; lra). lra. }
    assert (Ea' : Rabs (a' - a) <= 49 / 2 * (uro * M) + 3 * eta).
    { replace (a' - a) with ((a' - (- b' + b1')) + (- (b' - b) + (b1' - b1))) by (unfold a, b, b1; ring).
      eapply Rle_trans; [apply Rabs_triang|].
      pose proof (Rabs_triang (- (b' - b)) (b1' - b1)) as Q. rewrite Rabs_Ropp in Q. lra. }
    assert (Ba' : Rabs a' <= 8 * M + (27 * (uro * M) + 3 * eta)).
    { replace a' with ((- b' + b1') + (a' - (- b' + b1'))) by ring. eapply Rle_trans; [apply Rabs_triang|]. lra. }
    (* the values compared *)
    assert (Fl : forall v, In v (map (quad_at s k e) (filter in_unit l) ++ [s; e]) -> fin v).
    { intros v Hv. apply in_app_or in Hv as [Hv|Hv].
      - apply in_map_iff in Hv as (t & <- & Ht). apply filter_In in Ht as [_ Ht].
        destruct (in_unit_fin t Ht) as [Ft Vt]. apply Hev; [exact Ft|lra].
      - destruct Hv as [<-|[<-|[]]]; assumption. }
    destruct (box_fin _ (tail_len (quad_at s k e) (filter in_unit l) s e) Fl) as (lo & hi & Eb & Ilo & Ihi & Hin).
    exists lo, hi. split; [exact Eb|].
    assert (Is : val lo <= val s <= val hi) by (apply Hin, in_or_app; right; left; reflexivity).
    assert (Ie : val lo <= val e <= val hi) by (apply Hin, in_or_app; right; right; left; reflexivity).
    split.
    - split; [auto|]. split; [auto|]. intros t Ht. rewrite poly2.
      assert (FL : Rabs a <= 2 * uro + (49 / 2 * (uro * M) + 3 * eta) ->
        val lo - (uro / 4 + 54 * uro * M + 9 * eta) <= (1 - t) * (1 - t) * val s + 2 * t * (1 - t) * val k + t * t * val e
        <= val hi + (uro / 4 + 54 * uro * M + 9 * eta)).
      { intros HA. pose proof (flat_in (val s) (val k) (val e) (val lo) (val hi) Is Ie _ t Ht HA). lra. }
      unfold line_root in Hl. rewrite ltb_val in Hl; [|now apply abs_fin|apply eps_ok].
      rewrite abs_val, (proj2 eps_ok) in Hl. fold a' in Hl.
      destruct (Rlt_bool_spec (Rabs a') (2 * uro)) as [Ha|Ha].
      { apply FL. replace a with (a' + - (a' - a)) by ring. eapply Rle_trans; [apply Rabs_triang|]. rewrite Rabs_Ropp. lra. }
      assert (N : a' <> 0) by (intros Z; rewrite Z, Rabs_R0 in Ha; lra).
      assert (Q : Rabs (- b' / a') <= fmax).
      { unfold Rdiv. rewrite Rabs_mult, Rabs_Ropp, Rabs_inv.
        assert (I : / Rabs a' <= / (2 * uro)) by (apply Rinv_le_contravar; lra).
        apply Rle_trans with ((4 * M + (9 * (uro * M) + eta)) * / (2 * uro)).
        - apply Rmult_le_compat; try lra; [apply Rabs_pos|]. left. apply Rinv_0_lt_compat, Rabs_pos_lt, N.
        - apply Rmult_le_reg_r with (2 * uro); [lra|]. rewrite Rmult_assoc, Rinv_l, Rmult_1_r by lra.
          assert (uro * 2048 <= uro * fmax) by (apply Rmult_le_compat_l; lra). lra. }
      rewrite av_push_lt in Hl by (cbn; lia). cbn [app] in Hl. injection Hl as <-.
      destruct (div_ok (s_neg d0) fa) as [Fr Er].
      { now apply neg_fin. }
      { exact N. }
      { rewrite neg_val. exact Q. }
      rewrite neg_val in Er. fold b' a' in Er. set (ft := s_div (s_neg d0) fa) in *. set (r := val ft) in *.
      pose proof (rnd_err (- b' / a')) as RE. rewrite <- Er in RE. set (q := - b' / a') in *.
      assert (Eq : a' * q = - b') by (unfold q; field; exact N).
      assert (Pa : 0 < Rabs a') by (apply Rabs_pos_lt, N).
      assert (UA : uro * Rabs a' <= 9 * (uro * M) + eta).
      { apply Rle_trans with (uro * (8 * M + (27 * (uro * M) + 3 * eta))); [apply Rmult_le_compat_l; lra|].
        assert (uro * (27 * (uro * M)) <= uro * M) by (replace (uro * (27 * (uro * M))) with (27 * uro * (uro * M)) by ring;
          rewrite <- (Rmult_1_l (uro * M)) at 2; apply Rmult_le_compat_r; lra).
        assert (uro * (3 * eta) <= eta) by (replace (uro * (3 * eta)) with (3 * uro * eta) by ring;
          rewrite <- (Rmult_1_l eta) at 2; apply Rmult_le_compat_r; lra). lra. }
      assert (TA : eta * Rabs a' <= / 1024 * (9 * (uro * M) + eta)).
      { apply Rle_trans with (/ 1024 * uro * Rabs a'); [apply Rmult_le_compat_r; lra|lra]. }
      (* the two signs of the leading coefficient disagree: it is tiny *)
      destruct (Rle_or_lt (a * a') 0) as [Hs|Hs].
      { apply FL. apply Rle_trans with (Rabs (a' - a)); [|lra]. now apply sign_far. }
      set (rho := 43 * (uro * M) + 6 * eta).
      assert (Rho : 0 <= rho) by (unfold rho; lra).
      assert (Ed : Rabs (b' - b) <= 9 * (uro * M) + eta) by lra.
      assert (Sg : 0 < a /\ 0 < a' \/ a < 0 /\ a' < 0) by now apply same_sign.
      (* residual at the root *)
      assert (Rs : Rabs (b' + a' * r) <= uro * Rabs b' + eta * Rabs a').
      { replace (b' + a' * r) with (a' * (r - q)) by (rewrite Rmult_minus_distr_l, Eq; ring).
        rewrite Rabs_mult. apply Rle_trans with (Rabs a' * (uro * Rabs q + eta)); [apply Rmult_le_compat_l; lra|].
        replace (Rabs a' * (uro * Rabs q + eta)) with (uro * (Rabs a' * Rabs q) + eta * Rabs a') by ring.
        rewrite <- Rabs_mult, Eq, Rabs_Ropp. lra. }
      assert (UB : uro * Rabs b' <= 5 * (uro * M) + eta).
      { apply Rle_trans with (uro * (4 * M + (9 * (uro * M) + eta))); [apply Rmult_le_compat_l; lra|].
        assert (uro * (9 * (uro * M)) <= uro * M) by (replace (uro * (9 * (uro * M))) with (9 * uro * (uro * M)) by ring;
          rewrite <- (Rmult_1_l (uro * M)) at 2; apply Rmult_le_compat_r; lra).
        assert (uro * eta <= eta) by (rewrite <- (Rmult_1_l eta) at 2; apply Rmult_le_compat_r; lra). lra. }
      apply Rabs_le_inv in Ed. apply Rabs_le_inv in Ea'. apply Rabs_le_inv in RE.
      destruct (Rle_or_lt r 0) as [R0|R0]; [|destruct (Rle_or_lt 1 r) as [R1|R1]].
      + (* root at or left of 0 *)
        assert (Q2 : q <= 2 * eta).
        { destruct (Rle_or_lt q 0); [lra|]. rewrite (Rabs_pos_eq q) in RE by lra.
          assert (uro * q <= / 2048 * q) by (apply Rmult_le_compat_r; lra). lra. }
        assert (H : val lo - rho <= (1 - t) * (1 - t) * val s + 2 * t * (1 - t) * val k + t * t * val e <= val hi + rho).
        { apply left_in; try assumption; fold a b; intros A0.
          - assert (A' : 0 < a') by (destruct Sg; lra). rewrite (Rabs_pos_eq a') in * by lra.
            assert (a' * q <= a' * (2 * eta)) by (apply Rmult_le_compat_l; lra). unfold rho. lra.
          - assert (A' : a' < 0) by (destruct Sg; lra). rewrite (Rabs_left a') in * by lra.
            assert (- a' * q <= - a' * (2 * eta)) by (apply Rmult_le_compat_l; lra). unfold rho. lra. }
        unfold rho in H. lra.
      + (* root at or right of 1 *)
        assert (Q2 : 1 - uro - eta <= q).
        { assert (0 < q). { apply Rnot_le_lt. intros C. rewrite Rabs_left1 in RE by exact C.
            assert (uro * - q <= 1 * - q) by (apply Rmult_le_compat_r; lra). lra. }
          rewrite (Rabs_pos_eq q) in RE by lra. destruct (Rle_or_lt 1 q); [lra|].
          assert (uro * q <= uro * 1) by (apply Rmult_le_compat_l; lra). lra. }
        assert (H : val lo - rho <= (1 - t) * (1 - t) * val s + 2 * t * (1 - t) * val k + t * t * val e <= val hi + rho).
        { apply right_in; try assumption; fold a b; intros A0.
          - assert (A' : 0 < a') by (destruct Sg; lra). rewrite (Rabs_pos_eq a') in * by lra.
            assert (a' * (1 - uro - eta) <= a' * q) by (apply Rmult_le_compat_l; lra). unfold rho. lra.
          - assert (A' : a' < 0) by (destruct Sg; lra). rewrite (Rabs_left a') in * by lra.
            assert (- a' * (1 - uro - eta) <= - a' * q) by (apply Rmult_le_compat_l; lra). unfold rho. lra. }
        unfold rho in H. lra.
      + (* root inside *)
        assert (I : in_unit ft = true).
        { unfold in_unit. destruct (lit_small 0) as [A0 B0]; [lia|]. destruct (lit_small 1) as [A1 B1]; [lia|].
          rewrite !ltb_val by assumption. rewrite B0, B1. fold r. rewrite !Rlt_bool_true by assumption. reflexivity. }
        assert (Ii : In ft (filter in_unit [ft])) by (apply filter_In; split; [left; reflexivity|exact I]).
        assert (V : val lo <= val (quad_at s k e ft) <= val hi) by (apply Hin, in_or_app; left; now apply in_map).
        destruct (Hev ft Fr) as [_ Ev]; [fold r; lra|]. fold r in Ev. rewrite poly2 in Ev. apply Rabs_le_inv in Ev.
        assert (Vx : Rabs (b + a * r) <= rho).
        { apply Rabs_le_inv in Rs. apply Rabs_le. unfold rho.
          pose proof (mul_unit (a' - a) r (49 / 2 * (uro * M) + 3 * eta) Ea' (conj (Rlt_le _ _ R0) (Rlt_le _ _ R1))) as MU. lra. }
        set (d := 11 * uro * M + 3 * eta) in *.
        assert (Hd : 0 <= d) by (unfold d; lra).
        assert (H : val lo - (d + rho) <= (1 - t) * (1 - t) * val s + 2 * t * (1 - t) * val k + t * t * val e <= val hi + (d + rho)).
        { apply (vertex_in (val s) (val k) (val e) (val lo) (val hi)) with (r := r); try assumption; lra. }
        unfold rho, d in H. lra.
    - assert (G : forall v, In v (map (quad_at s k e) (filter in_unit l) ++ [s; e]) ->
        exists t, 0 <= t <= 1 /\ Rabs (val v - bezier_poly [val s; val k; val e] t) <= 11 * uro * M + 3 * eta).
      { intros v Hv. apply in_app_or in Hv as [Hv|Hv].
        - apply in_map_iff in Hv as (t & <- & Ht). apply filter_In in Ht as [_ Ht].
          destruct (in_unit_fin t Ht) as [Ft Vt]. exists (val t). split; [lra|]. apply Hev; [exact Ft|lra].
        - assert (0 <= 11 * uro * M + 3 * eta) by lra.
          destruct Hv as [<-|[<-|[]]]; [exists 0|exists 1]; (split; [lra|]); rewrite poly2.
          + replace (val s - _) with 0 by ring. rewrite Rabs_R0. lra.
          + replace (val e - _) with 0 by ring. rewrite Rabs_R0. lra. }
      split; apply G; assumption.
  Qed.

  Definition quad_curve (q : quad P) (i : nat) : R -> R :=
    bezier_poly [val (cw (q_start q) i); val (cw (q_ctrl q) i); val (cw (q_end q) i)].

  Theorem quad_box_float (q : quad P) : bounded M (q_start q) -> bounded M (q_ctrl q) -> bounded M (q_end q) ->
    exists bounds, quad_bounding_box q = Ret bounds /\ length bounds = p_dim (P := P) /\
      encloses (p_dim (P := P)) bounds (fun i =>
        bezier_poly [val (cw (q_start q) i); val (cw (q_ctrl q) i); val (cw (q_end q) i)])
        (uro / 4 + 54 * uro * M + 9 * eta) (11 * uro * M + 3 * eta).
  Proof.
    intros Bs Bk Be.
    assert (A : forall i, (i < p_dim (P := P))%nat -> exists lo hi, quad_bbox_axis q i = Ret (lo, hi) /\
      holds_axis lo hi (quad_curve q i) (uro / 4 + 54 * uro * M + 9 * eta) /\
      tight_axis lo hi (quad_curve q i) (11 * uro * M + 3 * eta)).
    { intros i Hi. destruct (quad_bbox_axis_roots q i Hi) as (l & El & ->).
      destruct (Bs i Hi) as [Fs Vs], (Bk i Hi) as [Fk Vk], (Be i Hi) as [Fe Ve].
      apply quad_axis_box; try assumption.
      intros t Ft Ht. destruct sizes_ok as [_ H4].
      pose proof (quad_casteljau_err M HM H4 q t i Hi Ft Ht (Bs i Hi) (Bk i Hi) (Be i Hi)) as Q.
      unfold quad_eval_casteljau in Q. rewrite !cw_mixg in Q by exact Hi. exact Q. }
    destruct (fill_ret (quad_bbox_axis q) (repeat (s_lit 0, s_lit 0) (p_dim (P := P))) (p_dim (P := P)))
      as (bs & E & L & N).
    - apply len_init.
    - intros i Hi. destruct (A i Hi) as (lo & hi & -> & _). eauto.
    - exists bs. rewrite quad_box_fill. split; [exact E|]. rewrite repeat_length in L. split; [exact L|].
      intros i Hi. destruct (A i Hi) as (lo & hi & E1 & H & T). destruct (N i Hi) as (b & E2 & E3).
      rewrite E1 in E2. injection E2 as <-. exists lo, hi. auto.
  Qed.
End Quad.

Section LineBox.
  Context {F : Format} {P : Type} {PT : Point float P} {CP : CwPoint float P}.

  Theorem line_box_float (l : line P) : fin_point (l_start l) -> fin_point (l_end l) ->
    exists bounds, line_bounding_box l = Ret bounds /\ length bounds = p_dim (P := P) /\
      encloses (p_dim (P := P)) bounds (fun i => bezier_poly [val (cw (l_start l) i); val (cw (l_end l) i)]) 0 0.
  Proof.
    intros Fs Fe. set (f := fun i => let! s := p_axis (l_start l) i in let! e := p_axis (l_end l) i in
                     if s_ltb s e then Ret (s, e) else Ret (e, s)).
    destruct (fill_ret f (repeat (s_lit 0, s_lit 0) (p_dim (P := P))) (p_dim (P := P))) as (bs & E & L & N).
    - apply len_init.
    - intros i Hi. unfold f. rewrite !axis_in by exact Hi. cbn [bind]. destruct (s_ltb _ _); eauto.
    - exists bs. rewrite line_box_fill. split; [exact E|]. rewrite repeat_length in L. split; [exact L|].
      intros i Hi. destruct (N i Hi) as ([lo hi] & E2 & E3). exists lo, hi. split; [exact E3|].
      unfold f in E2. rewrite !axis_in in E2 by exact Hi. cbn [bind] in E2.
      specialize (Fs i Hi). specialize (Fe i Hi). rewrite ltb_val in E2 by assumption.
      set (s := cw (l_start l) i) in *. set (e := cw (l_end l) i) in *.
      assert (Q : forall t, bezier_poly [val s; val e] t = (1 - t) * val s + t * val e) by (intros; apply poly1).
      assert (Z : forall x, Rabs (x - x) <= 0) by (intros; unfold Rminus; rewrite Rplus_opp_r, Rabs_R0; lra).
      assert (Ts : Rabs (val s - bezier_poly [val s; val e] 0) <= 0)
        by (rewrite Q; replace ((1 - 0) * val s + 0 * val e) with (val s) by ring; apply Z).
      assert (Te : Rabs (val e - bezier_poly [val s; val e] 1) <= 0)
        by (rewrite Q; replace ((1 - 1) * val s + 1 * val e) with (val e) by ring; apply Z).
      destruct (Rlt_bool_spec (val s) (val e)) as [C|C]; injection E2 as <- <-.
      + split; [|split; [exists 0|exists 1]; (split; [lra|assumption])].
        split; [exact Fs|]. split; [exact Fe|]. intros t Ht. rewrite Q. split; nra.
      + split; [|split; [exists 1|exists 0]; (split; [lra|assumption])].
        split; [exact Fe|]. split; [exact Fs|]. intros t Ht. rewrite Q. split; nra.
  Qed.
End LineBox.
