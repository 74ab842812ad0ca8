(** Rounding facts about the IEEE instance, on top of Flocq. *)
From Coq Require Import Reals ZArith Bool Lia Lra.
From Flocq Require Import Core.Core IEEE754.BinarySingleNaN Relative Plus_error.
From Verif Require Import Base.Scalar Inst.FloatInst Spec.Rounding.
Local Open Scope R_scope.

Section Facts.
  Context {F : Format}.

  Definition fx : Z -> Z := SpecFloat.fexp fprec femax.
  Definition rnd (x : R) : R := round radix2 fx ZnearestE x.

  #[local] Instance fx_valid : Valid_exp fx := fexp_correct fprec femax _.
  #[local] Instance fx_mono : Monotone_exp fx := fexp_monotone fprec femax.

  Definition is_float (x : R) : Prop := generic_format radix2 fx x.

  Lemma val_float (x : float) : is_float (val x).
  Proof. apply generic_format_B2R. Qed.

  Lemma uro_pos : 0 < uro.
  Proof. apply bpow_gt_0. Qed.
  Lemma eta_pos : 0 < eta.
  Proof. apply bpow_gt_0. Qed.
  Lemma uro_small : uro <= / 2048.
  Proof.
    unfold uro. change (/ 2048) with (bpow radix2 (-11)).
    apply bpow_le. pose proof fprec_ge. lia.
  Qed.

  Lemma femax_ge : (12 <= femax)%Z.
  Proof. pose proof fprec_ge. pose proof femax_gt. lia. Qed.

  Lemma fmax_eq : fmax = (1 - uro) * bpow radix2 femax.
  Proof. unfold fmax, uro. unfold Z.sub. rewrite bpow_plus. ring. Qed.

  Lemma bemax_pos : 0 < bpow radix2 femax.
  Proof. apply bpow_gt_0. Qed.

  Lemma fmax_lt : fmax < bpow radix2 femax.
  Proof. unfold fmax. pose proof (bpow_gt_0 radix2 (femax - fprec)). lra. Qed.

  Lemma bemax_ge : 4096 <= bpow radix2 femax.
  Proof. change 4096 with (bpow radix2 12). apply bpow_le. apply femax_ge. Qed.

  Lemma fmax_ge : 2048 <= fmax.
  Proof.
    rewrite fmax_eq. pose proof uro_small. pose proof bemax_ge. pose proof uro_pos.
    apply Rle_trans with ((1 - / 2048) * 4096); [lra|].
    apply Rmult_le_compat; lra.
  Qed.

  Lemma fmax_float : is_float fmax.
  Proof.
    unfold fmax, is_float.
    assert (Hp := fprec_ge). assert (He := femax_gt).
    replace (bpow radix2 femax - bpow radix2 (femax - fprec))
      with (F2R (Float radix2 (2 ^ fprec - 1) (femax - fprec))).
    - apply generic_format_F2R. intros _.
      unfold cexp, fx, SpecFloat.fexp, SpecFloat.emin.
      assert (Hm : (mag radix2 (F2R (Float radix2 (2 ^ fprec - 1) (femax - fprec))) <= femax)%Z).
      { apply mag_le_bpow.
        - apply F2R_neq_0. cbn. pose proof (Z.pow_gt_1 2 fprec). lia.
        - rewrite Rabs_pos_eq.
          + apply Rlt_le_trans with (F2R (Float radix2 (2 ^ fprec) (femax - fprec))).
            * apply F2R_lt. lia.
            * unfold F2R; cbn [Fnum Fexp]. rewrite (IZR_Zpower radix2) by lia.
              rewrite <- bpow_plus. apply bpow_le. lia.
          + apply F2R_ge_0. cbn. pose proof (Z.pow_gt_1 2 fprec). lia. }
      lia.
    - unfold F2R; cbn [Fnum Fexp]. rewrite minus_IZR, (IZR_Zpower radix2) by lia.
      rewrite Rmult_minus_distr_r, <- bpow_plus, Rmult_1_l.
      now replace (fprec + (femax - fprec))%Z with femax by lia.
  Qed.

  Lemma val_le_fmax (x : float) : Rabs (val x) <= fmax.
  Proof. apply abs_B2R_le_emax_minus_prec. typeclasses eauto. Qed.

  (** rounding *)
  Lemma rnd_float x : is_float x -> rnd x = x.
  Proof. intros H. apply round_generic; [typeclasses eauto|exact H]. Qed.


  Lemma rnd_le x y : x <= y -> rnd x <= rnd y.
  Proof. apply round_le; typeclasses eauto. Qed.

  Lemma rnd_0 : rnd 0 = 0.
  Proof. apply round_0. typeclasses eauto. Qed.

  Lemma rnd_opp x : rnd (- x) = - rnd x.
  Proof. apply round_NE_opp. Qed.

  Lemma rnd_abs_le x b : is_float b -> Rabs x <= b -> Rabs (rnd x) <= b.
  Proof. intros Hb H. apply abs_round_le_generic; try typeclasses eauto; auto. Qed.

  Lemma rnd_le_float x b : is_float b -> x <= b -> rnd x <= b.
  Proof. intros Hb H. rewrite <- (rnd_float b Hb). now apply rnd_le. Qed.

  Lemma rnd_ge_float x b : is_float b -> b <= x -> b <= rnd x.
  Proof. intros Hb H. rewrite <- (rnd_float b Hb). now apply rnd_le. Qed.

  Lemma float_0 : is_float 0.
  Proof. apply generic_format_0. Qed.

  Lemma float_opp x : is_float x -> is_float (- x).
  Proof. apply generic_format_opp. Qed.

  Lemma no_overflow x : Rabs x <= fmax ->
    Rlt_bool (Rabs (rnd x)) (bpow radix2 femax) = true.
  Proof.
    intros H. apply Rlt_bool_true.
    apply Rle_lt_trans with fmax; [|apply fmax_lt].
    apply rnd_abs_le; [apply fmax_float|exact H].
  Qed.

  (** error of a rounded sum of floats: relative only, no underflow term *)
  Lemma rnd_sum_err x y : is_float x -> is_float y ->
    Rabs (rnd (x + y) - (x + y)) <= uro * Rabs (x + y).
  Proof.
    intros Hx Hy.
    destruct (FLT_plus_error_N_ex radix2 (SpecFloat.emin fprec femax) fprec
                (fun z => negb (Z.even z)) x y Hx Hy) as (e & He & Hr).
    change (rnd (x + y)) with (round radix2 (FLT_exp (SpecFloat.emin fprec femax) fprec) ZnearestE (x + y)).
    rewrite Hr.
    replace ((x + y) * (1 + e) - (x + y)) with (e * (x + y)) by ring.
    rewrite Rabs_mult. apply Rmult_le_compat_r; [apply Rabs_pos|].
    assert (Hu : u_ro radix2 fprec = uro).
    { unfold u_ro, uro. replace (- fprec + 1)%Z with (1 + - fprec)%Z by ring.
      rewrite bpow_plus. cbn. lra. }
    rewrite Hu in He. eapply Rle_trans; [exact He|].
    pose proof uro_pos. unfold Rdiv.
    rewrite <- (Rmult_1_r uro) at 3. apply Rmult_le_compat_l; [lra|].
    rewrite <- Rinv_1. apply Rinv_le_contravar; lra.
  Qed.

  (** error of any rounding: relative plus underflow term *)
  Lemma rnd_err x : Rabs (rnd x - x) <= uro * Rabs x + eta.
  Proof.
    assert (Hp : (0 < fprec)%Z) by (pose proof fprec_ge; lia).
    destruct (error_N_FLT radix2 (SpecFloat.emin fprec femax) fprec Hp
                (fun z => negb (Z.even z)) x) as (e & h & He & Hh & _ & Hr).
    change (rnd x) with (round radix2 (FLT_exp (SpecFloat.emin fprec femax) fprec) ZnearestE x).
    rewrite Hr.
    replace (x * (1 + e) + h - x) with (e * x + h) by ring.
    eapply Rle_trans; [apply Rabs_triang|]. rewrite Rabs_mult.
    assert (Hu : / 2 * bpow radix2 (- fprec + 1) = uro).
    { unfold uro. rewrite bpow_plus. cbn. lra. }
    assert (Ht : / 2 * bpow radix2 (SpecFloat.emin fprec femax) = eta).
    { unfold eta, SpecFloat.emin.
      replace (3 - femax - fprec)%Z with (2 - femax - fprec + 1)%Z by ring.
      rewrite bpow_plus. cbn. lra. }
    rewrite Hu in He. rewrite Ht in Hh.
    apply Rplus_le_compat; [|exact Hh].
    apply Rmult_le_compat_r; [apply Rabs_pos|exact He].
  Qed.

  (** the operations *)
  Lemma add_ok (x y : float) : fin x -> fin y -> Rabs (val x + val y) <= fmax ->
    fin (s_add x y) /\ val (s_add x y) = rnd (val x + val y).
  Proof.
    intros Hx Hy H.
    pose proof (Bplus_correct fprec femax _ _ mode_NE x y Hx Hy) as C.
    cbv zeta in C. change (round_mode mode_NE) with ZnearestE in C.
    fold fx in C. fold (rnd (B2R x + B2R y)) in C.
    pose proof (no_overflow _ H) as N. unfold val in N |- *. rewrite N in C. destruct C as (C1 & C2 & _).
    split; [exact C2|exact C1].
  Qed.

  Lemma sub_ok (x y : float) : fin x -> fin y -> Rabs (val x - val y) <= fmax ->
    fin (s_sub x y) /\ val (s_sub x y) = rnd (val x - val y).
  Proof.
    intros Hx Hy H.
    pose proof (Bminus_correct fprec femax _ _ mode_NE x y Hx Hy) as C.
    change (round_mode mode_NE) with ZnearestE in C.
    fold fx in C. fold (rnd (B2R x - B2R y)) in C.
    pose proof (no_overflow _ H) as N. unfold val in N |- *. rewrite N in C. destruct C as (C1 & C2 & _).
    split; [exact C2|exact C1].
  Qed.

  Lemma mul_ok (x y : float) : fin x -> fin y -> Rabs (val x * val y) <= fmax ->
    fin (s_mul x y) /\ val (s_mul x y) = rnd (val x * val y).
  Proof.
    intros Hx Hy H.
    pose proof (Bmult_correct fprec femax _ _ mode_NE x y) as C.
    change (round_mode mode_NE) with ZnearestE in C.
    fold fx in C. fold (rnd (B2R x * B2R y)) in C.
    pose proof (no_overflow _ H) as N. unfold val in N |- *. rewrite N in C. destruct C as (C1 & C2 & _).
    split; [|exact C1]. unfold fin. cbn [s_mul FScalar]. rewrite C2, Hx, Hy. reflexivity.
  Qed.

  Lemma div_ok (x y : float) : fin x -> val y <> 0 -> Rabs (val x / val y) <= fmax ->
    fin (s_div x y) /\ val (s_div x y) = rnd (val x / val y).
  Proof.
    intros Hx Hy H.
    pose proof (Bdiv_correct fprec femax _ _ mode_NE x y Hy) as C.
    change (round_mode mode_NE) with ZnearestE in C.
    fold fx in C. fold (rnd (B2R x / B2R y)) in C.
    pose proof (no_overflow _ H) as N. unfold val in N |- *. rewrite N in C. destruct C as (C1 & C2 & _).
    split; [|exact C1]. unfold fin. cbn [s_div FScalar]. now rewrite C2.
  Qed.

  Lemma neg_val (x : float) : val (s_neg x) = - val x.
  Proof. apply B2R_Bopp. Qed.
  Lemma neg_fin (x : float) : fin (s_neg x) <-> fin x.
  Proof. unfold fin. cbn [s_neg FScalar]. now rewrite is_finite_Bopp. Qed.
  Lemma abs_val (x : float) : val (s_abs x) = Rabs (val x).
  Proof. apply B2R_Babs. Qed.
  Lemma abs_fin (x : float) : fin (s_abs x) <-> fin x.
  Proof. unfold fin. cbn [s_abs FScalar]. now rewrite is_finite_Babs. Qed.

  Lemma float_IZR z : (Z.abs z <= 2 ^ fprec)%Z -> is_float (IZR z).
  Proof.
    intros Hz. unfold is_float, fx.
    change (SpecFloat.fexp fprec femax) with (FLT_exp (SpecFloat.emin fprec femax) fprec).
    assert (Hp := fprec_ge). assert (He := femax_gt).
    destruct (Z.eq_dec (Z.abs z) (2 ^ fprec)) as [E|E].
    - assert (G : generic_format radix2 (FLT_exp (SpecFloat.emin fprec femax) fprec) (bpow radix2 fprec)).
      { apply generic_format_bpow. unfold FLT_exp, SpecFloat.emin. lia. }
      replace (IZR z) with (IZR (Z.sgn z) * bpow radix2 fprec).
      + destruct (Z.sgn_spec z) as [(_ & ->)|[(_ & ->)|(_ & ->)]].
        * now rewrite Rmult_1_l.
        * rewrite Rmult_0_l. apply generic_format_0.
        * replace (-1 * bpow radix2 fprec) with (- bpow radix2 fprec) by ring.
          now apply generic_format_opp.
      + rewrite <- (IZR_Zpower radix2) by lia. rewrite <- mult_IZR. f_equal.
        change (Zpower radix2 fprec) with (2 ^ fprec)%Z. lia.
    - apply generic_format_FLT. exists (Float radix2 z 0).
      + unfold F2R; cbn. ring.
      + cbn [Fnum]. change (Zpower radix2 fprec) with (2 ^ fprec)%Z. lia.
      + cbn [Fexp]. unfold SpecFloat.emin. lia.
  Qed.

  Lemma bpow_prec_le_fmax : bpow radix2 fprec <= fmax.
  Proof.
    assert (Hp := fprec_ge). assert (He := femax_gt).
    rewrite fmax_eq. pose proof uro_small. pose proof uro_pos.
    replace femax with (femax - fprec + fprec)%Z by ring. rewrite bpow_plus.
    pose proof (bpow_gt_0 radix2 fprec).
    assert (2 <= bpow radix2 (femax - fprec)).
    { change 2 with (bpow radix2 1). apply bpow_le. lia. }
    rewrite <- Rmult_assoc. rewrite <- (Rmult_1_l (bpow radix2 fprec)) at 1.
    apply Rmult_le_compat_r; [lra|]. nra.
  Qed.

  Lemma lit_ok z : (Z.abs z <= 2 ^ fprec)%Z -> fin (s_lit z) /\ val (s_lit z) = IZR z.
  Proof.
    intros Hz.
    pose proof (binary_normalize_correct fprec femax _ _ mode_NE z 0 false) as C.
    cbv zeta in C. change (round_mode mode_NE) with ZnearestE in C.
    assert (Hv : F2R (Float radix2 z 0) = IZR z) by (unfold F2R; cbn; ring).
    rewrite Hv in C. fold fx in C. fold (rnd (IZR z)) in C.
    rewrite no_overflow in C.
    - destruct C as (C1 & C2 & _). split; [exact C2|].
      cbn [s_lit FScalar]. unfold val. rewrite C1. apply rnd_float. now apply float_IZR.
    - apply Rle_trans with (bpow radix2 fprec); [|apply bpow_prec_le_fmax].
      rewrite <- (IZR_Zpower radix2) by (pose proof fprec_ge; lia).
      rewrite <- abs_IZR. apply IZR_le. exact Hz.
  Qed.

  Lemma lit_small z : (Z.abs z <= 2048)%Z -> fin (s_lit z) /\ val (s_lit z) = IZR z.
  Proof.
    intros H. apply lit_ok. apply Z.le_trans with 2048%Z; [exact H|].
    change 2048%Z with (2 ^ 11)%Z. apply Z.pow_le_mono_r; [lia|apply fprec_ge].
  Qed.

  Lemma usize_ok n : (Z.of_nat n <= 2 ^ fprec)%Z -> fin (s_of_usize n) /\ val (s_of_usize n) = INR n.
  Proof.
    intros H. rewrite INR_IZR_INZ.
    change (s_of_usize n) with (s_lit (Z.of_nat n)). apply lit_ok. lia.
  Qed.

  Lemma eps_ok : fin s_eps /\ val s_eps = 2 * uro.
  Proof.
    pose proof (binary_normalize_correct fprec femax _ _ mode_NE 1 (1 - fprec) false) as C.
    cbv zeta in C. change (round_mode mode_NE) with ZnearestE in C.
    assert (Hv : F2R (Float radix2 1 (1 - fprec)) = bpow radix2 (1 - fprec)) by (unfold F2R; cbn; ring).
    rewrite Hv in C. fold fx in C. fold (rnd (bpow radix2 (1 - fprec))) in C.
    assert (Hb : bpow radix2 (1 - fprec) = 2 * uro).
    { unfold uro. unfold Z.sub. rewrite bpow_plus. reflexivity. }
    rewrite no_overflow in C.
    - destruct C as (C1 & C2 & _). split; [exact C2|].
      cbn [s_eps FScalar]. unfold val. rewrite C1. rewrite rnd_float; [exact Hb|].
      apply generic_format_bpow. unfold fx, SpecFloat.fexp, SpecFloat.emin.
      pose proof fprec_ge. pose proof femax_gt. lia.
    - rewrite Hb, Rabs_pos_eq; pose proof uro_pos; pose proof uro_small; pose proof fmax_ge; lra.
  Qed.

  (** comparisons of finite floats are those of the reals *)
  Lemma ltb_val (x y : float) : fin x -> fin y -> s_ltb x y = Rlt_bool (val x) (val y).
  Proof. intros. now apply Bltb_correct. Qed.
  Lemma leb_val (x y : float) : fin x -> fin y -> s_leb x y = Rle_bool (val x) (val y).
  Proof. intros. now apply Bleb_correct. Qed.
  Lemma eqb_val (x y : float) : fin x -> fin y -> s_eqb x y = Req_bool (val x) (val y).
  Proof. intros. now apply Beqb_correct. Qed.

  (** comparisons with NaN are false *)
  Lemma ltb_nan_l (x y : float) : nan x -> s_ltb x y = false.
  Proof. destruct x; try discriminate. reflexivity. Qed.
  Lemma ltb_nan_r (x y : float) : nan y -> s_ltb x y = false.
  Proof. destruct y; try discriminate. destruct x as [|[]| |]; reflexivity. Qed.
  Lemma leb_nan_l (x y : float) : nan x -> s_leb x y = false.
  Proof. destruct x; try discriminate. reflexivity. Qed.
  Lemma leb_nan_r (x y : float) : nan y -> s_leb x y = false.
  Proof. destruct y; try discriminate. destruct x as [|[]| |]; reflexivity. Qed.
  Lemma eqb_nan_l (x y : float) : nan x -> s_eqb x y = false.
  Proof. destruct x; try discriminate. reflexivity. Qed.

  Lemma fin_not_nan (x : float) : fin x -> s_is_nan x = false.
  Proof. destruct x; try discriminate; reflexivity. Qed.
End Facts.

#[global] Existing Instance fx_valid.
#[global] Existing Instance fx_mono.
