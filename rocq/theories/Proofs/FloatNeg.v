(** Floating-point operations and the sign: negation commutes with rounding to nearest. *)
From Coq Require Import Reals ZArith List Arith Lia Lra Bool.
From Flocq Require Import Core.Core IEEE754.BinarySingleNaN.
From Verif Require Import Base.Outcome Base.Scalar Inst.FloatInst Spec.Rounding Spec.Mirror Proofs.FloatFacts.
Local Open Scope R_scope.

Section Neg.
  Context {F : Format}.
  Implicit Types x y z : @float F.

  Lemma feq_refl x : feq x x.
  Proof. now left. Qed.
  Lemma feq_sym x y : feq x y -> feq y x.
  Proof. intros [->|(a & b & -> & ->)]; [now left|right; eauto]. Qed.
  Lemma feq_trans x y z : feq x y -> feq y z -> feq x z.
  Proof.
    intros [->|(a & b & -> & ->)] H; [exact H|]. right. destruct H as [<-|(c & d & E & ->)]; eauto.
  Qed.
  Lemma feq_neg x y : feq x y -> feq (s_neg x) (s_neg y).
  Proof. intros [->|(a & b & -> & ->)]; [now left|]. right. cbn. eauto. Qed.
  Lemma neg_neg x : s_neg (s_neg x) = x.
  Proof. apply Bopp_involutive. Qed.
  Lemma feq_abs x y : feq x y -> feq (s_abs x) (s_abs y).
  Proof. intros [->|(a & b & -> & ->)]; now left. Qed.
  Lemma abs_neg x : s_abs (s_neg x) = s_abs x.
  Proof. destruct x; reflexivity. Qed.
  Lemma feq_nan x y : feq x y -> s_is_nan x = s_is_nan y.
  Proof. intros [->|(a & b & -> & ->)]; reflexivity. Qed.
  Lemma nan_neg x : s_is_nan (s_neg x) = s_is_nan x.
  Proof. destruct x; reflexivity. Qed.
  Lemma feq_sqrt x y : feq x y -> feq (s_sqrt x) (s_sqrt y).
  Proof. intros [->|(a & b & -> & ->)]; [now left|]. right. exists a, b. split; reflexivity. Qed.

  Lemma feq_add x x' y y' : feq x x' -> feq y y' -> feq (s_add x y) (s_add x' y').
  Proof.
    intros Hx Hy. apply feq_trans with (s_add x' y).
    - destruct Hx as [->|(a & b & -> & ->)]; [now left|].
      destruct y as [s|s| |s m e B]; cbn; try now left. right. destruct a, b, s; cbn; eauto.
    - destruct Hy as [->|(a & b & -> & ->)]; [now left|].
      destruct x' as [s|s| |s m e B]; cbn; try now left. right. destruct a, b, s; cbn; eauto.
  Qed.
  Lemma sub_add x y : s_sub x y = s_add x (s_neg y).
  Proof.
    destruct x as [s|s| |s m e Bx], y as [u|u| |u n f By]; reflexivity.
  Qed.
  Lemma feq_sub x x' y y' : feq x x' -> feq y y' -> feq (s_sub x y) (s_sub x' y').
  Proof. intros Hx Hy. rewrite !sub_add. apply feq_add; [exact Hx|now apply feq_neg]. Qed.
  Lemma feq_mul x x' y y' : feq x x' -> feq y y' -> feq (s_mul x y) (s_mul x' y').
  Proof.
    intros Hx Hy. apply feq_trans with (s_mul x' y).
    - destruct Hx as [->|(a & b & -> & ->)]; [now left|].
      destruct y as [s|s| |s m e B]; cbn; try (now left); right; eauto.
    - destruct Hy as [->|(a & b & -> & ->)]; [now left|].
      destruct x' as [s|s| |s m e B]; cbn; try (now left); right; eauto.
  Qed.
  Definition nonzero x : Prop := forall a, x <> B754_zero a.
  Lemma feq_nonzero x y : feq x y -> nonzero x -> y = x.
  Proof. intros [->|(a & b & -> & ->)] H; [reflexivity|]. now destruct (H a). Qed.
  Lemma feq_div x x' y y' : feq x x' -> feq y y' -> nonzero y -> feq (s_div x y) (s_div x' y').
  Proof.
    intros Hx Hy Hn. rewrite (feq_nonzero y y' Hy Hn).
    destruct Hx as [->|(a & b & -> & ->)]; [now left|].
    destruct y as [s|s| |s m e B]; cbn; try (now left); try (right; eauto).
  Qed.

  (** comparisons *)
  Lemma feq_ltb x x' y y' : feq x x' -> feq y y' -> s_ltb x y = s_ltb x' y'.
  Proof.
    intros Hx Hy. transitivity (s_ltb x' y).
    - destruct Hx as [->|(a & b & -> & ->)]; [reflexivity|]. destruct y; reflexivity.
    - destruct Hy as [->|(a & b & -> & ->)]; [reflexivity|]. destruct x'; reflexivity.
  Qed.
  Lemma feq_leb x x' y y' : feq x x' -> feq y y' -> s_leb x y = s_leb x' y'.
  Proof.
    intros Hx Hy. transitivity (s_leb x' y).
    - destruct Hx as [->|(a & b & -> & ->)]; [reflexivity|]. destruct y; reflexivity.
    - destruct Hy as [->|(a & b & -> & ->)]; [reflexivity|]. destruct x'; reflexivity.
  Qed.
  Lemma feq_eqb x x' y y' : feq x x' -> feq y y' -> s_eqb x y = s_eqb x' y'.
  Proof.
    intros Hx Hy. transitivity (s_eqb x' y).
    - destruct Hx as [->|(a & b & -> & ->)]; [reflexivity|]. destruct y; reflexivity.
    - destruct Hy as [->|(a & b & -> & ->)]; [reflexivity|]. destruct x'; reflexivity.
  Qed.

  Lemma fin_zero x : fin x -> val x = 0 -> exists a, x = B754_zero a.
  Proof.
    destruct x as [s|s| |s m e B]; intros Hf Hv; try discriminate; [eauto|].
    exfalso. unfold val in Hv. cbn in Hv. apply eq_0_F2R in Hv. destruct s; discriminate.
  Qed.
  Lemma fin_feq x y : fin x -> fin y -> val x = val y -> feq x y.
  Proof.
    intros Fx Fy E. destruct (Req_dec (val x) 0) as [Z|Z].
    - destruct (fin_zero x Fx Z) as (a & ->). destruct (fin_zero y Fy ltac:(congruence)) as (b & ->). right. eauto.
    - left. apply B2R_inj; [| |exact E].
      + destruct x; try discriminate; try reflexivity. now destruct Z.
      + destruct y; try discriminate; try reflexivity. rewrite E in Z. now destruct Z.
  Qed.
  Lemma leb_antisym x y : s_leb x y = true -> s_leb y x = true -> feq x y.
  Proof.
    intros A B.
    destruct (is_finite x) eqn:Fx, (is_finite y) eqn:Fy.
    - apply fin_feq; auto. rewrite leb_val in A, B by assumption.
      destruct (Rle_bool_spec (val x) (val y)), (Rle_bool_spec (val y) (val x)); try discriminate. lra.
    - destruct x as [s|s| |s m e Bx], y as [u|u| |u n f By]; try discriminate; destruct u; discriminate.
    - destruct x as [s|s| |s m e Bx], y as [u|u| |u n f By]; try discriminate; destruct s; discriminate.
    - destruct x as [s|s| |s m e Bx], y as [u|u| |u n f By]; try discriminate; destruct s, u; try discriminate; now left.
  Qed.
  Lemma leb_neg x y : s_leb (s_neg x) (s_neg y) = s_leb y x.
  Proof.
    destruct (is_finite x) eqn:Fx, (is_finite y) eqn:Fy.
    - pose proof (proj2 (neg_fin x) Fx) as Nx. pose proof (proj2 (neg_fin y) Fy) as Ny.
      rewrite (leb_val (s_neg x) (s_neg y) Nx Ny), (leb_val y x Fy Fx), (neg_val x), (neg_val y).
      destruct (Rle_bool_spec (- val x) (- val y)), (Rle_bool_spec (val y) (val x)); try reflexivity; exfalso; lra.
    - destruct x as [s|s| |s m e Bx], y as [u|u| |u n f By]; try discriminate; try (destruct s); try (destruct u); reflexivity.
    - destruct x as [s|s| |s m e Bx], y as [u|u| |u n f By]; try discriminate; try (destruct s); try (destruct u); reflexivity.
    - destruct x as [s|s| |s m e Bx], y as [u|u| |u n f By]; try discriminate; try (destruct s); try (destruct u); reflexivity.
  Qed.
  Lemma ltb_neg x y : s_ltb (s_neg x) (s_neg y) = s_ltb y x.
  Proof.
    destruct (is_finite x) eqn:Fx, (is_finite y) eqn:Fy.
    - pose proof (proj2 (neg_fin x) Fx) as Nx. pose proof (proj2 (neg_fin y) Fy) as Ny.
      rewrite (ltb_val (s_neg x) (s_neg y) Nx Ny), (ltb_val y x Fy Fx), (neg_val x), (neg_val y).
      destruct (Rlt_bool_spec (- val x) (- val y)), (Rlt_bool_spec (val y) (val x)); try reflexivity; exfalso; lra.
    - destruct x as [s|s| |s m e Bx], y as [u|u| |u n f By]; try discriminate; try (destruct s); try (destruct u); reflexivity.
    - destruct x as [s|s| |s m e Bx], y as [u|u| |u n f By]; try discriminate; try (destruct s); try (destruct u); reflexivity.
    - destruct x as [s|s| |s m e Bx], y as [u|u| |u n f By]; try discriminate; try (destruct s); try (destruct u); reflexivity.
  Qed.

  (** both results finite with opposite values, or infinities of opposite sign *)
  Lemma opposite z z' r (s : bool) :
    (if Rlt_bool (Rabs (rnd r)) (bpow radix2 femax) then B2R z = rnd r /\ is_finite z = true else B2SF z = SpecFloat.S754_infinity s) ->
    (if Rlt_bool (Rabs (rnd (- r))) (bpow radix2 femax) then B2R z' = rnd (- r) /\ is_finite z' = true
     else B2SF z' = SpecFloat.S754_infinity (negb s)) ->
    feq z' (s_neg z).
  Proof.
    rewrite rnd_opp, Rabs_Ropp. destruct (Rlt_bool (Rabs (rnd r)) (bpow radix2 femax)).
    - intros [A1 A2] [B1 B2]. apply fin_feq; [exact B2|now apply neg_fin|]. rewrite neg_val. unfold val. now rewrite A1, B1.
    - intros A B. left. apply B2SF_inj. cbn [s_neg FScalar]. rewrite B.
      destruct z; try discriminate. injection A as ->. reflexivity.
  Qed.

  Lemma add_neg x y : feq (s_add (s_neg x) (s_neg y)) (s_neg (s_add x y)).
  Proof.
    destruct (is_finite x) eqn:Fx, (is_finite y) eqn:Fy.
    - pose proof (Bplus_correct fprec femax _ _ mode_NE x y Fx Fy) as A.
      pose proof (Bplus_correct fprec femax _ _ mode_NE (Bopp x) (Bopp y)) as B.
      rewrite !is_finite_Bopp in B. specialize (B Fx Fy). rewrite !B2R_Bopp in B.
      change (round_mode mode_NE) with ZnearestE in A, B. fold fx in A, B.
      replace (- B2R x + - B2R y) with (- (B2R x + B2R y)) in B by ring.
      fold (rnd (B2R x + B2R y)) in A. fold (rnd (- (B2R x + B2R y))) in B.
      apply (opposite _ _ (B2R x + B2R y) (Bsign x)).
      + destruct (Rlt_bool (Rabs (rnd (B2R x + B2R y))) (bpow radix2 femax)).
        * destruct A as (A1 & A2 & _). split; assumption.
        * destruct A as (A1 & _). exact A1.
      + destruct (Rlt_bool (Rabs (rnd (- (B2R x + B2R y)))) (bpow radix2 femax)).
        * destruct B as (A1 & A2 & _). split; assumption.
        * destruct B as (A1 & _). cbn [s_add s_neg FScalar]. rewrite A1. cbn. f_equal.
          destruct x; try discriminate; reflexivity.
    - destruct x as [s|s| |s m e Bx], y as [u|u| |u n f By]; try discriminate; now left.
    - destruct x as [s|s| |s m e Bx], y as [u|u| |u n f By]; try discriminate; now left.
    - destruct x as [s|s| |s m e Bx], y as [u|u| |u n f By]; try discriminate; try (now left).
      cbn. destruct s, u; now left.
  Qed.
  Lemma sub_neg x y : feq (s_sub (s_neg x) (s_neg y)) (s_neg (s_sub x y)).
  Proof. rewrite !sub_add. apply add_neg. Qed.

  Lemma mul_neg_l x y : feq (s_mul (s_neg x) y) (s_neg (s_mul x y)).
  Proof.
    destruct (is_finite x) eqn:Fx, (is_finite y) eqn:Fy.
    - pose proof (Bmult_correct fprec femax _ _ mode_NE x y) as A.
      pose proof (Bmult_correct fprec femax _ _ mode_NE (Bopp x) y) as B.
      rewrite !B2R_Bopp in B. rewrite is_finite_Bopp in B. rewrite Fx, Fy in A, B.
      change (round_mode mode_NE) with ZnearestE in A, B. fold fx in A, B.
      replace (- B2R x * B2R y) with (- (B2R x * B2R y)) in B by ring.
      fold (rnd (B2R x * B2R y)) in A. fold (rnd (- (B2R x * B2R y))) in B.
      apply (opposite _ _ (B2R x * B2R y) (xorb (Bsign x) (Bsign y))).
      + destruct (Rlt_bool (Rabs (rnd (B2R x * B2R y))) (bpow radix2 femax)).
        * destruct A as (A1 & A2 & _). split; assumption.
        * exact A.
      + destruct (Rlt_bool (Rabs (rnd (- (B2R x * B2R y)))) (bpow radix2 femax)).
        * destruct B as (A1 & A2 & _). split; assumption.
        * cbn [s_mul s_neg FScalar]. rewrite B. cbn. f_equal.
          destruct x as [s|s| |s m e Bx]; try discriminate; cbn; destruct s, (Bsign y); reflexivity.
    - destruct x as [s|s| |s m e Bx], y as [u|u| |u n f By]; try discriminate; try (now left); left; cbn; destruct s, u; reflexivity.
    - destruct x as [s|s| |s m e Bx], y as [u|u| |u n f By]; try discriminate; try (now left); left; cbn; destruct s, u; reflexivity.
    - destruct x as [s|s| |s m e Bx], y as [u|u| |u n f By]; try discriminate; try (now left); left; cbn; destruct s, u; reflexivity.
  Qed.
  Lemma mul_comm x y : feq (s_mul x y) (s_mul y x).
  Proof.
    destruct (is_finite x) eqn:Fx, (is_finite y) eqn:Fy.
    - pose proof (Bmult_correct fprec femax _ _ mode_NE x y) as A.
      pose proof (Bmult_correct fprec femax _ _ mode_NE y x) as B. rewrite Fx, Fy in A, B. cbn [andb] in A, B.
      rewrite (Rmult_comm (B2R y)) in B. rewrite (xorb_comm (Bsign y)) in B.
      destruct (Rlt_bool _ _).
      + destruct A as (A1 & A2 & _), B as (B1 & B2 & _). apply fin_feq; [exact A2|exact B2|].
        unfold val. cbn [s_mul FScalar]. now rewrite A1, B1.
      + left. apply B2SF_inj. cbn [s_mul FScalar]. now rewrite A, B.
    - destruct x as [s|s| |s m e Bx], y as [u|u| |u n f By]; try discriminate; try (now left); left; cbn; destruct s, u; reflexivity.
    - destruct x as [s|s| |s m e Bx], y as [u|u| |u n f By]; try discriminate; try (now left); left; cbn; destruct s, u; reflexivity.
    - destruct x as [s|s| |s m e Bx], y as [u|u| |u n f By]; try discriminate; try (now left); left; cbn; destruct s, u; reflexivity.
  Qed.
  Lemma mul_neg_r x y : feq (s_mul x (s_neg y)) (s_neg (s_mul x y)).
  Proof.
    eapply feq_trans; [apply mul_comm|]. eapply feq_trans; [apply mul_neg_l|]. apply feq_neg, mul_comm.
  Qed.
  Lemma mul_neg_neg x y : feq (s_mul (s_neg x) (s_neg y)) (s_mul x y).
  Proof.
    eapply feq_trans; [apply mul_neg_l|]. rewrite <- (neg_neg (s_mul x y)). apply feq_neg, mul_neg_r.
  Qed.

  Lemma div_neg_l x y : feq (s_div (s_neg x) y) (s_neg (s_div x y)).
  Proof.
    destruct (is_finite x) eqn:Fx, (is_finite_strict y) eqn:Fy.
    - assert (Hy : B2R y <> 0).
      { destruct y; try discriminate. cbn. intros Z. apply eq_0_F2R in Z. destruct s; discriminate. }
      pose proof (Bdiv_correct fprec femax _ _ mode_NE x y Hy) as A.
      pose proof (Bdiv_correct fprec femax _ _ mode_NE (Bopp x) y Hy) as B.
      rewrite !B2R_Bopp in B. rewrite is_finite_Bopp in B. rewrite Fx in A, B.
      change (round_mode mode_NE) with ZnearestE in A, B. fold fx in A, B.
      replace (- B2R x / B2R y) with (- (B2R x / B2R y)) in B by (unfold Rdiv; ring).
      fold (rnd (B2R x / B2R y)) in A. fold (rnd (- (B2R x / B2R y))) in B.
      apply (opposite _ _ (B2R x / B2R y) (xorb (Bsign x) (Bsign y))).
      + destruct (Rlt_bool (Rabs (rnd (B2R x / B2R y))) (bpow radix2 femax)).
        * destruct A as (A1 & A2 & _). split; assumption.
        * exact A.
      + destruct (Rlt_bool (Rabs (rnd (- (B2R x / B2R y)))) (bpow radix2 femax)).
        * destruct B as (A1 & A2 & _). split; assumption.
        * cbn [s_div s_neg FScalar]. rewrite B. cbn. f_equal.
          destruct x as [s|s| |s m e Bx]; try discriminate; cbn; destruct s, (Bsign y); reflexivity.
    - destruct x as [s|s| |s m e Bx], y as [u|u| |u n f By]; try discriminate; try (now left); left; cbn; destruct s, u; reflexivity.
    - destruct x as [s|s| |s m e Bx], y as [u|u| |u n f By]; try discriminate; try (now left); left; cbn; destruct s, u; reflexivity.
    - destruct x as [s|s| |s m e Bx], y as [u|u| |u n f By]; try discriminate; try (now left); left; cbn; destruct s, u; reflexivity.
  Qed.
  Lemma div_neg_r x y : feq (s_div x (s_neg y)) (s_neg (s_div x y)).
  Proof.
    destruct (is_finite x) eqn:Fx, (is_finite_strict y) eqn:Fy.
    - assert (Hy : B2R y <> 0).
      { destruct y; try discriminate. cbn. intros Z. apply eq_0_F2R in Z. destruct s; discriminate. }
      assert (Hy' : B2R (Bopp y) <> 0) by (rewrite B2R_Bopp; lra).
      pose proof (Bdiv_correct fprec femax _ _ mode_NE x y Hy) as A.
      pose proof (Bdiv_correct fprec femax _ _ mode_NE x (Bopp y) Hy') as B.
      rewrite !B2R_Bopp in B. rewrite Fx in A, B.
      change (round_mode mode_NE) with ZnearestE in A, B. fold fx in A, B.
      replace (B2R x / - B2R y) with (- (B2R x / B2R y)) in B by (field; exact Hy).
      fold (rnd (B2R x / B2R y)) in A. fold (rnd (- (B2R x / B2R y))) in B.
      apply (opposite _ _ (B2R x / B2R y) (xorb (Bsign x) (Bsign y))).
      + destruct (Rlt_bool (Rabs (rnd (B2R x / B2R y))) (bpow radix2 femax)).
        * destruct A as (A1 & A2 & _). split; assumption.
        * exact A.
      + destruct (Rlt_bool (Rabs (rnd (- (B2R x / B2R y)))) (bpow radix2 femax)).
        * destruct B as (A1 & A2 & _). split; assumption.
        * cbn [s_div s_neg FScalar]. rewrite B. cbn. f_equal.
          destruct y as [s|s| |s m e By]; try discriminate; cbn; destruct s, (Bsign x); reflexivity.
    - destruct x as [s|s| |s m e Bx], y as [u|u| |u n f By]; try discriminate; try (now left); left; cbn; destruct s, u; reflexivity.
    - destruct x as [s|s| |s m e Bx], y as [u|u| |u n f By]; try discriminate; try (now left); left; cbn; destruct s, u; reflexivity.
    - destruct x as [s|s| |s m e Bx], y as [u|u| |u n f By]; try discriminate; try (now left); left; cbn; destruct s, u; reflexivity.
  Qed.
  Lemma div_neg_neg x y : feq (s_div (s_neg x) (s_neg y)) (s_div x y).
  Proof.
    eapply feq_trans; [apply div_neg_l|]. rewrite <- (neg_neg (s_div x y)). apply feq_neg, div_neg_r.
  Qed.
End Neg.
