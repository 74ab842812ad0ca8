(** The parameters of the split tests: t / 2 and t * 0.5 + 0.5 in IEEE arithmetic. *)
From Coq Require Import Reals ZArith List Arith Lia Lra Bool.
From Flocq Require Import Core.Core IEEE754.BinarySingleNaN.
From Verif Require Import Base.Scalar Inst.FloatInst Spec.Rounding Proofs.FloatFacts Proofs.FloatEval Proofs.FloatBound.
Local Open Scope R_scope.

Section Half.
  Context {F : Format}.

  Lemma half_ok : fin s_half /\ val s_half = / 2.
  Proof.
    pose proof (binary_normalize_correct fprec femax _ _ mode_NE 1 (-1) false) as C.
    cbv zeta in C. change (round_mode mode_NE) with ZnearestE in C.
    assert (Hv : F2R (Float radix2 1 (-1)) = / 2) by (unfold F2R; cbn; lra).
    rewrite Hv in C. fold fx in C. fold (rnd (/ 2)) in C.
    rewrite no_overflow in C.
    - destruct C as (C1 & C2 & _). split; [exact C2|].
      cbn [s_half FScalar]. unfold val. rewrite C1. apply rnd_float.
      replace (/ 2) with (bpow radix2 (-1)) by (cbn; lra).
      apply generic_format_bpow. unfold fx, SpecFloat.fexp, SpecFloat.emin.
      pose proof fprec_ge. pose proof femax_gt. lia.
    - rewrite Rabs_pos_eq by lra. pose proof fmax_ge. lra.
  Qed.

  Section Param.
    Variable t : float.
    Hypotheses (Ht : fin t) (Hr : 0 <= val t <= 1).

    Lemma unit_rnd x : 0 <= x <= 1 -> 0 <= rnd x <= 1 /\ Rabs (rnd x - x) <= uro * x + eta.
    Proof.
      intros H. split.
      - split; [apply rnd_ge_float; [apply float_0|lra]|apply rnd_le_float; [apply float_1|lra]].
      - pose proof (rnd_err x) as E. rewrite (Rabs_pos_eq x) in E by lra. exact E.
    Qed.

    Lemma left_param : fin (s_div t (s_lit 2)) /\ 0 <= val (s_div t (s_lit 2)) <= 1 /\
      Rabs (val (s_div t (s_lit 2)) - / 2 * val t) <= 2 * uro.
    Proof.
      destruct (lit_small 2 ltac:(lia)) as [A B]. pose proof fmax_ge as FG. pose proof eta_uro as E. pose proof uro_pos as U.
      pose proof eta_pos.
      destruct (div_ok t (s_lit 2) Ht) as [D1 D2].
      - rewrite B. lra.
      - rewrite B, Rabs_pos_eq by lra. lra.
      - rewrite D2, B. destruct (unit_rnd (val t / 2) ltac:(lra)) as [R1 R2].
        split; [exact D1|]. split; [exact R1|].
        replace (/ 2 * val t) with (val t / 2) by field. eapply Rle_trans; [exact R2|].
        assert (uro * (val t / 2) <= uro * 1) by (apply Rmult_le_compat_l; lra). lra.
    Qed.

    Lemma right_param : fin (s_add (s_mul t s_half) s_half) /\
      0 <= val (s_add (s_mul t s_half) s_half) <= 1 /\
      Rabs (val (s_add (s_mul t s_half) s_half) - (/ 2 + val t * (1 - / 2))) <= 2 * uro.
    Proof.
      destruct half_ok as [A B]. pose proof fmax_ge as FG. pose proof eta_uro as E. pose proof uro_pos as U.
      pose proof eta_pos.
      destruct (mul_ok t s_half Ht A) as [M1 M2].
      { rewrite B, Rabs_pos_eq by lra. lra. }
      rewrite B in M2.
      destruct (unit_rnd (val t * / 2) ltac:(lra)) as [R1 R2]. rewrite <- M2 in R1, R2.
      assert (Up : val (s_mul t s_half) <= / 2).
      { rewrite M2. apply rnd_le_float; [rewrite <- B; apply val_float|lra]. }
      destruct (add_ok (s_mul t s_half) s_half M1 A) as [S1 S2].
      { rewrite B, Rabs_pos_eq by lra. lra. }
      rewrite B in S2. assert (Z : 0 <= val (s_mul t s_half) + / 2 <= 1) by lra.
      destruct (unit_rnd (val (s_mul t s_half) + / 2) Z) as [Q1 Q2].
      rewrite <- S2 in Q1, Q2. split; [exact S1|]. split; [exact Q1|].
      assert (uro * (val t * / 2) <= uro * / 2) by (apply Rmult_le_compat_l; lra).
      assert (uro * (val (s_mul t s_half) + / 2) <= uro * 1) by (apply Rmult_le_compat_l; lra).
      replace (val (s_add (s_mul t s_half) s_half) - (/ 2 + val t * (1 - / 2)))
        with ((val (s_add (s_mul t s_half) s_half) - (val (s_mul t s_half) + / 2))
              + (val (s_mul t s_half) - val t * / 2)) by field.
      eapply Rle_trans; [apply Rabs_triang|]. lra.
    Qed.
  End Param.
End Half.
