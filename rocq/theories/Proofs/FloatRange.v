(** The range of the two float formats and the gap after 1. *)
From Coq Require Import Reals List ZArith Lia Lra.
From Flocq Require Import Core.Core IEEE754.BinarySingleNaN.
From Verif Require Import Base.Scalar Inst.FloatInst Spec.Rounding Proofs.FloatFacts Proofs.FloatBoxCubic.
Local Open Scope R_scope.

Section Any.
  Context {F : Format}.
  Local Notation fmt := (generic_format radix2 (FLT_exp (3 - femax - fprec) fprec)).
  Lemma val_fmt (x : float) : fmt (val x).
  Proof. apply generic_format_B2R. Qed.
  Lemma one_fmt : fmt 1.
  Proof. destruct (lit_small 1 ltac:(lia)) as [_ V]. replace 1 with (val (s_lit 1 : float)) by (rewrite V; reflexivity). apply val_fmt. Qed.
  Lemma ulp_one : ulp radix2 (FLT_exp (3 - femax - fprec) fprec) 1 = bpow radix2 (1 - fprec).
  Proof.
    pose proof fprec_ge. pose proof femax_gt. change 1 with (bpow radix2 0). rewrite ulp_bpow. f_equal. unfold FLT_exp. lia.
  Qed.

  (** no float lies strictly between 1 and 1 + EPSILON, and the latter is one *)
  Lemma eps_gap : fin (s_eps : float) /\ 0 < val s_eps /\
    (forall x : float, fin x -> 1 < val x -> 1 + val s_eps <= val x) /\
    is (s_add (s_lit 1) s_eps) (1 + val s_eps).
  Proof.
    destruct eps_ok as [Fe Ve].
    assert (U : val s_eps = ulp radix2 (FLT_exp (3 - femax - fprec) fprec) 1).
    { rewrite Ve, ulp_one. unfold uro. replace (1 - fprec)%Z with (1 + - fprec)%Z by ring. rewrite bpow_plus. reflexivity. }
    assert (S : succ radix2 (FLT_exp (3 - femax - fprec) fprec) 1 = 1 + val s_eps) by (rewrite U; apply succ_eq_pos; lra).
    pose proof uro_pos. pose proof uro_small. pose proof fmax_ge.
    split; [exact Fe|]. split; [rewrite Ve; lra|]. split.
    - intros x Fx Hx. rewrite <- S. apply succ_le_lt; [typeclasses eauto|exact one_fmt|apply val_fmt|exact Hx].
    - destruct (lit_small 1 ltac:(lia)) as [F1 V1].
      assert (G : fmt (1 + val s_eps)) by (rewrite <- S; apply generic_format_succ; [typeclasses eauto|exact one_fmt]).
      pose proof (Bplus_correct fprec femax _ _ mode_NE _ _ F1 Fe) as P.
      change (B2R (s_lit 1 : float)) with (val (s_lit 1 : float)) in P. change (B2R (s_eps : float)) with (val (s_eps : float)) in P.
      rewrite V1 in P. cbn [round_mode] in P. change (SpecFloat.fexp fprec femax) with (FLT_exp (3 - femax - fprec) fprec) in P.
      rewrite round_generic in P; [|typeclasses eauto|exact G].
      rewrite Rlt_bool_true in P.
      + destruct P as (P1 & P2 & _). split; [exact P2|exact P1].
      + rewrite Ve, Rabs_pos_eq by lra. apply Rlt_le_trans with (bpow radix2 11); [cbn; lra|].
        apply bpow_le. pose proof fprec_ge. pose proof femax_gt. lia.
  Qed.
End Any.

Section Range.
  Context {F : Format}.
  Lemma max_bound (x : float) : Rabs (val x) <= fmax.
  Proof. unfold val, fmax. apply abs_B2R_le_emax_minus_prec. typeclasses eauto. Qed.
  Lemma max_attained : is (flt (2 ^ fprec - 1) (femax - fprec)) fmax.
  Proof.
    pose proof fprec_ge as P. pose proof femax_gt as P'.
    assert (E : IZR (2 ^ fprec - 1) * bpow radix2 (femax - fprec) = fmax).
    { unfold fmax. rewrite minus_IZR, (IZR_Zpower radix2 fprec) by lia. rewrite Rmult_minus_distr_r, <- bpow_plus.
      replace (fprec + (femax - fprec))%Z with femax by ring. ring. }
    assert (2 ^ fprec > 0)%Z by (apply Z.lt_gt, Z.pow_pos_nonneg; lia).
    destruct (flt_ok (2 ^ fprec - 1) (femax - fprec)) as [A B]; [rewrite Z.abs_eq; lia|lia| |].
    - rewrite E, Rabs_pos_eq; [lra|]. pose proof fmax_ge. lra.
    - split; [exact A|]. rewrite B. exact E.
  Qed.
  Lemma min_bound (x : float) : fin x -> val x <> 0 -> bpow radix2 (3 - femax - fprec) <= Rabs (val x).
  Proof.
    intros Fx Hx. apply (abs_B2R_ge_emin fprec femax x). destruct x; try discriminate Fx; [|reflexivity].
    exfalso. apply Hx. reflexivity.
  Qed.
  Lemma min_attained : is (flt 1 (3 - femax - fprec)) (bpow radix2 (3 - femax - fprec)).
  Proof.
    pose proof fprec_ge as P. pose proof femax_gt as P'.
    destruct (flt_ok 1 (3 - femax - fprec)) as [A B]; [apply Z.pow_gt_1; lia|lia| |].
    - rewrite Rmult_1_l, Rabs_pos_eq by apply bpow_ge_0. pose proof fmax_ge.
      apply Rle_trans with (bpow radix2 0); [apply bpow_le; lia|cbn; lra].
    - split; [exact A|]. rewrite B. ring.
  Qed.
  Lemma bpow_nat (n : nat) : bpow radix2 (Z.of_nat n) = 2 ^ n.
  Proof. rewrite bpow_powerRZ. change (IZR radix2) with 2. rewrite <- pow_powerRZ. reflexivity. Qed.
  Lemma bpow_opp_nat (n : nat) : bpow radix2 (- Z.of_nat n) = / 2 ^ n.
  Proof. now rewrite bpow_opp, bpow_nat. Qed.
  Lemma max_shape (a b : nat) : 2 ^ (1 + (a + b)) - 2 ^ b = (2 - / 2 ^ a) * 2 ^ (a + b).
  Proof. rewrite !pow_add, pow_1. assert (2 ^ a <> 0) by (apply pow_nonzero; lra). field. assumption. Qed.
  Lemma eps_shape (a : nat) : 2 * / 2 ^ (1 + a) = / 2 ^ a.
  Proof. rewrite pow_add, pow_1. assert (2 ^ a <> 0) by (apply pow_nonzero; lra). field. assumption. Qed.
End Range.

Section F64.
  Local Existing Instance Binary64.
  (** f64::EPSILON, f64::MAX and the least positive number *)
  Lemma range_f64 : is (s_eps : float) (/ 2 ^ 52) /\
    (forall x : float, Rabs (val x) <= (2 - / 2 ^ 52) * 2 ^ 1023) /\ (exists x : float, is x ((2 - / 2 ^ 52) * 2 ^ 1023)) /\
    (forall x : float, fin x -> val x <> 0 -> / 2 ^ 1074 <= Rabs (val x)) /\ (exists x : float, is x (/ 2 ^ 1074)).
  Proof.
    assert (M : fmax = (2 - / 2 ^ 52) * 2 ^ 1023).
    { unfold fmax. change (femax - fprec)%Z with (Z.of_nat 971). change femax with (Z.of_nat 1024). rewrite !bpow_nat. exact (max_shape 52 971). }
    assert (L : bpow radix2 (3 - femax - fprec) = / 2 ^ 1074) by exact (bpow_opp_nat 1074).
    rewrite <- M, <- L. split; [|split; [|split; [|split]]].
    - destruct eps_ok as [A B]. split; [exact A|]. rewrite B. unfold uro. change (- fprec)%Z with (- Z.of_nat 53)%Z. rewrite bpow_opp_nat. exact (eps_shape 52).
    - exact max_bound.
    - eexists. exact max_attained.
    - exact min_bound.
    - eexists. exact min_attained.
  Qed.
End F64.

Section F32.
  Local Existing Instance Binary32.
  Lemma range_f32 : is (s_eps : float) (/ 2 ^ 23) /\
    (forall x : float, Rabs (val x) <= (2 - / 2 ^ 23) * 2 ^ 127) /\ (exists x : float, is x ((2 - / 2 ^ 23) * 2 ^ 127)) /\
    (forall x : float, fin x -> val x <> 0 -> / 2 ^ 149 <= Rabs (val x)) /\ (exists x : float, is x (/ 2 ^ 149)).
  Proof.
    assert (M : fmax = (2 - / 2 ^ 23) * 2 ^ 127).
    { unfold fmax. change (femax - fprec)%Z with (Z.of_nat 104). change femax with (Z.of_nat 128). rewrite !bpow_nat. exact (max_shape 23 104). }
    assert (L : bpow radix2 (3 - femax - fprec) = / 2 ^ 149) by exact (bpow_opp_nat 149).
    rewrite <- M, <- L. split; [|split; [|split; [|split]]].
    - destruct eps_ok as [A B]. split; [exact A|]. rewrite B. unfold uro. change (- fprec)%Z with (- Z.of_nat 24)%Z. rewrite bpow_opp_nat. exact (eps_shape 23).
    - exact max_bound.
    - eexists. exact max_attained.
    - exact min_bound.
    - eexists. exact min_attained.
  Qed.
End F32.

