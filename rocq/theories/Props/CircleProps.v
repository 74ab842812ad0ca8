(** C74, C75: the unit circle drawn by four cubics, as in the crate's tests. *)
From Coq Require Import Reals List Arith ZArith Lia Lra.
From Flocq Require Import Core.Core IEEE754.BinarySingleNaN.
From Verif Require Import Base.Outcome Base.Scalar Model.Point Model.Cubic Inst.RealInst Inst.FloatInst
  Spec.Rounding Spec.Points Spec.Circle
  Proofs.FloatFacts Proofs.FloatBoxCubic Proofs.Circle Proofs.CircleLength Proofs.FloatCircle.
Import ListNotations.
Local Open Scope R_scope.

(** C74: in exact arithmetic every point of the four curves is within 0.00019608 of the circle *)
Theorem C74_circle {E : Eps} (c t : R) q : circle_constant c -> In q (quadrants c) -> 0 <= t <= 1 ->
  Rabs (radial (cubic_eval q t)) <= max_drift.
Proof. exact (circle_exact c t q). Qed.
(** and the middle of each comes that close to the bound *)
Theorem C74_circle_tight {E : Eps} (c : R) q : circle_constant c -> In q (quadrants c) ->
  radial (cubic_eval q (/ 2)) <= - (19607 / 100000000).
Proof. exact (circle_middle c q). Qed.
(** every float format *)
Theorem C74_circle_float {F : Format} (c : float) (Fc : fin c) (Hc : circle_constant (val c)) t q :
  In q (quadrants c) -> fin t -> 0 <= val t <= 1 ->
  fin (radial (cubic_eval q t)) /\
  Rabs (val (radial (cubic_eval q t))) <= max_drift - 2 / 1000000000 + 128 * uro.
Proof. exact (circle_float c Fc Hc t q). Qed.

(** C75: the circumference for every number of steps from 1000 on *)
Theorem C75_circumference {E : Eps} (c : R) m : circle_constant c -> (1000 <= m)%nat ->
  exists a1 a2 a3 a4, cubic_arclen (quadrant_1 c) m = Ret a1 /\ cubic_arclen (quadrant_2 c) m = Ret a2 /\
    cubic_arclen (quadrant_3 c) m = Ret a3 /\ cubic_arclen (quadrant_4 c) m = Ret a4 /\
    Rabs (a1 + a2 + a3 + a4 - 2 * PI) < / 100.
Proof. exact (circumference_exact c m). Qed.

Section Double.
  #[local] Existing Instance Binary64.

  (** C74: the assertion of circle_approximation_error in f64, for every f64 parameter in [0,1] instead of
      1001 of them.  The literals enter through their values only. *)
  Theorem C74_circle_test (c : float) (Fc : fin c) (Hc : circle_constant (val c)) (drift_perc hundredth t : float) q :
    In q (quadrants c) -> fin t -> 0 <= val t <= 1 ->
    fin drift_perc -> Rabs (val drift_perc - 19608 / 1000000) <= / 1000000000000 ->
    fin hundredth -> Rabs (val hundredth - / 100) <= / 1000000000000 ->
    s_leb (s_abs (radial (cubic_eval q t))) (s_mul drift_perc hundredth) = true.
  Proof. exact (circle_test c Fc Hc drift_perc hundredth t q). Qed.

  (** C75: the assertion of circle_circumference_approximation in f64, for every number of steps from
      1000 to 10^9 instead of 1000 *)
  Theorem C75_circumference_float (c : float) (Fc : fin c) (Hc : circle_constant (val c)) n : (1000 <= n <= 10 ^ 9)%nat ->
    exists a1 a2 a3 a4, cubic_arclen (quadrant_1 c) n = Ret a1 /\ cubic_arclen (quadrant_2 c) n = Ret a2 /\
      cubic_arclen (quadrant_3 c) n = Ret a3 /\ cubic_arclen (quadrant_4 c) n = Ret a4 /\
      let l := s_add (s_add (s_add a1 a2) a3) a4 in fin l /\ Rabs (val l - 2 * PI) < / 100.
  Proof. exact (circumference_float c Fc Hc n). Qed.

  (** the literals of the test *)
  Definition lit_c : float := flt 4971208597302713 (-53).
  Definition lit_drift : float := flt 5651621215582764 (-58).
  Definition lit_hundredth : float := flt 5764607523034235 (-59).
  Lemma lit_value m e : (Z.abs m < 2 ^ 53)%Z -> (-60 <= e <= 0)%Z -> Rabs (IZR m * bpow radix2 e) <= 2 ->
    fin (flt m e) /\ val (flt m e) = IZR m * bpow radix2 e.
  Proof.
    intros Hm He Hb. pose proof (@fmax_ge Binary64). apply flt_ok; [exact Hm| |lra].
    change (@femax Binary64) with 1024%Z. change (@fprec Binary64) with 53%Z. lia.
  Qed.
  Lemma B53 : bpow radix2 (-53) = / 9007199254740992. Proof. reflexivity. Qed.
  Lemma B58 : bpow radix2 (-58) = / 288230376151711744. Proof. reflexivity. Qed.
  Lemma B59 : bpow radix2 (-59) = / 576460752303423488. Proof. reflexivity. Qed.
  Example lit_c_ok : fin lit_c /\ circle_constant (val lit_c).
  Proof.
    destruct (lit_value 4971208597302713 (-53)) as [A B]; [lia|lia|rewrite B53, Rabs_pos_eq; lra|].
    split; [exact A|]. unfold circle_constant, lit_c. rewrite B, B53. apply Rabs_le. lra.
  Qed.
  (** a third is not a float; the float next to it *)
  Example C74_case : s_leb (s_abs (radial (cubic_eval (quadrant_3 lit_c) (s_div (s_lit 1) (s_lit 3)))))
    (s_mul lit_drift lit_hundredth) = true.
  Proof.
    destruct lit_c_ok as [A B]. pose proof (@fmax_ge Binary64). pose proof (@uro_small Binary64). pose proof (@uro_pos Binary64).
    destruct (lit_value 5651621215582764 (-58)) as [D1 D2]; [lia|lia|rewrite B58, Rabs_pos_eq; lra|].
    destruct (lit_value 5764607523034235 (-59)) as [H1' H2]; [lia|lia|rewrite B59, Rabs_pos_eq; lra|].
    assert (Ft : fin (s_div (s_lit 1) (s_lit 3))) by (vm_compute; reflexivity).
    apply (C74_circle_test lit_c A B); [unfold quadrants; cbn [In]; tauto|exact Ft| |exact D1| |exact H1'|].
    - destruct (lit_small 1) as [L1 L2]; [lia|]. destruct (lit_small 3) as [L3 L4]; [lia|].
      destruct (div_ok (s_lit 1) (s_lit 3) L1) as [_ Q]; [rewrite L4; lra|rewrite L2, L4, Rabs_pos_eq; lra|].
      rewrite Q, L2, L4. split.
      + apply rnd_ge_float; [apply float_0|lra].
      + apply rnd_le_float; [|lra]. apply (float_IZR 1). change (@fprec Binary64) with 53%Z. lia.
    - unfold lit_drift. rewrite D2, B58. apply Rabs_le. lra.
    - unfold lit_hundredth. rewrite H2, B59. apply Rabs_le. lra.
  Qed.
  Example C75_case : exists a1 a2 a3 a4, cubic_arclen (quadrant_1 lit_c) 1000 = Ret a1 /\
    cubic_arclen (quadrant_2 lit_c) 1000 = Ret a2 /\ cubic_arclen (quadrant_3 lit_c) 1000 = Ret a3 /\
    cubic_arclen (quadrant_4 lit_c) 1000 = Ret a4 /\
    let l := s_add (s_add (s_add a1 a2) a3) a4 in fin l /\ Rabs (val l - 2 * PI) < / 100.
  Proof.
    destruct lit_c_ok as [A B]. refine (C75_circumference_float lit_c A B 1000 (conj (le_n _) _)).
    change 1000%nat with (10 ^ 3)%nat. apply Nat.pow_le_mono_r; lia.
  Qed.
End Double.

Print Assumptions C74_circle.
Print Assumptions C74_circle_tight.
Print Assumptions C74_circle_float.
Print Assumptions C74_circle_test.
Print Assumptions C75_circumference.
Print Assumptions C75_circumference_float.
