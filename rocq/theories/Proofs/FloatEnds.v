(** End points of the specialised curves in IEEE arithmetic. *)
From Coq Require Import Reals ZArith List Arith Lia Lra Bool.
From Flocq Require Import Core.Core IEEE754.BinarySingleNaN.
From Verif Require Import Base.Outcome Base.Scalar Model.Point Model.Line Model.Quadratic
  Model.Cubic Inst.FloatInst Spec.Rounding Spec.Componentwise Spec.Points Spec.FloatPoints
  Proofs.FloatFacts Proofs.FloatPoint Proofs.FloatEval Proofs.FloatNear.
Import ListNotations.
Local Open Scope R_scope.

Section Ends.
  Context {F : Format} {P : Type} {PT : Point float P} {CP : CwPoint float P}.
  Implicit Types x y t : float.

  Lemma is_mul_1 x y r : is x r -> is y 1 -> is (s_mul x y) r.
  Proof. intros [A <-] [B E]. now apply mul_1. Qed.
  Lemma is_mul_0 x y r : is x r -> is y 0 -> is (s_mul x y) 0.
  Proof. intros [A _] [B E]. now apply mul_0. Qed.
  Lemma is_mul_0l x y r : is x 0 -> is y r -> is (s_mul x y) 0.
  Proof. intros [A E] [B _]. now apply mul_0_l. Qed.
  Lemma is_add_0 x y r : is x r -> is y 0 -> is (s_add x y) r.
  Proof. intros [A <-] [B E]. now apply add_0_r. Qed.
  Lemma is_add_0l x y r : is x 0 -> is y r -> is (s_add x y) r.
  Proof. intros [A E] [B <-]. now apply add_0_l. Qed.
  Lemma is_lit3 : is (s_lit 3) 3.
  Proof. apply (lit_small 3). lia. Qed.
  Lemma is_one_minus_0 t : is t 0 -> is (s_add (s_neg t) (s_lit 1)) 1.
  Proof. intros [A B]. now apply one_minus_0. Qed.
  Lemma is_one_minus_1 t : is t 1 -> is (s_add (s_neg t) (s_lit 1)) 0.
  Proof. intros [A B]. now apply one_minus_1. Qed.
  Lemma is_val x : fin x -> is x (val x).
  Proof. now split. Qed.

  Theorem cubic_start_exact (c : cubic P) t i : (i < p_dim (P := P))%nat -> is t 0 ->
    fin (cw (c_start c) i) -> fin (cw (c_ctrl1 c) i) -> fin (cw (c_ctrl2 c) i) -> fin (cw (c_end c) i) ->
    is (cw (cubic_eval c t) i) (val (cw (c_start c) i)).
  Proof.
    intros Hi Ht A B C D. unfold cubic_eval. rewrite !cw_add, !cw_mul by exact Hi.
    pose proof (is_one_minus_0 t Ht) as O. set (o := s_add (s_neg t) (s_lit 1)) in *.
    apply is_add_0; [apply is_add_0; [apply is_add_0|]|].
    - apply is_mul_1; [now apply is_val|]. apply is_mul_1; [apply is_mul_1|]; auto.
    - eapply is_mul_0; [now apply is_val|]. eapply is_mul_0l; [|apply is_lit3].
      eapply is_mul_0l; [|exact O]. eapply is_mul_0l; [exact Ht|exact O].
    - eapply is_mul_0; [now apply is_val|]. eapply is_mul_0l; [|apply is_lit3].
      eapply is_mul_0l; [|exact O]. eapply is_mul_0l; exact Ht.
    - eapply is_mul_0; [now apply is_val|]. eapply is_mul_0l; [|exact Ht].
      eapply is_mul_0l; exact Ht.
  Qed.

  Theorem cubic_end_exact (c : cubic P) t i : (i < p_dim (P := P))%nat -> is t 1 ->
    fin (cw (c_start c) i) -> fin (cw (c_ctrl1 c) i) -> fin (cw (c_ctrl2 c) i) -> fin (cw (c_end c) i) ->
    is (cw (cubic_eval c t) i) (val (cw (c_end c) i)).
  Proof.
    intros Hi Ht A B C D. unfold cubic_eval. rewrite !cw_add, !cw_mul by exact Hi.
    pose proof (is_one_minus_1 t Ht) as O. set (o := s_add (s_neg t) (s_lit 1)) in *.
    assert (Ott : is (s_mul t t) 1) by now apply is_mul_1.
    apply is_add_0l; [apply is_add_0; [apply is_add_0|]|].
    - eapply is_mul_0; [now apply is_val|]. eapply is_mul_0; [|exact O]. eapply is_mul_0; exact O.
    - eapply is_mul_0; [now apply is_val|]. eapply is_mul_0l; [|apply is_lit3].
      eapply is_mul_0; [|exact O]. eapply is_mul_0; [exact Ht|exact O].
    - eapply is_mul_0; [now apply is_val|]. eapply is_mul_0l; [|apply is_lit3].
      eapply is_mul_0; [exact Ott|exact O].
    - apply is_mul_1; [now apply is_val|]. now apply is_mul_1.
  Qed.

  Lemma double_fin x : fin x -> 2 * Rabs (val x) <= fmax -> fin (s_mul x (s_lit 2)).
  Proof.
    intros Hx H. destruct (lit_small 2) as [L1 L2]; [lia|].
    apply mul_ok; auto. rewrite L2, Rabs_mult, (Rabs_pos_eq 2) by lra. lra.
  Qed.

  Theorem quad_start_exact (q : quad P) t i : (i < p_dim (P := P))%nat -> is t 0 ->
    fin (cw (q_start q) i) -> fin (cw (q_ctrl q) i) -> fin (cw (q_end q) i) ->
    2 * Rabs (val (cw (q_ctrl q) i)) <= fmax ->
    is (cw (quad_eval q t) i) (val (cw (q_start q) i)).
  Proof.
    intros Hi Ht A B C D. unfold quad_eval. rewrite !cw_add, !cw_mul by exact Hi.
    pose proof (is_one_minus_0 t Ht) as O. set (o := s_add (s_neg t) (s_lit 1)) in *.
    apply is_add_0; [apply is_add_0|].
    - apply is_mul_1; [now apply is_val|]. now apply is_mul_1.
    - eapply is_mul_0; [|exact Ht]. apply is_mul_1; [|exact O]. apply is_val. now apply double_fin.
    - eapply is_mul_0; [now apply is_val|]. eapply is_mul_0l; exact Ht.
  Qed.

  Theorem quad_end_exact (q : quad P) t i : (i < p_dim (P := P))%nat -> is t 1 ->
    fin (cw (q_start q) i) -> fin (cw (q_ctrl q) i) -> fin (cw (q_end q) i) ->
    2 * Rabs (val (cw (q_ctrl q) i)) <= fmax ->
    is (cw (quad_eval q t) i) (val (cw (q_end q) i)).
  Proof.
    intros Hi Ht A B C D. unfold quad_eval. rewrite !cw_add, !cw_mul by exact Hi.
    pose proof (is_one_minus_1 t Ht) as O. set (o := s_add (s_neg t) (s_lit 1)) in *.
    apply is_add_0l; [apply is_add_0|].
    - eapply is_mul_0; [now apply is_val|]. eapply is_mul_0l; exact O.
    - eapply is_mul_0l; [|exact Ht]. eapply is_mul_0; [|exact O]. apply is_val. now apply double_fin.
    - apply is_mul_1; [now apply is_val|]. now apply is_mul_1.
  Qed.

  (** the [a + (b - a) * t] form is exact at t = 0 when the difference does not overflow *)
  Lemma fmix_0 t a b : is t 0 -> fin a -> fin b -> Rabs (val b - val a) <= fmax ->
    is (fmix t a b) (val a).
  Proof.
    intros Ht A B D. unfold fmix. apply is_add_0; [now apply is_val|].
    destruct (sub_ok b a B A D) as [S1 _]. eapply is_mul_0; [now apply is_val|exact Ht].
  Qed.

  Theorem line_start_exact (l : line P) t i : (i < p_dim (P := P))%nat -> is t 0 ->
    fin (cw (l_start l) i) -> fin (cw (l_end l) i) ->
    Rabs (val (cw (l_end l) i) - val (cw (l_start l) i)) <= fmax ->
    is (cw (line_eval l t) i) (val (cw (l_start l) i)).
  Proof. intros Hi Ht A B D. unfold line_eval. rewrite cw_mix by exact Hi. now apply fmix_0. Qed.
  Lemma half_double x : Rabs (val x) <= fmax / 2 -> 2 * Rabs (val x) <= fmax.
  Proof. lra. Qed.
  Lemma half_diff x y : Rabs (val x) <= fmax / 2 -> Rabs (val y) <= fmax / 2 ->
    Rabs (val x - val y) <= fmax.
  Proof. intros A B. apply Rabs_le_inv in A, B. apply Rabs_le. lra. Qed.

  Theorem quad_start_bounded (q : quad P) t : fin_point (q_start q) -> fin_point (q_end q) ->
    bounded (fmax / 2) (q_ctrl q) -> is t 0 -> same_point (quad_eval q t) (q_start q).
  Proof.
    intros A B C H i Hi. destruct (C i Hi) as [C1 C2]. apply quad_start_exact; auto. now apply half_double.
  Qed.
  Theorem quad_end_bounded (q : quad P) t : fin_point (q_start q) -> fin_point (q_end q) ->
    bounded (fmax / 2) (q_ctrl q) -> is t 1 -> same_point (quad_eval q t) (q_end q).
  Proof.
    intros A B C H i Hi. destruct (C i Hi) as [C1 C2]. apply quad_end_exact; auto. now apply half_double.
  Qed.
  Theorem line_start_bounded (l : line P) t :
    bounded (fmax / 2) (l_start l) -> bounded (fmax / 2) (l_end l) -> is t 0 ->
    same_point (line_eval l t) (l_start l).
  Proof.
    intros A B H i Hi. destruct (A i Hi) as [A1 A2], (B i Hi) as [B1 B2].
    apply line_start_exact; auto. now apply half_diff.
  Qed.

  (** [==] of points on equal coordinates *)
  Lemma same_point_eqb (p q : P) : fin_point q -> same_point p q -> p_eqb p q = true.
  Proof.
    intros Fq H. apply cw_eqb. intros i Hi. destruct (H i Hi) as [A B].
    rewrite eqb_val; [|exact A|now apply Fq]. apply Req_bool_true. exact B.
  Qed.
End Ends.

(** Binary64 witnesses *)
Section Witness.
  Local Existing Instance Binary64.

  (** doubling the control point overflows: 0 * infinity *)
  Definition quad_huge : quad (PointN float 1) :=
    Quad (fpt1 (flt 0 0)) (fpt1 (flt 1 1023)) (fpt1 (flt 0 0)).
  Lemma quad_start_nan : nan (cw (quad_eval quad_huge (flt 0 0)) 0).
  Proof. vm_compute. reflexivity. Qed.

  (** end - start is rounded: eval(1) of the segment from 1 to 2^-60 is 0 *)
  Definition line_tiny : line (PointN float 1) := Line (fpt1 (flt 1 0)) (fpt1 (flt 1 (-60))).
  Lemma line_end_zero : s_eqb (cw (line_eval line_tiny (flt 1 0)) 0) (cw (l_end line_tiny) 0) = false.
  Proof. vm_compute. reflexivity. Qed.

  (** end - start overflows: infinity * 0 *)
  Definition line_huge : line (PointN float 1) := Line (fpt1 (flt (-1) 1023)) (fpt1 (flt 1 1023)).
  Lemma line_start_nan : nan (cw (line_eval line_huge (flt 0 0)) 0).
  Proof. vm_compute. reflexivity. Qed.

  Lemma fin_fpt1 (x : float) : fin x -> fin_point (fpt1 x).
  Proof. intros H [|i] Hi; [exact H|cbn in Hi; lia]. Qed.
  Lemma fin_fpt2 (x y : float) : fin x -> fin y -> fin_point (fpt2 x y).
  Proof. intros Hx Hy [|[|i]] Hi; [exact Hx|exact Hy|cbn in Hi; lia]. Qed.

  Lemma nan_not_same {P} {PT : Point float P} {CP : CwPoint float P} (p q : P) i : (i < p_dim (P := P))%nat ->
    nan (cw p i) -> ~ same_point p q.
  Proof. intros Hi N S. destruct (S i Hi) as [Fp _]. unfold nan in N. unfold fin in Fp. destruct (cw p i); discriminate. Qed.

  Theorem quad_ends_refuted : ~ (forall (q : quad (PointN float 1)) t,
    fin_point (q_start q) -> fin_point (q_ctrl q) -> fin_point (q_end q) -> is t 0 ->
    same_point (quad_eval q t) (q_start q)).
  Proof.
    intros H. apply (nan_not_same (quad_eval quad_huge (flt 0 0)) (q_start quad_huge) 0); [cbn; lia|exact quad_start_nan|].
    apply H; [apply fin_fpt1; reflexivity|apply fin_fpt1; vm_compute; reflexivity|apply fin_fpt1; reflexivity|].
    split; reflexivity.
  Qed.
  Theorem line_start_refuted : ~ (forall (l : line (PointN float 1)) t,
    fin_point (l_start l) -> fin_point (l_end l) -> is t 0 -> same_point (line_eval l t) (l_start l)).
  Proof.
    intros H. apply (nan_not_same (line_eval line_huge (flt 0 0)) (l_start line_huge) 0); [cbn; lia|exact line_start_nan|].
    apply H; [apply fin_fpt1; vm_compute; reflexivity|apply fin_fpt1; vm_compute; reflexivity|].
    split; reflexivity.
  Qed.
  Theorem line_end_refuted : ~ (forall (l : line (PointN float 1)) t,
    bounded 1 (l_start l) -> bounded 1 (l_end l) -> is t 1 -> same_point (line_eval l t) (l_end l)).
  Proof.
    intros H.
    assert (V1 : is (flt 1 0) 1) by apply (lit_small 1 ltac:(lia)).
    assert (V2 : fin (flt 1 (-60)) /\ Rabs (val (flt 1 (-60))) <= 1).
    { split; [vm_compute; reflexivity|].
      assert (L : s_leb (flt 1 (-60)) (flt 1 0) = true) by (vm_compute; reflexivity).
      assert (L0 : s_leb (flt 0 0) (flt 1 (-60)) = true) by (vm_compute; reflexivity).
      rewrite leb_val in L by (vm_compute; reflexivity). rewrite leb_val in L0 by (vm_compute; reflexivity).
      rewrite (proj2 V1) in L. change (val (flt 0 0)) with 0 in L0.
      destruct (Rle_bool_spec (val (flt 1 (-60))) 1); [|discriminate].
      destruct (Rle_bool_spec 0 (val (flt 1 (-60)))); [|discriminate].
      apply Rabs_le. lra. }
    assert (S : same_point (line_eval line_tiny (flt 1 0)) (l_end line_tiny)).
    { apply H; [| |exact V1].
      - intros [|i] Hi; [|cbn in Hi; lia]. destruct V1 as [V1 V1']. split; [exact V1|].
        change (Rabs (val (flt 1 0)) <= 1). rewrite V1', Rabs_R1. lra.
      - intros [|i] Hi; [exact V2|cbn in Hi; lia]. }
    destruct (S 0%nat) as [A B]; [cbn; lia|].
    pose proof line_end_zero as Z. rewrite eqb_val in Z; [|exact A|exact (proj1 V2)].
    rewrite Req_bool_true in Z by exact B. discriminate.
  Qed.
End Witness.
