(** C116: on coarse data two floating-point formats, such as f32 and f64, give the same
    results; there is nothing to round. *)
From Coq Require Import Reals ZArith List Arith Lia Lra.
From Flocq Require Import Core.Core IEEE754.BinarySingleNaN.
From Verif Require Import Base.Outcome Base.Scalar Model.Point Model.Line Model.Quadratic Model.Cubic Model.Bezier
  Inst.FloatInst Spec.Componentwise Spec.Rounding Spec.FloatPoints Spec.Scaling Spec.Exact Spec.TwoFormats
  Proofs.FloatFacts Proofs.FloatPoint Proofs.FloatBoxCubic Proofs.FloatExact Proofs.TwoExact.
Import ListNotations.
Local Open Scope R_scope.

Section C116.
  Context {F G : Format} {P Q : Type} {PT : Point (@float F) P} {QT : Point (@float G) Q}
          {CP : CwPoint (@float F) P} {CQ : CwPoint (@float G) Q}.
  (** control points are multiples of 2^g of magnitude at most M, the parameter one of 2^b *)
  Variables (g b : Z) (M : R) (t : @float F) (u : @float G).
  Hypotheses (Hdim : p_dim (P := P) = p_dim (P := Q)) (Hg : (g <= 0)%Z) (Hb : (b <= 0)%Z) (HM : 1 <= M)
    (Ft : fin t) (Fu : fin u) (Gt : on_grid b t) (Rt : 0 <= val t <= 1) (Etu : val t = val u).

  Theorem C116_line (c : line P) (d : line Q) : @room F (g + b) (2 * M) -> @room G (g + b) (2 * M) ->
    coarse_point g M (l_start c) -> coarse_point g M (l_end c) ->
    same_point (l_start c) (l_start d) -> same_point (l_end c) (l_end d) -> same_point (line_eval c t) (line_eval d u).
  Proof. now apply line_two_exact. Qed.
  Theorem C116_quad (c : quad P) (d : quad Q) : @room F (g + 2 * b) (2 * M) -> @room G (g + 2 * b) (2 * M) ->
    (forall p, In p (quad_control_points c) -> coarse_point g M p) ->
    Forall2 same_point (quad_control_points c) (quad_control_points d) ->
    same_point (quad_eval c t) (quad_eval d u) /\ same_point (quad_eval_casteljau c t) (quad_eval_casteljau d u).
  Proof. now apply quad_two_exact. Qed.
  Theorem C116_quad_split (c : quad P) (d : quad Q) : @room F (g + 2 * b) (2 * M) -> @room G (g + 2 * b) (2 * M) ->
    (forall p, In p (quad_control_points c) -> coarse_point g M p) ->
    Forall2 same_point (quad_control_points c) (quad_control_points d) ->
    Forall2 same_point (quad_control_points (fst (quad_split c t))) (quad_control_points (fst (quad_split d u))) /\
    Forall2 same_point (quad_control_points (snd (quad_split c t))) (quad_control_points (snd (quad_split d u))).
  Proof. now apply quad_split_two. Qed.
  Theorem C116_cubic (c : cubic P) (d : cubic Q) : @room F (g + 3 * b) (3 * M) -> @room G (g + 3 * b) (3 * M) ->
    (forall p, In p (cubic_control_points c) -> coarse_point g M p) ->
    Forall2 same_point (cubic_control_points c) (cubic_control_points d) ->
    same_point (cubic_eval c t) (cubic_eval d u) /\ same_point (cubic_eval_casteljau c t) (cubic_eval_casteljau d u).
  Proof. now apply cubic_two_exact. Qed.
  Theorem C116_cubic_split (c : cubic P) (d : cubic Q) : @room F (g + 3 * b) (2 * M) -> @room G (g + 3 * b) (2 * M) ->
    (forall p, In p (cubic_control_points c) -> coarse_point g M p) ->
    Forall2 same_point (cubic_control_points c) (cubic_control_points d) ->
    Forall2 same_point (cubic_control_points (fst (cubic_split c t))) (cubic_control_points (fst (cubic_split d u))) /\
    Forall2 same_point (cubic_control_points (snd (cubic_split c t))) (cubic_control_points (snd (cubic_split d u))).
  Proof. now apply cubic_split_two. Qed.
  Theorem C116_bezier (ps : list P) (qs : list Q) n : length ps = S n ->
    @room F (g + Z.of_nat n * b) M -> @room G (g + Z.of_nat n * b) M ->
    (forall p, In p ps -> coarse_point g M p) -> Forall2 same_point ps qs ->
    exists p q, bezier_eval (Bezier ps) t = Ret p /\ bezier_eval (Bezier qs) u = Ret q /\ same_point p q.
  Proof. now apply bezier_two_exact. Qed.
  Theorem C116_bezier_split (ps : list P) (qs : list Q) n : length ps = S n ->
    @room F (g + Z.of_nat n * b) M -> @room G (g + Z.of_nat n * b) M ->
    (forall p, In p ps -> coarse_point g M p) -> Forall2 same_point ps qs ->
    exists l r l' r', bezier_split (Bezier ps) t = Ret (Bezier l, Bezier r) /\ bezier_split (Bezier qs) u = Ret (Bezier l', Bezier r') /\
      Forall2 same_point l l' /\ Forall2 same_point r r'.
  Proof. now apply bezier_split_two. Qed.
End C116.

(** f32 and f64: a cubic with integer control points up to 1024, at a quarter *)
Example C116_quarter (c : cubic (PointN (@float Binary32) 2)) (d : cubic (PointN (@float Binary64) 2)) :
  (forall p, In p (cubic_control_points c) -> forall i, (i < 2)%nat ->
     @fin Binary32 (cw p i) /\ (exists z : Z, @val Binary32 (cw p i) = IZR z) /\ Rabs (@val Binary32 (cw p i)) <= 1024) ->
  Forall2 (same_point (F := Binary32) (G := Binary64)) (cubic_control_points c) (cubic_control_points d) ->
  same_point (F := Binary32) (G := Binary64) (cubic_eval c (@flt Binary32 1 (-2))) (cubic_eval d (@flt Binary64 1 (-2))).
Proof.
  intros H S.
  assert (E : bpow radix2 (-2) = / 4) by reflexivity.
  destruct (@flt_ok Binary32 1 (-2)) as [F1 V1]; [cbn; lia|cbn; lia| |].
  { rewrite E. rewrite Rabs_pos_eq by lra. pose proof (@fmax_ge Binary32). lra. }
  destruct (@flt_ok Binary64 1 (-2)) as [F2 V2]; [cbn; lia|cbn; lia| |].
  { rewrite E. rewrite Rabs_pos_eq by lra. pose proof (@fmax_ge Binary64). lra. }
  assert (B : 3 * 1024 <= bpow radix2 18) by (cbn; lra).
  assert (G1 : @on_grid Binary32 (-2) (flt 1 (-2))) by (exists 1%Z; exact V1).
  assert (R1 : 0 <= val (@flt Binary32 1 (-2)) <= 1) by (rewrite V1, E; lra).
  assert (E12 : val (@flt Binary32 1 (-2)) = val (@flt Binary64 1 (-2))) by now rewrite V1, V2.
  assert (Room : @room Binary32 (0 + 3 * -2) (3 * 1024) /\ @room Binary64 (0 + 3 * -2) (3 * 1024)).
  { unfold room, least. cbn [fprec femax Binary32 Binary64].
    repeat split; try lia; (eapply Rle_trans; [exact B|apply bpow_le; lia]). }
  destruct Room as [RF RG].
  assert (C : forall p, In p (cubic_control_points c) -> coarse_point (F := Binary32) 0 1024 p).
  { intros p Hp i Hi. destruct (H p Hp i Hi) as (X & (z & Y) & Z). split; [exact X|]. split; [|exact Z].
    exists z. rewrite Y. cbn. ring. }
  exact (proj1 (C116_cubic (F := Binary32) (G := Binary64) (P := PointN (@float Binary32) 2) (Q := PointN (@float Binary64) 2)
    0 (-2) 1024 _ _ eq_refl ltac:(lia) ltac:(lia) ltac:(lra) F1 F2 G1 R1 E12 c d RF RG C S)).
Qed.

(** Data that both formats hold is not enough: from 0 to 2^24 - 1 at 1 - 2^-24 the product
    needs 48 bits. *)
Section Inexact.
  Definition end32 (m : Z) : PointN (@float Binary32) 1 := fpt1 (flt m 0).
  Definition end64 (m : Z) : PointN (@float Binary64) 1 := fpt1 (flt m 0).
  Example C116_inexact :
    same_point (F := Binary32) (G := Binary64) (end32 16777215) (end64 16777215) /\
    val (@flt Binary32 16777215 (-24)) = val (@flt Binary64 16777215 (-24)) /\
    ~ same_point (F := Binary32) (G := Binary64) (line_eval (Line (end32 0) (end32 16777215)) (@flt Binary32 16777215 (-24)))
                 (line_eval (Line (end64 0) (end64 16777215)) (@flt Binary64 16777215 (-24))).
  Proof.
    assert (V : forall (F : Format) (x : float) s, B2SF x = s -> val x = SF2R radix2 s).
    { intros F x s <-. unfold val. symmetry. apply SF2R_B2SF. }
    split; [|split].
    - intros [|i] Hi; [|cbn in Hi; lia]. split; [reflexivity|]. split; [reflexivity|].
      cbn [cw]. erewrite (V Binary32) by (vm_compute; reflexivity). erewrite (V Binary64) by (vm_compute; reflexivity).
      cbn. unfold F2R. cbn. lra.
    - erewrite (V Binary32) by (vm_compute; reflexivity). erewrite (V Binary64) by (vm_compute; reflexivity).
      cbn. unfold F2R. cbn. lra.
    - intros S. destruct (S 0%nat) as (_ & _ & X); [cbn; lia|].
      erewrite (V Binary32) in X by (vm_compute; reflexivity). erewrite (V Binary64) in X by (vm_compute; reflexivity).
      cbn in X. unfold F2R in X. cbn in X. lra.
  Qed.
End Inexact.

Print Assumptions C116_line.
Print Assumptions C116_quad.
Print Assumptions C116_quad_split.
Print Assumptions C116_cubic.
Print Assumptions C116_cubic_split.
Print Assumptions C116_bezier.
Print Assumptions C116_bezier_split.
