(** C113: B-splines with the knots of a Bezier curve, D+1 times [a] and D+1 times [b],
    in floating point: bit by bit the de Casteljau evaluation of [Bezier], with the
    last control point replaced by the origin (see C44, C89). *)
From Coq Require Import Reals ZArith List Arith Lia Lra.
From Flocq Require Import Core.Core IEEE754.BinarySingleNaN.
From Verif Require Import Base.Outcome Base.Scalar Model.Point Model.Bezier Model.BSpline
  Inst.FloatInst Spec.Rounding Spec.Componentwise Spec.FloatPoints Spec.FloatCurves Spec.FloatSplines Spec.Bernstein
  Spec.Scaling Spec.Exact
  Proofs.OutcomeFacts Proofs.FloatFacts Proofs.FloatPoint Proofs.FloatSplineEval Proofs.FloatPanic Proofs.FloatBezierSpline
  Props.FloatProps Props.FloatExactProps.
Import ListNotations.
Local Open Scope R_scope.

Section C113.
  Context {F : Format} {P : Type} {PT : Point float P} {CP : CwPoint float P}.

  Section Ends.
    Variables (D : nat) (a b t : float) (ps : list P) (s : bspline float P).
    Hypothesis HC : length ps = (D + 1)%nat.
    Hypothesis Hnew : bspline_new D (repeat a (D + 1) ++ repeat b (D + 1)) ps = Ret (Ok s).
    Hypotheses (Ha : fin a) (Hb : fin b) (Ht : fin t).
    Hypotheses (Ba : Rabs (val a) <= fmax / 2) (Bb : Rabs (val b) <= fmax / 2).
    Hypothesis Hr : val a <= val t < val b.

    Theorem C113_eval : s_leb s_eps (s_sub t a) = true -> exists p, bspline_eval s t = Ret (Ok p) /\
      bezier_eval (Bezier (firstn D ps ++ [p_default])) (s_div (s_sub t a) (s_sub b a)) = Ret p.
    Proof.
      intros L. rewrite (fbezier_eval_quot D a b t ps s HC Hnew Ha Hb Ht Ba Bb Hr L).
      rewrite (BezierGeneric.bezier_eval_closed _ _ p_default) by (intros N; apply app_eq_nil in N; destruct N; discriminate).
      eexists. split; reflexivity.
    Qed.
    (** closer to the start than EPSILON: the first control point *)
    Theorem C113_start p0 : (1 <= D)%nat -> hd_error ps = Some p0 -> (forall p, In p ps -> fin_point p) ->
      s_ltb (s_sub t a) s_eps = true -> exists p, bspline_eval s t = Ret (Ok p) /\ same_point p p0.
    Proof.
      intros HD H0 Hf L. rewrite (fbezier_eval_start D a b t ps s HC Hnew Ha Hb Ht Ba Bb Hr L).
      destruct (C53_bezier_start (firstn D ps ++ [p_default]) (s_lit 0) p0) as (p & E & S).
      - intros N. apply app_eq_nil in N. destruct N. discriminate.
      - intros p Hp. apply in_app_or in Hp. destruct Hp as [Hp|[<-|[]]].
        + apply Hf. rewrite <- (firstn_skipn D ps). apply in_or_app. now left.
        + intros i Hi. rewrite cw_default by exact Hi. apply (lit_small 0). lia.
      - apply (lit_small 0). lia.
      - exists p. rewrite E. split; [reflexivity|]. destruct ps as [|q ps']; [discriminate|]. injection H0 as ->.
        destruct D as [|D']; [lia|]. exact S.
    Qed.
  End Ends.

  (** knots 0 and 1: the parameter itself *)
  Theorem C113_unit D (ps : list P) s (t : float) : length ps = (D + 1)%nat ->
    bspline_new D (repeat (s_lit 0) (D + 1) ++ repeat (s_lit 1) (D + 1)) ps = Ret (Ok s) ->
    fin t -> 2 * uro <= val t < 1 ->
    exists p, bspline_eval s t = Ret (Ok p) /\ bezier_eval (Bezier (firstn D ps ++ [p_default])) t = Ret p.
  Proof.
    intros HC Hnew Ht Hr. rewrite (funit_eval D ps s t HC Hnew Ht Hr).
    rewrite (BezierGeneric.bezier_eval_closed _ _ p_default) by (intros N; apply app_eq_nil in N; destruct N; discriminate).
    eexists. split; reflexivity.
  Qed.
  (** ... hence without any rounding error for coarse data *)
  Theorem C113_exact D (ps : list P) s (t : float) g b M i : length ps = (D + 1)%nat ->
    bspline_new D (repeat (s_lit 0) (D + 1) ++ repeat (s_lit 1) (D + 1)) ps = Ret (Ok s) ->
    fin t -> 2 * uro <= val t < 1 -> (g <= 0)%Z -> (b <= 0)%Z -> 1 <= M -> on_grid b t -> (i < p_dim (P := P))%nat ->
    room (g + Z.of_nat D * b) M -> (forall p, In p ps -> coarse_point g M p) ->
    exists p, bspline_eval s t = Ret (Ok p) /\
      is (cw p i) (exact_at ps (val t) i - val t ^ D * val (cw (nth D ps p_default) i)).
  Proof.
    intros HC Hnew Ht Hr Hg Hb HM Gt Hi Rm Hps.
    destruct (C113_unit D ps s t HC Hnew Ht Hr) as (p & E & B). exists p. split; [exact E|].
    pose proof uro_pos.
    assert (L : length (firstn D ps ++ [p_default]) = S D) by (rewrite app_length, firstn_length; cbn [length]; lia).
    destruct (C109_bezier g b M t i Hg Hb HM Ht Gt ltac:(lra) Hi (firstn D ps ++ [p_default]) D L Rm) as (p' & E' & V).
    { intros q Hq. apply in_app_or in Hq. destruct Hq as [Hq|[<-|[]]].
      - apply Hps. rewrite <- (firstn_skipn D ps). apply in_or_app. now left.
      - intros k Hk. rewrite cw_default by exact Hk. destruct (lit_small 0 ltac:(lia)) as [Z1 Z2].
        split; [exact Z1|]. split; [exists 0%Z; rewrite Z2; ring|]. rewrite Z2, Rabs_R0. lra. }
    rewrite B in E'. injection E' as <-. destruct V as [V1 V2]. split; [exact V1|]. rewrite V2.
    exact (exact_at_last D ps (val t) i HC Hi).
  Qed.
End C113.

(** f64, control points 0, 2, 4 over the knots 0,0,0,1,1,1: at 1/2 the value is 1 *)
Section Example_.
  Local Existing Instance Binary64.
  Definition line3 : list (PointN float 1) := [fpt1 (flt 0 0); fpt1 (flt 2 0); fpt1 (flt 4 0)].
  Example C113_ex : exists s p, bspline_new 2 (repeat (s_lit 0) (2 + 1) ++ repeat (s_lit 1) (2 + 1)) line3 = Ret (Ok s) /\
    bspline_eval s (flt 1 (-1)) = Ret (Ok p) /\ is (cw p 0) 1.
  Proof.
    destruct (kind_is_spec 2 (repeat (s_lit 0) (2 + 1) ++ repeat (s_lit 1) (2 + 1)) line3 Clamped) as (s & N & _);
      [vm_compute; reflexivity|].
    assert (T : fin (flt 1 (-1)) /\ val (flt 1 (-1)) = / 2) by (apply flt_pow; lia).
    destruct T as [T1 T2].
    assert (U : 2 * uro <= / 2) by (pose proof uro_small; lra).
    assert (V : forall z, (0 <= z <= 4)%Z -> fin (flt z 0) /\ val (flt z 0) = IZR z).
    { intros z Hz. change (flt z 0) with (s_lit z : float). apply lit_small. lia. }
    assert (T3 : 2 * uro <= val (flt 1 (-1)) < 1) by (rewrite T2; lra).
    assert (T4 : on_grid (-1) (flt 1 (-1))) by (exists 1%Z; rewrite T2; cbn; lra).
    assert (Rm : room (0 + Z.of_nat 2 * -1) 4).
    { unfold room, least. cbn [fprec femax Binary64]. split; [cbn; lia|].
      split; apply Rle_trans with (bpow radix2 2); try (cbn; lra); apply bpow_le; cbn; lia. }
    assert (Cp : forall q, In q line3 -> coarse_point 0 4 q).
    { intros q Hq i Hi. change (p_dim (P := PointN float 1)) with 1%nat in Hi. assert (i = 0%nat) by lia. subst i.
      assert (G : forall z, (0 <= z <= 4)%Z -> fin (flt z 0) /\ on_grid 0 (flt z 0) /\ Rabs (val (flt z 0)) <= 4).
      { intros z Hz. destruct (V z Hz) as [X Y]. split; [exact X|]. split; [exists z; rewrite Y; cbn; ring|].
        rewrite Y. rewrite Rabs_pos_eq by (apply IZR_le; lia). apply IZR_le. lia. }
      destruct Hq as [<-|[<-|[<-|[]]]]; apply G; lia. }
    assert (H14 : 1 <= 4) by lra. assert (H00 : (0 <= 0)%Z) by lia. assert (H10 : (-1 <= 0)%Z) by lia.
    assert (Hi0 : (0 < p_dim (P := PointN float 1))%nat) by (cbn; lia).
    destruct (C113_exact 2 line3 s (flt 1 (-1)) 0 (-1) 4 0 eq_refl N T1 T3 H00 H10 H14 T4 Hi0 Rm Cp) as (p & E & A).
    exists s, p. split; [exact N|]. split; [exact E|]. destruct A as [A1 A2]. split; [exact A1|]. rewrite A2, T2.
    unfold exact_at. cbn [line3 map nth]. change (cw (fpt1 ?x) 0) with x.
    rewrite (proj2 (V 0%Z ltac:(lia))), (proj2 (V 2%Z ltac:(lia))), (proj2 (V 4%Z ltac:(lia))).
    unfold bezier_poly, bernstein. simpl. lra.
  Qed.
End Example_.

Print Assumptions C113_eval.
Print Assumptions C113_start.
Print Assumptions C113_unit.
Print Assumptions C113_exact.
