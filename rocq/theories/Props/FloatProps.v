(** C39, C46, C53-C57, C62, C63: statements about IEEE-754 arithmetic.  [F] is any
    binary format with at least 11 bits of precision; f64 is [Binary64], f32 is
    [Binary32]. *)
From Coq Require Import Reals List Arith ZArith Lia Lra.
From Flocq Require Import IEEE754.BinarySingleNaN.
From Verif Require Import Base.Outcome Base.Scalar Model.Point Model.Line Model.Quadratic Model.Cubic
  Model.Bezier Model.BSpline Inst.FloatInst Spec.Bernstein Spec.Rounding Spec.Componentwise
  Spec.FloatPoints Spec.Points
  Proofs.FloatFacts Proofs.FloatPoint Proofs.FloatEval Proofs.FloatBound Proofs.FloatNear
  Proofs.FloatEnds Proofs.FloatSpline Proofs.BoxGeneric Proofs.FloatBox.
Import ListNotations.
Local Open Scope R_scope.

Section Floats.
  Context {F : Format} {P : Type} {PT : Point float P} {CP : CwPoint float P}.

  (** C53: Bezier::eval *)
  Theorem C53_bezier_start (ps : list P) t d : ps <> [] -> (forall p, In p ps -> fin_point p) -> is t 0 ->
    exists p, bezier_eval (Bezier ps) t = Ret p /\ same_point p (hd d ps).
  Proof. intros A B [C D]. exact (bezier_start_exact ps t d A B C D). Qed.
  Theorem C53_bezier_end (ps : list P) t d : ps <> [] -> (forall p, In p ps -> fin_point p) -> is t 1 ->
    exists p, bezier_eval (Bezier ps) t = Ret p /\ same_point p (last ps d).
  Proof. intros A B [C D]. exact (bezier_end_exact ps t d A B C D). Qed.

  (** C53: CubicBezier::eval *)
  Theorem C53_cubic_start (c : cubic P) t : fin_point (c_start c) -> fin_point (c_ctrl1 c) ->
    fin_point (c_ctrl2 c) -> fin_point (c_end c) -> is t 0 ->
    same_point (cubic_eval c t) (c_start c).
  Proof. intros A B C D H i Hi. exact (cubic_start_exact c t i Hi H (A i Hi) (B i Hi) (C i Hi) (D i Hi)). Qed.
  Theorem C53_cubic_end (c : cubic P) t : fin_point (c_start c) -> fin_point (c_ctrl1 c) ->
    fin_point (c_ctrl2 c) -> fin_point (c_end c) -> is t 1 ->
    same_point (cubic_eval c t) (c_end c).
  Proof. intros A B C D H i Hi. exact (cubic_end_exact c t i Hi H (A i Hi) (B i Hi) (C i Hi) (D i Hi)). Qed.

  (** ... which is equality of points in the code's sense *)
  Theorem C53_equal (p q : P) : fin_point q -> same_point p q -> p_eqb p q = true.
  Proof. exact (same_point_eqb p q). Qed.

  (** C63: the other evaluators.  Full statement: for every finite curve.  It fails
      when an intermediate result overflows, and LineSegment is not exact at t = 1. *)
  Theorem C63_quad_start_partial (q : quad P) t : fin_point (q_start q) -> fin_point (q_end q) ->
    bounded (fmax / 2) (q_ctrl q) -> is t 0 -> same_point (quad_eval q t) (q_start q).
  Proof. exact (quad_start_bounded q t). Qed.
  Theorem C63_quad_end_partial (q : quad P) t : fin_point (q_start q) -> fin_point (q_end q) ->
    bounded (fmax / 2) (q_ctrl q) -> is t 1 -> same_point (quad_eval q t) (q_end q).
  Proof. exact (quad_end_bounded q t). Qed.
  Theorem C63_line_start_partial (l : line P) t :
    bounded (fmax / 2) (l_start l) -> bounded (fmax / 2) (l_end l) -> is t 0 ->
    same_point (line_eval l t) (l_start l).
  Proof. exact (line_start_bounded l t). Qed.

  (** C54 *)
  Theorem C54_bezier (ps : list P) t M : ps <> [] ->
    6 * INR (length ps - 1) * uro <= 1 -> 4 * M <= fmax -> fin t -> 0 <= val t <= 1 ->
    (forall p, In p ps -> bounded M p) ->
    exists p, bezier_eval (Bezier ps) t = Ret p /\
      forall i, (i < p_dim (P := P))%nat -> fin (cw p i) /\
        Rabs (val (cw p i) - bezier_poly (map (fun q => val (cw q i)) ps) (val t))
          <= 6 * INR (length ps - 1) * uro * M + 5 * INR (length ps - 1) * eta.
  Proof. intros A B C D E G. exact (bezier_eval_err_lin ps t M A B C D E (fun p i H Hi => G p H i Hi)). Qed.

  (** C55 *)
  Section Bounds.
    Variables (M : R) (t : float) (i : nat).
    Hypotheses (HM : 0 <= M) (H4 : 4 * M <= fmax) (Hi : (i < p_dim (P := P))%nat)
               (Ht : fin t) (Hr : 0 <= val t <= 1).

    Theorem C55_line (l : line P) : bounded M (l_start l) -> bounded M (l_end l) ->
      fin (cw (line_eval l t) i) /\
      Rabs (val (cw (line_eval l t) i)
            - bezier_poly [val (cw (l_start l) i); val (cw (l_end l) i)] (val t)) <= 6 * uro * M + 2 * eta.
    Proof. intros A B. exact (line_eval_err M HM H4 l t i Hi Ht Hr (A i Hi) (B i Hi)). Qed.

    Theorem C55_quad (q : quad P) : bounded M (q_start q) -> bounded M (q_ctrl q) -> bounded M (q_end q) ->
      fin (cw (quad_eval q t) i) /\
      Rabs (val (cw (quad_eval q t) i)
            - bezier_poly [val (cw (q_start q) i); val (cw (q_ctrl q) i); val (cw (q_end q) i)] (val t))
        <= 17 * uro * M + 5 * eta.
    Proof. intros A B C. exact (quad_eval_err M HM H4 q t i Hi Ht Hr (A i Hi) (B i Hi) (C i Hi)). Qed.

    Theorem C55_quad_casteljau (q : quad P) :
      bounded M (q_start q) -> bounded M (q_ctrl q) -> bounded M (q_end q) ->
      fin (cw (quad_eval_casteljau q t) i) /\
      Rabs (val (cw (quad_eval_casteljau q t) i)
            - bezier_poly [val (cw (q_start q) i); val (cw (q_ctrl q) i); val (cw (q_end q) i)] (val t))
        <= 11 * uro * M + 3 * eta.
    Proof. intros A B C. exact (quad_casteljau_err M HM H4 q t i Hi Ht Hr (A i Hi) (B i Hi) (C i Hi)). Qed.

    Theorem C55_cubic (c : cubic P) : bounded M (c_start c) -> bounded M (c_ctrl1 c) ->
      bounded M (c_ctrl2 c) -> bounded M (c_end c) ->
      fin (cw (cubic_eval c t) i) /\
      Rabs (val (cw (cubic_eval c t) i)
            - bezier_poly [val (cw (c_start c) i); val (cw (c_ctrl1 c) i);
                           val (cw (c_ctrl2 c) i); val (cw (c_end c) i)] (val t))
        <= 39 * uro * M + 5 * eta.
    Proof. intros A B C D. exact (cubic_eval_err M HM H4 c t i Hi Ht Hr (A i Hi) (B i Hi) (C i Hi) (D i Hi)). Qed.

    Theorem C55_cubic_casteljau (c : cubic P) : bounded M (c_start c) -> bounded M (c_ctrl1 c) ->
      bounded M (c_ctrl2 c) -> bounded M (c_end c) ->
      fin (cw (cubic_eval_casteljau c t) i) /\
      Rabs (val (cw (cubic_eval_casteljau c t) i)
            - bezier_poly [val (cw (c_start c) i); val (cw (c_ctrl1 c) i);
                           val (cw (c_ctrl2 c) i); val (cw (c_end c) i)] (val t))
        <= 16 * uro * M + 4 * eta.
    Proof. intros A B C D. exact (cubic_casteljau_err M HM H4 c t i Hi Ht Hr (A i Hi) (B i Hi) (C i Hi) (D i Hi)). Qed.
  End Bounds.

  (** C56.  No bound on the magnitudes: overflow inside is allowed. *)
  Theorem C56_line {T Q} {ST : Scalar T} {QT : Point T Q} {CQ : CwPoint T Q} (l : line Q) :
    exists bounds, line_bounding_box l = Ret bounds /\ length bounds = p_dim (P := Q).
  Proof. exact (line_box_total l). Qed.
  Theorem C56_quad (q : quad P) : fin_point (q_start q) -> fin_point (q_ctrl q) -> fin_point (q_end q) ->
    exists bounds, quad_bounding_box q = Ret bounds /\ length bounds = p_dim (P := P).
  Proof. exact (quad_box_total q). Qed.
  Theorem C56_cubic (c : cubic P) :
    fin_point (c_start c) -> fin_point (c_ctrl1 c) -> fin_point (c_ctrl2 c) -> fin_point (c_end c) ->
    exists bounds, cubic_bounding_box c = Ret bounds /\ length bounds = p_dim (P := P).
  Proof. exact (cubic_box_total c). Qed.

  (** C57 *)
  Theorem C57_quad (q : quad P) i : (i < p_dim (P := P))%nat ->
    nan (cw (q_start q) i) \/ nan (cw (q_end q) i) -> quad_bounding_box q = Panic.
  Proof. exact (quad_box_nan q i). Qed.
  Theorem C57_cubic (c : cubic P) i : (i < p_dim (P := P))%nat ->
    nan (cw (c_start c) i) \/ nan (cw (c_end c) i) -> cubic_bounding_box c = Panic.
  Proof. exact (cubic_box_nan c i). Qed.

  (** C62 *)
  Theorem C62_line (l : line P) bounds : line_bounding_box l = Ret bounds ->
    (forall i, (i < p_dim (P := P))%nat -> ~ nan (cw (l_start l) i) /\ ~ nan (cw (l_end l) i)) ->
    box_has bounds (l_start l) /\ box_has bounds (l_end l).
  Proof. exact (line_box_ends l bounds). Qed.
  Theorem C62_quad (q : quad P) bounds : quad_bounding_box q = Ret bounds ->
    box_has bounds (q_start q) /\ box_has bounds (q_end q).
  Proof. exact (quad_box_ends q bounds). Qed.
  Theorem C62_cubic (c : cubic P) bounds : cubic_bounding_box c = Ret bounds ->
    box_has bounds (c_start c) /\ box_has bounds (c_end c).
  Proof. exact (cubic_box_ends c bounds). Qed.

  (** C39 for floats: infinities included, NaN excluded.  Full statement: NaN knots
      too; refuted below. *)
  Theorem C39_float_partial D ks (ps : list P) s : bspline_new D ks ps = Ret (Ok s) ->
    (forall x, In x ks -> ~ nan x) ->
    forall i j, (i <= j < length ks)%nat -> s_leb (nth i ks (s_lit 0)) (nth j ks (s_lit 0)) = true.
  Proof. exact (new_sorted_float D ks ps s). Qed.

  (** C46 *)
  Theorem C46_nan D ks (ps : list P) s t : bspline_new D ks ps = Ret (Ok s) ->
    (forall x, In x ks -> fin x) -> nan t -> bspline_eval s t = Ret (Err KnotDomainViolation).
  Proof. exact (eval_nan D ks ps s t). Qed.
End Floats.

(** ** f64: refutations and concrete cases *)
Section Concrete.
  Local Existing Instance Binary64.

  Theorem C39_nan_refuted : ~ (forall D ks (ps : list (PointN float 1)) s,
    bspline_new D ks ps = Ret (Ok s) ->
    forall i j, (i <= j < length ks)%nat -> s_leb (nth i ks (s_lit 0)) (nth j ks (s_lit 0)) = true).
  Proof. exact nan_knots_refuted. Qed.

  Theorem C63_quad_refuted : ~ (forall (q : quad (PointN float 1)) t,
    fin_point (q_start q) -> fin_point (q_ctrl q) -> fin_point (q_end q) -> is t 0 ->
    same_point (quad_eval q t) (q_start q)).
  Proof. exact quad_ends_refuted. Qed.
  Theorem C63_line_start_refuted : ~ (forall (l : line (PointN float 1)) t,
    fin_point (l_start l) -> fin_point (l_end l) -> is t 0 -> same_point (line_eval l t) (l_start l)).
  Proof. exact line_start_refuted. Qed.
  (** even for coordinates in [-1, 1] *)
  Theorem C63_line_end_refuted : ~ (forall (l : line (PointN float 1)) t,
    bounded 1 (l_start l) -> bounded 1 (l_end l) -> is t 1 -> same_point (line_eval l t) (l_end l)).
  Proof. exact line_end_refuted. Qed.

  (** the plane curve used below: 0.1-ish, huge and tiny coordinates *)
  Definition k1 : PointN float 2 := fpt2 (flt 3602879701896397 (-55)) (flt 7 1000).
  Definition k2 : PointN float 2 := fpt2 (flt (-1) 1023) (flt 5 (-1060)).
  Definition k3 : PointN float 2 := fpt2 (flt 1 1023) (flt 1 0).

  Example k_fin : fin_point k1 /\ fin_point k2 /\ fin_point k3.
  Proof. repeat split; apply fin_fpt2; vm_compute; reflexivity. Qed.
  Example zero_one : is (flt 0 0) 0 /\ is (flt 1 0) 1.
  Proof. split; [split; reflexivity|exact (lit_small 1 ltac:(lia))]. Qed.

  Example C53_case : exists p, bezier_eval (Bezier [k1; k2; k3]) (flt 1 0) = Ret p /\ same_point p k3.
  Proof.
    destruct k_fin as (A & B & C). apply (C53_bezier_end [k1; k2; k3] (flt 1 0) k1); [discriminate| |apply zero_one].
    intros p [<-|[<-|[<-|[]]]]; assumption.
  Qed.
  Example C53_cubic_case : same_point (cubic_eval (Cubic k1 k2 k3 k2) (flt 1 0)) k2.
  Proof. destruct k_fin as (A & B & C). apply (C53_cubic_end (Cubic k1 k2 k3 k2)); auto. apply zero_one. Qed.

  (** an inner difference overflows here, the box is still returned *)
  Example C56_case : exists bounds, quad_bounding_box (Quad k1 k2 k3) = Ret bounds /\ length bounds = 2%nat.
  Proof. destruct k_fin as (A & B & C). exact (C56_quad (Quad k1 k2 k3) A B C). Qed.
  Example C56_overflow : is_finite (s_sub (cw k3 0) (cw k2 0)) = false.
  Proof. vm_compute. reflexivity. Qed.
  Example C57_case : quad_bounding_box (Quad k1 k2 (fpt2 (flt 1 0) B754_nan)) = Panic.
  Proof. apply (C57_quad _ 1); [cbn; lia|]. right. reflexivity. Qed.

  (** three quarters of the way along a degree 2 curve, magnitude at most 1 *)
  Definition u1 : PointN float 1 := fpt1 (flt 1 0).
  Definition u0 : PointN float 1 := fpt1 (flt 0 0).
  Definition u2 : PointN float 2 := fpt2 (flt 1 0) (flt 0 0).
  Example u_bounded : bounded 1 u1 /\ bounded 1 u0.
  Proof.
    split; intros [|i] Hi; try (cbn in Hi; lia); (split; [reflexivity|]).
    - change (Rabs (val (flt 1 0)) <= 1). rewrite (proj2 (proj2 zero_one)), Rabs_R1. lra.
    - change (Rabs 0 <= 1). rewrite Rabs_R0. lra.
  Qed.
  Example t_ok : fin (flt 3 (-2)) /\ 0 <= val (flt 3 (-2)) <= 1.
  Proof.
    split; [vm_compute; reflexivity|].
    assert (A : s_leb (flt 0 0) (flt 3 (-2)) = true) by (vm_compute; reflexivity).
    assert (B : s_leb (flt 3 (-2)) (flt 1 0) = true) by (vm_compute; reflexivity).
    rewrite leb_val in A by (vm_compute; reflexivity). rewrite leb_val in B by (vm_compute; reflexivity).
    rewrite (proj2 (proj2 zero_one)) in B. change (val (flt 0 0)) with 0 in A.
    destruct (Raux.Rle_bool_spec 0 (val (flt 3 (-2)))); [|discriminate].
    destruct (Raux.Rle_bool_spec (val (flt 3 (-2))) 1); [|discriminate]. split; assumption.
  Qed.
  Example C54_case : exists p, bezier_eval (Bezier [u0; u1; u0]) (flt 3 (-2)) = Ret p /\
    Rabs (val (cw p 0) - bezier_poly [val (cw u0 0); val (cw u1 0); val (cw u0 0)] (val (flt 3 (-2))))
      <= 12 * uro + 10 * eta.
  Proof.
    destruct u_bounded as [B1 B0].
    destruct (C54_bezier [u0; u1; u0] (flt 3 (-2)) 1) as (p & E & H); try apply t_ok.
    - discriminate.
    - cbn [length Nat.sub INR]. pose proof uro_small. lra.
    - pose proof fmax_ge. lra.
    - intros p [<-|[<-|[<-|[]]]]; assumption.
    - exists p. split; [exact E|]. destruct (H 0%nat) as [_ H0]; [cbn; lia|].
      eapply Rle_trans; [exact H0|]. cbn [length Nat.sub INR]. lra.
  Qed.
  Example C55_case :
    Rabs (val (cw (cubic_eval (Cubic u0 u1 u1 u0) (flt 3 (-2))) 0)
          - bezier_poly [val (cw u0 0); val (cw u1 0); val (cw u1 0); val (cw u0 0)] (val (flt 3 (-2))))
      <= 39 * uro * 1 + 5 * eta.
  Proof.
    destruct u_bounded as [B1 B0]. destruct t_ok.
    apply (C55_cubic 1 (flt 3 (-2)) 0); auto; try lra; try (cbn; lia).
    pose proof fmax_ge. lra.
  Qed.
  (** a NaN parameter of a clamped linear spline *)
  Example C46_case : exists s, bspline_new 1 [flt 0 0; flt 0 0; flt 1 0; flt 1 0] [u0; u1] = Ret (Ok s) /\
    bspline_eval s B754_nan = Ret (Err KnotDomainViolation).
  Proof.
    destruct (proj2 (BSplineGeneric.new_ok_iff 1 [flt 0 0; flt 0 0; flt 1 0; flt 1 0] [u0; u1])) as [s H].
    - split; [cbn; lia|]. split; [reflexivity|].
      intros [|[|[|i]]] Hi;
        [vm_compute; reflexivity|vm_compute; reflexivity|vm_compute; reflexivity|cbn in Hi; lia].
    - exists s. split; [exact H|]. eapply C46_nan; [exact H| |reflexivity].
      intros x [<-|[<-|[<-|[<-|[]]]]]; reflexivity.
  Qed.
  (** infinite knots are in order too *)
  Example C39_case : exists s, bspline_new 1 [B754_infinity true; flt 0 0; flt 1 0; B754_infinity false] [u0; u1] = Ret (Ok s) /\
    forall x, In x [B754_infinity true; flt 0 0; flt 1 0; B754_infinity false : float] -> ~ nan x.
  Proof.
    destruct (proj2 (BSplineGeneric.new_ok_iff 1 [B754_infinity true; flt 0 0; flt 1 0; B754_infinity false] [u0; u1])) as [s H].
    - split; [cbn; lia|]. split; [reflexivity|].
      intros [|[|[|i]]] Hi;
        [vm_compute; reflexivity|vm_compute; reflexivity|vm_compute; reflexivity|cbn in Hi; lia].
    - exists s. split; [exact H|]. intros x [<-|[<-|[<-|[<-|[]]]]]; discriminate.
  Qed.
  Example C62_case : exists bounds, quad_bounding_box (Quad k1 k2 k3) = Ret bounds /\ box_has bounds k1 /\ box_has bounds k3.
  Proof.
    destruct C56_case as (bounds & H & _). exists bounds. split; [exact H|]. exact (C62_quad _ _ H).
  Qed.
  Example C63_case : same_point (quad_eval (Quad k1 u2 k3) (flt 0 0)) k1 /\ same_point (quad_eval (Quad k1 u2 k3) (flt 1 0)) k3.
  Proof.
    destruct k_fin as (A & B & C).
    assert (D : bounded (fmax / 2) u2).
    { pose proof fmax_ge. intros [|[|i]] Hi; try (cbn in Hi; lia).
      - split; [apply zero_one|]. change (Rabs (val (flt 1 0)) <= fmax / 2). rewrite (proj2 (proj2 zero_one)), Rabs_R1. lra.
      - split; [reflexivity|]. change (Rabs 0 <= fmax / 2). rewrite Rabs_R0. lra. }
    split; [apply (C63_quad_start_partial (Quad k1 u2 k3))|apply (C63_quad_end_partial (Quad k1 u2 k3))]; auto; apply zero_one.
  Qed.
End Concrete.

Print Assumptions C53_bezier_start.
Print Assumptions C53_bezier_end.
Print Assumptions C53_cubic_start.
Print Assumptions C53_cubic_end.
Print Assumptions C53_equal.
Print Assumptions C63_quad_start_partial.
Print Assumptions C63_quad_end_partial.
Print Assumptions C63_line_start_partial.
Print Assumptions C63_quad_refuted.
Print Assumptions C63_line_start_refuted.
Print Assumptions C63_line_end_refuted.
Print Assumptions C54_bezier.
Print Assumptions C55_line.
Print Assumptions C55_quad.
Print Assumptions C55_quad_casteljau.
Print Assumptions C55_cubic.
Print Assumptions C55_cubic_casteljau.
Print Assumptions C56_line.
Print Assumptions C56_quad.
Print Assumptions C56_cubic.
Print Assumptions C57_quad.
Print Assumptions C57_cubic.
Print Assumptions C62_line.
Print Assumptions C62_quad.
Print Assumptions C62_cubic.
Print Assumptions C39_float_partial.
Print Assumptions C39_nan_refuted.
Print Assumptions C46_nan.
