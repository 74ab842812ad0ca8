(** C95-C96: the same curve in two floating-point formats (f64 and f32, say), and the range
    of a curve in floating point.  [close_points d] : each coordinate within d;
    [stored p q] : q is p with each coordinate replaced by a nearest number of the other format. *)
From Coq Require Import Reals List Arith ZArith Lia Lra.
From Flocq Require Import Core.Core IEEE754.BinarySingleNaN.
From Verif Require Import Base.Outcome Base.Scalar Model.Point Model.Line Model.Quadratic Model.Cubic
  Model.Bezier Inst.FloatInst Spec.Rounding Spec.Componentwise Spec.FloatPoints Spec.TwoFormats
  Proofs.FloatFacts Proofs.TwoFormats.
Import ListNotations.
Local Open Scope R_scope.

Section Two.
  Context {F G : Format} {P Q : Type} {PT : Point (@float F) P} {QT : Point (@float G) Q}
          {CP : CwPoint (@float F) P} {CQ : CwPoint (@float G) Q}.

  Section Perturbed.
    (** coordinates differ by at most d, parameters by at most tau *)
    Variables (M d tau : R) (t : @float F) (u : @float G).
    Hypotheses (HM : 0 <= M) (H4F : 4 * M <= @fmax F) (H4G : 4 * M <= @fmax G)
      (Hdim : p_dim (P := P) = p_dim (P := Q))
      (Ht : fin t) (Htr : 0 <= val t <= 1) (Hu : fin u) (Hur : 0 <= val u <= 1) (Htu : Rabs (val t - val u) <= tau).

    Theorem C95_bezier (ps : list P) (qs : list Q) : ps <> [] -> length ps = length qs ->
      6 * INR (length ps - 1) * @uro F <= 1 -> 6 * INR (length ps - 1) * @uro G <= 1 ->
      (forall p, In p ps -> bounded M p) -> (forall q, In q qs -> bounded M q) ->
      (forall k p q, nth_error ps k = Some p -> nth_error qs k = Some q -> close_points d p q) ->
      exists p q, bezier_eval (Bezier ps) t = Ret p /\ bezier_eval (Bezier qs) u = Ret q /\
        close_points (d + 2 * INR (length ps - 1) * M * tau + 6 * INR (length ps - 1) * (@uro F + @uro G) * M
                      + 5 * INR (length ps - 1) * (@eta F + @eta G)) p q.
    Proof. now apply bezier_two. Qed.
    Theorem C95_line (l : line P) (m : line Q) :
      bounded M (l_start l) -> bounded M (l_end l) -> bounded M (l_start m) -> bounded M (l_end m) ->
      close_points d (l_start l) (l_start m) -> close_points d (l_end l) (l_end m) ->
      close_points (d + 2 * M * tau + 6 * (@uro F + @uro G) * M + 2 * (@eta F + @eta G)) (line_eval l t) (line_eval m u).
    Proof. now apply line_two. Qed.
    Theorem C95_quad (l : quad P) (m : quad Q) :
      bounded M (q_start l) -> bounded M (q_ctrl l) -> bounded M (q_end l) ->
      bounded M (q_start m) -> bounded M (q_ctrl m) -> bounded M (q_end m) ->
      close_points d (q_start l) (q_start m) -> close_points d (q_ctrl l) (q_ctrl m) -> close_points d (q_end l) (q_end m) ->
      close_points (d + 4 * M * tau + 17 * (@uro F + @uro G) * M + 5 * (@eta F + @eta G)) (quad_eval l t) (quad_eval m u).
    Proof. now apply quad_two. Qed.
    Theorem C95_quad_casteljau (l : quad P) (m : quad Q) :
      bounded M (q_start l) -> bounded M (q_ctrl l) -> bounded M (q_end l) ->
      bounded M (q_start m) -> bounded M (q_ctrl m) -> bounded M (q_end m) ->
      close_points d (q_start l) (q_start m) -> close_points d (q_ctrl l) (q_ctrl m) -> close_points d (q_end l) (q_end m) ->
      close_points (d + 4 * M * tau + 11 * (@uro F + @uro G) * M + 3 * (@eta F + @eta G))
        (quad_eval_casteljau l t) (quad_eval_casteljau m u).
    Proof. now apply quad_casteljau_two. Qed.
    Theorem C95_cubic (l : cubic P) (m : cubic Q) :
      bounded M (c_start l) -> bounded M (c_ctrl1 l) -> bounded M (c_ctrl2 l) -> bounded M (c_end l) ->
      bounded M (c_start m) -> bounded M (c_ctrl1 m) -> bounded M (c_ctrl2 m) -> bounded M (c_end m) ->
      close_points d (c_start l) (c_start m) -> close_points d (c_ctrl1 l) (c_ctrl1 m) ->
      close_points d (c_ctrl2 l) (c_ctrl2 m) -> close_points d (c_end l) (c_end m) ->
      close_points (d + 6 * M * tau + 39 * (@uro F + @uro G) * M + 5 * (@eta F + @eta G)) (cubic_eval l t) (cubic_eval m u).
    Proof. now apply cubic_two. Qed.
    Theorem C95_cubic_casteljau (l : cubic P) (m : cubic Q) :
      bounded M (c_start l) -> bounded M (c_ctrl1 l) -> bounded M (c_ctrl2 l) -> bounded M (c_end l) ->
      bounded M (c_start m) -> bounded M (c_ctrl1 m) -> bounded M (c_ctrl2 m) -> bounded M (c_end m) ->
      close_points d (c_start l) (c_start m) -> close_points d (c_ctrl1 l) (c_ctrl1 m) ->
      close_points d (c_ctrl2 l) (c_ctrl2 m) -> close_points d (c_end l) (c_end m) ->
      close_points (d + 6 * M * tau + 16 * (@uro F + @uro G) * M + 4 * (@eta F + @eta G))
        (cubic_eval_casteljau l t) (cubic_eval_casteljau m u).
    Proof. now apply cubic_casteljau_two. Qed.
  End Perturbed.

  (** storing a coordinate costs half a unit in the last place *)
  Theorem C95_store (x : @float F) (y : @float G) M : Rabs (val x) <= M -> M <= @fmax G -> nearest x y ->
    Rabs (val x - val y) <= @uro G * M + @eta G.
  Proof. exact (nearest_err x y M). Qed.
  Theorem C95_stored (ps : list P) (qs : list Q) (t : @float F) (u : @float G) M :
    0 <= M -> 4 * M <= @fmax F -> 4 * M <= @fmax G -> p_dim (P := P) = p_dim (P := Q) ->
    fin t -> 0 <= val t <= 1 -> nearest t u -> ps <> [] -> length ps = length qs ->
    6 * INR (length ps - 1) * @uro F <= 1 -> 6 * INR (length ps - 1) * @uro G <= 1 ->
    (forall p, In p ps -> bounded M p) -> (forall q, In q qs -> bounded M q) ->
    (forall k p q, nth_error ps k = Some p -> nth_error qs k = Some q -> stored p q) ->
    exists p q, bezier_eval (Bezier ps) t = Ret p /\ bezier_eval (Bezier qs) u = Ret q /\
      close_points (@uro G * M + @eta G + 2 * INR (length ps - 1) * M * (@uro G + @eta G)
                    + 6 * INR (length ps - 1) * (@uro F + @uro G) * M
                    + 5 * INR (length ps - 1) * (@eta F + @eta G)) p q.
  Proof. exact (bezier_stored ps qs t u M). Qed.
End Two.

Section Range.
  Context {F : Format} {P : Type} {PT : Point float P} {CP : CwPoint float P}.
  (** on axis i the control points lie between lo and hi *)
  Variables (M lo hi : R) (t : float) (i : nat).
  Hypotheses (HM : 0 <= M) (H4 : 4 * M <= fmax) (Hi : (i < p_dim (P := P))%nat) (Ht : fin t) (Htr : 0 <= val t <= 1).

  Theorem C96_bezier (ps : list P) : ps <> [] -> 6 * INR (length ps - 1) * uro <= 1 ->
    (forall p, In p ps -> bounded M p) -> (forall p, In p ps -> lo <= val (cw p i) <= hi) ->
    exists p, bezier_eval (Bezier ps) t = Ret p /\
      let e := 6 * INR (length ps - 1) * uro * M + 5 * INR (length ps - 1) * eta in
      lo - e <= val (cw p i) <= hi + e.
  Proof. now apply bezier_range. Qed.
  Theorem C96_line (l : line P) : bounded M (l_start l) -> bounded M (l_end l) ->
    (forall p, In p [l_start l; l_end l] -> lo <= val (cw p i) <= hi) ->
    lo - (6 * uro * M + 2 * eta) <= val (cw (line_eval l t) i) <= hi + (6 * uro * M + 2 * eta).
  Proof. now apply line_range. Qed.
  Theorem C96_quad (l : quad P) : bounded M (q_start l) -> bounded M (q_ctrl l) -> bounded M (q_end l) ->
    (forall p, In p [q_start l; q_ctrl l; q_end l] -> lo <= val (cw p i) <= hi) ->
    lo - (17 * uro * M + 5 * eta) <= val (cw (quad_eval l t) i) <= hi + (17 * uro * M + 5 * eta).
  Proof. now apply quad_range. Qed.
  Theorem C96_cubic (l : cubic P) : bounded M (c_start l) -> bounded M (c_ctrl1 l) -> bounded M (c_ctrl2 l) -> bounded M (c_end l) ->
    (forall p, In p [c_start l; c_ctrl1 l; c_ctrl2 l; c_end l] -> lo <= val (cw p i) <= hi) ->
    lo - (39 * uro * M + 5 * eta) <= val (cw (cubic_eval l t) i) <= hi + (39 * uro * M + 5 * eta).
  Proof. now apply cubic_range. Qed.
End Range.

(** without the margin the range is left: the curve with the two control points
    c = 0x1.e90a7d5185401p+0 takes the next larger value at t = 53/128 *)
Section Concrete.
  Local Existing Instance Binary64.
  Theorem C96_exact_refuted : ~ (forall (ps : list (PointN float 1)) t p lo hi, fin t -> 0 <= val t <= 1 ->
    (forall q, In q ps -> bounded 2 q /\ lo <= val (cw q 0) <= hi) ->
    bezier_eval (Bezier ps) t = Ret p -> lo <= val (cw p 0) <= hi).
  Proof. exact range_refuted. Qed.
End Concrete.

(** C95: the segment from 0 to 1 in f64 at 1/2 + 2^-30 and in f32 at 1/2 *)
Section Case.
  Definition a64 (m e : Z) : PointN (@float Binary64) 1 := fpt1 (flt m e).
  Definition a32 (m e : Z) : PointN (@float Binary32) 1 := fpt1 (flt m e).
  Lemma val_of {F : Format} (x : float) s : B2SF x = s -> val x = SF2R radix2 s.
  Proof. intros <-. unfold val. symmetry. apply SF2R_B2SF. Qed.

  Example C95_case : close_points (F := Binary64) (G := Binary32) (2 * bpow radix2 (-30) + 6 * (@uro Binary64 + @uro Binary32) + 2 * (@eta Binary64 + @eta Binary32))
    (line_eval (Line (a64 0 0) (a64 1 0)) (@flt Binary64 536870913 (-30))) (line_eval (Line (a32 0 0) (a32 1 0)) (@flt Binary32 1 (-1))).
  Proof.
    assert (T : val (@flt Binary64 536870913 (-30)) = / 2 + bpow radix2 (-30)).
    { erewrite val_of by (vm_compute; reflexivity). cbn. unfold F2R. cbn. lra. }
    assert (U : val (@flt Binary32 1 (-1)) = / 2).
    { erewrite val_of by (vm_compute; reflexivity). cbn. unfold F2R. cbn. lra. }
    assert (B : bpow radix2 (-30) <= / 2 /\ 0 <= bpow radix2 (-30)) by (cbn; lra).
    assert (Z1 : forall F : Format, is (@flt F 1 0) 1) by (intros; apply (lit_small 1); lia).
    assert (B0 : forall F : Format, bounded 1 (fpt1 (@flt F 0 0) : PointN float 1)).
    { intros F [|i] Hi; [|cbn in Hi; lia]. split; [reflexivity|]. change (Rabs 0 <= 1). rewrite Rabs_R0. lra. }
    assert (B1 : forall F : Format, bounded 1 (fpt1 (@flt F 1 0) : PointN float 1)).
    { intros F [|i] Hi; [|cbn in Hi; lia]. destruct (Z1 F) as [X Y]. split; [exact X|].
      change (Rabs (val (@flt F 1 0)) <= 1). rewrite Y, Rabs_R1. lra. }
    pose proof (@fmax_ge Binary64). pose proof (@fmax_ge Binary32).
    replace (2 * bpow radix2 (-30) + _ + _) with
      (0 + 2 * 1 * bpow radix2 (-30) + 6 * (@uro Binary64 + @uro Binary32) * 1 + 2 * (@eta Binary64 + @eta Binary32)) by ring.
    apply C95_line; try apply B0; try apply B1; try lra; try reflexivity.
    - rewrite T, U. apply Rabs_le. lra.
    - intros [|i] Hi; [|cbn in Hi; lia]. change (Rabs (0 - 0) <= 0). rewrite Rminus_0_r, Rabs_R0. lra.
    - intros [|i] Hi; [|cbn in Hi; lia].
      change (Rabs (val (@flt Binary64 1 0) - val (@flt Binary32 1 0)) <= 0).
      rewrite (proj2 (Z1 Binary64)), (proj2 (Z1 Binary32)), Rminus_eq_0, Rabs_R0. lra.
  Qed.

End Case.
Section Case96.
  Local Existing Instance Binary64.
  (** a parabola from 0 over 1 to 0: C96 with M = hi = 1, lo = 0 *)
  Example C96_case : let q := Quad (a64 0 0) (a64 1 0) (a64 0 0) in
    0 - (17 * @uro Binary64 * 1 + 5 * @eta Binary64) <= val (cw (quad_eval q (@flt Binary64 1 (-1))) 0)
      <= 1 + (17 * @uro Binary64 * 1 + 5 * @eta Binary64).
  Proof.
    assert (U : val (@flt Binary64 1 (-1)) = / 2).
    { erewrite val_of by (vm_compute; reflexivity). cbn. unfold F2R. cbn. lra. }
    destruct (lit_small (F := Binary64) 1 ltac:(lia)) as [X Y]. pose proof (@fmax_ge Binary64).
    assert (B0 : bounded 1 (a64 0 0)).
    { intros [|i] Hi; [|cbn in Hi; lia]. split; [reflexivity|]. change (Rabs 0 <= 1). rewrite Rabs_R0. lra. }
    assert (B1 : bounded 1 (a64 1 0)).
    { intros [|i] Hi; [|cbn in Hi; lia]. split; [exact X|].
      change (Rabs (val (@flt Binary64 1 0)) <= 1). change (@flt Binary64 1 0) with (@s_lit float _ 1). rewrite Y, Rabs_R1. lra. }
    apply C96_quad; auto; try lra; try (cbn; lia); try reflexivity.
    intros p [<-|[<-|[<-|[]]]]; cbn [q_start q_ctrl q_end].
    - change (0 <= 0 <= 1). lra.
    - change (0 <= val (@s_lit float _ 1) <= 1). rewrite Y. lra.
    - change (0 <= 0 <= 1). lra.
  Qed.
End Case96.

Print Assumptions C95_bezier.
Print Assumptions C95_line.
Print Assumptions C95_quad.
Print Assumptions C95_quad_casteljau.
Print Assumptions C95_cubic.
Print Assumptions C95_cubic_casteljau.
Print Assumptions C95_store.
Print Assumptions C95_stored.
Print Assumptions C96_bezier.
Print Assumptions C96_line.
Print Assumptions C96_quad.
Print Assumptions C96_cubic.
Print Assumptions C96_exact_refuted.
