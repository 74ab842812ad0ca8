(** C124, continued: what changing the named lines of the root finders (C59, C64), of the
    evaluation at the ends (C63), of the test of the knots (C39) and of the roots behind the box of a
    cubic (C73) gives. *)
From Coq Require Import Reals ZArith List Arith Lia Lra Permutation.
From Flocq Require Import IEEE754.BinarySingleNaN.
From Verif Require Import Base.Outcome Base.Scalar Model.Point Model.Line Model.Quadratic Model.Cubic
  Model.BSpline Model.RepairsRoots Inst.RealInst Inst.FloatInst Spec.Sums Spec.Lawful Spec.Points Spec.CubicRoots
  Spec.Rounding Spec.Componentwise Spec.FloatPoints Spec.FloatCurves Spec.FloatBoxes Spec.Bernstein Proofs.FloatBound
  Proofs.FloatFacts Proofs.FloatEnds Proofs.FloatPoint Proofs.FloatBoxCubic Proofs.RepairRoots Proofs.RepairBox.
Import ListNotations.

Section Roots.
  Context {E : Eps} {P : Type} {PT : Point R P} {LP : LawfulPoint P}.
  Local Open Scope R_scope.

  (** exactly the roots, each once, with no condition on the size of the coefficients *)
  Theorem C124_square_roots a b c : a <> 0 \/ b <> 0 -> exists l, fixed_roots_square a b c = Ret l /\ NoDup l /\
    (length l <= 2)%nat /\ forall t, In t l <-> a * t ^ 2 + b * t + c = 0.
  Proof. exact (fixed_square_roots a b c). Qed.
  (** C59 *)
  Theorem C124_cubic_roots a b c d : a <> 0 \/ b <> 0 \/ c <> 0 -> exists l, fixed_roots_cubic PI a b c d = Ret l /\
    NoDup l /\ (length l <= 3)%nat /\ forall t, In t l <-> cubic_value a b c d t = 0.
  Proof. exact (fixed_cubic_roots a b c d). Qed.
  (** C64, for every coordinate that is not constant *)
  Theorem C124_quad_solve (c : quad P) v i (s := coord (q_start c) i) (k := coord (q_ctrl c) i) (e := coord (q_end c) i) :
    (i < p_dim (P := P))%nat -> s <> k \/ k <> e ->
    exists l, fixed_quad_solve c v i = Ret l /\ NoDup l /\ forall t, In t l <-> 0 <= t <= 1 /\ coord (quad_eval c t) i = v.
  Proof. exact (fixed_quad_solutions c v i). Qed.
  Theorem C124_cubic_solve (c : cubic P) v i
    (s := coord (c_start c) i) (k1 := coord (c_ctrl1 c) i) (k2 := coord (c_ctrl2 c) i) (e := coord (c_end c) i) :
    (i < p_dim (P := P))%nat -> s <> k1 \/ k1 <> k2 \/ k2 <> e ->
    exists l, fixed_cubic_solve PI c v i = Ret l /\ NoDup l /\ forall t, In t l <-> 0 <= t <= 1 /\ coord (cubic_eval c t) i = v.
  Proof. exact (fixed_cubic_solutions c v i). Qed.
End Roots.

Section Floats.
  Context {F : Format} {P : Type} {PT : Point float P} {CP : CwPoint float P}.

  (** C63: for all finite points, whatever their magnitude *)
  Theorem C124_line_ends (l : line P) (t0 t1 : float) : fin_point (l_start l) -> fin_point (l_end l) -> is t0 0 -> is t1 1 ->
    same_point (fixed_line_eval l t0) (l_start l) /\ same_point (fixed_line_eval l t1) (l_end l).
  Proof. exact (fixed_line_ends l t0 t1). Qed.
  Theorem C124_quad_ends (q : quad P) (t0 t1 : float) : fin_point (q_start q) -> fin_point (q_ctrl q) -> fin_point (q_end q) ->
    is t0 0 -> is t1 1 ->
    same_point (fixed_quad_eval q t0) (q_start q) /\ same_point (fixed_quad_eval q t1) (q_end q).
  Proof. exact (fixed_quad_ends q t0 t1). Qed.

  (** C39: NaN included; and nothing changes without NaN *)
  Theorem C124_sorted D ks (ps : list P) s : fixed_new D ks ps = Ret (Ok s) ->
    forall i j, (i <= j < length ks)%nat -> s_leb (nth i ks (s_lit 0)) (nth j ks (s_lit 0)) = true.
  Proof. exact (fixed_new_sorted D ks ps s). Qed.
  Theorem C124_new_same D ks (ps : list P) : (forall x, In x ks -> ~ nan x) -> fixed_new D ks ps = bspline_new D ks ps.
  Proof. exact (fixed_new_same D ks ps). Qed.
End Floats.

(** (t - 1) (t - 2) (t - 3), two of whose roots the code misses by an f32 rounding error *)
Example C124_three {E : Eps} : exists l, fixed_roots_cubic PI 1%R (-6)%R 11%R (-6)%R = Ret l /\ In 1%R l /\ In 2%R l /\ In 3%R l.
Proof.
  destruct (C124_cubic_roots 1%R (-6)%R 11%R (-6)%R) as (l & El & _ & _ & I); [left; lra|].
  exists l. split; [exact El|]. rewrite !I. unfold cubic_value. repeat split; ring.
Qed.
(** x(t) = t at both ends of the interval, which the code leaves out *)
Example C124_ends {E : Eps} : exists l, fixed_cubic_solve PI (Cubic (pt1 0) (pt1 1) (pt1 2) (pt1 3)) 3%R 0 = Ret l /\ In 1%R l.
Proof.
  destruct (C124_cubic_solve (Cubic (pt1 0) (pt1 1) (pt1 2) (pt1 3)) 3%R 0) as (l & El & _ & I); [cbn; lia|left; cbn; lra|].
  exists l. split; [exact El|]. apply I. split; [lra|]. cbn. lra.
Qed.
(** the line from -2^1023 to 2^1023, which the code evaluates to NaN at both ends *)
Section Examples.
  Local Existing Instance Binary64.
  Example C124_huge_line (l := Line (fpt1 (flt (-1) 1023)) (fpt1 (flt 1 1023))) :
    same_point (fixed_line_eval l (flt 0 0)) (l_start l) /\ same_point (fixed_line_eval l (flt 1 0)) (l_end l).
  Proof.
    apply C124_line_ends; [apply fin_fpt1; vm_compute; reflexivity|apply fin_fpt1; vm_compute; reflexivity|split; reflexivity|].
    apply (lit_small 1 ltac:(lia)).
  Qed.
  (** a NaN knot: accepted by the code, rejected after the change *)
  Example C124_nan_knot (n := BinarySingleNaN.B754_nan : float) (ps := [fpt1 (flt 0 0); fpt1 (flt 1 0)]) :
    fixed_new 1 [flt 0 0; n; flt 1 0; flt 1 0] ps = Ret (Err DecreasingKnots) /\
    exists s, bspline_new 1 [flt 0 0; n; flt 1 0; flt 1 0] ps = Ret (Ok s).
  Proof. split; [reflexivity|eexists; reflexivity]. Qed.
End Examples.

Section Boxes.
  Local Open Scope R_scope.
  (** C73 with the larger root taken first and the smaller one from the product of the two: the box of
      every cubic, with no condition on the cubic coefficient *)
  Theorem C124_cubic_box {F : Format} {P : Type} {PT : Point float P} {CP : CwPoint float P} (c : cubic P) M :
    1 <= M -> 2048 * (M * M) <= fmax -> 4 * M <= uro * fmax -> (forall p, In p (cubic_control_points c) -> bounded M p) ->
    exists bounds, stable_bounding_box c = Ret bounds /\ length bounds = p_dim (P := P) /\
      encloses (p_dim (P := P)) bounds (fun i t => exact_at (cubic_control_points c) t i)
        (350 * uro * M + 4 * eta) (16 * uro * M + 4 * eta).
  Proof. intros HM HO HB B. apply (stable_box c M HM HO HB); apply B; cbn; auto. Qed.
  (** over the reals the change has no effect *)
  Theorem C124_stable_same {E : Eps} (a b c : R) :
    exists l l', quad_real_roots a b c = Ret l /\ stable_roots a b c = Ret l' /\ Permutation l l'.
  Proof. exact (stable_perm a b c). Qed.
  Theorem C124_box_same {E : Eps} {P : Type} {PT : Point R P} {CP : CwPoint R P} (c : cubic P) :
    stable_bounding_box c = cubic_bounding_box c.
  Proof. exact (stable_box_same c). Qed.

  (** the curve of [C73_cubic_refuted], whose box the code starts at 1 *)
  Local Existing Instance Binary64.
  Example C124_elevated : exists lo hi, stable_bounding_box elev = Ret [(lo, hi)] /\ val lo < - (39 / 100).
  Proof.
    destruct elev_bounded as (B0 & B1 & B2 & B3).
    assert (UE : uro = / 9007199254740992) by reflexivity. pose proof eta_uro as TU.
    assert (FM : 340282346638528859811704183484516925440 <= fmax) by (vm_compute fmax; lra).
    destruct (C124_cubic_box elev 2) as (bs & E & L & H); [lra|lra|rewrite UE; lra| |].
    { intros p [<-|[<-|[<-|[<-|[]]]]]; assumption. }
    destruct (H 0%nat ltac:(cbn; lia)) as (lo & hi & N & (_ & _ & H3) & _).
    destruct bs as [|x [|]]; cbn in L; try lia. cbn in N. injection N as ->.
    exists lo, hi. split; [exact E|]. specialize (H3 (/ 2) ltac:(lra)). pose proof elev_half as EH.
    change (exact_at (cubic_control_points elev) (/ 2) 0) with (bezier_poly [val (cw (c_start elev) 0); val (cw (c_ctrl1 elev) 0);
      val (cw (c_ctrl2 elev) 0); val (cw (c_end elev) 0)] (/ 2)) in H3. lra.
  Qed.
End Boxes.

Print Assumptions C124_square_roots.
Print Assumptions C124_cubic_roots.
Print Assumptions C124_quad_solve.
Print Assumptions C124_cubic_solve.
Print Assumptions C124_line_ends.
Print Assumptions C124_quad_ends.
Print Assumptions C124_sorted.
Print Assumptions C124_new_same.
Print Assumptions C124_cubic_box.
Print Assumptions C124_stable_same.
Print Assumptions C124_box_same.
