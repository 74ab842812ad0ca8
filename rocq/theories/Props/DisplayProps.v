(** C101: the texts of the errors ([Display]) tell what went wrong. *)
From Coq Require Import Reals List Arith Lia Lra String.
From Verif Require Import Base.Outcome Base.Scalar Model.Point Model.BSpline Model.Display Inst.RealInst
  Spec.Lawful Spec.Points Proofs.BSplineGeneric Proofs.Display.
Import ListNotations.
Local Notation length := List.length.

(** different errors have different texts *)
Theorem C101_distinct a b : error_fmt a = error_fmt b -> a = b.
Proof. exact (fmt_inj a b). Qed.

Section Generic.
  Context {T P : Type} {ST : Scalar T} {PT : Point T P}.

  (** the text of an error of [new] is true, and it is the only one of the four that names the first rule broken *)
  Theorem C101_new D ks (ps : list P) e : bspline_new D ks ps = Ret (Err e) ->
    (error_fmt e = "Too few control points"%string <-> length ps <= D) /\
    (error_fmt e = "Insufficient number of knots"%string <-> D < length ps /\ length ks < length ps + D + 1) /\
    (error_fmt e = "Excess number of knots"%string <-> D < length ps /\ length ps + D + 1 < length ks) /\
    (error_fmt e = "Knots must be non-decreasing in value"%string <-> D < length ps /\ length ks = length ps + D + 1 /\
      exists i, i + 1 < length ks /\ s_ltb (nth (i + 1) ks (s_lit 0)) (nth i ks (s_lit 0)) = true) /\
    In (error_fmt e) ["Too few control points"; "Insufficient number of knots"; "Excess number of knots";
      "Knots must be non-decreasing in value"]%string.
  Proof. exact (fmt_new D ks ps e). Qed.

  Theorem C101_eval (s : bspline T P) t e : bspline_eval s t = Ret (Err e) ->
    error_fmt e = "Parameter outside of knot span"%string \/
    error_fmt e = "Cox-deBoor evaluation yields alpha NaN value"%string.
  Proof. exact (fmt_eval s t e). Qed.
End Generic.

(** in exact arithmetic the second does not occur, and the first is shown exactly outside [knot_domain] *)
Theorem C101_eval_exact {E : Eps} {P : Type} {PT : Point R P} {LP : LawfulPoint P} D ks (ps : list P) s t e lo hi :
  bspline_new D ks ps = Ret (Ok s) -> knot_domain s = Ret (lo, hi) -> bspline_eval s t = Ret (Err e) ->
  error_fmt e = "Parameter outside of knot span"%string /\ ~ (lo <= t <= hi)%R.
Proof. exact (fmt_eval_exact D ks ps s t e lo hi). Qed.

Local Existing Instance Eps64.
Example C101_case : exists e, bspline_new 1 [0; 2; 1; 3]%R [pt1 0; pt1 1] = Ret (Err e) /\
  error_fmt e = "Knots must be non-decreasing in value"%string.
Proof.
  exists DecreasingKnots. split; [|reflexivity].
  destruct (new_errors 1 [0; 2; 1; 3]%R [pt1 0; pt1 1]) as [_ [_ [_ G]]]. apply G; cbn; try lia.
  exists 1. split; [lia|]. apply Rltb_true. cbn. lra.
Qed.

Print Assumptions C101_distinct.
Print Assumptions C101_new.
Print Assumptions C101_eval.
Print Assumptions C101_eval_exact.
