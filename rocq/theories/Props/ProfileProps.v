(** C118: debug builds (checked usize arithmetic) and release builds (wrapping) do the same,
    whatever the scalar type.  M is the number of usize values, 2^64 on a 64-bit target. *)
From Coq Require Import ZArith Reals List Arith Bool Lia Lra.
From Verif Require Import Base.Outcome Base.Scalar Model.Point Model.Bezier Model.BSpline Model.Profiles
  Inst.RealInst Spec.Points Proofs.ProfileFacts Proofs.BSplineCE.
Import ListNotations.

(** the splines a program can have: from [new], or derivatives of such *)
Inductive built {T P : Type} {ST : Scalar T} {PT : Point T P} (M : nat) : bspline T P -> Prop :=
| built_new D ks ps s : (4 * length ks <= M)%nat -> bspline_new D ks ps = Ret (Ok s) -> built M s
| built_derivative s s' : built M s -> bspline_derivative s = Ret s' -> built M s'.

Lemma built_shape {T P : Type} {ST : Scalar T} {PT : Point T P} M (s : bspline T P) : built M s -> shape M s.
Proof. induction 1; [eapply new_shape; eassumption|eapply derivative_shape; eassumption]. Qed.
Lemma either_fits M pr : pr = debug M \/ pr = release M -> fits M pr.
Proof. intros [-> | ->]; [apply fits_debug|apply fits_release]. Qed.

Section C118.
  Context {T P : Type} {ST : Scalar T} {PT : Point T P} (M : nat) (pr : profile).
  Hypothesis Hpr : pr = debug M \/ pr = release M.

  Theorem C118_bezier_eval (c : bezier P) (t : T) : (length (bz_points c) + 1 < M)%nat ->
    pr_bezier_eval pr c t = bezier_eval c t.
  Proof. exact (bezier_eval_same M pr (either_fits M pr Hpr) c t). Qed.
  Theorem C118_bezier_split (c : bezier P) (t : T) : (length (bz_points c) + 1 < M)%nat ->
    pr_bezier_split pr c t = bezier_split c t.
  Proof. exact (bezier_split_same M pr (either_fits M pr Hpr) c t). Qed.
  Theorem C118_bezier_derivative (c : bezier P) : (length (bz_points c) + 1 < M)%nat ->
    pr_bezier_derivative (ST := ST) pr c = bezier_derivative (ST := ST) c.
  Proof. exact (bezier_derivative_same M pr (either_fits M pr Hpr) c). Qed.
  Theorem C118_bezier_arclen (c : bezier P) m : (length (bz_points c) + 1 < M)%nat ->
    pr_bezier_arclen (ST := ST) pr c m = bezier_arclen (ST := ST) c m.
  Proof. exact (bezier_arclen_same M pr (either_fits M pr Hpr) c m). Qed.

  Theorem C118_new D (ks : list T) (ps : list P) : (2 * length ps < M)%nat -> (length ks < M)%nat ->
    pr_bspline_new pr D ks ps = bspline_new D ks ps.
  Proof. exact (new_same M pr (either_fits M pr Hpr) D ks ps). Qed.
  Theorem C118_domain (s : bspline T P) : built M s -> pr_knot_domain pr s = knot_domain s.
  Proof. exact (fun H => domain_same M pr (either_fits M pr Hpr) s (built_shape M s H)). Qed.
  Theorem C118_eval (s : bspline T P) t : built M s -> pr_bspline_eval pr s t = bspline_eval s t.
  Proof. exact (fun H => eval_same M pr (either_fits M pr Hpr) s (built_shape M s H) t). Qed.
  Theorem C118_arclen (s : bspline T P) m : built M s -> pr_bspline_arclen pr s m = bspline_arclen s m.
  Proof. exact (fun H => arclen_same M pr (either_fits M pr Hpr) s (built_shape M s H) m). Qed.
  Theorem C118_derivative (s : bspline T P) : built M s -> pr_bspline_derivative pr s = bspline_derivative s.
  Proof. exact (fun H => derivative_same M pr (either_fits M pr Hpr) s (built_shape M s H)). Qed.
End C118.

(** the two profiles are different: 0 - 1 and 6 + 5 with eight usize values *)
Example C118_profiles : u_sub (debug 8) 0 1 = Panic /\ u_sub (release 8) 0 1 = Ret 7%nat /\
  u_add (debug 8) 6 5 = Panic /\ u_add (release 8) 6 5 = Ret 3%nat.
Proof. repeat split; reflexivity. Qed.
(** and the difference is met: the spline of C43_clamped_end_refuted loads control point 0 + 0 - 1,
    here on a 64-bit target *)
Section Wrap.
Local Existing Instance Eps64.
Example C118_ex (M := (2 ^ 64)%nat) : exists s : bspline R P1, built M s /\
  pr_bspline_eval (release M) s (1/2)%R = Panic /\
  pr_bspline_eval (debug M) s (1/2)%R = Panic.
Proof.
  destruct clamped_end_panic as (s & Hs & _ & _ & He). exists s.
  assert (HM : (4 * 4 <= M)%nat) by (unfold M; change (4 * 4)%nat with (2 ^ 4)%nat; apply Nat.pow_le_mono_r; lia).
  assert (Hb : built M s) by (eapply (built_new M 1 [0;1;2;2]%R); [exact HM|exact Hs]). clearbody M.
  split; [exact Hb|]. split; rewrite C118_eval with (M := M); auto.
Qed.
End Wrap.

Print Assumptions C118_bezier_eval.
Print Assumptions C118_bezier_split.
Print Assumptions C118_bezier_derivative.
Print Assumptions C118_bezier_arclen.
Print Assumptions C118_new.
Print Assumptions C118_domain.
Print Assumptions C118_eval.
Print Assumptions C118_arclen.
Print Assumptions C118_derivative.
