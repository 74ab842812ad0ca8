(** C111: evaluation and [arclen] of a B-spline always come to an end, and [arclen]
    panics exactly when evaluation at one of its sample parameters does.  For half
    clamped splines it always does, at every sufficiently fine subdivision. *)
From Coq Require Import Reals List Arith Bool Lia Lra.
From Verif Require Import Base.Outcome Base.Scalar Model.Point Model.BSpline Inst.RealInst
  Spec.Lawful Spec.Points Proofs.PointFacts Proofs.RealTac Proofs.BSplineGeneric Proofs.BSplineReal
  Proofs.BSplineEval Proofs.SplineSamples.
Import ListNotations.

Section Generic.
  Context {T P : Type} {ST : Scalar T} {PT : Point T P}.

  Theorem C111_eval_terminates D ks (ps : list P) s (t : T) :
    bspline_new D ks ps = Ret (Ok s) -> bspline_eval s t <> Stuck.
  Proof. exact (fun H => eval_terminates s t (new_wf D ks ps s H)). Qed.
  Theorem C111_arclen_terminates D (ks : list T) (ps : list P) s n :
    bspline_new D ks ps = Ret (Ok s) -> bspline_arclen s n <> Stuck.
  Proof. exact (fun H => arclen_terminates s n (new_wf D ks ps s H)). Qed.
  Theorem C111_arclen_panics D (ks : list T) (ps : list P) s n lo hi :
    bspline_new D ks ps = Ret (Ok s) -> knot_domain s = Ret (lo, hi) ->
    let x i := s_add lo (s_mul (s_div (s_of_usize i) (s_of_usize n)) (s_sub hi lo)) in
    (bspline_arclen s n = Panic <-> exists i, i <= n /\
      (bspline_eval s (x i) = Panic \/ bspline_eval s (s_add (x i) (s_div (s_lit 1) (s_of_usize n))) = Panic)).
  Proof. exact (fun H => arclen_panics_iff s n lo hi (new_wf D ks ps s H)). Qed.
  Theorem C111_clamped_total D (ks : list T) (ps : list P) s n :
    bspline_new D ks ps = Ret (Ok s) -> bs_kind s = Clamped -> exists l, bspline_arclen s n = Ret l.
  Proof. exact (fun H => clamped_arclen_total s n (new_wf D ks ps s H)). Qed.
End Generic.

Local Open Scope R_scope.
Section Exact.
  Context {E : Eps} {P : Type} {PT : Point R P} {LP : LawfulPoint P}.
  Variables (D : nat) (ks : list R) (ps : list P) (s : bspline R P).
  Hypothesis Hnew : bspline_new D ks ps = Ret (Ok s).
  Local Notation C := (length ps).
  Local Notation U i := (nth i ks 0).

  Theorem C111_clamped_end n : bs_kind s = ClampedEnd -> (0 < n)%nat -> bspline_arclen s n = Panic.
  Proof. exact (arclen_clamped_end D ks ps s Hnew n). Qed.
  Theorem C111_clamped_start n : bs_kind s = ClampedStart -> (0 < n)%nat ->
    (U (C + D) - U D) / INR n < U (C + D) - U (C + 1) -> bspline_arclen s n = Panic.
  Proof. exact (arclen_clamped_start D ks ps s Hnew n). Qed.
End Exact.

(** quadratic splines over 0,0,0,1,2,3 and over 0,1,2,3,3,3 *)
Example C111_splines (p q r : P2) (E := Eps64) :
  (exists s, bspline_new 2 [0;0;0;1;2;3] [p; q; r] = Ret (Ok s) /\ bs_kind s = ClampedStart /\
     forall n, (4 <= n)%nat -> bspline_arclen s n = Panic) /\
  (exists s, bspline_new 2 [0;1;2;3;3;3] [p; q; r] = Ret (Ok s) /\ bs_kind s = ClampedEnd /\
     forall n, (1 <= n)%nat -> bspline_arclen s n = Panic).
Proof.
  assert (He : 0 < eps < 1).
  { split; [apply eps_pos|]. change eps with (/ 2 ^ 52). apply Rmult_lt_reg_l with (2 ^ 52); [apply pow_lt; lra|].
    rewrite Rinv_r by (apply pow_nonzero; lra). rewrite Rmult_1_r. apply Rlt_pow_R1; [lra|lia]. }
  split.
  - assert (H : exists s, bspline_new 2 [0;0;0;1;2;3] [p; q; r] = Ret (Ok s)).
    { apply new_ok_iff. cbn [length]. split; [lia|]. split; [lia|]. intros i Hi.
      do 5 (destruct i as [|i]; [cbn [nth Nat.add]; apply Rltb_false; lra|]). lia. }
    destruct H as (s & H). exists s. destruct (kind_spec _ _ _ _ H) as [Hf Hb]. cbn [nth length Nat.add] in Hf, Hb.
    assert (K : bs_kind s = ClampedStart).
    { destruct (proj2 Hf ltac:(lra)) as [K|K]; [|exact K]. specialize (proj1 Hb (or_introl K)). lra. }
    split; [exact H|]. split; [exact K|]. intros n Hn. apply (C111_clamped_start _ _ _ _ H n K); [lia|].
    cbn [nth length Nat.add]. assert (4 <= INR n) by (replace 4 with (INR 4) by (simpl; lra); apply le_INR; lia).
    apply Rmult_lt_reg_r with (INR n); [lra|]. unfold Rdiv. rewrite Rmult_assoc, Rinv_l by lra. lra.
  - assert (H : exists s, bspline_new 2 [0;1;2;3;3;3] [p; q; r] = Ret (Ok s)).
    { apply new_ok_iff. cbn [length]. split; [lia|]. split; [lia|]. intros i Hi.
      do 5 (destruct i as [|i]; [cbn [nth Nat.add]; apply Rltb_false; lra|]). lia. }
    destruct H as (s & H). exists s. destruct (kind_spec _ _ _ _ H) as [Hf Hb]. cbn [nth length Nat.add] in Hf, Hb.
    assert (K : bs_kind s = ClampedEnd).
    { destruct (proj2 Hb ltac:(lra)) as [K|K]; [|exact K]. specialize (proj1 Hf (or_introl K)). lra. }
    split; [exact H|]. split; [exact K|]. intros n Hn. apply (C111_clamped_end _ _ _ _ H n K). lia.
Qed.

Print Assumptions C111_eval_terminates.
Print Assumptions C111_arclen_terminates.
Print Assumptions C111_arclen_panics.
Print Assumptions C111_clamped_total.
Print Assumptions C111_clamped_end.
Print Assumptions C111_clamped_start.
