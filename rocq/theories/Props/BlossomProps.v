(** C132: B-splines reproduce polynomials.  Control points that are the values of a blossom at
    consecutive knots give the polynomial of the blossom, and only those do.  For the curve and
    for the repaired evaluation (C124); for the code at the knots ([_partial]), not between them
    ([_refuted]), where exactly one term is missing. *)
From Coq Require Import Reals List Arith Lia Lra.
From Verif Require Import Base.Outcome Base.Scalar Model.Point Model.BSpline Model.Repairs Inst.RealInst
  Spec.Sums Spec.Bernstein Spec.Lawful Spec.Basis Spec.Points Spec.Blossom
  Proofs.BlossomFacts Proofs.BoxSpec Proofs.BlossomEval Proofs.BSplineCE.
Import ListNotations.
Local Open Scope R_scope.

Section Curve.
  Variables (D : nat) (ks : list R) (C : nat).
  Local Notation U i := (nth i ks 0).
  Local Notation V := (fun m => nth m ks 0).
  Hypotheses (Hs : forall i j, (i <= j < length ks)%nat -> U i <= U j) (HK : length ks = (C + D + 1)%nat).

  Theorem C132_curve F t : blossom F -> U D <= t < U C ->
    Rsum (fun j => basis V D j t * F (after V j D)) C = F (repeat t D).
  Proof. exact (fun HF => blossom_curve F HF D ks C Hs HK t). Qed.
  (** on no piece of a span do other control values give that polynomial *)
  Theorem C132_dual F c k a b : blossom F -> (D <= k < C)%nat -> a < b -> U k <= a -> b <= U (k + 1) ->
    (forall t, a < t < b -> Rsum (fun j => basis V D j t * c j) C = F (repeat t D)) ->
    forall j, (k - D <= j <= k)%nat -> c j = F (after V j D).
  Proof. exact (fun HF => blossom_dual F HF D ks C Hs HK c k a b). Qed.
  (** every polynomial of degree at most [D] *)
  Theorem C132_polynomial a t : U D <= t < U C ->
    Rsum (fun j => basis V D j t * polar a D (after V j D)) C = poly a D t.
  Proof.
    intros Ht. rewrite (blossom_curve (polar a D) (polar_blossom a D) D ks C Hs HK t Ht). apply polar_repeat.
  Qed.
  (** Marsden's identity *)
  Theorem C132_marsden y t : U D <= t < U C ->
    Rsum (fun j => basis V D j t * factors y (after V j D)) C = (y - t) ^ D.
  Proof.
    intros Ht. rewrite (blossom_curve (factors y) (factors_blossom y) D ks C Hs HK t Ht). apply factors_repeat.
  Qed.
  (** the Greville abscissae give the parameter *)
  Theorem C132_greville t : (1 <= D)%nat -> U D <= t < U C ->
    Rsum (fun j => basis V D j t * greville V D j) C = t.
  Proof. exact (greville_curve D ks C Hs HK t). Qed.
End Curve.

Section Code.
  Context {E : Eps} {P : Type} {PT : Point R P} {LP : LawfulPoint P}.
  Variables (D : nat) (ks : list R) (ps : list P) (s : bspline R P).
  Hypothesis Hnew : bspline_new D ks ps = Ret (Ok s).
  Local Notation C := (length ps).
  Local Notation U i := (nth i ks 0).
  Local Notation V := (fun m => nth m ks 0).

  Section Blossom.
    Variable F : nat -> list R -> R.
    Hypothesis HF : forall i, (i < p_dim (P := P))%nat -> blossom (F i).
    Hypothesis Hps : forall j i, (j < C)%nat -> (i < p_dim (P := P))%nat ->
      coord (nth j ps p_default) i = F i (after V j D).

    Theorem C124_reproduces t : U D <= t <= U C -> U (C - 1) < U C ->
      exists p, fixed_eval s t = Ret (Ok p) /\ forall i, (i < p_dim (P := P))%nat -> coord p i = F i (repeat t D).
    Proof. exact (reproduce_fixed D ks ps s Hnew F HF Hps t). Qed.
    (** missing: the parameters between the knots *)
    Theorem C132_at_knots_partial k : (1 <= D)%nat -> bs_kind s <> Unclamped ->
      (forall i j, (i < j < length ks)%nat -> U i < U j -> eps <= U j - U i) ->
      (D <= k <= C)%nat -> U k < U C \/ U (C + D - 1) = U C ->
      exists p, bspline_eval s (U k) = Ret (Ok p) /\ forall i, (i < p_dim (P := P))%nat -> coord p i = F i (repeat (U k) D).
    Proof. exact (reproduce_knot D ks ps s Hnew F HF Hps k). Qed.
    (** what the code returns instead *)
    Theorem C132_defect t : bs_kind s <> Unclamped -> U D <= t < U C ->
      (forall i, (i < C + D)%nat -> U i < t -> eps <= t - U i) ->
      exists k p, (D <= k < C)%nat /\ U k <= t < U (k + 1) /\ bspline_eval s t = Ret (Ok p) /\
        forall i, (i < p_dim (P := P))%nat -> coord p i = F i (repeat t D) - basis V D k t * F i (after V k D).
    Proof. exact (reproduce_code D ks ps s Hnew F HF Hps t). Qed.
  End Blossom.

  (** control points along a line at the Greville abscissae *)
  Theorem C124_line (a b : nat -> R) t : (1 <= D)%nat -> U D <= t <= U C -> U (C - 1) < U C ->
    (forall j i, (j < C)%nat -> (i < p_dim (P := P))%nat -> coord (nth j ps p_default) i = a i + greville V D j * b i) ->
    exists p, fixed_eval s t = Ret (Ok p) /\ forall i, (i < p_dim (P := P))%nat -> coord p i = a i + t * b i.
  Proof.
    intros HD Ht Hlt Hps.
    destruct (C124_reproduces (fun i l => a i + total l / INR D * b i) (fun i _ => line_blossom D (a i) (b i)) Hps t Ht Hlt)
      as (p & Ep & Hp).
    exists p. split; [exact Ep|]. intros i Hi. rewrite (Hp i Hi). now rewrite (average_repeat D t HD).
  Qed.
End Code.

Local Existing Instance Eps64.
(** the line from 0 to 1 *)
Theorem C132_line_refuted : exists s : bspline R P1,
  bspline_new 1 [0;0;1;1] [pt1 0; pt1 1] = Ret (Ok s) /\ bs_kind s = Clamped /\
  bspline_eval s (1/2) = Ret (Ok (pt1 0)).
Proof. exact unit_line. Qed.
Example C132_line_ex : map (greville (fun m => nth m [0;0;1;1] 0) 1) [0;1]%nat = [0; 1].
Proof. unfold greville, after, total. cbn. f_equal; [lra|]. f_equal. lra. Qed.
(** t^2 over the knots 0 0 0 1 2 2 2: control values 0, 0, 2, 4; Greville abscissae 0, 1/2, 3/2, 2 *)
Example C132_square : forall t, 0 <= t < 2 ->
  Rsum (fun j => basis (fun m => nth m [0;0;0;1;2;2;2] 0) 2 j t * nth j [0; 0; 2; 4] 0) 4 = t ^ 2.
Proof.
  intros t Ht. set (ks := [0;0;0;1;2;2;2]).
  assert (Hs : forall i j, (i <= j < length ks)%nat -> nth i ks 0 <= nth j ks 0).
  { unfold ks. intros i j Hij. cbn [length] in Hij.
    do 7 (destruct j as [|j]; [do 7 (destruct i as [|i]; [cbn [nth]; first [lra|exfalso; lia]|]); lia|]). lia. }
  pose proof (C132_polynomial 2 ks 4 Hs eq_refl (fun m => if (m =? 2)%nat then 1 else 0) t ltac:(cbn; lra)) as H.
  rewrite <- (Rmult_1_l (t ^ 2)). transitivity (poly (fun m => if (m =? 2)%nat then 1 else 0) 2 t).
  - rewrite <- H. apply PointFacts.Rsum_ext. intros j Hj. f_equal.
    do 4 (destruct j as [|j]; [unfold polar; cbn; lra|]). lia.
  - unfold poly. cbn. ring.
Qed.
Example C132_greville_ex : map (greville (fun m => nth m [0;0;0;1;2;2;2] 0) 2) [0;1;2;3]%nat = [0; 1/2; 3/2; 2].
Proof. unfold greville, after, total. cbn. repeat (apply f_equal2; [lra|]). reflexivity. Qed.
(** the repaired evaluation of the unit line *)
Example C124_line_ex : exists s : bspline R P1, bspline_new 1 [0;0;1;1] [pt1 0; pt1 1] = Ret (Ok s) /\
  fixed_eval s (1/2) = Ret (Ok (pt1 (1/2))).
Proof.
  destruct unit_line as (s & Hnew & _ & _). exists s. split; [exact Hnew|].
  destruct (C124_line 1 [0;0;1;1] [pt1 0; pt1 1] s Hnew (fun _ => 0) (fun _ => 1) (1/2)) as (p & Ep & Hp); try (cbn; lia || lra).
  - intros j i Hj Hi. cbn [length] in Hj. destruct i as [|i]; [|cbn in Hi; lia].
    assert (j = 0%nat \/ j = 1%nat) as [-> | ->] by lia; cbn [nth]; rewrite coord_pt1; unfold greville, after, total; cbn; lra.
  - rewrite Ep. do 2 f_equal. apply lp_ext. intros [|i] Hi; [|cbn in Hi; lia]. rewrite (Hp 0%nat Hi), coord_pt1. lra.
Qed.

Print Assumptions C132_curve.
Print Assumptions C132_dual.
Print Assumptions C132_polynomial.
Print Assumptions C132_marsden.
Print Assumptions C132_greville.
Print Assumptions C124_reproduces.
Print Assumptions C132_at_knots_partial.
Print Assumptions C132_defect.
Print Assumptions C124_line.
Print Assumptions C132_line_refuted.
