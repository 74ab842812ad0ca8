(** C133: a B-spline whose control points bend up over the Greville abscissae bends up, and stays
    above the lines through the legs of its polygon.  For the curve and for the repaired
    evaluation (C124); for the code at the knots ([_partial]), not between them ([_refuted]). *)
From Coq Require Import Reals List Arith Lia Lra.
From Verif Require Import Base.Outcome Base.Scalar Model.Point Model.BSpline Model.Repairs Inst.RealInst
  Spec.Sums Spec.Lawful Spec.Basis Spec.Points Spec.Crossings Spec.SplinePoints Spec.Blossom Spec.Bending
  Proofs.BoxSpec Proofs.SplineBend.
Import ListNotations.
Local Open Scope R_scope.

(** neighbouring slopes suffice *)
Theorem C133_slopes (x y : nat -> R) n : (forall j, (S j < n)%nat -> x j < x (S j)) ->
  (forall j, (S (S j) < n)%nat -> (y (S j) - y j) / (x (S j) - x j) <= (y (S (S j)) - y (S j)) / (x (S (S j)) - x (S j))) ->
  rises_ever_steeper x y n.
Proof. exact (slopes_rise x y n). Qed.

Section Curve.
  Context {P : Type} {PT : Point R P} {LP : LawfulPoint P}.
  Variables (D : nat) (ks : list R) (ps : list P) (w : nat -> R).
  Local Notation C := (length ps).
  Local Notation U i := (nth i ks 0).
  Local Notation V := (fun m => nth m ks 0).
  Hypotheses (Hs : forall i j, (i <= j < length ks)%nat -> U i <= U j) (HK : length ks = (C + D + 1)%nat)
    (HC : (D < C)%nat) (HD : (1 <= D)%nat).
  Hypothesis Hb : rises_ever_steeper (greville V D) (fun j => level w (nth j ps p_default)) C.

  Theorem C133_curve a b e p q r : a <= b <= e -> e < U C \/ U (C + D - 1) = U C ->
    curve_point D ks ps a p -> curve_point D ks ps b q -> curve_point D ks ps e r ->
    below_chord a (level w p) b (level w q) e (level w r).
  Proof. exact (curve_bends D ks ps Hs HK HC HD w a b e p q r Hb). Qed.
  Theorem C133_polygon t p m : U D <= t < U C -> curve_point D ks ps t p -> (S m < C)%nat ->
    greville V D m <= greville V D (S m) ->
    (greville V D (S m) - t) * level w (nth m ps p_default) + (t - greville V D m) * level w (nth (S m) ps p_default)
      <= (greville V D (S m) - greville V D m) * level w p.
  Proof. exact (curve_above D ks ps Hs HK HC HD w t p m Hb). Qed.
End Curve.

Section Code.
  Context {E : Eps} {P : Type} {PT : Point R P} {LP : LawfulPoint P}.
  Variables (D : nat) (ks : list R) (ps : list P) (s : bspline R P) (w : nat -> R).
  Hypothesis Hnew : bspline_new D ks ps = Ret (Ok s).
  Local Notation C := (length ps).
  Local Notation U i := (nth i ks 0).
  Local Notation V := (fun m => nth m ks 0).
  Hypothesis HD : (1 <= D)%nat.
  Hypothesis Hb : rises_ever_steeper (greville V D) (fun j => level w (nth j ps p_default)) C.

  (** missing: the parameters between the knots *)
  Theorem C133_at_knots_partial i j k p q r : bs_kind s <> Unclamped ->
    (forall i j, (i < j < length ks)%nat -> U i < U j -> eps <= U j - U i) ->
    (D <= i <= j)%nat -> (j <= k <= C)%nat -> U k < U C \/ U (C + D - 1) = U C ->
    bspline_eval s (U i) = Ret (Ok p) -> bspline_eval s (U j) = Ret (Ok q) -> bspline_eval s (U k) = Ret (Ok r) ->
    below_chord (U i) (level w p) (U j) (level w q) (U k) (level w r).
  Proof. exact (knots_bend D ks ps s Hnew w HD Hb i j k p q r). Qed.
  Theorem C124_bends a b e p q r : U D <= a -> a <= b <= e -> e < U C ->
    fixed_eval s a = Ret (Ok p) -> fixed_eval s b = Ret (Ok q) -> fixed_eval s e = Ret (Ok r) ->
    below_chord a (level w p) b (level w q) e (level w r).
  Proof. exact (fixed_bend D ks ps s Hnew w HD Hb a b e p q r). Qed.
End Code.

Local Existing Instance Eps64.
Lemma level_pt1 x : level (fun _ => 1) (pt1 x) = x.
Proof. unfold level. change (p_dim (P := P1)) with 1%nat. cbn [Rsum]. rewrite coord_pt1. ring. Qed.

(** control values -1, -4, -4, -1 over the abscissae 0, 1/2, 3/2, 2: slopes -6, 0, 6 *)
Example C133_ex : rises_ever_steeper (greville (fun m => nth m [0;0;0;1;2;2;2] 0) 2)
  (fun j => level (fun _ => 1) (nth j [pt1 (-1); pt1 (-4); pt1 (-4); pt1 (-1)] p_default)) 4.
Proof.
  assert (G : forall j, (j < 4)%nat -> greville (fun m => nth m [0;0;0;1;2;2;2] 0) 2 j = nth j [0; 1/2; 3/2; 2] 0).
  { intros j Hj. do 4 (destruct j as [|j]; [unfold greville, after, total; cbn; lra|]). lia. }
  apply C133_slopes.
  - intros j Hj. rewrite !G by lia. do 3 (destruct j as [|j]; [cbn [nth]; lra|]). lia.
  - intros j Hj. rewrite !G by lia. do 2 (destruct j as [|j]; [cbn [nth]; rewrite !level_pt1; lra|]). lia.
Qed.
(** and the code at 0, 3/4 and 1 *)
Theorem C133_between_refuted : ~ (forall D ks (ps : list P1) s w a b e p q r, bspline_new D ks ps = Ret (Ok s) ->
  (1 <= D)%nat -> bs_kind s <> Unclamped ->
  rises_ever_steeper (greville (fun m => nth m ks 0) D) (fun j => level w (nth j ps p_default)) (length ps) ->
  nth D ks 0 <= a -> a <= b <= e -> e < nth (length ps) ks 0 ->
  bspline_eval s a = Ret (Ok p) -> bspline_eval s b = Ret (Ok q) -> bspline_eval s e = Ret (Ok r) ->
  below_chord a (level w p) b (level w q) e (level w r)).
Proof.
  intros H. destruct code_unbent as (s & Hnew & K & E0 & E1 & E2).
  pose proof (H _ _ _ s (fun _ => 1) 0 (3/4) 1 _ _ _ Hnew ltac:(lia) ltac:(rewrite K; discriminate) C133_ex
    ltac:(cbn; lra) ltac:(lra) ltac:(cbn; lra) E0 E1 E2) as X.
  unfold below_chord in X. rewrite !level_pt1 in X. lra.
Qed.
(** the knots 0, 1, 2 of the same spline: -1, -4, -1 *)
Example C133_at_knots_ex : exists s p, bspline_new 2 [0;0;0;1;2;2;2] [pt1 (-1); pt1 (-4); pt1 (-4); pt1 (-1)] = Ret (Ok s) /\
  bs_kind s <> Unclamped /\ bspline_eval s 2 = Ret (Ok p) /\ below_chord 0 (-1) 1 (-4) 2 (level (fun _ => 1) p).
Proof.
  destruct code_unbent as (s & Hnew & K & E0 & E1 & E2). exists s, (pt1 (-1)). split; [exact Hnew|]. split; [rewrite K; discriminate|].
  assert (E3 : bspline_eval s 2 = Ret (Ok (pt1 (-1)))) by (exact (BSplineEval.eval_last _ _ _ _ Hnew)).
  split; [exact E3|].
  assert (He : eps <= 1).
  { change eps with (/ 2 ^ 52). rewrite <- Rinv_1. apply Rinv_le_contravar; [lra|]. apply pow_R1_Rle. lra. }
  pose proof (C133_at_knots_partial 2 _ _ s (fun _ => 1) Hnew ltac:(lia) C133_ex 2 3 4 (pt1 (-1)) (pt1 (-4)) (pt1 (-1)) ltac:(rewrite K; discriminate)) as X.
  cbn [nth length] in X. rewrite !level_pt1 in X. rewrite !level_pt1. apply X; try assumption; try lia; try (right; reflexivity).
  intros i j Hij. do 7 (destruct j as [|j]; [do 7 (destruct i as [|i]; [cbn [nth]; first [lra|exfalso; lia]|]); exfalso; lia|]). lia.
Qed.

Print Assumptions C133_slopes.
Print Assumptions C133_curve.
Print Assumptions C133_polygon.
Print Assumptions C133_at_knots_partial.
Print Assumptions C124_bends.
Print Assumptions C133_between_refuted.
