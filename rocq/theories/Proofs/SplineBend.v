(** B-splines whose control points bend up over the Greville abscissae. *)
From Coq Require Import Reals QArith Qreals List Arith Lia Lra Psatz.
From Verif Require Import Base.Outcome Base.Scalar Model.Point Model.BSpline Model.Repairs Inst.RealInst Inst.RatInst Spec.Maps
  Spec.Sums Spec.Lawful Spec.Basis Spec.Crossings Spec.SplinePoints Spec.Blossom Spec.Bending
  Proofs.PointFacts Proofs.BSplineReal Proofs.BSplineEval Proofs.BasisCalc Proofs.RepairSpline Proofs.KnotInsertion Proofs.SplineOrder
  Proofs.SplineCrossings Proofs.BlossomFacts Proofs.BlossomEval Spec.Points Proofs.BoxSpec Proofs.Transfer Proofs.BSplineCE.
Import ListNotations.
Local Open Scope R_scope.

(** it is enough to compare neighbouring slopes *)
Lemma slopes_rise (x y : nat -> R) n : (forall j, (S j < n)%nat -> x j < x (S j)) ->
  (forall j, (S (S j) < n)%nat -> (y (S j) - y j) / (x (S j) - x j) <= (y (S (S j)) - y (S j)) / (x (S (S j)) - x (S j))) ->
  rises_ever_steeper x y n.
Proof.
  intros Hx Hy.
  set (m := fun j => (y (S j) - y j) / (x (S j) - x j)).
  assert (Hmono : forall i j, (i <= j)%nat -> (S j < n)%nat -> m i <= m j).
  { intros i j Hij. induction j as [|j IH]; intros Hj; [replace i with 0%nat by lia; lra|].
    destruct (Nat.eq_dec i (S j)) as [->|N]; [lra|]. eapply Rle_trans; [apply IH; lia|]. apply Hy. lia. }
  assert (Hup : forall a b, (a <= b < n)%nat -> x a <= x b).
  { intros a b. induction b as [|b IH]; intros Hb; [replace a with 0%nat by lia; lra|].
    destruct (Nat.eq_dec a (S b)) as [->|N]; [lra|]. pose proof (IH ltac:(lia)). pose proof (Hx b ltac:(lia)). lra. }
  assert (St : forall j, (S j < n)%nat -> y (S j) - y j = m j * (x (S j) - x j)).
  { intros j Hj. unfold m. field. pose proof (Hx j Hj). lra. }
  (** chords have at most the slope of the last leg and at least that of the first *)
  assert (Lo : forall a b, (a < b < n)%nat -> y b - y a <= m (b - 1)%nat * (x b - x a)).
  { intros a b. induction b as [|b IH]; intros Hb; [lia|]. replace (S b - 1)%nat with b by lia.
    pose proof (St b ltac:(lia)) as E. destruct (Nat.eq_dec a b) as [->|N]; [lra|].
    pose proof (IH ltac:(lia)) as I1. pose proof (Hmono (b - 1)%nat b ltac:(lia) ltac:(lia)) as M1.
    pose proof (Hup a b ltac:(lia)). assert (m (b - 1)%nat * (x b - x a) <= m b * (x b - x a)) by (apply Rmult_le_compat_r; lra). lra. }
  assert (Hi : forall b c, (b < c < n)%nat -> m b * (x c - x b) <= y c - y b).
  { intros b c. induction c as [|c IH]; intros Hc; [lia|].
    pose proof (St c ltac:(lia)) as E. destruct (Nat.eq_dec b c) as [->|N]; [lra|].
    pose proof (IH ltac:(lia)) as I1. pose proof (Hmono b c ltac:(lia) ltac:(lia)) as M1. pose proof (Hx c ltac:(lia)).
    assert (m b * (x (S c) - x c) <= m c * (x (S c) - x c)) by (apply Rmult_le_compat_r; lra). lra. }
  intros a b c Hab Hc. unfold below_chord.
  pose proof (Lo a b ltac:(lia)) as L1. pose proof (Hi b c ltac:(lia)) as H1.
  pose proof (Hmono (b - 1)%nat b ltac:(lia) ltac:(lia)) as M1. pose proof (Hup a b ltac:(lia)). pose proof (Hup b c ltac:(lia)).
  assert (A1 : (x c - x b) * (y b - y a) <= (x c - x b) * (m b * (x b - x a))).
  { apply Rmult_le_compat_l; [lra|]. eapply Rle_trans; [exact L1|]. apply Rmult_le_compat_r; lra. }
  assert (A2 : (x b - x a) * (m b * (x c - x b)) <= (x b - x a) * (y c - y b)) by (apply Rmult_le_compat_l; lra).
  lra.
Qed.

Section Curve.
  Context {P : Type} {PT : Point R P} {LP : LawfulPoint P}.
  Variables (D : nat) (ks : list R) (ps : list P).
  Local Notation C := (length ps).
  Local Notation U i := (nth i ks 0).
  Local Notation V := (fun m => nth m ks 0).
  Hypotheses (Hs : sorted ks) (HK : length ks = (C + D + 1)%nat) (HC : (D < C)%nat) (HD : (1 <= D)%nat).
  Variable w : nat -> R.
  Local Notation c := (fun j => level w (nth j ps p_default)).

  Lemma level_curve t p : (forall i, (i < p_dim (P := P))%nat -> coord p i = spline_coord D ks ps t i) ->
    level w p = Rsum (fun j => basis V D j t * level w (nth j ps p_default)) C.
  Proof.
    intros Hp. unfold level at 1. rewrite (Rsum_ext _ (fun i => w i * spline_coord D ks ps t i)).
    2:{ intros i Hi. now rewrite Hp. }
    unfold spline_coord.
    rewrite (Rsum_ext _ (fun i => Rsum (fun q => w i * (basis V D q t * coord (nth q ps p_default) i)) C)).
    2:{ intros i Hi. now rewrite Rsum_scal. }
    rewrite Rsum_swap. apply Rsum_ext. intros q Hq. unfold level. rewrite <- Rsum_scal. apply Rsum_ext. intros i Hi. ring.
  Qed.

  Theorem curve_bends a b e p q r : rises_ever_steeper (greville V D) c C -> a <= b <= e ->
    e < U C \/ U (C + D - 1) = U C ->
    curve_point D ks ps a p -> curve_point D ks ps b q -> curve_point D ks ps e r ->
    below_chord a (level w p) b (level w q) e (level w r).
  Proof.
    intros Hb Ho He Ha Hq Hr.
    set (W := fun i => U (Nat.min i (length ks - 1))).
    assert (Wlo : forall i, (i < length ks)%nat -> W i = U i) by (intros i Hi; unfold W; f_equal; lia).
    assert (X : forall x z, curve_point D ks ps x z -> x < U C \/ U (C + D - 1) = U C ->
      kn (Sys W c C) D <= x < kn (Sys W c C) (num (Sys W c C)) /\ level w z = value D (Sys W c C) x \/
      x = kn (Sys W c C) (num (Sys W c C)) /\ level w z = cf (Sys W c C) (num (Sys W c C) - 1)%nat /\
        kn (Sys W c C) (num (Sys W c C) + D - 1)%nat = kn (Sys W c C) (num (Sys W c C))).
    { intros x z [[Hx Hz]|[Hx Hz]] Hlt; cbn [kn cf num]; rewrite !Wlo by lia.
      - left. split; [exact Hx|]. rewrite (level_curve x z Hz). unfold value. cbn [kn cf num].
        apply Rsum_ext. intros j Hj. f_equal. apply basis_ext. intros i Hi. symmetry. apply Wlo. lia.
      - right. split; [exact Hx|]. split; [now rewrite Hz|]. destruct Hlt; [lra|assumption]. }
    apply (spline_bends D (Sys W c C) a b e); auto.
    - split; cbn [kn num]; [|exact HC]. intros i j Hij. unfold W. apply Hs. lia.
    - intros x v [Ex|[Ex|Ex]]; injection Ex as -> ->; apply X; auto; (destruct He as [L|L]; [left; lra|right; exact L]).
    - cbn [kn cf num]. intros i j k Hij Hk. unfold below_chord.
      assert (G : forall j, (j < C)%nat -> greville W D j = greville V D j).
      { intros m Hm. unfold greville, after. f_equal. apply total_ext. intros l Hl. apply Wlo. lia. }
      rewrite !G by lia. apply (Hb i j k Hij Hk).
  Qed.

  (** the curve stays above the line through any leg of its polygon *)
  Theorem curve_above t p m : rises_ever_steeper (greville V D) c C -> U D <= t < U C -> curve_point D ks ps t p -> (S m < C)%nat ->
    greville V D m <= greville V D (S m) ->
    (greville V D (S m) - t) * level w (nth m ps p_default) + (t - greville V D m) * level w (nth (S m) ps p_default)
      <= (greville V D (S m) - greville V D m) * level w p.
  Proof.
    intros Hb Ht Hp Hm Hg. destruct Hp as [[_ Hp]|[Hp _]]; [|lra]. rewrite (level_curve t p Hp).
    set (N := fun j => basis V D j t). set (g := greville V D) in *. set (x := fun j => level w (nth j ps p_default)) in *.
    assert (P1 : Rsum N C = 1) by (apply (partition_of_unity D C ks); [exact Hs|lia|exact Ht]).
    assert (P2 : Rsum (fun j => N j * g j) C = t) by (exact (greville_curve D ks C Hs HK t HD Ht)).
    rewrite <- Rsum_scal.
    apply Rle_trans with (Rsum (fun j => N j * ((g (S m) - g j) * x m + (g j - g m) * x (S m))) C).
    { right. symmetry. transitivity (Rsum (fun j => (g (S m) * x m - g m * x (S m)) * N j + (x (S m) - x m) * (N j * g j)) C).
        - apply Rsum_ext. intros j Hj. ring.
        - rewrite Rsum_plus, !Rsum_scal, P1, P2. unfold x. ring. }
    apply Rsum_le. intros j Hj. unfold N, x.
    assert (NN : 0 <= basis V D j t) by (apply basis_nonneg; intros a b H1 H2; apply Hs; lia).
    replace ((g (S m) - g m) * (basis V D j t * level w (nth j ps p_default)))
      with (basis V D j t * ((g (S m) - g m) * level w (nth j ps p_default))) by ring.
    apply Rmult_le_compat_l; [exact NN|].
    destruct (Nat.lt_total j m) as [L|[->|L]].
    - pose proof (Hb j m (S m) ltac:(lia) Hm) as X. unfold below_chord, x in X. lra.
    - lra.
    - destruct (Nat.eq_dec j (S m)) as [->|N2]; [lra|].
      pose proof (Hb m (S m) j ltac:(lia) Hj) as X. unfold below_chord, x in X. lra.
  Qed.
End Curve.

Section Code.
  Context {E : Eps} {P : Type} {PT : Point R P} {LP : LawfulPoint P}.
  Variables (D : nat) (ks : list R) (ps : list P) (s : bspline R P).
  Hypothesis Hnew : bspline_new D ks ps = Ret (Ok s).
  Local Notation C := (length ps).
  Local Notation U i := (nth i ks 0).
  Local Notation V := (fun m => nth m ks 0).
  Variable w : nat -> R.
  Local Notation c := (fun j => level w (nth j ps p_default)).
  Hypotheses (HD : (1 <= D)%nat) (Hb : rises_ever_steeper (greville V D) c C).

  Theorem knots_bend i j k p q r : bs_kind s <> Unclamped ->
    (forall i j, (i < j < length ks)%nat -> U i < U j -> eps <= U j - U i) ->
    (D <= i <= j)%nat -> (j <= k <= C)%nat -> U k < U C \/ U (C + D - 1) = U C ->
    bspline_eval s (U i) = Ret (Ok p) -> bspline_eval s (U j) = Ret (Ok q) -> bspline_eval s (U k) = Ret (Ok r) ->
    below_chord (U i) (level w p) (U j) (level w q) (U k) (level w r).
  Proof.
    intros Hk Hsep Hi Hj He Ep Eq Er. destruct (sizes D ks ps s Hnew) as [HDC HK]. pose proof (ks_sorted D ks ps s Hnew) as Hs.
    apply (curve_bends D ks ps Hs HK HDC HD w); auto; try (apply (knot_point D ks ps s Hnew HD Hk Hsep); auto; lia).
    split; apply Hs; lia.
  Qed.

  Lemma fixed_point t p : U D <= t < U C -> fixed_eval s t = Ret (Ok p) -> curve_point D ks ps t p.
  Proof.
    intros Ht Ep. left. split; [exact Ht|]. destruct (new_fixed_value D ks ps s Hnew t Ht) as (q & Eq & Hq).
    rewrite Ep in Eq. injection Eq as <-. exact Hq.
  Qed.
  Theorem fixed_bend a b e p q r : U D <= a -> a <= b <= e -> e < U C ->
    fixed_eval s a = Ret (Ok p) -> fixed_eval s b = Ret (Ok q) -> fixed_eval s e = Ret (Ok r) ->
    below_chord a (level w p) b (level w q) e (level w r).
  Proof.
    intros Ha Ho He Ep Eq Er. destruct (sizes D ks ps s Hnew) as [HDC HK]. pose proof (ks_sorted D ks ps s Hnew) as Hs.
    apply (curve_bends D ks ps Hs HK HDC HD w); auto; apply fixed_point; auto; lra.
  Qed.
End Code.

(** the code between the knots: -1, -4, -4, -1 over 0 0 0 1 2 2 2 at 0, 3/4 and 1 *)
Section Between.
  Local Existing Instance QEps64.
  Local Existing Instance Eps64.
  Ltac ev q := unfold P1; match goal with |- bspline_eval _ ?t = _ => replace t with (Q2R q) by (unfold Q2R; cbn [Qnum Qden]; lra) end;
    rewrite (bspline_eval_hom Q2R pq2r); vm_compute bspline_eval; cbn [omap rmap];
    do 2 f_equal; apply pn_eq; cbn [pq2r pn_arr map pt1 pt]; unfold Q2R; cbn [Qnum Qden]; f_equal; lra.
  Lemma code_unbent : exists s : bspline R P1,
    bspline_new 2 [0;0;0;1;2;2;2] [pt1 (-1); pt1 (-4); pt1 (-4); pt1 (-1)] = Ret (Ok s) /\ bs_kind s = Clamped /\
    bspline_eval s 0 = Ret (Ok (pt1 (-1))) /\ bspline_eval s (3/4) = Ret (Ok (pt1 (-43/16))) /\ bspline_eval s 1 = Ret (Ok (pt1 (-4))).
  Proof.
    assert (HQ : exists sQ, bspline_new 2 (qk [0;0;0;1;2;2;2]%Z) (qp [-1;-4;-4;-1]%Z) = Ret (Ok sQ)
      /\ bs_kind sQ = Clamped /\ sQ = BSpline 2 (qk [0;0;0;1;2;2;2]%Z) Clamped (qp [-1;-4;-4;-1]%Z)).
    { eexists. split; [vm_compute; reflexivity|]. split; reflexivity. }
    destruct HQ as (sQ & HQ & HK & ->). eexists. split; [exact (new_transfer _ _ _ _ HQ)|]. split; [reflexivity|].
    split; [ev (0 # 1)%Q|split; [ev (3 # 4)%Q|ev (1 # 1)%Q]].
  Qed.
End Between.
