(** Knot insertion and hyperplanes, for the splines of the code. *)
From Coq Require Import Reals List Arith Lia Lra.
From Verif Require Import Base.Outcome Base.Scalar Model.Point Model.BSpline Model.Repairs Inst.RealInst
  Spec.Sums Spec.Lawful Spec.Basis Spec.Crossings Spec.SplinePoints Spec.Insertion Spec.Points
  Proofs.OutcomeFacts Proofs.PointFacts Proofs.BoxSpec Proofs.BSplineGeneric Proofs.BSplineReal Proofs.BSplineEval Proofs.BSplineCE
  Proofs.BasisCalc Proofs.RepairSpline Proofs.RepairOrder Proofs.KnotInsertion Proofs.SplineOrder Proofs.SplineCrossings.
Import ListNotations.
Local Open Scope R_scope.

Lemma insert_length k x ks : (k < length ks)%nat -> length (insert_knot k x ks) = S (length ks).
Proof. intros H. unfold insert_knot. rewrite app_length, firstn_length. cbn [length]. rewrite skipn_length. lia. Qed.
Lemma insert_nth k x ks m : (k < length ks)%nat -> nth m (insert_knot k x ks) 0 = ins k x (fun i => nth i ks 0) m.
Proof.
  intros H. unfold insert_knot, ins.
  assert (L : length (firstn (S k) ks) = S k) by (rewrite firstn_length; lia).
  destruct (Nat.leb_spec m k) as [A|A].
  - rewrite app_nth1 by lia. rewrite <- (firstn_skipn (S k) ks) at 2. rewrite app_nth1 by lia. reflexivity.
  - rewrite app_nth2 by lia. rewrite L. destruct (Nat.eqb_spec m (S k)) as [->|N].
    + now rewrite Nat.sub_diag.
    + destruct (m - S k)%nat as [|q] eqn:E; [lia|]. cbn [nth]. rewrite <- (firstn_skipn (S k) ks) at 2.
      rewrite app_nth2 by lia. f_equal. lia.
Qed.

Section Insert.
  Context {P : Type} {PT : Point R P} {LP : LawfulPoint P}.
  Variables (D k : nat) (x : R) (ks : list R) (ps qs : list P).
  Local Notation C := (length ps).
  Local Notation U i := (nth i ks 0).
  Hypotheses (Hs : sorted ks) (HK : length ks = (C + D + 1)%nat) (Hk : (D <= k < C)%nat) (Hx : U k <= x < U (k + 1))
    (Hq : inserted_points D k x ks ps qs).

  Lemma insert_sorted : sorted (insert_knot k x ks).
  Proof.
    intros i j Hij. rewrite insert_length in Hij by lia. rewrite !insert_nth by lia.
    set (W := fun i => U (Nat.min i (length ks - 1))).
    assert (Wm : forall a b, (a <= b)%nat -> W a <= W b) by (intros a b Hab; apply Hs; lia).
    assert (E : forall m, (m <= length ks)%nat -> ins k x (fun i => U i) m = ins k x W m).
    { intros m Hm. unfold ins, W. destruct (m <=? k)%nat eqn:A; [f_equal; apply Nat.leb_le in A; lia|].
      destruct (m =? S k)%nat; [reflexivity|]. f_equal. lia. }
    rewrite !E by lia. apply (ins_mono W k x Wm); [|lia]. unfold W. rewrite !Nat.min_l by lia. exact Hx.
  Qed.
  Theorem insert_curve t i : (i < p_dim (P := P))%nat -> spline_coord D (insert_knot k x ks) qs t i = spline_coord D ks ps t i.
  Proof.
    intros Hi. destruct Hq as (HL & Q1 & Q2 & Q3). unfold spline_coord. rewrite HL.
    set (W := fun i => U (Nat.min i (length ks - 1))).
    assert (Wm : forall a b, (a <= b)%nat -> W a <= W b) by (intros a b Hab; apply Hs; lia).
    assert (Wlo : forall m, (m < length ks)%nat -> W m = U m) by (intros m Hm; unfold W; f_equal; lia).
    rewrite (Rsum_ext (fun j => basis (fun m => U m) D j t * _) (fun j => basis W D j t * coord (nth j ps p_default) i)).
    2:{ intros j Hj. f_equal. apply basis_ext. intros m Hm. symmetry. apply Wlo. lia. }
    rewrite (insertion W k x Wm ltac:(rewrite !Wlo by lia; exact Hx) D t (fun j => coord (nth j ps p_default) i) C Hk).
    apply Rsum_ext. intros j Hj. f_equal.
    - apply basis_ext. intros m Hm. rewrite insert_nth by lia. unfold ins.
      destruct (Nat.leb_spec m k); [symmetry; apply Wlo; lia|]. destruct (Nat.eqb_spec m (S k)); [reflexivity|]. symmetry. apply Wlo. lia.
    - unfold cins. destruct (le_lt_dec j (k - D)) as [A|A]; [|destruct (le_lt_dec j k) as [B|B]].
      + rewrite share_lo, Q1 by exact A. ring.
      + rewrite share_mid, (Q2 j i) by (try exact Hi; lia). cbn zeta. rewrite !Wlo by lia. reflexivity.
      + rewrite share_hi, Q3 by lia. ring.
  Qed.
  Lemma insert_last : nth (length qs - 1) qs p_default = nth (C - 1) ps p_default.
  Proof. destruct Hq as (HL & _ & _ & Q3). rewrite HL. replace (S C - 1)%nat with C by lia. rewrite Q3 by lia. reflexivity. Qed.
  Lemma insert_left : nth D (insert_knot k x ks) 0 = U D.
  Proof. rewrite insert_nth by lia. apply (ins_lo (fun i => U i)). lia. Qed.
  Lemma insert_right : nth (length qs) (insert_knot k x ks) 0 = U C.
  Proof. rewrite insert_nth by lia. rewrite (proj1 Hq). apply (ins_hi (fun i => U i)). lia. Qed.
  Lemma insert_point t p : curve_point D (insert_knot k x ks) qs t p <-> curve_point D ks ps t p.
  Proof.
    unfold curve_point. rewrite insert_left, insert_right, insert_last.
    split; (intros [[H1 H2]|H]; [left; split; [exact H1|]|right; exact H]); intros i Hi.
    - rewrite <- insert_curve by exact Hi. auto.
    - rewrite insert_curve by exact Hi. auto.
  Qed.
End Insert.

Lemma curve_point_unique {P : Type} {PT : Point R P} {LP : LawfulPoint P} D ks (ps : list P) t p q :
  curve_point D ks ps t p -> curve_point D ks ps t q -> p = q.
Proof.
  intros [[H1 H2]|[H1 H2]] [[H3 H4]|[H3 H4]]; try lra; [|congruence]. apply lp_ext. intros i Hi. now rewrite H2, H4.
Qed.

Section Code.
  Context {E : Eps} {P : Type} {PT : Point R P} {LP : LawfulPoint P}.
  Variables (D k : nat) (x : R) (ks : list R) (ps qs : list P) (s : bspline R P).
  Hypothesis Hnew : bspline_new D ks ps = Ret (Ok s).
  Local Notation C := (length ps).
  Local Notation U i := (nth i ks 0).
  Hypotheses (Hk : (D <= k < C)%nat) (Hx : U k <= x < U (k + 1)) (Hq : inserted_points D k x ks ps qs).

  Theorem insert_accepts : exists s', bspline_new D (insert_knot k x ks) qs = Ret (Ok s').
  Proof.
    destruct (sizes D ks ps s Hnew) as [HDC HK]. pose proof (ks_sorted D ks ps s Hnew) as Hs.
    apply new_ok_iff. rewrite insert_length, (proj1 Hq) by lia. split; [lia|]. split; [lia|].
    intros i Hi. apply Rltb_false. apply (insert_sorted D k x ks ps Hs HK Hk Hx). rewrite insert_length by lia. lia.
  Qed.
  Variable s' : bspline R P.
  Hypothesis Hnew' : bspline_new D (insert_knot k x ks) qs = Ret (Ok s').

  (** the repaired evaluation does not notice *)
  Theorem insert_fixed t : U D <= t < U C -> fixed_eval s' t = fixed_eval s t.
  Proof.
    intros Ht. destruct (sizes D ks ps s Hnew) as [HDC HK]. pose proof (ks_sorted D ks ps s Hnew) as Hs.
    destruct (new_fixed_value D ks ps s Hnew t Ht) as (p & Ep & Hp).
    destruct (new_fixed_value D (insert_knot k x ks) qs s' Hnew' t) as (p' & Ep' & Hp').
    { rewrite (insert_left D k x ks ps HK Hk), (insert_right D k x ks ps qs HK Hk Hq). exact Ht. }
    rewrite Ep, Ep'. do 2 f_equal. apply lp_ext. intros i Hi. rewrite Hp', Hp by exact Hi.
    exact (insert_curve D k x ks ps qs Hs HK Hk Hx Hq t i Hi).
  Qed.

  Section Knots.
    Hypotheses (HD : (1 <= D)%nat) (Hkind : bs_kind s <> Unclamped) (Hkind' : bs_kind s' <> Unclamped)
      (Hsep : forall i j, (i < j < length ks + 1)%nat -> nth i (insert_knot k x ks) 0 < nth j (insert_knot k x ks) 0 ->
        eps <= nth j (insert_knot k x ks) 0 - nth i (insert_knot k x ks) 0).
    Lemma sep_old i j : (i < j < length ks)%nat -> U i < U j -> eps <= U j - U i.
    Proof.
      intros Hij Hlt. destruct (sizes D ks ps s Hnew) as [HDC HK].
      set (f := fun i => if (i <=? k)%nat then i else S i).
      assert (F : forall i, nth (f i) (insert_knot k x ks) 0 = U i).
      { intros a. rewrite insert_nth by lia. unfold f. destruct (Nat.leb_spec a k) as [A|A]; [now apply (ins_lo (fun i => U i))|now apply (ins_hi (fun i => U i))]. }
      rewrite <- (F i), <- (F j). apply Hsep; [|rewrite !F; exact Hlt].
      unfold f. destruct (Nat.leb_spec i k), (Nat.leb_spec j k); lia.
    Qed.
    Theorem insert_at_knots j : (D <= j <= C)%nat -> bspline_eval s' (U j) = bspline_eval s (U j).
    Proof.
      intros Hj. destruct (sizes D ks ps s Hnew) as [HDC HK]. pose proof (ks_sorted D ks ps s Hnew) as Hs.
      destruct (knot_eval D ks ps s Hnew HD Hkind sep_old j Hj) as (p & Ep & Hp).
      assert (Hj' : exists j', (D <= j' <= length qs)%nat /\ nth j' (insert_knot k x ks) 0 = U j).
      { rewrite (proj1 Hq). destruct (le_lt_dec j k) as [A|A].
        - exists j. split; [lia|]. rewrite insert_nth by lia. apply (ins_lo (fun i => U i)). exact A.
        - exists (S j). split; [lia|]. rewrite insert_nth by lia. apply (ins_hi (fun i => U i)). exact A. }
      destruct Hj' as (j' & B & Ej).
      destruct (knot_eval D _ qs s' Hnew' HD Hkind' ltac:(rewrite insert_length by lia; intros a b Hab; apply Hsep; lia) j' B) as (q & Eq & Hq').
      rewrite Ej in Eq, Hq'. apply (insert_point D k x ks ps qs Hs HK Hk Hx Hq) in Hq'.
      rewrite Ep, Eq. do 2 f_equal. exact (curve_point_unique _ _ _ _ _ _ Hq' Hp).
    Qed.
    (** and at the new knot the code is right *)
    Theorem insert_new_knot : exists p, bspline_eval s' x = Ret (Ok p) /\ curve_point D ks ps x p.
    Proof.
      destruct (sizes D ks ps s Hnew) as [HDC HK]. pose proof (ks_sorted D ks ps s Hnew) as Hs.
      destruct (knot_eval D _ qs s' Hnew' HD Hkind' ltac:(rewrite insert_length by lia; intros a b Hab; apply Hsep; lia) (S k)) as (q & Eq & Hq').
      { rewrite (proj1 Hq). lia. }
      rewrite insert_nth, ins_at in Eq, Hq' by lia. exists q. split; [exact Eq|].
      apply (insert_point D k x ks ps qs Hs HK Hk Hx Hq). exact Hq'.
    Qed.
  End Knots.
End Code.

Section Crossing.
  Context {E : Eps} {P : Type} {PT : Point R P} {LP : LawfulPoint P}.
  Variables (D : nat) (ks : list R) (ps : list P) (s : bspline R P).
  Hypothesis Hnew : bspline_new D ks ps = Ret (Ok s).
  Local Notation C := (length ps).
  Local Notation U i := (nth i ks 0).

  (** the values at the knots *)
  Theorem knots_crosses w c qs m : (1 <= D)%nat -> bs_kind s <> Unclamped ->
    (forall i j, (i < j < length ks)%nat -> U i < U j -> eps <= U j - U i) ->
    length qs = (C - D + 1)%nat ->
    (forall i, (i < length qs)%nat -> bspline_eval s (U (D + i)) = Ret (Ok (nth i qs p_default))) ->
    polygon_crosses w c qs m -> polygon_crosses w c ps m.
  Proof.
    intros HD Hkind Hsep Hl Hq. destruct (sizes D ks ps s Hnew) as [HDC HK]. pose proof (ks_sorted D ks ps s Hnew) as Hs.
    set (ts := map (fun i => U (D + i)) (seq 0 (length qs))).
    assert (Lt : length ts = length qs) by (unfold ts; now rewrite map_length, seq_length).
    assert (Nt : forall i, (i < length qs)%nat -> nth i ts 0 = U (D + i)).
    { intros i Hi. unfold ts. rewrite (nth_indep _ 0 (U (D + 0))) by (rewrite map_length, seq_length; exact Hi).
      rewrite (map_nth (fun i => U (D + i))), seq_nth by exact Hi. reflexivity. }
    apply (curve_crosses D ks ps Hs ltac:(lia) HDC w c ts).
    - apply Forall2_nth_intro with (da := 0) (db := p_default); [exact Lt|].
      intros i Hi. rewrite Nt by lia. apply (knot_point D ks ps s Hnew HD Hkind Hsep); [lia|]. apply Hq. lia.
    - intros i j Hij. rewrite !Nt by lia. apply Hs. lia.
  Qed.
  (** the repaired evaluation at any parameters *)
  Theorem fixed_crosses w c (ts : list R) qs m : U C = U (C + D) -> U (C - 1) < U C ->
    length ts = length qs ->
    (forall i j, (i <= j < length ts)%nat -> nth i ts 0 <= nth j ts 0) ->
    (forall i, (i < length ts)%nat -> U D <= nth i ts 0 <= U C /\ fixed_eval s (nth i ts 0) = Ret (Ok (nth i qs p_default))) ->
    polygon_crosses w c qs m -> polygon_crosses w c ps m.
  Proof.
    intros H1 H2 Hl Hr He. destruct (sizes D ks ps s Hnew) as [HDC HK]. pose proof (ks_sorted D ks ps s Hnew) as Hs.
    apply (curve_crosses D ks ps Hs ltac:(lia) HDC w c ts); [|exact Hr].
    apply Forall2_nth_intro with (da := 0) (db := p_default); [exact Hl|]. intros i Hi. destruct (He i Hi) as [Hd Ev].
    exact (fixed_point D ks ps s Hnew H1 H2 _ _ Hd Ev).
  Qed.
End Crossing.

(** the code: inserting 1/2 into the constant spline changes its value there from 1/2 to 1 *)
Local Existing Instance Eps64.
Lemma ins_half : insert_knot 1 (1/2) [0;0;1;1] = [0;0;1/2;1;1].
Proof. reflexivity. Qed.
Lemma pts_half : inserted_points 1 1 (1/2) [0;0;1;1] [pt1 1; pt1 1] [pt1 1; pt1 1; pt1 1].
Proof.
  split; [reflexivity|]. split; [|split].
  - intros j Hj. replace j with 0%nat by lia. reflexivity.
  - intros j i Hj Hi. replace j with 1%nat by lia. destruct i as [|i]; [|cbn in Hi; lia]. cbn zeta. cbn [nth Nat.add Nat.sub].
    rewrite !coord_pt1. ring.
  - intros j Hj. cbn [length] in Hj. replace j with 2%nat by lia. reflexivity.
Qed.
Lemma insert_violated : exists s s' : bspline R P1,
  bspline_new 1 [0;0;1;1] [pt1 1; pt1 1] = Ret (Ok s) /\
  bspline_new 1 (insert_knot 1 (1/2) [0;0;1;1]) [pt1 1; pt1 1; pt1 1] = Ret (Ok s') /\
  bs_kind s = Clamped /\ bs_kind s' = Clamped /\
  bspline_eval s (1/2) = Ret (Ok (pt1 (1/2))) /\ bspline_eval s' (1/2) = Ret (Ok (pt1 1)).
Proof.
  destruct constant_not_constant as (s & Hnew & Hk & Hv & Ev). exists s.
  destruct (insert_accepts 1 1 (1/2) [0;0;1;1] [pt1 1; pt1 1] _ s Hnew ltac:(cbn; lia) ltac:(cbn; lra) pts_half) as (s' & Hnew').
  exists s'. split; [exact Hnew|]. split; [exact Hnew'|]. split; [exact Hk|].
  assert (He : eps < 1/4) by (change eps with (/ 2 ^ 52); rewrite <- (Rinv_r 4) at 1 by lra; apply Rlt_le_trans with (/ 5);
    [apply Rinv_lt_contravar; [|apply Rlt_le_trans with (2 ^ 3); [lra|apply Rle_pow; [lra|lia]]]; apply Rmult_lt_0_compat; [lra|apply pow_lt; lra]|lra]).
  pose proof eps_pos as Hp.
  assert (K' : bs_kind s' = Clamped).
  { destruct (kind_spec _ _ _ _ Hnew') as [Hf Hb]. rewrite ins_half in Hf, Hb. cbn [nth length Nat.add] in Hf, Hb.
    destruct (proj2 Hf ltac:(lra)) as [|Hk1]; [assumption|]. destruct (proj2 Hb ltac:(lra)) as [|Hk']; [assumption|congruence]. }
  split; [exact K'|]. split; [exact Ev|].
  destruct (insert_new_knot 1 1 (1/2) [0;0;1;1] [pt1 1; pt1 1] _ s Hnew ltac:(cbn; lia) ltac:(cbn; lra) pts_half s' Hnew' (le_n 1)
    ltac:(congruence)) as (p & Ep & Hc).
  { rewrite ins_half. intros i j Hij. cbn [length] in Hij.
    do 5 (destruct j as [|j]; [do 5 (destruct i as [|i]; [cbn [nth]; lra|]); lia|]). lia. }
  rewrite Ep. do 2 f_equal. destruct Hc as [[_ Hc]|[Hc _]]; [|cbn in Hc; lra].
  apply lp_ext. intros [|i] Hi; [|cbn in Hi; lia]. rewrite (Hc 0%nat Hi). exact Hv.
Qed.
(** and its polygon 1, 1 is crossed nowhere, while its values 1, 1/2, 1 cross 3/4 twice *)
Lemma crosses_violated : exists s : bspline R P1,
  bspline_new 1 [0;0;1;1] [pt1 1; pt1 1] = Ret (Ok s) /\ bs_kind s = Clamped /\
  bspline_eval s 0 = Ret (Ok (pt1 1)) /\ bspline_eval s (1/2) = Ret (Ok (pt1 (1/2))) /\
  bspline_eval s 1 = Ret (Ok (pt1 1)) /\
  polygon_crosses (fun _ => 1) (3/4) [pt1 1; pt1 (1/2); pt1 1] 2 /\
  forall m, polygon_crosses (fun _ => 1) (3/4) [pt1 1; pt1 1] m -> m = 0%nat.
Proof.
  destruct order_violated as (s & H1 & H2 & H3 & H4 & H5 & _). exists s. repeat (split; [assumption|]).
  assert (L : forall a, level (fun _ => 1) (pt1 a) = a).
  { intros a. unfold level. change (p_dim (P := P1)) with 1%nat. cbn [Rsum]. rewrite coord_pt1. ring. }
  split.
  - exists (fun j => j). split; [intros; lia|]. split; [intros j Hj; cbn; lia|].
    intros [|[|j]] Hj; [| |lia]; cbn [nth]; rewrite !L; lra.
  - intros [|m]; [reflexivity|]. intros (idx & I1 & I2 & I3). exfalso.
    pose proof (I3 0%nat ltac:(lia)) as H. pose proof (I2 0%nat ltac:(lia)) as B0. pose proof (I2 1%nat ltac:(lia)) as B1.
    assert (N : forall i, (i < 2)%nat -> nth i [pt1 1; pt1 1] p_default = pt1 1) by (intros [|[|i]] Hi; [reflexivity|reflexivity|lia]).
    cbn [length] in B0, B1. rewrite !N, L in H by assumption. lra.
Qed.
