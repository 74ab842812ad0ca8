(** C97: continuity of the B-spline curve, jumps of the evaluation at the inner knots. *)
From Coq Require Import Reals List Arith Lia Lra.
From Coquelicot Require Import Coquelicot.
From Verif Require Import Base.Outcome Base.Scalar Model.Point Model.BSpline Inst.RealInst
  Spec.Sums Spec.Lawful Spec.Basis Spec.Limits
  Proofs.BSplineGeneric Proofs.BSplineReal Proofs.BasisCalc Proofs.BSplineEval.
Import ListNotations.
Local Open Scope R_scope.

(** ** One-sided limits *)
Definition lim (f : R -> R) (S : R -> Prop) (x l : R) : Prop := limit1_in f S l x.

Lemma lim_const c S x : lim (fun _ => c) S x c.
Proof. apply (limit_free (fun _ => c) S x x). Qed.
Lemma lim_id S x : lim (fun t => t) S x x.
Proof. intros e He. exists e. split; [exact He|]. intros t [_ H]. exact H. Qed.
Lemma lim_ext f g (S : R -> Prop) x l d : 0 < d -> (forall t, S t -> Rabs (t - x) < d -> f t = g t) -> lim f S x l -> lim g S x l.
Proof.
  intros Hd H L e He. destruct (L e He) as (a & Ha & La). exists (Rmin a d).
  split; [apply Rmin_pos; assumption|]. intros t [St Dt]. simpl in *. unfold R_dist in *.
  rewrite <- H; [apply La; split; [exact St|]|exact St|].
  - eapply Rlt_le_trans; [exact Dt|apply Rmin_l].
  - eapply Rlt_le_trans; [exact Dt|apply Rmin_r].
Qed.
Lemma lim_sum (f : nat -> R -> R) S x (l : nat -> R) n :
  (forall k, (k < n)%nat -> lim (f k) S x (l k)) -> lim (fun t => Rsum (fun k => f k t) n) S x (Rsum l n).
Proof.
  induction n as [|n IH]; intros H; cbn [Rsum]; [apply lim_const|].
  apply (limit_plus (fun t => Rsum (fun k => f k t) n) (f n)); [apply IH; auto|apply H; lia].
Qed.
Lemma lim_quot_up a b S x : lim (fun t => quot (t - a) b) S x (quot (x - a) b).
Proof.
  unfold lim, quot. destruct (Req_EM_T b 0); [apply lim_const|]. unfold Rdiv.
  apply (limit_mul (fun t => t - a) (fun _ => / b)); [|apply lim_const].
  apply (limit_minus (fun t => t) (fun _ => a)); [apply lim_id|apply lim_const].
Qed.
Lemma lim_quot_down a b S x : lim (fun t => quot (a - t) b) S x (quot (a - x) b).
Proof.
  unfold lim, quot. destruct (Req_EM_T b 0); [apply lim_const|]. unfold Rdiv.
  apply (limit_mul (fun t => a - t) (fun _ => / b)); [|apply lim_const].
  apply (limit_minus (fun _ => a) (fun t => t)); [apply lim_const|apply lim_id].
Qed.
Lemma lim_left f x l : lim f (fun t => t < x) x l <-> left_limit f x l.
Proof.
  split; intros H e He; destruct (H e He) as (h & Hh & L); exists h; (split; [exact Hh|]).
  - intros t Ht. apply L. split; [lra|]. simpl. unfold R_dist. apply Rabs_def1; lra.
  - intros t [Ht Hd]. simpl in *. unfold R_dist in *. apply Rabs_def2 in Hd. apply L. lra.
Qed.
Lemma left_limit_unique f x l m : left_limit f x l -> left_limit f x m -> l = m.
Proof.
  intros A B. destruct (Req_dec l m) as [E|N]; [exact E|exfalso].
  set (e := Rabs (l - m) / 2). assert (He : 0 < e) by (unfold e; assert (0 < Rabs (l - m)) by (apply Rabs_pos_lt; lra); lra).
  destruct (A e He) as (h & Hh & HA). destruct (B e He) as (g & Hg & HB).
  assert (Hm : 0 < Rmin h g) by (apply Rmin_pos; assumption).
  pose proof (Rmin_l h g). pose proof (Rmin_r h g).
  specialize (HA (x - Rmin h g / 2) ltac:(lra)). specialize (HB (x - Rmin h g / 2) ltac:(lra)).
  assert (Rabs (l - m) <= Rabs (f (x - Rmin h g / 2) - l) + Rabs (f (x - Rmin h g / 2) - m)).
  { rewrite (Rabs_minus_sym _ l). replace (l - m) with ((l - f (x - Rmin h g / 2)) + (f (x - Rmin h g / 2) - m)) by ring.
    apply Rabs_triang. }
  unfold e in *. lra.
Qed.

(** ** Basis functions from the left *)
(** the recursion with half-open intervals closed on the right *)
Fixpoint basisL (U : nat -> R) (p i : nat) (t : R) : R :=
  match p with
  | O => if Rlt_dec (U i) t then if Rle_dec t (U (i + 1)%nat) then 1 else 0 else 0
  | S p' =>
      quot (t - U i) (U (i + p)%nat - U i) * basisL U p' i t
      + quot (U (i + p + 1)%nat - t) (U (i + p + 1)%nat - U (i + 1)%nat) * basisL U p' (i + 1) t
  end.

Lemma gap a x : exists d, 0 < d /\ forall t, t < x -> Rabs (t - x) < d -> (a <= t <-> a < x) /\ (t < a <-> x <= a).
Proof.
  destruct (Rlt_dec a x) as [H|H].
  - exists (x - a). split; [lra|]. intros t Ht Hd. apply Rabs_def2 in Hd. split; split; lra.
  - exists 1. split; [lra|]. intros t Ht _. split; split; lra.
Qed.
Lemma gap_right a x : exists d, 0 < d /\ forall t, x < t -> Rabs (t - x) < d -> (a <= t <-> a <= x) /\ (t < a <-> x < a).
Proof.
  destruct (Rlt_dec x a) as [H|H].
  - exists (a - x). split; [lra|]. intros t Ht Hd. apply Rabs_def2 in Hd. split; split; lra.
  - exists 1. split; [lra|]. intros t Ht _. split; split; lra.
Qed.

Lemma basis_from_left U p x : forall i, lim (basis U p i) (fun t => t < x) x (basisL U p i x).
Proof.
  induction p as [|p IH]; intros i; cbn [basisL].
  - destruct (gap (U i) x) as (d & Hd & A). destruct (gap (U (i + 1)%nat) x) as (e & He & B).
    apply lim_ext with (f := fun _ => if Rlt_dec (U i) x then if Rle_dec x (U (i + 1)%nat) then 1 else 0 else 0) (d := Rmin d e);
      [apply Rmin_pos; assumption| |apply lim_const].
    intros t Ht Hm. destruct (A t Ht ltac:(pose proof (Rmin_l d e); lra)) as [A1 _].
    destruct (B t Ht ltac:(pose proof (Rmin_r d e); lra)) as [_ B1]. cbn [basis].
    destruct (Rlt_dec (U i) x), (Rle_dec (U i) t), (Rle_dec x (U (i + 1)%nat)), (Rlt_dec t (U (i + 1)%nat)); tauto.
  - cbn [basis].
    apply (limit_plus (fun t => quot (t - U i) _ * basis U p i t) (fun t => quot (_ - t) _ * basis U p (i + 1) t)).
    + apply (limit_mul (fun t => quot (t - U i) _) (basis U p i)); [apply lim_quot_up|apply IH].
    + apply (limit_mul (fun t => quot (_ - t) _) (basis U p (i + 1))); [apply lim_quot_down|apply IH].
Qed.
Lemma basis_from_right U p x : forall i, lim (basis U p i) (fun t => x < t) x (basis U p i x).
Proof.
  induction p as [|p IH]; intros i.
  - destruct (gap_right (U i) x) as (d & Hd & A). destruct (gap_right (U (i + 1)%nat) x) as (e & He & B).
    apply lim_ext with (f := fun _ => basis U 0 i x) (d := Rmin d e);
      [apply Rmin_pos; assumption| |apply lim_const].
    intros t Ht Hm. destruct (A t Ht ltac:(pose proof (Rmin_l d e); lra)) as [A1 _].
    destruct (B t Ht ltac:(pose proof (Rmin_r d e); lra)) as [_ B1]. cbn [basis].
    destruct (Rle_dec (U i) x), (Rle_dec (U i) t), (Rlt_dec x (U (i + 1)%nat)), (Rlt_dec t (U (i + 1)%nat)); tauto.
  - cbn [basis].
    apply (limit_plus (fun t => quot (t - U i) _ * basis U p i t) (fun t => quot (_ - t) _ * basis U p (i + 1) t)).
    + apply (limit_mul (fun t => quot (t - U i) _) (basis U p i)); [apply lim_quot_up|apply IH].
    + apply (limit_mul (fun t => quot (_ - t) _) (basis U p (i + 1))); [apply lim_quot_down|apply IH].
Qed.

Section Multiplicity.
  Variable U : nat -> R.
  Definition mono (i j : nat) : Prop := forall a b, (i <= a <= b)%nat -> (b <= j)%nat -> U a <= U b.

  Lemma basis_one p x : forall i, mono i (i + p + 1) -> U i = x -> U (i + p)%nat = x -> x < U (i + p + 1)%nat -> basis U p i x = 1.
  Proof.
    induction p as [|p IH]; intros i Hm H1 H2 H3; cbn [basis].
    - replace (i + 0 + 1)%nat with (i + 1)%nat in H3 by lia.
      destruct (Rle_dec (U i) x); [|lra]. destruct (Rlt_dec x (U (i + 1)%nat)); lra.
    - assert (E : U (i + 1)%nat = x).
      { assert (U i <= U (i + 1)%nat) by (apply Hm; lia). assert (U (i + 1)%nat <= U (i + S p)%nat) by (apply Hm; lia). lra. }
      rewrite (IH (i + 1)%nat); [|intros a b Ha Hb; apply Hm; lia|exact E| |].
      + rewrite E, H1, H2, (quot_nz (U (i + S p + 1)%nat - x)) by lra. replace (x - x) with 0 by ring.
        unfold quot. destruct (Req_EM_T 0 0); [|lra]. field. lra.
      + now replace (i + 1 + p)%nat with (i + S p)%nat by lia.
      + now replace (i + 1 + p + 1)%nat with (i + S p + 1)%nat by lia.
  Qed.
  Lemma basisL_one p x : forall i, mono i (i + p + 1) -> U (i + 1)%nat = x -> U (i + p + 1)%nat = x -> U i < x -> basisL U p i x = 1.
  Proof.
    induction p as [|p IH]; intros i Hm H1 H2 H3; cbn [basisL].
    - destruct (Rlt_dec (U i) x); [|lra]. destruct (Rle_dec x (U (i + 1)%nat)); lra.
    - assert (E : U (i + S p)%nat = x).
      { assert (U (i + 1)%nat <= U (i + S p)%nat) by (apply Hm; lia). assert (U (i + S p)%nat <= U (i + S p + 1)%nat) by (apply Hm; lia). lra. }
      rewrite (IH i); [|intros a b Ha Hb; apply Hm; lia|exact H1| |exact H3].
      + rewrite E, H1, H2, (quot_nz (x - U i)) by lra. replace (x - x) with 0 by ring.
        unfold quot. destruct (Req_EM_T 0 0); [|lra]. field. lra.
      + now replace (i + p + 1)%nat with (i + S p)%nat by lia.
  Qed.
  Lemma basisL_left p x : forall i, mono i (i + p + 1) -> x <= U i -> basisL U p i x = 0.
  Proof.
    induction p as [|p IH]; intros i Hm H; cbn [basisL].
    - destruct (Rlt_dec (U i) x); [lra|reflexivity].
    - assert (U i <= U (i + 1)%nat) by (apply Hm; lia).
      rewrite (IH i), (IH (i + 1)%nat); [ring| | | |]; try lra; intros a b Ha Hb; apply Hm; lia.
  Qed.
  Lemma basisL_right p x : forall i, mono i (i + p + 1) -> U (i + p + 1)%nat < x -> basisL U p i x = 0.
  Proof.
    induction p as [|p IH]; intros i Hm H; cbn [basisL].
    - replace (i + 0 + 1)%nat with (i + 1)%nat in H by lia.
      destruct (Rlt_dec (U i) x); [|reflexivity]. destruct (Rle_dec x (U (i + 1)%nat)); [lra|reflexivity].
    - assert (U (i + p + 1)%nat <= U (i + S p + 1)%nat) by (apply Hm; lia).
      rewrite (IH i), (IH (i + 1)%nat); [ring| | | |]; try lra; try (intros a b Ha Hb; apply Hm; lia).
      now replace (i + 1 + p + 1)%nat with (i + S p + 1)%nat by lia.
  Qed.

  (** no jump where no p + 1 of the knots coincide *)
  Lemma basis_no_jump p x : forall i, mono i (i + p + 1) ->
    ~ (U i = x /\ U (i + p)%nat = x) -> ~ (U (i + 1)%nat = x /\ U (i + p + 1)%nat = x) ->
    basisL U p i x = basis U p i x.
  Proof.
    induction p as [|p IH]; intros i Hm N1 N2; cbn [basis basisL].
    - replace (i + 0)%nat with i in N1 by lia. replace (i + 0 + 1)%nat with (i + 1)%nat in N2 by lia.
      destruct (Rlt_dec (U i) x), (Rle_dec (U i) x), (Rle_dec x (U (i + 1)%nat)), (Rlt_dec x (U (i + 1)%nat)); try reflexivity; exfalso; lra.
    - assert (M1 : mono i (i + p + 1)) by (intros a b Ha Hb; apply Hm; lia).
      assert (M2 : mono (i + 1) (i + 1 + p + 1)) by (intros a b Ha Hb; apply Hm; lia).
      assert (A1 : U i <= U (i + 1)%nat) by (apply Hm; lia).
      assert (A2 : U (i + S p)%nat <= U (i + S p + 1)%nat) by (apply Hm; lia).
      destruct (Req_dec (U (i + 1)%nat) x) as [E1|E1]; [destruct (Req_dec (U (i + S p)%nat) x) as [E2|E2]|].
      + (* all the inner knots coincide *)
        assert (L : U i < x) by lra. assert (G : x < U (i + S p + 1)%nat) by lra.
        rewrite (basisL_one p x i), (basisL_left p x (i + 1)%nat), (basis_right U x p i), (basis_one p x (i + 1)%nat);
          rewrite ?E1, ?E2; try assumption; try lra.
        * rewrite !quot_nz by lra. field. lra.
        * now replace (i + 1 + p)%nat with (i + S p)%nat by lia.
        * now replace (i + 1 + p + 1)%nat with (i + S p + 1)%nat by lia.
        * replace (i + p + 1)%nat with (i + S p)%nat by lia. lra.
        * now replace (i + p + 1)%nat with (i + S p)%nat by lia.
      + f_equal.
        * destruct (Req_dec (U i) x) as [E0|E0].
          -- rewrite E0, Rminus_eq_0. unfold quot. destruct (Req_EM_T _ 0); [ring|]. unfold Rdiv. ring.
          -- f_equal. apply IH; [exact M1|tauto|]. replace (i + p + 1)%nat with (i + S p)%nat by lia. tauto.
        * destruct (Req_dec (U (i + S p + 1)%nat) x) as [E0|E0].
          -- rewrite E0, Rminus_eq_0. unfold quot. destruct (Req_EM_T _ 0); [ring|]. unfold Rdiv. ring.
          -- f_equal. apply IH; [exact M2| |].
             ++ replace (i + 1 + p)%nat with (i + S p)%nat by lia. tauto.
             ++ replace (i + 1 + p + 1)%nat with (i + S p + 1)%nat by lia. tauto.
      + f_equal.
        * destruct (Req_dec (U i) x) as [E0|E0].
          -- rewrite E0, Rminus_eq_0. unfold quot. destruct (Req_EM_T _ 0); [ring|]. unfold Rdiv. ring.
          -- f_equal. apply IH; [exact M1|tauto|tauto].
        * destruct (Req_dec (U (i + S p + 1)%nat) x) as [E0|E0].
          -- rewrite E0, Rminus_eq_0. unfold quot. destruct (Req_EM_T _ 0); [ring|]. unfold Rdiv. ring.
          -- f_equal. apply IH; [exact M2|tauto|].
             replace (i + 1 + p + 1)%nat with (i + S p + 1)%nat by lia. tauto.
  Qed.

  Lemma prod_pos f n : (forall r, (r < n)%nat -> 0 < f r) -> 0 < Rprod f n.
  Proof.
    induction n as [|n IH]; intros H; cbn [Rprod]; [lra|].
    apply Rmult_lt_0_compat; [apply IH; auto|apply H; lia].
  Qed.
  Lemma gaps_pos k p : mono k (k + p + 1) -> U k < U (k + 1)%nat -> forall r, (r < p)%nat -> 0 < U (k + 1 + r)%nat - U k.
  Proof. intros Hm Hk r Hr. assert (U (k + 1)%nat <= U (k + 1 + r)%nat) by (apply Hm; lia). lra. Qed.

  (** the last basis function that does not vanish on a span *)
  Lemma basis_last p k t : mono k (k + p + 1) -> U k <= t < U (k + 1)%nat -> basis U p k t = span_weight U p k t.
  Proof.
    intros Hm Ht. unfold span_weight. induction p as [|p IH]; cbn [basis].
    - cbn [Rprod pow]. destruct (Rle_dec (U k) t); [|lra]. destruct (Rlt_dec t (U (k + 1)%nat)); [field|lra].
    - rewrite IH by (intros a b Ha Hb; apply Hm; lia).
      rewrite (basis_left U t p (k + 1)%nat); [|intros a b Ha Hb; apply Hm; lia|lra].
      pose proof (gaps_pos k (S p) Hm ltac:(lra)) as G.
      assert (0 < Rprod (fun r => U (k + 1 + r)%nat - U k) p) by (apply prod_pos; intros; apply G; lia).
      specialize (G p ltac:(lia)). cbn [Rprod pow].
      replace (k + S p)%nat with (k + 1 + p)%nat by lia. rewrite quot_nz by lra. field. split; lra.
  Qed.
  Lemma basisL_last p k x : mono k (k + p + 1) -> U k < x -> U (k + 1)%nat = x -> basisL U p k x = span_weight U p k x.
  Proof.
    intros Hm Ht He. unfold span_weight. induction p as [|p IH]; cbn [basisL].
    - cbn [Rprod pow]. destruct (Rlt_dec (U k) x); [|lra]. destruct (Rle_dec x (U (k + 1)%nat)); [field|lra].
    - rewrite IH by (intros a b Ha Hb; apply Hm; lia).
      rewrite (basisL_left p x (k + 1)%nat); [|intros a b Ha Hb; apply Hm; lia|lra].
      pose proof (gaps_pos k (S p) Hm ltac:(lra)) as G.
      assert (0 < Rprod (fun r => U (k + 1 + r)%nat - U k) p) by (apply prod_pos; intros; apply G; lia).
      specialize (G p ltac:(lia)). cbn [Rprod pow].
      replace (k + S p)%nat with (k + 1 + p)%nat by lia. rewrite quot_nz by lra. field. split; lra.
  Qed.
  Lemma weight_range01 p k x : mono k (k + p + 1) -> U k < x -> U (k + 1)%nat = x -> 0 < span_weight U p k x <= 1.
  Proof.
    intros Hm Ht He. unfold span_weight. pose proof (gaps_pos k p Hm ltac:(lra)) as G.
    assert (Q : forall n, (n <= p)%nat -> 0 < (x - U k) ^ n <= Rprod (fun r => U (k + 1 + r)%nat - U k) n).
    { induction n as [|n IH]; intros Hn; cbn [Rprod pow]; [lra|]. specialize (IH ltac:(lia)). specialize (G n ltac:(lia)).
      assert (x - U k <= U (k + 1 + n)%nat - U k) by (assert (U (k + 1)%nat <= U (k + 1 + n)%nat) by (apply Hm; lia); lra).
      split; [apply Rmult_lt_0_compat; lra|]. rewrite Rmult_comm. apply Rmult_le_compat; lra. }
    specialize (Q p (le_n p)). split.
    - apply Rdiv_lt_0_compat; lra.
    - apply Rle_div_l; lra.
  Qed.
End Multiplicity.

Lemma two_sides f x : lim f (fun t => t < x) x (f x) -> lim f (fun t => x < t) x (f x) -> continuity_pt f x.
Proof.
  intros A B. intros e He. destruct (A e He) as (a & Ha & HA). destruct (B e He) as (b & Hb & HB).
  exists (Rmin a b). split; [apply Rmin_pos; assumption|]. intros t [[_ Hn] Hd]. simpl in *. unfold R_dist in *.
  pose proof (Rmin_l a b). pose proof (Rmin_r a b). destruct (Rtotal_order t x) as [H'|[H'|H']].
  - apply HA. split; [exact H'|lra].
  - congruence.
  - apply HB. split; [exact H'|lra].
Qed.

Section Spline.
  Context {E : Eps} {P : Type} {PT : Point R P} {LP : LawfulPoint P}.
  Variables (D : nat) (ks : list R) (ps : list P).
  Local Notation C := (length ps).
  Local Notation U i := (nth i ks 0).

  Lemma sorted_mono i j : sorted ks -> (j < length ks)%nat -> mono (fun m => U m) i j.
  Proof. intros Hs Hj a b Ha Hb. apply Hs. lia. Qed.

  (** the curve of the specification is continuous where at most D knots coincide *)
  Theorem spline_continuous x i : sorted ks -> (C + D + 1 <= length ks)%nat ->
    (forall j, (j <= C)%nat -> ~ (U j = x /\ U (j + D) = x)) ->
    continuity_pt (fun t => spline_coord D ks ps t i) x.
  Proof.
    intros Hs Hl Hm. unfold spline_coord.
    assert (T : forall S, (forall j, (j < C)%nat -> lim (basis (fun m => U m) D j) S x (basis (fun m => U m) D j x)) ->
      lim (fun t => Rsum (fun j => basis (fun m => U m) D j t * coord (nth j ps p_default) i) C) S x
          (Rsum (fun j => basis (fun m => U m) D j x * coord (nth j ps p_default) i) C)).
    { intros S H. apply (lim_sum (fun j t => basis (fun m => U m) D j t * coord (nth j ps p_default) i)
        S x (fun j => basis (fun m => U m) D j x * coord (nth j ps p_default) i)).
      intros j Hj. apply (limit_mul (basis (fun m => U m) D j) (fun _ => coord (nth j ps p_default) i)); [now apply H|apply lim_const]. }
    apply two_sides; apply T; intros j Hj.
    - rewrite <- basis_no_jump; [apply basis_from_left|apply sorted_mono; [exact Hs|lia]|apply Hm; lia|].
      replace (j + D + 1)%nat with (j + 1 + D)%nat by lia. apply Hm. lia.
    - apply basis_from_right.
  Qed.

  Variable s : bspline R P.
  Hypothesis Hnew : bspline_new D ks ps = Ret (Ok s).

  Lemma monoU k : (k + D + 1 < C + D + 1)%nat -> mono (fun m => U m) k (k + D + 1).
  Proof. intros H. apply sorted_mono; [exact (ks_sorted D ks ps s Hnew)|]. rewrite (proj2 (sizes D ks ps s Hnew)). exact H. Qed.

  (** inside a span *)
  Theorem eval_in_span t k : bs_kind s <> Unclamped -> (D <= k < C)%nat -> U k + eps <= t < U (k + 1) ->
    exists p, bspline_eval s t = Ret (Ok p) /\ forall i, (i < p_dim (P := P))%nat ->
      coord p i = spline_coord D ks ps t i - span_weight (fun m => U m) D k t * coord (nth k ps p_default) i.
  Proof.
    intros Hk Hr Ht. pose proof eps_pos. destruct (sizes D ks ps s Hnew) as [HD HK].
    assert (U D <= U k) by (apply (U_le D ks ps s Hnew); lia).
    assert (U (k + 1) <= U C) by (apply (U_le D ks ps s Hnew); lia).
    destruct (eval_value D ks ps s Hnew t) as (k' & p & Hk' & Hb & Ep & V).
    - apply good_clamped; [exact Hk|lra].
    - intros i Hi Hlt. destruct (le_lt_dec i k) as [L|L].
      + assert (U i <= U k) by (apply (U_le D ks ps s Hnew); lia). lra.
      + assert (U (k + 1) <= U i) by (apply (U_le D ks ps s Hnew); lia). lra.
    - assert (k' = k).
      { apply (span_unique ks k' k t (ks_sorted D ks ps s Hnew)); split; try lia; lra. }
      subst k'. exists p. split; [exact Ep|]. intros i Hi. rewrite (V i Hi), (basis_last (fun m => U m)); [reflexivity| |lra].
      apply monoU. lia.
  Qed.

  (** the velocity of the evaluated point inside a span *)
  Theorem eval_velocity t k i : (1 <= D)%nat -> bs_kind s <> Unclamped -> (D <= k < C)%nat -> U k + eps < t < U (k + 1) ->
    (i < p_dim (P := P))%nat ->
    exists s' f, bspline_derivative s = Ret s' /\
      (forall y, U k + eps <= y < U (k + 1) -> exists p, bspline_eval s y = Ret (Ok p) /\ coord p i = f y) /\
      derivable_pt_lim f t (spline_coord (D - 1) (inner_knots ks) (bs_points s') t i
        - INR D * (t - U k) ^ (D - 1) / Rprod (fun r => U (k + 1 + r) - U k) D * coord (nth k ps p_default) i).
  Proof.
    intros HD1 Hkind Hk Ht Hi. destruct (sizes D ks ps s Hnew) as [HD HK]. pose proof eps_pos as He.
    assert (U D <= U k) by (apply (U_le D ks ps s Hnew); lia).
    assert (U (k + 1) <= U C) by (apply (U_le D ks ps s Hnew); lia).
    destruct (spline_derivative D ks ps s t Hnew HD1 ltac:(lra)) as (s' & Es & _ & _ & Dv).
    { intros j Hj Hc. destruct (le_lt_dec j k) as [L|L].
      - assert (U j <= U k) by (apply (U_le D ks ps s Hnew); lia). lra.
      - assert (U (k + 1) <= U j) by (apply (U_le D ks ps s Hnew); lia). lra. }
    exists s', (fun y => spline_coord D ks ps y i - span_weight (fun m => U m) D k y * coord (nth k ps p_default) i).
    split; [exact Es|]. split.
    - intros y Hy. destruct (eval_in_span y k Hkind Hk Hy) as (p & Ep & V). exists p. split; [exact Ep|now apply V].
    - apply (derivable_pt_lim_minus (fun y => spline_coord D ks ps y i)
        (fun y => span_weight (fun m => U m) D k y * coord (nth k ps p_default) i)); [now apply Dv|].
      assert (Hp : 0 < Rprod (fun r => U (k + 1 + r) - U k) D).
      { apply prod_pos. intros r Hr. apply (gaps_pos (fun m => U m) k D); [apply monoU; lia|lra|exact Hr]. }
      unfold span_weight. apply is_derive_Reals. auto_derive; [exact I|].
      replace (Init.Nat.pred D) with (D - 1)%nat by lia. unfold Rdiv, Rminus. rewrite Rmult_1_l. reflexivity.
  Qed.

  Section Knot.
    Variable k : nat.
    Hypotheses (Hkind : bs_kind s <> Unclamped) (Hk : (D <= k)%nat) (HC : (k + 1 < C)%nat)
      (Hgap : eps < U (k + 1) - U k)
      (Hmult : forall j, (j <= C)%nat -> ~ (U j = U (k + 1) /\ U (j + D) = U (k + 1))).
    Local Notation x := (U (k + 1)).

    (** the limit from the left lacks the span's last control point *)
    Theorem eval_left_limit e : 0 < e -> exists h, 0 < h /\ forall t, x - h < t < x ->
      exists p, bspline_eval s t = Ret (Ok p) /\ forall i, (i < p_dim (P := P))%nat ->
        Rabs (coord p i - (spline_coord D ks ps x i - span_weight (fun m => U m) D k x * coord (nth k ps p_default) i)) < e.
    Proof.
      intros He. destruct (sizes D ks ps s Hnew) as [HD HK]. pose proof eps_pos as Hp.
      assert (Q : forall i, (i < p_dim (P := P))%nat ->
        left_limit (fun t => spline_coord D ks ps t i - basis (fun m => U m) D k t * coord (nth k ps p_default) i) x
          (spline_coord D ks ps x i - span_weight (fun m => U m) D k x * coord (nth k ps p_default) i)).
      { intros i Hi. apply lim_left.
        apply (limit_minus (fun t => spline_coord D ks ps t i) (fun t => basis (fun m => U m) D k t * coord (nth k ps p_default) i)).
        - assert (Cn : continuity_pt (fun t => spline_coord D ks ps t i) x)
            by (apply spline_continuous; [exact (ks_sorted D ks ps s Hnew)|lia|exact Hmult]).
          intros e' He'. destruct (Cn e' He') as (a & Ha & La). exists a. split; [exact Ha|].
          intros t [Ht Hd]. apply La. split; [|exact Hd]. split; [exact I|]. lra.
        - apply (limit_mul (basis (fun m => U m) D k) (fun _ => coord (nth k ps p_default) i)); [|apply lim_const].
          rewrite <- (basisL_last (fun m => U m)); [apply basis_from_left|apply monoU; lia|lra|reflexivity]. }
      assert (A : forall n, (n <= p_dim (P := P))%nat -> exists h, 0 < h /\ forall t, x - h < t < x -> forall i, (i < n)%nat ->
        Rabs (spline_coord D ks ps t i - basis (fun m => U m) D k t * coord (nth k ps p_default) i
              - (spline_coord D ks ps x i - span_weight (fun m => U m) D k x * coord (nth k ps p_default) i)) < e).
      { induction n as [|n IH]; intros Hn.
        - exists 1. split; [lra|]. intros; lia.
        - destruct (IH ltac:(lia)) as (h & Hh & L). destruct (Q n ltac:(lia) e He) as (g & Hg & M).
          exists (Rmin h g). split; [apply Rmin_pos; assumption|]. pose proof (Rmin_l h g). pose proof (Rmin_r h g).
          intros t Ht i Hi. destruct (Nat.eq_dec i n) as [->|Hne]; [apply M; lra|apply L; [lra|lia]]. }
      destruct (A _ (le_n _)) as (h & Hh & L). exists (Rmin h (x - (U k + eps))).
      split; [apply Rmin_pos; [exact Hh|lra]|]. intros t Ht. pose proof (Rmin_l h (x - (U k + eps))). pose proof (Rmin_r h (x - (U k + eps))).
      destruct (eval_in_span t k Hkind ltac:(lia) ltac:(lra)) as (p & Ep & V). exists p. split; [exact Ep|].
      intros i Hi. rewrite (V i Hi), <- (basis_last (fun m => U m)); [|apply monoU; lia|lra]. apply L; [lra|exact Hi].
    Qed.

    (** so the evaluation is continuous at the knot only if that control point is the origin *)
    Theorem knot_continuous_iff : (1 <= D)%nat -> x < U (k + 2) ->
      (forall i, (i < C + D)%nat -> U i < x -> eps <= x - U i) ->
      (forall e, 0 < e -> exists h, 0 < h /\ forall t, x - h < t < x ->
        exists p q, bspline_eval s t = Ret (Ok p) /\ bspline_eval s x = Ret (Ok q) /\
          forall i, (i < p_dim (P := P))%nat -> Rabs (coord p i - coord q i) < e) <->
      (forall i, (i < p_dim (P := P))%nat -> coord (nth k ps p_default) i = 0).
    Proof.
      intros HD1 Hnext Hsep. destruct (sizes D ks ps s Hnew) as [HD HK]. pose proof eps_pos as Hp.
      assert (W : 0 < span_weight (fun m => U m) D k x <= 1) by (apply (weight_range01 (fun m => U m)); [apply monoU; lia|lra|reflexivity]).
      assert (U D <= U k) by (apply (U_le D ks ps s Hnew); lia).
      assert (U (k + 2) <= U C) by (apply (U_le D ks ps s Hnew); lia).
      destruct (eval_at_knot D ks ps s Hnew (k + 1) HD1 ltac:(lia)) as (q & Eq & Vq).
      { apply good_clamped; [exact Hkind|lra]. }
      { now replace (k + 1 + 1)%nat with (k + 2)%nat by lia. }
      { exact Hsep. }
      split.
      - intros Hc i Hi. destruct (Req_dec (coord (nth k ps p_default) i) 0) as [Z|Z]; [exact Z|exfalso].
        set (w := span_weight (fun m => U m) D k x) in *. set (c := coord (nth k ps p_default) i) in *.
        assert (He : 0 < Rabs (w * c) / 2) by (assert (0 < Rabs (w * c)) by (apply Rabs_pos_lt, Rmult_integral_contrapositive_currified; lra); lra).
        destruct (Hc _ He) as (h & Hh & L). destruct (eval_left_limit _ He) as (g & Hg & M).
        assert (Hm : 0 < Rmin h g) by (apply Rmin_pos; assumption). pose proof (Rmin_l h g). pose proof (Rmin_r h g).
        destruct (L (x - Rmin h g / 2) ltac:(lra)) as (p & q' & Ep & Eq' & A).
        destruct (M (x - Rmin h g / 2) ltac:(lra)) as (p' & Ep' & B).
        assert (q' = q) by congruence. assert (p' = p) by congruence. subst q' p'.
        specialize (A i Hi). specialize (B i Hi). rewrite (Vq i Hi) in A. fold w c in B.
        set (S := spline_coord D ks ps x i) in *.
        assert (Rabs (w * c) <= Rabs (coord p i - S) + Rabs (coord p i - (S - w * c))).
        { rewrite (Rabs_minus_sym (coord p i) S).
          replace (w * c) with ((S - coord p i) + (coord p i - (S - w * c))) at 1 by ring. apply Rabs_triang. }
        lra.
      - intros Z e He. destruct (eval_left_limit e He) as (h & Hh & M). exists h. split; [exact Hh|]. intros t Ht.
        destruct (M t Ht) as (p & Ep & B). exists p, q. split; [exact Ep|]. split; [exact Eq|]. intros i Hi.
        specialize (B i Hi). rewrite (Z i Hi), Rmult_0_r, Rminus_0_r in B. now rewrite (Vq i Hi).
    Qed.
  End Knot.
End Spline.
