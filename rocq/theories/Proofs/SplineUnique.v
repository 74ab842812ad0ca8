(** Which control points the values of a B-spline determine. *)
From Coq Require Import Reals List Arith Lia Lra Psatz.
From Verif Require Import Base.Outcome Base.Scalar Model.Point Model.BSpline Model.Repairs Inst.RealInst
  Spec.Sums Spec.Lawful Spec.Points Spec.Basis
  Proofs.OutcomeFacts Proofs.PointFacts Proofs.RealTac Proofs.BSplineGeneric Proofs.BSplineReal
  Proofs.BSplineEval Proofs.BSplineCE Proofs.RepairSpline Proofs.BasisIndependent.
Import ListNotations.
Local Open Scope R_scope.

Section Unique.
  Context {E : Eps} {P : Type} {PT : Point R P} {LP : LawfulPoint P}.
  Variables (D : nat) (ks : list R) (ps qs : list P) (s s' : bspline R P).
  Hypothesis Hp : bspline_new D ks ps = Ret (Ok s).
  Hypothesis Hq : bspline_new D ks qs = Ret (Ok s').
  Local Notation C := (length ps).
  Local Notation U i := (nth i ks 0).

  Lemma same_length : length qs = C.
  Proof. destruct (sizes D ks ps s Hp), (sizes D ks qs s' Hq). lia. Qed.
  Lemma same_kind : bs_kind s' = bs_kind s.
  Proof.
    destruct (kind_spec D ks ps s Hp) as [A B]. destruct (kind_spec D ks qs s' Hq) as [A' B'].
    rewrite same_length in B'. rewrite <- A in A'. rewrite <- B in B'. clear A B.
    destruct (bs_kind s), (bs_kind s'); auto; exfalso; destruct A', B'; clear Hp Hq;
    repeat match goal with H : (?a = ?a \/ _) -> _ |- _ => specialize (H (or_introl eq_refl))
    | H : (_ \/ ?a = ?a) -> _ |- _ => specialize (H (or_intror eq_refl)) end; intuition discriminate.
  Qed.

  (** the curve *)
  Lemma unique_curve j : (j < C)%nat ->
    (forall t i, U D <= t < U C -> (i < p_dim (P := P))%nat -> spline_coord D ks ps t i = spline_coord D ks qs t i) ->
    U (Nat.max j D) < U (Nat.min (j + D + 1) C) -> nth j ps p_default = nth j qs p_default.
  Proof.
    intros Hj He Hw. destruct (sizes D ks ps s Hp) as [H1 H2].
    apply (curve_determines D ks C (ks_sorted D ks ps s Hp) H2 ps qs j); auto. apply same_length.
  Qed.

  (** the repaired evaluation *)
  Lemma unique_fixed j : (j < C)%nat -> (forall t, U D <= t < U C -> fixed_eval s t = fixed_eval s' t) ->
    U (Nat.max j D) < U (Nat.min (j + D + 1) C) -> nth j ps p_default = nth j qs p_default.
  Proof.
    intros Hj He. apply unique_curve; [exact Hj|]. intros t i Ht Hi.
    destruct (new_fixed_value D ks ps s Hp t Ht) as (p & Ep & Vp).
    destruct (new_fixed_value D ks qs s' Hq t) as (q & Eq & Vq); [rewrite same_length; exact Ht|].
    rewrite (He t Ht), Eq in Ep. injection Ep as <-. now rewrite <- Vp, <- Vq.
  Qed.

  Section Code.
    Hypothesis Hkind : bs_kind s <> Unclamped.

    Lemma unique_span k j : (D <= k < C)%nat -> U k + eps < U (k + 1) ->
      (forall t, U k < t < U (k + 1) -> bspline_eval s t = bspline_eval s' t) ->
      (k - D <= j < k)%nat -> nth j ps p_default = nth j qs p_default.
    Proof.
      intros Hk Hw He Hj. destruct (sizes D ks ps s Hp) as [H1 H2]. pose proof (ks_sorted D ks ps s Hp) as Hs.
      pose proof eps_pos as He0. apply lp_ext. intros i Hi.
      set (z := fun (l : list P) m => if (m =? k)%nat then 0 else coord (nth m l p_default) i).
      assert (Hz : forall l m, m <> k -> z l m = coord (nth m l p_default) i).
      { intros l m Hm. unfold z. apply Nat.eqb_neq in Hm. now rewrite Hm. }
      rewrite <- !Hz by lia.
      apply (piece_determines D ks C Hs H2 (z ps) (z qs) k (U k + eps) (U (k + 1))); auto; try lra; try lia.
      intros t Ht.
      assert (V : forall (l : list P) sl, bspline_new D ks l = Ret (Ok sl) -> length l = C -> bs_kind sl <> Unclamped ->
        exists p, bspline_eval sl t = Ret (Ok p) /\
          coord p i = Rsum (fun j => basis (fun m => U m) D j t * z l j) C).
      { intros l sl Hl Ll Kl. pose proof (Hs D k ltac:(lia)). pose proof (Hs (k + 1)%nat C ltac:(lia)).
        destruct (eval_value D ks l sl Hl t) as (k' & p & Hk' & Hb & Ee & Hv).
        - apply (good_clamped D ks l sl t Kl). rewrite Ll. lra.
        - intros m Hm Hlt. rewrite Ll in Hm. destruct (le_lt_dec m k) as [Hle|Hgt].
          + pose proof (Hs m k ltac:(lia)). lra.
          + pose proof (Hs (k + 1)%nat m ltac:(lia)). lra.
        - rewrite Ll in Hk'.
          assert (k' = k) by (apply (span_unique ks k' k t Hs); split; lra || lia). subst k'.
          exists p. split; [exact Ee|]. rewrite (Hv i Hi). unfold spline_coord. rewrite Ll.
          rewrite !(span_terms D ks C Hs H2 _ k t) by (lia || lra). cbn [Rsum]. replace (k - D + D)%nat with k by lia.
          assert (Zk : z l k = 0) by (unfold z; now rewrite Nat.eqb_refl). rewrite Zk.
          rewrite (Rsum_ext _ (fun j => basis (fun m => U m) D (k - D + j) t * z l (k - D + j)%nat)).
          2:{ intros m Hm. rewrite Hz by lia. reflexivity. }
          lra. }
      destruct (V ps s Hp eq_refl Hkind) as (p & Ep & Vp).
      destruct (V qs s' Hq same_length ltac:(rewrite same_kind; exact Hkind)) as (q & Eq & Vq).
      rewrite (He t ltac:(lra)), Eq in Ep. injection Ep as <-. lra.
    Qed.

    Lemma unique_last : bspline_eval s (U C) = bspline_eval s' (U C) -> nth (C - 1) ps p_default = nth (C - 1) qs p_default.
    Proof.
      intros He. rewrite (eval_last D ks ps s Hp) in He. rewrite <- same_length in He at 2.
      rewrite (eval_last D ks qs s' Hq) in He. rewrite same_length in He. injection He as He. exact He.
    Qed.

    (** distinct knots of the domain more than EPSILON apart *)
    Lemma unique_eval j : (j < C)%nat -> (forall t, U D <= t <= U C -> bspline_eval s t = bspline_eval s' t) ->
      (forall k, (D <= k < C)%nat -> U k < U (k + 1) -> U k + eps < U (k + 1)) ->
      j = (C - 1)%nat \/ U (Nat.max (j + 1) D) < U (Nat.min (j + D + 1) C) ->
      nth j ps p_default = nth j qs p_default.
    Proof.
      intros Hj He Hsp Hw. destruct (sizes D ks ps s Hp) as [H1 H2]. pose proof (ks_sorted D ks ps s Hp) as Hs.
      destruct Hw as [->|Hw].
      - apply unique_last. apply He. pose proof (Hs D C ltac:(lia)). lra.
      - destruct (le_lt_dec (Nat.min (j + D + 1) C) (Nat.max (j + 1) D)) as [Hc|Hc].
        { pose proof (Hs (Nat.min (j + D + 1) C) (Nat.max (j + 1) D) ltac:(lia)). lra. }
        destruct (wide_span ks (Nat.max (j + 1) D) (Nat.min (j + D + 1) C)) as (k & Hk & Hb); [lia|exact Hw|].
        apply (unique_span k); [lia|apply Hsp; [lia|exact Hb]| |lia].
        intros t Ht. apply He. pose proof (Hs D k ltac:(lia)). pose proof (Hs (k + 1)%nat C ltac:(lia)). lra.
    Qed.

    (** the others do not matter *)
    Lemma ignored_eval j t : (j + 1 < C)%nat ->
      (forall m, (m < C)%nat -> m <> j -> nth m ps p_default = nth m qs p_default) ->
      U (Nat.min (j + D + 1) C) <= U (Nat.max (j + 1) D) -> U D <= t <= U C ->
      bspline_eval s t = bspline_eval s' t.
    Proof.
      intros Hj Hm Hw Ht. destruct (sizes D ks ps s Hp) as [H1 H2]. pose proof (ks_sorted D ks ps s Hp) as Hs.
      destruct (Req_dec t (U C)) as [->|Hne].
      - rewrite (eval_last D ks ps s Hp). rewrite <- same_length at 2. rewrite (eval_last D ks qs s' Hq).
        rewrite same_length. now rewrite Hm by lia.
      - destruct (eval_good D ks ps s Hp t (good_clamped D ks ps s t Hkind ltac:(lra))) as (k & Hk & Hb & Ee).
        destruct (eval_good D ks qs s' Hq t) as (k' & Hk' & Hb' & Ee').
        { apply (good_clamped D ks qs s' t); [rewrite same_kind; exact Hkind|rewrite same_length; lra]. }
        rewrite same_length in Hk'.
        assert (k' = k) by (apply (span_unique ks k' k t Hs); split; lra || lia). subst k'.
        rewrite Ee, Ee'. do 2 f_equal.
        destruct (fields D ks ps s Hp) as (F1 & F2 & F3). destruct (fields D ks qs s' Hq) as (G1 & G2 & G3).
        assert (Hout : ~ (k - D <= j < k)%nat).
        { intros Hin. pose proof (Hs (Nat.max (j + 1) D) k ltac:(lia)).
          pose proof (Hs (k + 1)%nat (Nat.min (j + D + 1) C) ltac:(lia)). lra. }
        assert (G : forall r m, (m <= D)%nat -> entry s t k r m = entry s' t k r m).
        { induction r as [|r IH]; intros m Hmm; cbn [entry].
          - rewrite F1, G1. destruct (Nat.ltb_spec m D); [|reflexivity]. unfold cpoint. rewrite F3, G3.
            apply Hm; lia.
          - rewrite !IH by lia. unfold weight, knot. rewrite F1, G1, F2, G2. reflexivity. }
        apply G. lia.
    Qed.

    (** knots increasing by more than EPSILON: everything is determined *)
    Lemma unique_simple : (1 <= D)%nat -> (forall k, (D <= k < C)%nat -> U k + eps < U (k + 1)) ->
      (forall t, U D <= t <= U C -> bspline_eval s t = bspline_eval s' t) -> ps = qs.
    Proof.
      intros HD Hsp He. destruct (sizes D ks ps s Hp) as [H1 H2]. pose proof (ks_sorted D ks ps s Hp) as Hs.
      pose proof eps_pos.
      apply (nth_ext _ _ p_default p_default); [symmetry; apply same_length|]. intros j Hj.
      apply unique_eval; auto. destruct (Nat.eq_dec j (C - 1)) as [|Hne]; [left; assumption|right].
      set (a := Nat.max (j + 1) D). pose proof (Hsp a ltac:(lia)).
      pose proof (Hs (a + 1)%nat (Nat.min (j + D + 1) C) ltac:(lia)). lra.
    Qed.
  End Code.
End Unique.

Section Lost.
  Local Existing Instance Eps64.
  (** the point 1 of [0, 1) is lost when the degree is 0 *)
  Lemma lost_degree0 : exists s s' : bspline R P1,
    bspline_new 0 [0;1;2] [pt1 1; pt1 5] = Ret (Ok s) /\ bspline_new 0 [0;1;2] [pt1 3; pt1 5] = Ret (Ok s') /\
    forall t, 0 <= t <= 2 -> bspline_eval s t = bspline_eval s' t.
  Proof.
    assert (N : forall a b : P1, exists s, bspline_new 0 [0;1;2] [a; b] = Ret (Ok s)).
    { intros a b. apply new_ok_iff. simpl. repeat split; lia || lra || idtac.
      intros i Hi. do 2 (destruct i as [|i]; [rs; apply Rltb_false; simpl; lra|]). simpl in Hi. lia. }
    destruct (N (pt1 1) (pt1 5)) as (s & Hp), (N (pt1 3) (pt1 5)) as (s' & Hq).
    exists s, s'. split; [exact Hp|]. split; [exact Hq|]. intros t Ht.
    apply (ignored_eval 0 _ _ _ s s' Hp Hq) with (j := 0%nat); try (simpl; lia || lra).
    - intros Hk. destruct (kind_spec _ _ _ _ Hp) as [[_ A] _]. rewrite Hk in A. simpl in A.
      pose proof eps_pos. destruct (A ltac:(lra)); discriminate.
    - intros [|[|m]] Hm Hne; simpl in *; try lia. reflexivity.
  Qed.
End Lost.
