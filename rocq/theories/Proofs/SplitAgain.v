(** Proofs for C110: cutting a curve twice. *)
From Coq Require Import Reals List ZArith Arith Lia Lra.
From Verif Require Import Base.Outcome Base.Scalar Model.Point Model.Line Model.Quadratic Model.Cubic
  Model.Bezier Inst.RealInst Spec.Sums Spec.Lawful Spec.Points Spec.Elevation Spec.Bernstein Proofs.PointFacts Proofs.RealTac
  Proofs.ExactEval Proofs.BezierReal Proofs.BezierGeneric Proofs.Elevation Spec.BoxOps Proofs.BoxOps.
Import ListNotations.
Local Open Scope R_scope.

Lemma params (n : nat) : exists ts : list R, NoDup ts /\ length ts = n.
Proof.
  exists (map INR (seq 0 n)). split; [|now rewrite map_length, seq_length].
  apply FinFun.Injective_map_NoDup; [|apply seq_NoDup]. intros x y. apply INR_eq.
Qed.

Section Again.
  Context {E : Eps} {P : Type} {PT : Point R P} {LP : LawfulPoint P}.

  Lemma bezier_same (ps qs : list P) : length ps = length qs ->
    (forall u, bezier_eval (Bezier ps) u = bezier_eval (Bezier qs) u) -> ps = qs.
  Proof.
    intros L H. destruct (params (length ps)) as (ts & A & B). apply (bezier_determined ps qs ts L A); [lia|]. auto.
  Qed.
  Lemma quad_same (c d : quad P) : (forall u, quad_eval c u = quad_eval d u) -> c = d.
  Proof. intros H. destruct (params 3) as (ts & A & B). apply (quad_determined c d ts A); [lia|]. auto. Qed.
  Lemma cubic_same (c d : cubic P) : (forall u, cubic_eval c u = cubic_eval d u) -> c = d.
  Proof. intros H. destruct (params 4) as (ts & A & B). apply (cubic_determined c d ts A); [lia|]. auto. Qed.

  Lemma split_parts (ps l r : list P) t : ps <> [] -> bezier_split (Bezier ps) t = Ret (Bezier l, Bezier r) ->
    length l = length ps /\ length r = length ps /\ l <> [] /\ r <> [] /\
    forall u, bezier_eval (Bezier l) u = bezier_eval (Bezier ps) (t * u) /\
              bezier_eval (Bezier r) u = bezier_eval (Bezier ps) (t + u * (1 - t)).
  Proof.
    intros N H. destruct (bezier_split_spec ps t N) as (l' & r' & H' & L & R & X). rewrite H in H'. injection H' as <- <-.
    assert (length ps <> 0%nat) by (destruct ps; [contradiction|discriminate]).
    repeat split; auto; try (intros ->; simpl in *; lia); apply X.
  Qed.
  Lemma split_is (ps l r : list P) t : ps <> [] -> length l = length ps -> length r = length ps ->
    (forall u, bezier_eval (Bezier l) u = bezier_eval (Bezier ps) (t * u)) ->
    (forall u, bezier_eval (Bezier r) u = bezier_eval (Bezier ps) (t + u * (1 - t))) ->
    bezier_split (Bezier ps) t = Ret (Bezier l, Bezier r).
  Proof.
    intros N L R X Y. destruct (bezier_split_spec ps t N) as (l' & r' & H' & L' & R' & Z). rewrite H'.
    do 3 f_equal; apply bezier_same; try lia; intros u; destruct (Z u) as [A B]; rewrite ?A, ?B; symmetry; auto.
  Qed.

  Theorem bezier_split_left (ps l r ll lr : list P) t s : ps <> [] ->
    bezier_split (Bezier ps) t = Ret (Bezier l, Bezier r) -> bezier_split (Bezier l) s = Ret (Bezier ll, Bezier lr) ->
    exists x, bezier_split (Bezier ps) (t * s) = Ret (Bezier ll, Bezier x) /\
      (t * s <> 1 -> bezier_split (Bezier x) ((t - t * s) / (1 - t * s)) = Ret (Bezier lr, Bezier r)).
  Proof.
    intros N H1 H2. destruct (split_parts _ _ _ _ N H1) as (L1 & L2 & N1 & N2 & X).
    destruct (split_parts _ _ _ _ N1 H2) as (L3 & L4 & N3 & N4 & Y).
    destruct (bezier_split_spec ps (t * s) N) as (l' & x & H3 & L5 & L6 & Z).
    assert (l' = ll) as ->.
    { apply bezier_same; [lia|]. intros u. destruct (Z u) as [-> _], (Y u) as [-> _]. rewrite (proj1 (X _)). f_equal. ring. }
    exists x. split; [exact H3|]. intros Hts.
    apply split_is; try lia; [intros ->; simpl in L6; destruct ps; [contradiction|discriminate]| |]; intros u.
    - destruct (Y u) as [_ ->]. rewrite (proj1 (X _)), (proj2 (Z _)). f_equal. field. lra.
    - destruct (X u) as [_ ->]. rewrite (proj2 (Z _)). f_equal. field. lra.
  Qed.
  Theorem bezier_split_right (ps l r rl rr : list P) t s : ps <> [] ->
    bezier_split (Bezier ps) t = Ret (Bezier l, Bezier r) -> bezier_split (Bezier r) s = Ret (Bezier rl, Bezier rr) ->
    exists x, bezier_split (Bezier ps) (t + s * (1 - t)) = Ret (Bezier x, Bezier rr) /\
      (t + s * (1 - t) <> 0 -> bezier_split (Bezier x) (t / (t + s * (1 - t))) = Ret (Bezier l, Bezier rl)).
  Proof.
    intros N H1 H2. destruct (split_parts _ _ _ _ N H1) as (L1 & L2 & N1 & N2 & X).
    destruct (split_parts _ _ _ _ N2 H2) as (L3 & L4 & N3 & N4 & Y).
    destruct (bezier_split_spec ps (t + s * (1 - t)) N) as (x & r' & H3 & L5 & L6 & Z).
    assert (r' = rr) as ->.
    { apply bezier_same; [lia|]. intros u. destruct (Z u) as [_ ->], (Y u) as [_ ->]. rewrite (proj2 (X _)). f_equal. ring. }
    exists x. split; [exact H3|]. intros Hts.
    apply split_is; try lia; [intros ->; simpl in L5; destruct ps; [contradiction|discriminate]| |]; intros u.
    - destruct (X u) as [-> _]. rewrite (proj1 (Z _)). f_equal. field. lra.
    - destruct (Y u) as [-> _]. rewrite (proj2 (X _)), (proj1 (Z _)). f_equal. field. lra.
  Qed.
  Theorem bezier_split_rev (ps l r : list P) t : ps <> [] -> bezier_split (Bezier ps) t = Ret (Bezier l, Bezier r) ->
    bezier_split (Bezier (rev ps)) (1 - t) = Ret (Bezier (rev r), Bezier (rev l)).
  Proof.
    intros N H. destruct (split_parts _ _ _ _ N H) as (L1 & L2 & N1 & N2 & X).
    assert (Nr : rev ps <> []) by (intros Z; apply (f_equal (@rev P)) in Z; rewrite rev_involutive in Z; contradiction).
    apply split_is; rewrite ?rev_length; auto; intros u; rewrite !bezier_reverse; destruct (X (1 - u)) as [A B].
    - rewrite B. f_equal. ring.
    - rewrite A. f_equal. ring.
  Qed.

  Theorem quad_split_left (c : quad P) t s :
    fst (quad_split c (t * s)) = fst (quad_split (fst (quad_split c t)) s) /\
    (t * s <> 1 -> quad_split (snd (quad_split c (t * s))) ((t - t * s) / (1 - t * s))
                   = (snd (quad_split (fst (quad_split c t)) s), snd (quad_split c t))).
  Proof.
    split; [|intros H; rewrite (surjective_pairing (quad_split (snd _) _)); f_equal]; apply quad_same; intros u;
      rewrite ?(proj1 (quad_split_spec _ _ _)), ?(proj2 (quad_split_spec _ _ _)), ?(proj1 (quad_split_spec _ _ _)), ?(proj2 (quad_split_spec _ _ _)); f_equal;
      try ring; field; lra.
  Qed.
  Theorem quad_split_right (c : quad P) t s :
    snd (quad_split c (t + s * (1 - t))) = snd (quad_split (snd (quad_split c t)) s) /\
    (t + s * (1 - t) <> 0 -> quad_split (fst (quad_split c (t + s * (1 - t)))) (t / (t + s * (1 - t)))
                   = (fst (quad_split c t), fst (quad_split (snd (quad_split c t)) s))).
  Proof.
    split; [|intros H; rewrite (surjective_pairing (quad_split (fst _) _)); f_equal]; apply quad_same; intros u;
      rewrite ?(proj1 (quad_split_spec _ _ _)), ?(proj2 (quad_split_spec _ _ _)), ?(proj1 (quad_split_spec _ _ _)), ?(proj2 (quad_split_spec _ _ _)); f_equal;
      try ring; field; lra.
  Qed.
  Theorem cubic_split_left (c : cubic P) t s :
    fst (cubic_split c (t * s)) = fst (cubic_split (fst (cubic_split c t)) s) /\
    (t * s <> 1 -> cubic_split (snd (cubic_split c (t * s))) ((t - t * s) / (1 - t * s))
                   = (snd (cubic_split (fst (cubic_split c t)) s), snd (cubic_split c t))).
  Proof.
    split; [|intros H; rewrite (surjective_pairing (cubic_split (snd _) _)); f_equal]; apply cubic_same; intros u;
      rewrite ?(proj1 (cubic_split_spec _ _ _)), ?(proj2 (cubic_split_spec _ _ _)), ?(proj1 (cubic_split_spec _ _ _)), ?(proj2 (cubic_split_spec _ _ _)); f_equal;
      try ring; field; lra.
  Qed.
  Theorem cubic_split_right (c : cubic P) t s :
    snd (cubic_split c (t + s * (1 - t))) = snd (cubic_split (snd (cubic_split c t)) s) /\
    (t + s * (1 - t) <> 0 -> cubic_split (fst (cubic_split c (t + s * (1 - t)))) (t / (t + s * (1 - t)))
                   = (fst (cubic_split c t), fst (cubic_split (snd (cubic_split c t)) s))).
  Proof.
    split; [|intros H; rewrite (surjective_pairing (cubic_split (fst _) _)); f_equal]; apply cubic_same; intros u;
      rewrite ?(proj1 (cubic_split_spec _ _ _)), ?(proj2 (cubic_split_spec _ _ _)), ?(proj1 (cubic_split_spec _ _ _)), ?(proj2 (cubic_split_spec _ _ _)); f_equal;
      try ring; field; lra.
  Qed.
  Theorem quad_split_rev (c : quad P) t :
    quad_split (quad_reverse c) (1 - t) = (quad_reverse (snd (quad_split c t)), quad_reverse (fst (quad_split c t))).
  Proof.
    rewrite (surjective_pairing (quad_split (quad_reverse _) _)). f_equal; apply quad_same; intros u;
      rewrite ?(proj1 (quad_split_spec _ _ _)), ?(proj2 (quad_split_spec _ _ _)), !quad_reverse_eval,
        ?(proj1 (quad_split_spec _ _ _)), ?(proj2 (quad_split_spec _ _ _)); f_equal; ring.
  Qed.
  Theorem cubic_split_rev (c : cubic P) t :
    cubic_split (cubic_reverse c) (1 - t) = (cubic_reverse (snd (cubic_split c t)), cubic_reverse (fst (cubic_split c t))).
  Proof.
    rewrite (surjective_pairing (cubic_split (cubic_reverse _) _)). f_equal; apply cubic_same; intros u;
      rewrite ?(proj1 (cubic_split_spec _ _ _)), ?(proj2 (cubic_split_spec _ _ _)), !cubic_reverse_eval,
        ?(proj1 (cubic_split_spec _ _ _)), ?(proj2 (cubic_split_spec _ _ _)); f_equal; ring.
  Qed.
End Again.
