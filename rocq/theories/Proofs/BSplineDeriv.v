(** What evaluating the result of [derivative] returns (C47). *)
From Coq Require Import Reals List Arith Bool Lia Lra.
From Verif Require Import Base.Outcome Base.Scalar Model.Point Model.BSpline Inst.RealInst
  Spec.Sums Spec.Lawful Spec.Basis
  Proofs.OutcomeFacts Proofs.PointFacts Proofs.RealTac Proofs.BSplineGeneric Proofs.BSplineReal
  Proofs.BSplineEval Proofs.BSplinePanic Proofs.BasisCalc.
Import ListNotations.
Local Open Scope R_scope.

(** inside its first span a basis function is positive *)
Lemma basis_pos (U : nat -> R) t k p :
  (forall a b, (k <= a <= b)%nat -> (b <= k + p + 1)%nat -> U a <= U b) ->
  U k < t < U (k + 1)%nat -> 0 < basis U p k t.
Proof.
  induction p as [|p IH]; intros Hm Ht; cbn [basis].
  - destruct (Rle_dec (U k) t); [|lra]. destruct (Rlt_dec t (U (k + 1)%nat)); lra.
  - assert (H1 : U (k + 1)%nat <= U (k + S p)%nat) by (apply Hm; lia).
    rewrite (basis_left U t p (k + 1)).
    + rewrite quot_nz by lra. rewrite Rmult_0_r, Rplus_0_r. apply Rmult_lt_0_compat.
      * apply Rdiv_lt_0_compat; lra.
      * apply IH; [intros; apply Hm; lia|exact Ht].
    + intros a b Ha Hb. apply Hm; lia.
    + apply Ht.
Qed.

Section Deriv.
  Context {E : Eps} {P : Type} {PT : Point R P} {LP : LawfulPoint P}.
  Variables (D : nat) (ks : list R) (ps : list P) (s s' : bspline R P).
  Hypothesis Hnew : bspline_new D ks ps = Ret (Ok s).
  Hypothesis HD1 : (1 <= D)%nat.
  Hypothesis Hder : bspline_derivative s = Ret s'.
  Local Notation C := (length ps).
  Local Notation U i := (nth i ks 0).
  Local Notation Q := (bs_points s').

  Let F := fields D ks ps s Hnew.
  Let Hsz := sizes D ks ps s Hnew.
  Let Ule := U_le D ks ps s Hnew.

  Lemma deriv_fields : bs_degree s' = (D - 1)%nat /\ bs_knots s' = ks /\ bs_kind s' = bs_kind s /\
    length Q = (C - 1)%nat.
  Proof.
    destruct F as (F1 & F2 & F3).
    destruct (derivative_ok s (wf D ks ps s Hnew)) as (q & Eq & Hl & _); [rewrite F1; exact HD1|].
    rewrite Hder in Eq. injection Eq as ->. cbn [bs_degree bs_knots bs_kind bs_points]. rewrite F1, F2.
    rewrite F3 in Hl. auto.
  Qed.

  Lemma deriv_roomy : roomy s'.
  Proof. destruct Hsz, deriv_fields as (G1 & G2 & _ & G4). unfold roomy. rewrite G1, G2, G4. lia. Qed.
  Lemma deriv_srt : srt s'.
  Proof. unfold srt. destruct deriv_fields as (_ & -> & _). exact (ks_sorted D ks ps s Hnew). Qed.
  Lemma deriv_knot i : knot s' i = U i.
  Proof. unfold knot. destruct deriv_fields as (_ & -> & _). reflexivity. Qed.

  Lemma deriv_domain : knot_domain s' = Ret (match bs_kind s with
    | Clamped => (U (D - 1), U (C + 1))
    | ClampedStart => (U (D - 1), U (C + D))
    | ClampedEnd => (U 0, U (C + 1))
    | Unclamped => (U (D - 1), U (C - 1))
    end).
  Proof.
    destruct Hsz, deriv_fields as (G1 & G2 & G3 & G4).
    unfold knot_domain, knot_domain_clamped, knot_domain_clamped_start, knot_domain_clamped_end, knot_domain_unclamped.
    rewrite G1, G2, G3, G4.
    destruct (bs_kind s);
      repeat (first [rewrite usub_le by lia | rewrite (idx_lt ks _ 0) by lia]; cbn [bind]);
      try (replace (length ks - 1 - (D - 1))%nat with (C + 1)%nat by lia);
      try (replace (length ks - 1)%nat with (C + D)%nat by lia); reflexivity.
  Qed.

  Lemma deriv_scheme t : U (D - 1) <= t <= U (C - 1) -> bspline_eval s' t = de_boor_iterative s' t.
  Proof.
    intros Ht. destruct Hsz as [H1 H2]. unfold bspline_eval. rewrite deriv_domain. cbn [bind]. rs.
    pose proof (Ule 0 (D - 1) ltac:(lia)). pose proof (Ule (C - 1) (C + 1) ltac:(lia)).
    pose proof (Ule (C - 1) (C + D) ltac:(lia)).
    destruct (bs_kind s); cbn [fst snd]; rewrite !Rltb_false by lra; reflexivity.
  Qed.

  (** the right end of the evaluable range is the knot before the end of the domain *)
  Lemma deriv_last : bspline_eval s' (U (C - 1)) = Ret (Ok (nth (C - 2) Q p_default)).
  Proof.
    destruct Hsz as [H1 H2], deriv_fields as (G1 & G2 & G3 & G4).
    rewrite deriv_scheme. 2:{ pose proof (Ule (D - 1) (C - 1) ltac:(lia)). lra. }
    unfold de_boor_iterative. rewrite G2, G4. rewrite (idx_lt ks _ 0) by lia. cbn [bind]. rs.
    rewrite Reqb_true by reflexivity. rewrite usub_le by lia. cbn [bind].
    rewrite (idx_lt _ _ p_default) by lia. cbn [bind]. now replace (C - 1 - 1)%nat with (C - 2)%nat by lia.
  Qed.

  (** the searches of the three clamped kinds *)
  Lemma deriv_span t : bs_kind s <> Unclamped -> U (D - 1) <= t < U (C - 1) ->
    exists k, knot_span_start_for_t s' t = Ret (Some k) /\ (D - 1 <= k < C - 1)%nat /\ U k <= t < U (k + 1).
  Proof.
    intros Hu Ht. destruct Hsz as [H1 H2], deriv_fields as (G1 & G2 & G3 & G4).
    assert (Hin : forall k, (k + 1 < length ks)%nat -> U k <= t < U (k + 1) -> (D - 1 <= k < C - 1)%nat).
    { intros k Hk Hb. split.
      - destruct (le_lt_dec (D - 1) k) as [H|H]; auto. exfalso. pose proof (Ule (k + 1) (D - 1) ltac:(lia)). lra.
      - destruct (le_lt_dec (C - 1) k) as [H|H]; auto. exfalso. pose proof (Ule (C - 1) k ltac:(lia)). lra. }
    pose proof (Ule 0 (D - 1) ltac:(lia)). pose proof (Ule (C - 1) (C + D) ltac:(lia)).
    unfold knot_span_start_for_t, knot_span_start_for_t_clamped,
      knot_span_start_for_t_clamped_start, knot_span_start_for_t_clamped_end.
    rewrite G1, G2, G3, G4. destruct (bs_kind s); [congruence| | |].
    - repeat (first [rewrite usub_le by lia | rewrite (idx_lt ks _ 0) by lia]; cbn [bind]). rs.
      replace (length ks - 1)%nat with (C + D)%nat by lia.
      rewrite Reqb_false by lra. rewrite !Rltb_false by lra. cbn [orb].
      destruct (search_loop_complete (S (length ks)) ks t (D - 1) (C + D - 1)) as (k & Ek & Hk & Hb); [lia|lia|lia| |].
      + replace (C + D - 1 + 1)%nat with (C + D)%nat by lia. lra.
      + exists k. split; [exact Ek|]. split; [apply Hin; auto; lia|exact Hb].
    - repeat (first [rewrite usub_le by lia | rewrite (idx_lt ks _ 0) by lia]; cbn [bind]). rs.
      replace (C - 1 - 1 + 1)%nat with (C - 1)%nat by lia.
      rewrite Reqb_false by lra. rewrite !Rltb_false by lra. cbn [orb].
      destruct (search_loop_complete (S (length ks)) ks t 0 (C - 1 - 1)) as (k & Ek & Hk & Hb); [lia|lia|lia| |].
      + replace (C - 1 - 1 + 1)%nat with (C - 1)%nat by lia. lra.
      + exists k. split; [exact Ek|]. split; [apply Hin; auto; lia|exact Hb].
    - repeat (first [rewrite usub_le by lia | rewrite (idx_lt ks _ 0) by lia]; cbn [bind]). rs.
      replace (C - 1 - 1 + 1)%nat with (C - 1)%nat by lia.
      rewrite Reqb_false by lra.
      destruct (search_loop_complete (S (length ks)) ks t (D - 1) (C - 1 - 1)) as (k & Ek & Hk & Hb); [lia|lia|lia| |].
      + replace (C - 1 - 1 + 1)%nat with (C - 1)%nat by lia. lra.
      + exists k. split; [exact Ek|]. split; [apply Hin; auto; lia|exact Hb].
  Qed.

  Lemma deriv_entry t k : t <> U (C - 1) -> knot_span_start_for_t s' t = Ret (Some k) -> (D - 1 <= k <= C - 1)%nat ->
    de_boor_iterative s' t = Ret (Ok (entry s' t k (D - 1) (D - 1))).
  Proof.
    intros Hne Es Hk. destruct deriv_fields as (G1 & G2 & G3 & G4).
    destruct (de_boor_cases s' t (Some k) deriv_roomy Es) as [(Ee & _)|(_ & [Eo|(_ & _ & r & j & _ & _ & Hn)])].
    - intros k' [= <-]. rewrite G1, G4. lia.
    - rs_in Ee. rewrite deriv_knot, G4, Reqb_false in Ee by lra. discriminate.
    - rewrite G1 in Eo. exact Eo.
    - discriminate.
  Qed.

  Lemma deriv_entry_value t k : (D - 1 <= k <= C - 1)%nat -> U k <= t < U (k + 1) ->
    (forall i, (i <= k)%nat -> U i < t -> eps <= t - U i) ->
    forall i, (i < p_dim (P := P))%nat -> coord (entry s' t k (D - 1) (D - 1)) i
      = spline_coord (D - 1) ks Q t i - basis (fun m => U m) (D - 1) k t * coord (nth k Q p_default) i.
  Proof.
    intros Hk Hb Hsep. destruct Hsz as [H1 H2], deriv_fields as (G1 & G2 & G3 & G4).
    pose proof (entry_value s' t k deriv_roomy deriv_srt) as V. rewrite G1, G2, G4 in V. unfold cpoint in V.
    apply V; [lia| |lia|].
    - split; [lia|exact Hb].
    - intros j Hj. rewrite !deriv_knot. pose proof (Ule j k ltac:(lia)).
      destruct (Req_EM_T t (U j)) as [He|He]; [left; exact He|right]. apply Hsep; [lia|lra].
  Qed.

  Lemma deriv_value t : bs_kind s <> Unclamped -> U (D - 1) <= t < U (C - 1) ->
    (forall i, (i < C)%nat -> U i < t -> eps <= t - U i) ->
    exists k p, (D - 1 <= k < C - 1)%nat /\ U k <= t < U (k + 1) /\ bspline_eval s' t = Ret (Ok p) /\
      forall i, (i < p_dim (P := P))%nat ->
        coord p i = spline_coord (D - 1) ks Q t i - basis (fun m => U m) (D - 1) k t * coord (nth k Q p_default) i.
  Proof.
    intros Hu Ht Hsep. destruct (deriv_span t Hu Ht) as (k & Es & Hk & Hb).
    exists k, (entry s' t k (D - 1) (D - 1)). split; [exact Hk|]. split; [exact Hb|]. split.
    - rewrite deriv_scheme by lra. apply deriv_entry; [lra|exact Es|lia].
    - apply deriv_entry_value; [lia|exact Hb|]. intros i Hi. apply Hsep. lia.
  Qed.

  (** the last span [U (C-1), U C) *)
  Lemma deriv_last_span_error t : bs_kind s <> ClampedStart -> U (C - 1) < t ->
    bspline_eval s' t = Ret (Err KnotDomainViolation).
  Proof.
    intros Hu Ht. destruct Hsz as [H1 H2], deriv_fields as (G1 & G2 & G3 & G4).
    assert (N : bs_kind s = Clamped \/ bs_kind s = ClampedEnd -> knot_span_start_for_t s' t = Ret None).
    { intros Hk. unfold knot_span_start_for_t, knot_span_start_for_t_clamped, knot_span_start_for_t_clamped_end.
      pose proof (Ule 0 (C - 1) ltac:(lia)).
      rewrite G1, G2, G3, G4. destruct Hk as [-> | ->];
        repeat (first [rewrite usub_le by lia | rewrite (idx_lt ks _ 0) by lia]; cbn [bind]); rs;
        replace (C - 1 - 1 + 1)%nat with (C - 1)%nat by lia; rewrite Reqb_false by lra.
      - destruct (search_loop_ok (S (length ks)) ks t (D - 1) (C - 1 - 1)) as (r & Er & Hr); [lia| |lia|].
        { intros _. rs. apply Rltb_false. lra. }
        rewrite Er. destruct r as [k|]; [|reflexivity]. exfalso.
        destruct (Hr k eq_refl) as (Hk & _ & Hl). rs_in Hl. apply Rltb_lt in Hl.
        pose proof (Ule (k + 1) (C - 1) ltac:(lia)). lra.
      - rewrite (Rltb_true (U (C - 1))) by exact Ht. now rewrite orb_true_r. }
    unfold bspline_eval. rewrite deriv_domain. cbn [bind]. rs.
    assert (B : bs_kind s = Clamped \/ bs_kind s = ClampedEnd -> de_boor_iterative s' t = Ret (Err KnotDomainViolation)).
    { intros Hk. destruct (de_boor_cases s' t None deriv_roomy (N Hk)) as [(Ee & _)|(_ & Eo)].
      - discriminate.
      - rs_in Ee. rewrite deriv_knot, G4, Reqb_false in Ee by lra. discriminate.
      - exact Eo. }
    destruct (bs_kind s); cbn [fst snd]; [|congruence| |].
    - rewrite (Rltb_true (U (C - 1))) by exact Ht. now rewrite orb_true_r.
    - destruct (_ || _); [reflexivity|]. apply B. auto.
    - destruct (_ || _); [reflexivity|]. apply B. auto.
  Qed.
  (** the half clamped kind does answer there, and panics to the right of it *)
  Lemma deriv_start_span t : bs_kind s = ClampedStart -> U (C - 1) < t < U (C + D) ->
    exists k, knot_span_start_for_t s' t = Ret (Some k) /\ (C - 1 <= k < C + D)%nat /\ U k <= t < U (k + 1).
  Proof.
    intros Hk Ht. destruct Hsz as [H1 H2], deriv_fields as (G1 & G2 & G3 & G4).
    pose proof (Ule (D - 1) (C - 1) ltac:(lia)).
    unfold knot_span_start_for_t, knot_span_start_for_t_clamped_start. rewrite G1, G2, G3, G4, Hk.
    repeat (first [rewrite usub_le by lia | rewrite (idx_lt ks _ 0) by lia]; cbn [bind]). rs.
    replace (length ks - 1)%nat with (C + D)%nat by lia.
    rewrite Reqb_false by lra. rewrite !Rltb_false by lra. cbn [orb].
    destruct (search_loop_complete (S (length ks)) ks t (D - 1) (C + D - 1)) as (k & Ek & Hk' & Hb); [lia|lia|lia| |].
    + replace (C + D - 1 + 1)%nat with (C + D)%nat by lia. lra.
    + exists k. split; [exact Ek|]. split; [|exact Hb]. split; [|lia].
      destruct (le_lt_dec (C - 1) k) as [H'|H']; [exact H'|exfalso].
      pose proof (Ule (k + 1) (C - 1) ltac:(lia)). lra.
  Qed.
  Lemma deriv_start_scheme t : bs_kind s = ClampedStart -> U (C - 1) < t < U (C + D) ->
    bspline_eval s' t = de_boor_iterative s' t.
  Proof.
    intros Hk Ht. destruct Hsz. unfold bspline_eval. rewrite deriv_domain, Hk. cbn [bind fst snd]. rs.
    pose proof (Ule (D - 1) (C - 1) ltac:(lia)). rewrite !Rltb_false by lra. reflexivity.
  Qed.
  Lemma deriv_last_span_value t : bs_kind s = ClampedStart -> U (C - 1) < t < U C ->
    (forall i, (i < C)%nat -> U i < t -> eps <= t - U i) ->
    exists p, bspline_eval s' t = Ret (Ok p) /\
      forall i, (i < p_dim (P := P))%nat -> coord p i = spline_coord (D - 1) ks Q t i.
  Proof.
    intros Hk Ht Hsep. destruct Hsz as [H1 H2], deriv_fields as (G1 & G2 & G3 & G4).
    pose proof (Ule C (C + D) ltac:(lia)).
    destruct (deriv_start_span t Hk ltac:(lra)) as (k & Es & Hk' & Hb).
    assert (k = (C - 1)%nat).
    { destruct (Nat.eq_dec k (C - 1)) as [|Hne]; [assumption|exfalso].
      pose proof (Ule C k ltac:(lia)). lra. }
    subst k. exists (entry s' t (C - 1) (D - 1) (D - 1)). split.
    - rewrite deriv_start_scheme by (auto; lra). apply deriv_entry; [lra|exact Es|lia].
    - intros i Hi. rewrite deriv_entry_value; [|lia|exact Hb| |exact Hi].
      + rewrite (nth_overflow Q) by lia. rewrite lp_default by exact Hi. ring.
      + intros j Hj. apply Hsep. lia.
  Qed.
  Lemma deriv_start_panics t : bs_kind s = ClampedStart -> (2 <= D)%nat -> U (C - 1) < t -> U C <= t < U (C + D) ->
    bspline_eval s' t = Panic.
  Proof.
    intros Hk HD2 Hlt Ht. destruct Hsz as [H1 H2], deriv_fields as (G1 & G2 & G3 & G4).
    destruct (deriv_start_span t Hk ltac:(lra)) as (k & Es & Hk' & Hb).
    rewrite deriv_start_scheme by (auto; lra). unfold de_boor_iterative.
    rewrite G1, G2, G4. rewrite (idx_lt ks _ 0) by lia. cbn [bind]. rs. rewrite Reqb_false by lra.
    rewrite Es. cbn [bind]. rewrite load_panics; [reflexivity|exact deriv_roomy|lia|]. rewrite G1, G4. right.
    destruct (Nat.eq_dec k (C - 1)) as [->|]; [exfalso|lia].
    replace (C - 1 + 1)%nat with C in Hb by lia. lra.
  Qed.

  (** degree 1: every value left of the last span is the origin *)
  Lemma deriv_degree1 t : D = 1%nat -> bs_kind s <> Unclamped -> U (D - 1) <= t < U (C - 1) ->
    bspline_eval s' t = Ret (Ok p_default).
  Proof.
    intros HD Hu Ht. destruct (deriv_span t Hu Ht) as (k & Es & Hk & Hb).
    rewrite deriv_scheme by lra. rewrite (deriv_entry t k) by (auto; try lra; lia).
    destruct deriv_fields as (G1 & _). rewrite HD. cbn [Nat.sub entry]. rewrite G1, HD. reflexivity.
  Qed.

  (** a spline of constant velocity *)
  Lemma deriv_constant t v : bs_kind s <> Unclamped -> U (D - 1) <= t < U (C - 1) ->
    (forall i, (i < C)%nat -> U i < t -> eps <= t - U i) ->
    (forall q, In q Q -> q = v) ->
    exists k p, (D - 1 <= k < C - 1)%nat /\ U k <= t < U (k + 1) /\ bspline_eval s' t = Ret (Ok p) /\
      forall i, (i < p_dim (P := P))%nat -> coord p i = (1 - basis (fun m => U m) (D - 1) k t) * coord v i.
  Proof.
    intros Hu Ht Hsep Hv. destruct (deriv_value t Hu Ht Hsep) as (k & p & Hk & Hb & Ee & Hp).
    destruct Hsz as [H1 H2], deriv_fields as (G1 & G2 & G3 & G4).
    exists k, p. split; [exact Hk|]. split; [exact Hb|]. split; [exact Ee|]. intros i Hi. rewrite (Hp i Hi).
    rewrite (spline_constant (D - 1) ks Q t i (coord v i)).
    - rewrite (Hv (nth k Q p_default)) by (apply nth_In; lia). ring.
    - exact (ks_sorted D ks ps s Hnew).
    - rewrite G4. lia.
    - rewrite G4. exact Ht.
    - intros q Hq. now rewrite (Hv q Hq).
  Qed.
  Lemma deriv_constant_wrong t v p : bs_kind s <> Unclamped -> U (D - 1) <= t < U (C - 1) ->
    (forall i, (i < C)%nat -> U i < t -> eps <= t - U i) -> (forall i, (i < C)%nat -> U i <> t) ->
    (forall q, In q Q -> q = v) -> v <> p_default ->
    bspline_eval s' t = Ret (Ok p) -> p <> v.
  Proof.
    intros Hu Ht Hsep Hne Hv Hv0 Ee Heq.
    destruct (deriv_constant t v Hu Ht Hsep Hv) as (k & p' & Hk & Hb & Ee' & Hp).
    assert (p' = p) by congruence. subst p' p. destruct Hsz as [H1 H2].
    assert (B : 0 < basis (fun m => U m) (D - 1) k t).
    { apply basis_pos.
      - intros a b Ha Hb'. apply Ule. lia.
      - specialize (Hne k ltac:(lia)). lra. }
    apply Hv0. apply lp_ext. intros i Hi. rewrite lp_default by exact Hi. specialize (Hp i Hi).
    apply Rmult_eq_reg_l with (basis (fun m => U m) (D - 1) k t); lra.
  Qed.
End Deriv.
