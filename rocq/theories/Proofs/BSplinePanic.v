(** Which knot span each search returns, and exactly when [eval] panics. *)
From Coq Require Import Reals List Arith Bool Lia Lra.
From Verif Require Import Base.Outcome Base.Scalar Model.Point Model.BSpline Inst.RealInst
  Spec.Sums Spec.Lawful Spec.Metric Spec.Hull Spec.Basis Spec.Probes
  Proofs.OutcomeFacts Proofs.PointFacts Proofs.RealTac Proofs.Metric Proofs.BSplineGeneric Proofs.BSplineReal
  Proofs.BSplineEval.
Import ListNotations.
Local Open Scope R_scope.

(** a loop panics when its last iteration does, and no iteration gets stuck *)
Lemma for_in_last_panics {S} (Inv : S -> Prop) is i (s : S) body :
  Inv s ->
  (forall j s, Inv s -> body j s = Panic \/ exists s', body j s = Ret s' /\ Inv s') ->
  (forall s, Inv s -> body i s = Panic) ->
  for_in (is ++ [i]) s body = Panic.
Proof.
  intros H0 Hb Hi. revert s H0. induction is as [|j is IH]; intros s H0; cbn [app for_in].
  - rewrite Hi by assumption. reflexivity.
  - destruct (Hb j s H0) as [E|(s' & E & H')]; rewrite E; cbn [bind]; [reflexivity|]. now apply IH.
Qed.
Lemma for_in_first_panics {S} is i (s : S) body : body i s = Panic -> for_in (i :: is) s body = Panic.
Proof. intros E. cbn [for_in]. now rewrite E. Qed.

Section Load.
  Context {T P : Type} {ST : Scalar T} {PT : Point T P}.

  Lemma load_panics (s : bspline T P) k : roomy s -> (1 <= bs_degree s)%nat ->
    (k < bs_degree s \/ length (bs_points s) < k)%nat -> de_boor_load s k = Panic.
  Proof.
    intros [H1 H2] HD [Hk|Hk]; unfold de_boor_load.
    - rewrite range_cons by lia. apply for_in_first_panics. now rewrite usub_gt by lia.
    - destruct (bs_degree s) as [|d] eqn:Ed; [lia|]. rewrite range_S by lia.
      apply (for_in_last_panics (fun _ => True)); [exact I| |].
      + intros j l _. destruct (le_lt_dec (S d) (j + k)) as [H|H];
          [rewrite usub_le by lia|rewrite usub_gt by lia]; cbn [bind]; auto.
        destruct (idx_cases (bs_points s) (j + k - S d)) as [(_ & c & E)|(_ & E)]; rewrite E; cbn [bind]; auto.
        unfold set_idx. destruct (_ <? _); eauto.
      + intros l _. rewrite usub_le by lia. cbn [bind]. rewrite idx_ge by lia. reflexivity.
  Qed.
End Load.

Section Panic.
  Context {E : Eps} {P : Type} {PT : Point R P} {LP : LawfulPoint P}.
  Variables (D : nat) (ks : list R) (ps : list P) (s : bspline R P).
  Hypothesis Hnew : bspline_new D ks ps = Ret (Ok s).
  Local Notation C := (length ps).
  Local Notation U i := (nth i ks 0).
  Local Notation K := (C + D + 1)%nat.

  Let F := fields D ks ps s Hnew.
  Let Hsz := sizes D ks ps s Hnew.
  Let Hwf := wf D ks ps s Hnew.
  Let Ule := U_le D ks ps s Hnew.

  (** C49: the searches for half clamped knots *)
  Lemma span_clamped_start_spec t : bs_kind s = ClampedStart ->
    (t < U D \/ U (C + D) < t -> knot_span_start_for_t s t = Ret None) /\
    (U D <= t < U (C + D) -> exists k, knot_span_start_for_t s t = Ret (Some k) /\
       (D <= k < C + D)%nat /\ U k <= t < U (k + 1)) /\
    (t = U (C + D) -> knot_span_start_for_t s t = Ret (Some (C - 1)%nat)).
  Proof.
    intros Ek. destruct Hsz as [HD HK]. destruct F as (F1 & F2 & F3).
    pose proof (Ule D (C + D) ltac:(lia)).
    unfold knot_span_start_for_t. rewrite Ek. unfold knot_span_start_for_t_clamped_start. rewrite F1, F2, F3.
    repeat (first [rewrite usub_le by lia | rewrite (idx_lt ks _ 0) by lia]; cbn [bind]). rs.
    replace (length ks - 1)%nat with (C + D)%nat by lia.
    split; [|split].
    - intros Ht. rewrite Reqb_false by (intros ->; lra). destruct Ht as [Ht|Ht].
      + now rewrite Rltb_true by assumption.
      + rewrite (Rltb_true (U (C + D))) by assumption. now rewrite orb_true_r.
    - intros Ht. rewrite Reqb_false by lra. rewrite !Rltb_false by lra. cbn [orb].
      destruct (search_loop_complete (S (length ks)) ks t D (C + D - 1)) as (k & Es & Hk & Hb); [lia|lia|lia| |].
      + replace (C + D - 1 + 1)%nat with (C + D)%nat by lia. exact Ht.
      + exists k. split; [exact Es|]. split; [lia|exact Hb].
    - intros ->. rewrite Reqb_true by reflexivity. reflexivity.
  Qed.

  Lemma span_clamped_end_spec t : bs_kind s = ClampedEnd ->
    (t < U 0 \/ U C < t -> knot_span_start_for_t s t = Ret None) /\
    (U 0 <= t < U C -> exists k, knot_span_start_for_t s t = Ret (Some k) /\
       (k < C)%nat /\ U k <= t < U (k + 1)) /\
    (t = U C -> knot_span_start_for_t s t = Ret (Some (C - 1)%nat)).
  Proof.
    intros Ek. destruct Hsz as [HD HK]. destruct F as (F1 & F2 & F3).
    pose proof (Ule 0 C ltac:(lia)).
    unfold knot_span_start_for_t. rewrite Ek. unfold knot_span_start_for_t_clamped_end. rewrite F2, F3.
    repeat (first [rewrite usub_le by lia | rewrite (idx_lt ks _ 0) by lia]; cbn [bind]). rs.
    replace (C - 1 + 1)%nat with C by lia.
    split; [|split].
    - intros Ht. rewrite Reqb_false by (intros ->; lra). destruct Ht as [Ht|Ht].
      + now rewrite Rltb_true by assumption.
      + rewrite (Rltb_true (U C)) by assumption. now rewrite orb_true_r.
    - intros Ht. rewrite Reqb_false by lra. rewrite !Rltb_false by lra. cbn [orb].
      destruct (search_loop_complete (S (length ks)) ks t 0 (C - 1)) as (k & Es & Hk & Hb); [lia|lia|lia| |].
      + replace (C - 1 + 1)%nat with C by lia. exact Ht.
      + exists k. split; [exact Es|]. split; [lia|exact Hb].
    - intros ->. rewrite Reqb_true by reflexivity. reflexivity.
  Qed.

  (** the search for unclamped knots returns the first probe whose span ends right of [t] *)
  Lemma probe_loop fuel n first t : (1 <= D)%nat -> (K - first < fuel)%nat ->
    (first = 0%nat /\ n = 0%nat \/ exists m, n = S m /\ first = (probe K m + 1)%nat /\ (first < K)%nat /\ U first <= t) ->
    t < U C ->
    exists i, (n <= i)%nat /\ search_unclamped_loop fuel ks t first (K - first) = Ret (Some (probe K i)) /\
      (probe K i + 1 < K)%nat /\ t < U (probe K i + 1) /\
      (forall j, (n <= j < i)%nat -> U (probe K j + 1) <= t).
  Proof.
    intros HD1. destruct Hsz as [HD HK]. revert n first.
    induction fuel as [|f IH]; intros n first Hf Hn Ht; [lia|].
    assert (Hlt : (first < C)%nat).
    { destruct Hn as [[-> _]|(m & _ & _ & Hm & Hl)]; [lia|].
      destruct (le_lt_dec C first) as [Hle|]; [|assumption].
      exfalso. pose proof (Ule C first ltac:(lia)). lra. }
    assert (Hp : probe K n = (first + (K - first) / 2)%nat).
    { destruct Hn as [[-> ->]|(m & -> & -> & _)]; [|reflexivity]. cbn [probe]. now rewrite Nat.sub_0_r. }
    cbn [search_unclamped_loop]. destruct (Nat.ltb_spec 0 (K - first)) as [_|Hz]; [|lia].
    cbn zeta. rewrite <- Hp.
    assert (Hstep : ((K - first) / 2 + 1 < K - first)%nat).
    { assert ((K - first) / 2 < K - first - 1)%nat; [|lia]. apply Nat.div_lt_upper_bound; lia. }
    rewrite (idx_lt ks (probe K n + 1) 0) by lia. cbn [bind]. rs.
    destruct (Rltb_spec t (U (probe K n + 1))) as [H1|H1]; cbn [bind].
    { exists n. split; [lia|]. split; [reflexivity|]. split; [lia|]. split; [exact H1|]. intros j Hj. lia. }
    assert (Hin : (probe K n + 1 < C)%nat).
    { destruct (le_lt_dec C (probe K n + 1)) as [Hle|]; [|assumption].
      exfalso. pose proof (Ule C (probe K n + 1) ltac:(lia)). lra. }
    rewrite usub_le by lia. cbn [bind].
    destruct (Nat.eqb_spec (probe K n + 1) (length ks - 2)) as [He|_]; [lia|]. cbn [bind].
    rewrite (idx_lt ks (probe K n) 0) by lia. cbn [bind].
    pose proof (Ule (probe K n) (probe K n + 1) ltac:(lia)).
    rewrite Rleb_true by lra.
    replace (K - first - ((K - first) / 2 + 1))%nat with (K - (probe K n + 1))%nat by lia.
    destruct (IH (S n) (probe K n + 1)%nat) as (i & Hi & Es & Hi1 & Hb & Hj).
    - lia.
    - right. exists n. repeat split; auto; try lia. lra.
    - exact Ht.
    - exists i. split; [lia|]. split; [exact Es|]. split; [exact Hi1|]. split; [exact Hb|].
      intros j Hj'. destruct (Nat.eq_dec j n) as [->|]; [lra|apply Hj; lia].
  Qed.

  Lemma span_unclamped_spec t : bs_kind s = Unclamped -> t < U C ->
    exists i, knot_span_start_for_t s t = Ret (Some (probe K i)) /\
      (probe K i + 1 < K)%nat /\ t < U (probe K i + 1) /\ (forall j, (j < i)%nat -> U (probe K j + 1) <= t).
  Proof.
    intros Ek Ht. destruct Hsz as [HD HK]. destruct F as (F1 & F2 & F3).
    destruct (probe_loop (S K) 0 0 t) as (i & _ & Es & Hi & Hb & Hj); auto; try lia.
    - now apply (unclamped_degree D ks ps s Hnew).
    - unfold knot_span_start_for_t. rewrite Ek. unfold knot_span_start_for_t_unclamped. rewrite F2, HK.
      rewrite Nat.sub_0_r in Es. exists i. split; [exact Es|]. split; [exact Hi|]. split; [exact Hb|].
      intros j Hlt. apply Hj. lia.
  Qed.

  (** ** eval, given the span *)
  Lemma degree_pos : bs_kind s <> Clamped -> (1 <= D)%nat.
  Proof.
    intros Hu. destruct (Nat.eq_dec D 0) as [H0|]; [|lia]. exfalso.
    destruct (kind_spec D ks ps s Hnew) as [[_ H1] [_ H2]]. rewrite H0 in H1, H2. rewrite Nat.add_0_r in H2.
    pose proof eps_pos. destruct H1 as [H1|H1]; [lra|contradiction|]. destruct H2 as [H2|H2]; [lra|contradiction|congruence].
  Qed.

  Lemma de_boor_span t k : t <> U C -> knot_span_start_for_t s t = Ret (Some k) ->
    ((1 <= D)%nat -> (k < D \/ C < k)%nat -> de_boor_iterative s t = Panic) /\
    ((D <= k <= C)%nat -> exists p, de_boor_iterative s t = Ret (Ok p)).
  Proof.
    intros Hne Es. destruct Hsz as [HD HK]. destruct F as (F1 & F2 & F3). split.
    - intros HD1 Hk. unfold de_boor_iterative. rewrite F1, F2, F3. rewrite (idx_lt ks C 0) by lia. cbn [bind]. rs.
      rewrite Reqb_false by assumption. rewrite Es. cbn [bind].
      rewrite load_panics; [reflexivity|exact (wf_roomy _ Hwf)|lia|rewrite F1, F3; lia].
    - intros Hk. destruct (de_boor_cases s t (Some k) (wf_roomy s Hwf) Es) as [(Ee & _)|(_ & [Eo|(_ & _ & r & j & _ & _ & Hn)])].
      + intros k' [= <-]. rewrite F1, F3. lia.
      + rs_in Ee. rewrite (knot_U D ks ps s Hnew), F3, Reqb_false in Ee by lra. discriminate.
      + eauto.
      + discriminate.
  Qed.

  Lemma eval_de_boor t lo hi : knot_domain s = Ret (lo, hi) -> lo <= t <= hi ->
    bspline_eval s t = de_boor_iterative s t.
  Proof. intros Hd Ht. unfold bspline_eval. rewrite Hd. cbn [bind fst snd]. rs. rewrite !Rltb_false by lra. reflexivity. Qed.

  (** outside the reported domain eval returns an error *)
  Lemma eval_outside t lo hi : knot_domain s = Ret (lo, hi) -> ~ (lo <= t <= hi) ->
    bspline_eval s t = Ret (Err KnotDomainViolation).
  Proof. intros Hd Ht. now apply (eval_domain_iff D ks ps s Hnew t lo hi Hd). Qed.

  Lemma eval_at_last : bspline_eval s (U C) <> Panic.
  Proof. rewrite (eval_last D ks ps s Hnew). discriminate. Qed.

  (** C43: when does eval panic *)
  Lemma clamped_start_panic_iff t : bs_kind s = ClampedStart ->
    (bspline_eval s t = Panic <-> U (C + 1) <= t < U (C + D) /\ t <> U C) /\
    (U D <= t <= U C \/ U C <= t < U (C + 1) \/ t = U (C + D) -> exists p, bspline_eval s t = Ret (Ok p)).
  Proof.
    intros Ek. assert (HD1 : (1 <= D)%nat) by (apply degree_pos; congruence).
    destruct Hsz as [HD HK]. pose proof (domain_U D ks ps s Hnew) as Hd. rewrite Ek in Hd.
    pose proof (Ule D C ltac:(lia)). pose proof (Ule C (C + 1) ltac:(lia)). pose proof (Ule (C + 1) (C + D) ltac:(lia)).
    destruct (Req_EM_T t (U C)) as [He|Hne].
    { subst t. split.
      - split; [intros Hp; now apply eval_at_last in Hp|]. intros [_ Hx]. now contradiction Hx.
      - intros _. eexists. apply (eval_last D ks ps s Hnew). }
    destruct (span_clamped_start_spec t Ek) as (S1 & S2 & S3).
    destruct (Rlt_le_dec t (U D)) as [H2|H2].
    { rewrite (eval_outside t _ _ Hd) by lra. split; [split; [discriminate|intros; lra]|intros; lra]. }
    destruct (Rlt_le_dec (U (C + D)) t) as [H3|H3].
    { rewrite (eval_outside t _ _ Hd) by lra. split; [split; [discriminate|intros; lra]|intros; lra]. }
    rewrite (eval_de_boor t _ _ Hd) by lra.
    destruct (Req_EM_T t (U (C + D))) as [He|Hne2].
    { destruct (de_boor_span t _ Hne (S3 He)) as [_ Ho]. destruct (Ho ltac:(lia)) as (p & Ep).
      split; [|eauto]. rewrite Ep. split; [discriminate|intros; lra]. }
    destruct (S2 ltac:(lra)) as (k & Es & Hk & Hb). destruct (de_boor_span t k Hne Es) as [Hp Ho].
    destruct (le_lt_dec k C) as [Hc|Hc].
    - destruct (Ho ltac:(lia)) as (p & Ep). split; [|eauto]. rewrite Ep. split; [discriminate|].
      intros [Hx _]. pose proof (Ule (k + 1) (C + 1) ltac:(lia)). lra.
    - rewrite Hp by lia. pose proof (Ule (C + 1) k ltac:(lia)). split; [split; auto; intros; lra|intros; lra].
  Qed.

  Lemma clamped_end_panic_iff t : bs_kind s = ClampedEnd ->
    (bspline_eval s t = Panic <-> U 0 <= t < U D) /\
    (U D <= t <= U C -> exists p, bspline_eval s t = Ret (Ok p)).
  Proof.
    intros Ek. assert (HD1 : (1 <= D)%nat) by (apply degree_pos; congruence).
    destruct Hsz as [HD HK]. pose proof (domain_U D ks ps s Hnew) as Hd. rewrite Ek in Hd.
    split; [|apply (eval_ok D ks ps s Hnew); congruence].
    pose proof (Ule 0 D ltac:(lia)). pose proof (Ule D C ltac:(lia)).
    destruct (Rlt_le_dec t (U 0)) as [H2|H2].
    { rewrite (eval_outside t _ _ Hd) by lra. split; [discriminate|intros; lra]. }
    destruct (Rlt_le_dec t (U D)) as [H3|H3].
    - split; [intros; lra|intros _]. rewrite (eval_de_boor t _ _ Hd) by lra.
      destruct (span_clamped_end_spec t Ek) as (_ & S2 & _). destruct (S2 ltac:(lra)) as (k & Es & Hk & Hb).
      apply (de_boor_span t k ltac:(lra) Es); [exact HD1|]. left.
      destruct (le_lt_dec D k) as [Hle|]; [|assumption]. exfalso. pose proof (Ule D k ltac:(lia)). lra.
    - split; [|intros; lra]. destruct (Rlt_le_dec (U C) t) as [H4|H4].
      { rewrite (eval_outside t _ _ Hd) by lra. discriminate. }
      destruct (eval_ok D ks ps s Hnew t) as (p & ->); [congruence|lra|discriminate].
  Qed.


  Lemma probe_ge j : (D <= probe K j)%nat.
  Proof.
    induction j as [|j IH]; [exact (proj1 (mid_range D ks ps s Hnew))|]. cbn [probe]. lia.
  Qed.

  Lemma probe_mono i j : (i <= j)%nat -> (probe K i <= probe K j)%nat.
  Proof. induction 1 as [|j Hj IH]; [lia|]. cbn [probe]. lia. Qed.

  Lemma unclamped_panic_iff t : bs_kind s = Unclamped ->
    (bspline_eval s t = Panic <->
       U D <= t < U C /\ forall j, (probe K j <= C)%nat -> U (probe K j + 1) <= t) /\
    (bspline_eval s t <> Panic -> U D <= t <= U C -> exists p, bspline_eval s t = Ret (Ok p)).
  Proof.
    intros Ek. assert (HD1 : (1 <= D)%nat) by (apply degree_pos; congruence).
    destruct Hsz as [HD HK]. pose proof (domain_U D ks ps s Hnew) as Hd. rewrite Ek in Hd.
    destruct (Req_EM_T t (U C)) as [He|Hne].
    { subst t. split.
      - split; [intros Hp; now apply eval_at_last in Hp|]. intros [Hx _]. lra.
      - intros _ _. eexists. apply (eval_last D ks ps s Hnew). }
    destruct (Rlt_le_dec t (U D)) as [H2|H2].
    { rewrite (eval_outside t _ _ Hd) by lra. split; [split; [discriminate|intros; lra]|intros; lra]. }
    destruct (Rlt_le_dec (U C) t) as [H3|H3].
    { rewrite (eval_outside t _ _ Hd) by lra. split; [split; [discriminate|intros; lra]|intros; lra]. }
    rewrite (eval_de_boor t _ _ Hd) by lra.
    destruct (span_unclamped_spec t Ek ltac:(lra)) as (i & Es & Hi & Hb & Hj).
    destruct (de_boor_span t _ Hne Es) as [Hp Ho].
    destruct (le_lt_dec (probe K i) C) as [Hc|Hc].
    - destruct (Ho (conj (probe_ge i) Hc)) as (p & Ep). split; [|eauto]. rewrite Ep. split; [discriminate|].
      intros [_ Hx]. specialize (Hx i Hc). lra.
    - rewrite Hp by lia. split; [|intros Hx; contradiction Hx; reflexivity]. split; auto. intros _.
      split; [lra|]. intros j Hjc. destruct (le_lt_dec i j) as [Hle|Hlt]; [|now apply Hj].
      pose proof (probe_mono i j Hle). lia.
  Qed.
End Panic.
