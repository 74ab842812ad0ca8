(** Proofs for C111: the samples of [BSpline::arclen]. *)
From Coq Require Import Reals List Arith Bool Lia Lra.
From Verif Require Import Base.Outcome Base.Scalar Model.Point Model.BSpline Inst.RealInst
  Spec.Lawful Proofs.OutcomeFacts Proofs.PointFacts Proofs.RealTac
  Proofs.BSplineGeneric Proofs.BSplineReal Proofs.BSplineEval Proofs.BSplinePanic Proofs.SearchCost.
Import ListNotations.

Section Generic.
  Context {T P : Type} {ST : Scalar T} {PT : Point T P}.

  Lemma bind_not_stuck {A B} (x : outcome A) (f : A -> outcome B) : x <> Stuck -> (forall a, f a <> Stuck) -> bind x f <> Stuck.
  Proof. destruct x; cbn [bind]; auto; discriminate. Qed.
  Lemma for_in_not_stuck {S} is : forall (s : S) body, (forall i s, body i s <> Stuck) -> for_in is s body <> Stuck.
  Proof.
    induction is as [|i is IH]; intros s body H; cbn [for_in]; [discriminate|]. apply bind_not_stuck; auto.
  Qed.
  Lemma for_result_not_stuck {S X} is : forall (s : S) (body : nat -> S -> outcome (result S X)),
    (forall i s, body i s <> Stuck) -> for_result is s body <> Stuck.
  Proof.
    induction is as [|i is IH]; intros s body H; cbn [for_result]; [discriminate|]. apply bind_not_stuck; auto.
    intros [s'|e]; [apply IH; auto|discriminate].
  Qed.
  Lemma set_idx_not_stuck {A} (l : list A) i v : set_idx l i v <> Stuck.
  Proof. unfold set_idx. destruct (i <? length l); discriminate. Qed.

  Ltac ns := repeat (first [apply bind_not_stuck; [|intros ?] | apply idx_not_stuck | apply usub_not_stuck | apply set_idx_not_stuck
    | apply for_in_not_stuck; intros ? ? | apply for_result_not_stuck; intros ? ? | discriminate
    | match goal with |- (if ?b then _ else _) <> _ => destruct b end]).

  Lemma domain_terminates (s : bspline T P) : knot_domain s <> Stuck.
  Proof.
    unfold knot_domain, knot_domain_clamped, knot_domain_clamped_start, knot_domain_clamped_end, knot_domain_unclamped.
    destruct (bs_kind s); ns.
  Qed.
  Theorem eval_terminates (s : bspline T P) t : well_formed s -> bspline_eval s t <> Stuck.
  Proof.
    intros W. unfold bspline_eval. apply bind_not_stuck.
    - apply domain_terminates.
    - intros dom. destruct (_ || _); [discriminate|]. unfold de_boor_iterative. ns.
      + now apply span_terminates.
      + match goal with |- match ?o with Some _ => _ | None => _ end <> _ => destruct o end; [|discriminate].
        apply bind_not_stuck; [unfold de_boor_load; ns|intros d]. apply bind_not_stuck.
        * apply for_result_not_stuck. intros r d'. apply for_result_not_stuck. intros j d''.
          unfold de_boor_body, alpha_of. ns.
        * intros [d'|e]; ns.
  Qed.
  Lemma eval_or_default_terminates (s : bspline T P) t : well_formed s -> eval_or_default s t <> Stuck.
  Proof.
    intros W. unfold eval_or_default. apply bind_not_stuck; [now apply eval_terminates|]. intros [p|e]; discriminate.
  Qed.
  Lemma eval_or_default_panics (s : bspline T P) t : eval_or_default s t = Panic <-> bspline_eval s t = Panic.
  Proof.
    unfold eval_or_default. destruct (bspline_eval s t) as [[p|e]| |]; cbn [bind]; split; auto; discriminate.
  Qed.
  Theorem arclen_terminates (s : bspline T P) n : well_formed s -> bspline_arclen s n <> Stuck.
  Proof.
    intros W. unfold bspline_arclen. apply bind_not_stuck; [apply domain_terminates|intros dom]. apply for_in_not_stuck. intros i a.
    apply bind_not_stuck; [now apply eval_or_default_terminates|intros p1]. apply bind_not_stuck; [now apply eval_or_default_terminates|discriminate].
  Qed.

  Lemma for_in_panics {S} is : forall (s : S) body (bad : nat -> Prop),
    (forall i s, bad i -> body i s = Panic) -> (forall i s, body i s = Panic -> bad i) -> (forall i s, body i s <> Stuck) ->
    (for_in is s body = Panic <-> exists i, In i is /\ bad i).
  Proof.
    induction is as [|i is IH]; intros s body bad H1 H2 H3; cbn [for_in].
    - split; [discriminate|]. now intros (i & [] & _).
    - destruct (body i s) as [s'| |] eqn:E; cbn [bind].
      + rewrite (IH s' body bad H1 H2 H3). split.
        * intros (j & A & B). exists j. split; [now right|exact B].
        * intros (j & [<-|A] & B); [rewrite (H1 _ s B) in E; discriminate|]. eauto.
      + split; auto. intros _. exists i. split; [now left|]. exact (H2 _ _ E).
      + now apply H3 in E.
  Qed.

  Theorem arclen_panics_iff (s : bspline T P) n lo hi : well_formed s -> knot_domain s = Ret (lo, hi) ->
    let x i := s_add lo (s_mul (s_div (s_of_usize i) (s_of_usize n)) (s_sub hi lo)) in
    (bspline_arclen s n = Panic <-> exists i, (i <= n)%nat /\
      (bspline_eval s (x i) = Panic \/ bspline_eval s (s_add (x i) (s_div (s_lit 1) (s_of_usize n))) = Panic)).
  Proof.
    intros W Hd x. unfold bspline_arclen. rewrite Hd. cbn [bind fst snd].
    rewrite (for_in_panics _ _ _ (fun i => bspline_eval s (x i) = Panic \/
      bspline_eval s (s_add (x i) (s_div (s_lit 1) (s_of_usize n))) = Panic)).
    - split.
      + intros (i & A & B). exists i. split; [|exact B]. unfold range_incl in A. apply in_seq in A. lia.
      + intros (i & A & B). exists i. split; [|exact B]. unfold range_incl. apply in_seq. lia.
    - intros i a [H|H]; apply eval_or_default_panics in H; fold (x i); rewrite H; [reflexivity|].
      destruct (eval_or_default s (x i)) eqn:Z; cbn [bind]; auto. now apply eval_or_default_terminates in Z.
    - intros i a. fold (x i). destruct (eval_or_default s (x i)) eqn:Z; cbn [bind].
      + destruct (eval_or_default s (s_add (x i) _)) eqn:Z'; cbn [bind]; try discriminate.
        intros _. right. now apply eval_or_default_panics.
      + intros _. left. now apply eval_or_default_panics.
      + discriminate.
    - intros i a. apply bind_not_stuck; [now apply eval_or_default_terminates|intros p1].
      apply bind_not_stuck; [now apply eval_or_default_terminates|discriminate].
  Qed.
  Theorem clamped_arclen_total (s : bspline T P) n : well_formed s -> bs_kind s = Clamped -> exists l, bspline_arclen s n = Ret l.
  Proof.
    intros W Hk. destruct (knot_domain s) as [[lo hi]| |] eqn:Hd.
    - destruct (bspline_arclen s n) as [l| |] eqn:E.
      + now exists l.
      + apply (proj1 (arclen_panics_iff s n lo hi W Hd)) in E. destruct E as (i & _ & [H|H]);
          match type of H with bspline_eval s ?t = _ => destruct (clamped_eval_total s t W Hk) as [r Hr] end;
          rewrite Hr in H; discriminate.
      + now apply arclen_terminates in E.
    - destruct (clamped_eval_total s (s_lit 0) W Hk) as [r Hr]. unfold bspline_eval in Hr. rewrite Hd in Hr. discriminate.
    - now apply domain_terminates in Hd.
  Qed.
End Generic.

Local Open Scope R_scope.
Section Exact.
  Context {E : Eps} {P : Type} {PT : Point R P} {LP : LawfulPoint P}.
  Variables (D : nat) (ks : list R) (ps : list P) (s : bspline R P).
  Hypothesis Hnew : bspline_new D ks ps = Ret (Ok s).
  Local Notation C := (length ps).
  Local Notation U i := (nth i ks 0).

  Theorem arclen_clamped_end n : bs_kind s = ClampedEnd -> (0 < n)%nat -> bspline_arclen s n = Panic.
  Proof.
    intros Hk Hn. destruct (proj2 (domain_too_large D ks ps s Hnew) Hk) as [Hd Hg].
    apply (proj2 (arclen_panics_iff s n _ _ (wf D ks ps s Hnew) Hd)). exists 0%nat. split; [lia|]. left.
    apply (proj1 (clamped_end_panic_iff D ks ps s Hnew _ Hk)). rs. simpl (INR 0).
    assert (0 < INR n) by (apply lt_0_INR; lia). replace (U 0 + 0 / INR n * (U C - U 0)) with (U 0) by (field; lra).
    pose proof eps_pos. lra.
  Qed.
  Theorem arclen_clamped_start n : bs_kind s = ClampedStart -> (0 < n)%nat ->
    (U (C + D) - U D) / INR n < U (C + D) - U (C + 1) -> bspline_arclen s n = Panic.
  Proof.
    intros Hk Hn Hg. destruct (proj1 (domain_too_large D ks ps s Hnew) Hk) as [Hd He].
    apply (proj2 (arclen_panics_iff s n _ _ (wf D ks ps s Hnew) Hd)). exists (n - 1)%nat. split; [lia|]. left.
    apply (proj1 (clamped_start_panic_iff D ks ps s Hnew _ Hk)). rs.
    assert (Hi : 0 < INR n) by (apply lt_0_INR; lia). rewrite minus_INR by lia. cbn [INR].
    assert (V : U D + (INR n - 1) / INR n * (U (C + D) - U D) = U (C + D) - (U (C + D) - U D) / INR n) by (field; lra).
    rewrite V. clear V.
    pose proof (wf D ks ps s Hnew) as W. pose proof eps_pos.
    assert (S : forall i j, (i <= j)%nat -> (j < length ks)%nat -> U i <= U j) by (intros i j A B; apply (ks_sorted D ks ps s Hnew); lia).
    destruct (sizes D ks ps s Hnew) as [L1 L2].
    pose proof (S D C ltac:(lia) ltac:(lia)). 
    assert (HD1 : (1 <= D)%nat).
    { destruct D; [|lia]. exfalso. rewrite Nat.add_0_r in He. lra. }
    pose proof (S C (C + 1)%nat ltac:(lia) ltac:(lia)).
    assert (0 < (U (C + D) - U D) / INR n) by (apply Rdiv_lt_0_compat; lra). lra.
  Qed.
End Exact.
