(** C92-C93: the derivative against split, reversal, affine maps, repeated
    differentiation, Taylor expansion, arc length. *)
From Coq Require Import Reals List Arith Lia Lra Psatz.
From Coquelicot Require Import Coquelicot.
From Verif Require Import Base.Outcome Base.Scalar Model.Point Model.Line Model.Quadratic Model.Cubic
  Model.Bezier Inst.RealInst
  Spec.Sums Spec.Lawful Spec.Bernstein Spec.Metric Spec.Length Spec.Maps Spec.Derivatives
  Proofs.OutcomeFacts Proofs.PointFacts Proofs.RealTac Proofs.Metric Proofs.ExactEval
  Proofs.BezierGeneric Proofs.BezierReal Proofs.Calculus Proofs.CurveCalc Proofs.Elevation Proofs.BasisCalc
  Proofs.Equivariance.
Import ListNotations.
Local Open Scope R_scope.

Section DerivLaws.
  Context {E : Eps} {P : Type} {PT : Point R P} {LP : LawfulPoint P}.
  Implicit Types ps qs : list P.
  Local Notation dim := (p_dim (P := P)).

  Lemma eval_coord ps t x i : bezier_eval (Bezier ps) t = Ret x -> (i < dim)%nat -> coord x i = curve_coord ps t i.
  Proof.
    intros Hx Hi. assert (Hne : ps <> []) by (intros ->; discriminate).
    destruct (bezier_eval_spec ps t Hne) as (y & Hy & Hc). rewrite Hx in Hy. injection Hy as <-. now apply Hc.
  Qed.

  Lemma eval_eq_coord ps qs t u : ps <> [] -> qs <> [] ->
    (forall i, (i < dim)%nat -> curve_coord ps t i = curve_coord qs u i) ->
    bezier_eval (Bezier ps) t = bezier_eval (Bezier qs) u.
  Proof.
    intros Hp Hq H. destruct (bezier_eval_spec ps t Hp) as (x & Hx & Hcx).
    destruct (bezier_eval_spec qs u Hq) as (y & Hy & Hcy). rewrite Hx, Hy. f_equal. apply lp_ext.
    intros i Hi. rewrite Hcx, Hcy by exact Hi. now apply H.
  Qed.

  Lemma coord_eq_eval ps qs t u i : ps <> [] -> bezier_eval (Bezier ps) t = bezier_eval (Bezier qs) u ->
    (i < dim)%nat -> curve_coord ps t i = curve_coord qs u i.
  Proof.
    intros Hp H Hi. destruct (bezier_eval_spec ps t Hp) as (x & Hx & Hcx). rewrite <- Hcx by exact Hi.
    apply eval_coord; [|exact Hi]. now rewrite <- H.
  Qed.

  (** the derivative in terms of coordinates *)
  Lemma derivative_coord ps : (2 <= length ps)%nat -> exists ds, bezier_derivative (Bezier ps) = Ret (Bezier ds) /\
    length ds = (length ps - 1)%nat /\
    forall t i, (i < dim)%nat -> derivable_pt_lim (fun t => curve_coord ps t i) t (curve_coord ds t i).
  Proof.
    intros Hn. destruct (bezier_derivative_spec ps Hn) as (ds & Hd & Hl & H). exists ds. split; [exact Hd|].
    split; [exact Hl|]. intros t i Hi. destruct (H t) as (x & Hx & Hder).
    rewrite <- (eval_coord ds t x i Hx Hi). now apply Hder.
  Qed.

  Theorem derivative_unique ps qs : (2 <= length ps)%nat -> length qs = (length ps - 1)%nat ->
    (forall t x i, bezier_eval (Bezier qs) t = Ret x -> (i < dim)%nat ->
      derivable_pt_lim (fun t => curve_coord ps t i) t (coord x i)) ->
    bezier_derivative (Bezier ps) = Ret (Bezier qs).
  Proof.
    intros Hn Hl H. destruct (derivative_coord ps Hn) as (ds & Hd & Hld & Hder). rewrite Hd. f_equal. f_equal.
    assert (Hds : ds <> []) by (intros ->; simpl in *; lia).
    assert (Hqs : qs <> []) by (intros ->; simpl in *; lia).
    apply (bezier_determined ds qs (map INR (seq 0 (length ds)))).
    - lia.
    - apply INR_distinct.
    - rewrite map_length, seq_length. lia.
    - intros t _. apply eval_eq_coord; auto. intros i Hi.
      destruct (bezier_eval_spec qs t Hqs) as (x & Hx & Hc). rewrite <- Hc by exact Hi.
      eapply uniqueness_limite; [now apply Hder|]. now apply H.
  Qed.

  Lemma derivative_unique' ps qs : (2 <= length ps)%nat -> length qs = (length ps - 1)%nat ->
    (forall t i, (i < dim)%nat -> derivable_pt_lim (fun t => curve_coord ps t i) t (curve_coord qs t i)) ->
    bezier_derivative (Bezier ps) = Ret (Bezier qs).
  Proof.
    intros Hn Hl H. apply derivative_unique; auto. intros t x i Hx Hi.
    rewrite (eval_coord qs t x i Hx Hi). now apply H.
  Qed.

  Lemma scale_affine c : affine_map (fun p : P => p_mul p c).
  Proof.
    exists (fun j k => if Nat.eqb k j then c else 0), (fun _ => 0). intros p j Hj.
    rewrite lp_mul by exact Hj. rewrite Rplus_0_r.
    rewrite (Rsum_ext _ (fun k => if Nat.eqb k j then c * coord p j else 0)).
    - assert (G : forall n v, (j < n)%nat -> Rsum (fun k => if Nat.eqb k j then v else 0) n = v).
      { intros n v. induction n as [|n IH]; intros Hlt; [lia|]. simpl.
        destruct (Nat.eqb_spec n j) as [->|].
        - replace (Rsum (fun k => if Nat.eqb k j then v else 0) j) with 0; [ring|].
          clear. symmetry. assert (forall m, (m <= j)%nat -> Rsum (fun k => if Nat.eqb k j then v else 0) m = 0) as G.
          { induction m; intros; simpl; [reflexivity|]. rewrite IHm by lia.
            destruct (Nat.eqb_spec m j); [lia|ring]. }
          now apply G.
        - rewrite IH by lia. ring. }
      rewrite G by exact Hj. rs. ring.
    - intros k Hk. destruct (Nat.eqb_spec k j) as [->|]; ring.
  Qed.

  Lemma scale_coord ps c t i : ps <> [] -> (i < dim)%nat ->
    curve_coord (map (fun p => p_mul p c) ps) t i = c * curve_coord ps t i.
  Proof.
    intros Hne Hi. destruct (bezier_eval_spec ps t Hne) as (x & Hx & Hc).
    pose proof (bezier_eval_aff (fun p : P => p_mul p c) (scale_affine c) ps t) as H. rewrite Hx in H. cbn [omap] in H.
    rewrite <- (eval_coord _ _ _ i H Hi). rewrite lp_mul by exact Hi. rewrite Hc by exact Hi. rs. ring.
  Qed.

  (** chain rule for t -> a + b t *)
  Lemma chain (f : R -> R) a b u l : derivable_pt_lim f (a + b * u) l ->
    derivable_pt_lim (fun u => f (a + b * u)) u (b * l).
  Proof.
    intros H. rewrite (Rmult_comm b l).
    apply (derivable_pt_lim_comp (fun u => a + b * u) f); [|exact H].
    apply is_derive_Reals. auto_derive; [exact I|ring].
  Qed.

  Lemma reparam ps ds l dl a b : (2 <= length ps)%nat -> length l = length ps -> length dl = (length ps - 1)%nat ->
    (forall t i, (i < dim)%nat -> derivable_pt_lim (fun t => curve_coord ps t i) t (curve_coord ds t i)) ->
    (forall u i, (i < dim)%nat -> curve_coord l u i = curve_coord ps (a + b * u) i) ->
    (forall u i, (i < dim)%nat -> curve_coord dl u i = curve_coord ds (a + b * u) i) ->
    bezier_derivative (Bezier l) = Ret (Bezier (map (fun p => p_mul p b) dl)).
  Proof.
    intros Hn Hl Hdl Hd H1 H2. apply derivative_unique'; [lia|rewrite map_length; lia|].
    intros u i Hi. rewrite scale_coord by (auto; intros ->; simpl in *; lia). rewrite H2 by exact Hi.
    apply (derivable_pt_lim_ext (fun u => curve_coord ps (a + b * u) i)); [intros s; symmetry; now apply H1|].
    apply (chain (fun t => curve_coord ps t i)). now apply Hd.
  Qed.

  Theorem derivative_split ps t : (2 <= length ps)%nat -> exists l r ds dl dr,
    bezier_split (Bezier ps) t = Ret (Bezier l, Bezier r) /\
    bezier_derivative (Bezier ps) = Ret (Bezier ds) /\
    bezier_split (Bezier ds) t = Ret (Bezier dl, Bezier dr) /\
    bezier_derivative (Bezier l) = Ret (Bezier (map (fun p => p_mul p t) dl)) /\
    bezier_derivative (Bezier r) = Ret (Bezier (map (fun p => p_mul p (1 - t)) dr)).
  Proof.
    intros Hn. assert (Hne : ps <> []) by (intros ->; simpl in Hn; lia).
    destruct (derivative_coord ps Hn) as (ds & Hd & Hld & Hder).
    assert (Hds : ds <> []) by (intros ->; simpl in *; lia).
    destruct (bezier_split_spec ps t Hne) as (l & r & Hs & Hl & Hr & He).
    destruct (bezier_split_spec ds t Hds) as (dl & dr & Hs' & Hl' & Hr' & He').
    exists l, r, ds, dl, dr. repeat (split; [assumption|]).
    assert (Hl1 : l <> []) by (intros ->; simpl in *; lia). assert (Hr1 : r <> []) by (intros ->; simpl in *; lia).
    assert (Hl2 : dl <> []) by (intros ->; simpl in *; lia). assert (Hr2 : dr <> []) by (intros ->; simpl in *; lia).
    split.
    - apply (reparam ps ds l dl 0 t); auto; try lia; intros u i Hi; apply coord_eq_eval; auto.
      + rewrite (proj1 (He u)). f_equal. ring.
      + rewrite (proj1 (He' u)). f_equal. ring.
    - apply (reparam ps ds r dr t (1 - t)); auto; try lia; intros u i Hi; apply coord_eq_eval; auto.
      + rewrite (proj2 (He u)). f_equal. ring.
      + rewrite (proj2 (He' u)). f_equal. ring.
  Qed.

  Theorem derivative_reverse ps : (2 <= length ps)%nat -> exists ds,
    bezier_derivative (Bezier ps) = Ret (Bezier ds) /\
    bezier_derivative (Bezier (rev ps)) = Ret (Bezier (map (fun p => p_mul p (-1)) (rev ds))).
  Proof.
    intros Hn. assert (Hne : ps <> []) by (intros ->; simpl in Hn; lia).
    destruct (derivative_coord ps Hn) as (ds & Hd & Hld & Hder).
    assert (Hds : ds <> []) by (intros ->; simpl in *; lia).
    exists ds. split; [exact Hd|].
    assert (R1 : forall qs, qs <> [] -> rev qs <> []).
    { intros qs Hq Hr. apply Hq. rewrite <- (rev_involutive qs), Hr. reflexivity. }
    apply (reparam ps ds (rev ps) (rev ds) 1 (-1)); rewrite ?rev_length; auto;
      intros u i Hi; apply coord_eq_eval; auto; rewrite bezier_reverse; f_equal; ring.
  Qed.

  (** repeated *)
  Theorem derivative_kth k : forall ps, (k < length ps)%nat -> exists ds,
    derivative_times k (Bezier ps) = Ret (Bezier ds) /\ length ds = (length ps - k)%nat /\
    forall i, (i < dim)%nat -> nth_derivative k (fun t => curve_coord ps t i) (fun t => curve_coord ds t i).
  Proof.
    induction k as [|k IH]; intros ps Hk.
    - exists ps. split; [reflexivity|]. split; [lia|]. intros. now constructor.
    - destruct (derivative_coord ps) as (d1 & Hd & Hl & Hder); [lia|].
      destruct (IH d1) as (ds & Hds & Hlen & H); [lia|].
      exists ds. cbn [derivative_times]. rewrite Hd. cbn [bind]. split; [exact Hds|]. split; [lia|].
      intros i Hi. apply nth_succ with (f' := fun t => curve_coord d1 t i); auto.
  Qed.

  Theorem derivative_kth_eval k ps : (k < length ps)%nat -> exists ds (f : R -> P),
    derivative_times k (Bezier ps) = Ret (Bezier ds) /\ length ds = (length ps - k)%nat /\
    (forall t, bezier_eval (Bezier ds) t = Ret (f t)) /\
    forall i, (i < dim)%nat -> nth_derivative k (fun t => curve_coord ps t i) (fun t => coord (f t) i).
  Proof.
    intros Hk. destruct (derivative_kth k ps Hk) as (ds & Hd & Hl & H).
    assert (Hne : ds <> []) by (intros ->; simpl in *; lia).
    exists ds, (fun t => match bezier_eval (Bezier ds) t with Ret x => x | _ => p_default end).
    split; [exact Hd|]. split; [exact Hl|].
    assert (G : forall t, exists x, bezier_eval (Bezier ds) t = Ret x /\ forall i, (i < dim)%nat -> coord x i = curve_coord ds t i).
    { intros t. now apply bezier_eval_spec. }
    split.
    - intros t. destruct (G t) as (x & -> & _). reflexivity.
    - intros i Hi. specialize (H i Hi).
      assert (X : forall k f g g', (forall t, g t = g' t) -> nth_derivative k f g -> nth_derivative k f g').
      { clear. intros k f g g' Hg Hn. induction Hn.
        - constructor. intros. now rewrite <- Hg.
        - econstructor; eauto. }
      eapply X; [|exact H]. intros t. cbn beta. destruct (G t) as (x & -> & Hx). symmetry. now apply Hx.
  Qed.

  Theorem derivative_too_often ps : ps <> [] -> derivative_times (length ps) (Bezier ps) = Panic.
  Proof.
    assert (G : forall n ps, length ps = S n -> derivative_times (S n) (Bezier ps) = Panic).
    { induction n as [|n IH]; intros qs Hq.
      - destruct qs as [|p [|]]; try discriminate. reflexivity.
      - destruct (derivative_coord qs) as (d1 & Hd & Hl & _); [lia|].
        change (derivative_times (S (S n)) (Bezier qs)) with (bind (bezier_derivative (Bezier qs)) (derivative_times (S n))).
        rewrite Hd. cbn [bind]. apply IH. lia. }
    intros Hne. destruct ps as [|p ps]; [contradiction|]. apply G. reflexivity.
  Qed.

  (** Taylor *)
  Definition kth_value ps t k : P :=
    match derivative_times k (Bezier ps) with
    | Ret c => match bezier_eval c t with Ret x => x | _ => p_default end
    | _ => p_default
    end.

  Lemma kth_value_coord ps t k ds i : derivative_times k (Bezier ps) = Ret (Bezier ds) -> ds <> [] -> (i < dim)%nat ->
    coord (kth_value ps t k) i = curve_coord ds t i.
  Proof.
    intros H Hne Hi. unfold kth_value. rewrite H. destruct (bezier_eval_spec ds t Hne) as (x & -> & Hc). now apply Hc.
  Qed.

  Lemma Rsum_S_front f n : Rsum f (S n) = f 0%nat + Rsum (fun k => f (S k)) n.
  Proof.
    induction n as [|n IH]; [simpl; ring|].
    change (Rsum f (S (S n))) with (Rsum f (S n) + f (S n)). rewrite IH.
    change (Rsum (fun k => f (S k)) (S n)) with (Rsum (fun k => f (S k)) n + f (S n)). ring.
  Qed.

  Lemma zero_derivative (f : R -> R) a b : (forall t, derivable_pt_lim f t 0) -> f a = f b.
  Proof.
    intros H. assert (D : derivable f) by (intros t; exists 0; apply H).
    apply (null_derivative_1 f D). intros t. destruct (D t) as [l Hl]. cbn.
    eapply uniqueness_limite; [exact Hl|apply H].
  Qed.

  Lemma taylor_coord n : forall ps t h i, length ps = n -> (0 < n)%nat -> (i < dim)%nat ->
    curve_coord ps (t + h) i = Rsum (fun k => h ^ k / INR (fact k) * coord (kth_value ps t k) i) n.
  Proof.
    induction n as [|n IH]; intros ps t h i Hn Hpos Hi; [lia|].
    assert (Hne : ps <> []) by (intros ->; discriminate).
    rewrite Rsum_S_front. rewrite (kth_value_coord ps t 0 ps i) by (auto; reflexivity).
    simpl (h ^ 0). simpl (fact 0). simpl (INR 1). replace (1 / 1) with 1 by field. rewrite Rmult_1_l.
    destruct n as [|n].
    - simpl. destruct ps as [|p [|]]; try discriminate. rewrite !curve_coord_dc by discriminate. simpl. ring.
    - destruct (derivative_coord ps) as (ds & Hd & Hl & Hder); [lia|].
      assert (Kv : forall k, kth_value ps t (S k) = kth_value ds t k).
      { intros k. unfold kth_value. cbn [derivative_times]. now rewrite Hd. }
      set (g := fun h => Rsum (fun k => h ^ (S k) / INR (fact (S k)) * coord (kth_value ps t (S k)) i) (S n)).
      assert (Hg : forall u, derivable_pt_lim g u (curve_coord ds (t + u) i)).
      { intros u. rewrite (IH ds t u i) by (auto; lia).
        apply (Rsum_derivative (fun k h => h ^ (S k) / INR (fact (S k)) * coord (kth_value ps t (S k)) i)
          (fun k => u ^ k / INR (fact k) * coord (kth_value ds t k) i)).
        intros k Hk. rewrite Kv.
        apply (derivable_pt_lim_ext (fun h => (/ INR (fact (S k)) * coord (kth_value ds t k) i) * h ^ S k)).
        { intros s. unfold Rdiv. ring. }
        replace (u ^ k / INR (fact k) * coord (kth_value ds t k) i)
          with ((/ INR (fact (S k)) * coord (kth_value ds t k) i) * (INR (S k) * u ^ k)).
        - apply (derivable_pt_lim_scal (fun h => h ^ S k)). apply (derivable_pt_lim_pow u (S k)).
        - change (fact (S k)) with (S k * fact k)%nat. rewrite mult_INR. field.
          split; [apply INR_fact_neq_0|apply not_0_INR; lia]. }
      assert (Hz : forall u, derivable_pt_lim (fun u => curve_coord ps (t + u) i - g u) u 0).
      { intros u. replace 0 with (1 * curve_coord ds (t + u) i - curve_coord ds (t + u) i) by ring.
        apply (derivable_pt_lim_minus (fun u => curve_coord ps (t + u) i) g); [|apply Hg].
        apply (derivable_pt_lim_ext (fun u => curve_coord ps (t + 1 * u) i)); [intros; now rewrite Rmult_1_l|].
        replace (curve_coord ds (t + u) i) with (curve_coord ds (t + 1 * u) i) by now rewrite Rmult_1_l.
        apply (chain (fun t => curve_coord ps t i)). now apply Hder. }
      pose proof (zero_derivative _ h 0 Hz) as Hc. cbv beta in Hc.
      assert (G0 : g 0 = 0).
      { unfold g. rewrite (Rsum_ext _ (fun _ => 0)).
        - clear. generalize (S n). induction n0; simpl; [reflexivity|]. rewrite IHn0. ring.
        - intros k Hk. simpl. unfold Rdiv. ring. }
      rewrite G0, Rplus_0_r in Hc. unfold g in Hc. change (S (S n)) with (S (S n)). lra.
  Qed.

  Theorem bezier_taylor ps t : ps <> [] -> exists xs, length xs = length ps /\
    (forall k x, nth_error xs k = Some x ->
      exists c, derivative_times k (Bezier ps) = Ret c /\ bezier_eval c t = Ret x) /\
    forall h y i, bezier_eval (Bezier ps) (t + h) = Ret y -> (i < dim)%nat ->
      coord y i = Rsum (fun k => h ^ k / INR (fact k) * coord (nth k xs p_default) i) (length ps).
  Proof.
    intros Hne. exists (map (kth_value ps t) (seq 0 (length ps))).
    split; [now rewrite map_length, seq_length|]. split.
    - intros k x Hx. assert (Hk : (k < length ps)%nat).
      { assert (nth_error (map (kth_value ps t) (seq 0 (length ps))) k <> None) as H by congruence.
        apply nth_error_Some in H. now rewrite map_length, seq_length in H. }
      rewrite nth_error_map in Hx.
      rewrite (nth_error_nth' _ 0%nat) in Hx by (now rewrite seq_length). rewrite seq_nth in Hx by exact Hk.
      cbn [option_map Nat.add] in Hx. injection Hx as <-.
      destruct (derivative_kth k ps Hk) as (ds & Hd & Hl & _). exists (Bezier ds). split; [exact Hd|].
      unfold kth_value. rewrite Hd. destruct (bezier_eval_spec ds t) as (x & -> & _); [|reflexivity].
      intros ->; simpl in *; lia.
    - intros h y i Hy Hi. rewrite (eval_coord _ _ _ i Hy Hi).
      assert (Hpos : (0 < length ps)%nat) by (destruct ps; [contradiction|simpl; lia]).
      rewrite (taylor_coord (length ps) ps t h i) by auto.
      apply Rsum_ext. intros k Hk. f_equal. f_equal.
      rewrite (nth_indep _ p_default (kth_value ps t 0)) by (now rewrite map_length, seq_length).
      rewrite map_nth. now rewrite seq_nth by exact Hk.
  Qed.

  Theorem derivative_zero_iff ps ds : bezier_derivative (Bezier ps) = Ret (Bezier ds) -> ps <> [] ->
    ((forall t x i, bezier_eval (Bezier ds) t = Ret x -> (i < dim)%nat -> coord x i = 0) <->
     (forall p q, In p ps -> In q ps -> p = q)).
  Proof.
    intros Hd Hne. assert (Hn : (2 <= length ps)%nat).
    { destruct ps as [|p [|q ps]]; [contradiction| |simpl; lia]. rewrite bezier_derivative_one in Hd. discriminate. }
    destruct (derivative_coord ps Hn) as (ds' & Hd' & Hl & Hder). rewrite Hd in Hd'. injection Hd' as <-.
    assert (Hds : ds <> []) by (intros ->; simpl in *; lia).
    split.
    - intros H.
      assert (Hc : forall t u, bezier_eval (Bezier ps) t = bezier_eval (Bezier ps) u).
      { intros t u. apply eval_eq_coord; auto. intros i Hi. apply (zero_derivative (fun t => curve_coord ps t i)).
        intros s. destruct (bezier_eval_spec ds s Hds) as (x & Hx & Hc).
        rewrite <- (H s x i Hx Hi). rewrite Hc by exact Hi. now apply Hder. }
      destruct (bezier_eval_spec ps 0 Hne) as (x0 & Hx0 & _).
      assert (Hall : ps = repeat x0 (length ps)).
      { apply (bezier_determined ps (repeat x0 (length ps)) (map INR (seq 0 (length ps)))).
        - now rewrite repeat_length.
        - apply INR_distinct.
        - now rewrite map_length, seq_length.
        - intros t _. rewrite (Hc t 0), Hx0.
          destruct (bezier_eval_spec (repeat x0 (length ps)) t) as (y & Hy & Hcy).
          { destruct ps; [contradiction|discriminate]. }
          rewrite Hy. f_equal. apply lp_ext. intros i Hi. rewrite Hcy by exact Hi.
          rewrite curve_coord_dc by (destruct ps; [contradiction|discriminate]).
          rewrite (dc_ext t _ _ (fun _ => coord x0 i)).
          + now rewrite dc_const.
          + intros k Hk. unfold cs. f_equal. apply (repeat_spec (length ps)). apply nth_In.
            rewrite repeat_length in *. destruct ps; [contradiction|]. simpl in *. lia. }
      intros p q Hp Hq. rewrite Hall in Hp, Hq. apply repeat_spec in Hp, Hq. congruence.
    - intros H t x i Hx Hi. rewrite (eval_coord _ _ _ i Hx Hi).
      destruct ps as [|p0 ps']; [contradiction|]. 
      eapply uniqueness_limite; [now apply Hder|].
      apply (derivable_pt_lim_ext (fun _ => coord p0 i)); [|apply derivable_pt_lim_const].
      intros s. rewrite curve_coord_dc by exact Hne. symmetry.
      rewrite (dc_ext s _ _ (fun _ => coord p0 i)).
      + apply dc_const.
      + intros k Hk. unfold cs. f_equal. apply H; [|now left]. apply nth_In. simpl in *. lia.
  Qed.

  (** arc length *)
  Theorem speed_derivative ps t x ds : bezier_derivative (Bezier ps) = Ret (Bezier ds) ->
    bezier_eval (Bezier ds) t = Ret x -> speed ps t = sqrt (Rsum (fun i => coord x i * coord x i) dim).
  Proof.
    intros Hd Hx. assert (Hn : (2 <= length ps)%nat).
    { destruct ps as [|p [|q ps]]; [discriminate| |simpl; lia]. rewrite bezier_derivative_one in Hd. discriminate. }
    destruct (derivative_coord ps Hn) as (ds' & Hd' & Hl & Hder). rewrite Hd in Hd'. injection Hd' as <-.
    unfold speed. f_equal. apply Rsum_ext. intros i Hi.
    rewrite (is_derive_unique (fun t => curve_coord ps t i) t (coord x i)); [reflexivity|].
    apply is_derive_Reals. rewrite (eval_coord _ _ _ i Hx Hi). now apply Hder.
  Qed.

  Theorem arc_length_derivative ps ds (v : R -> P) : bezier_derivative (Bezier ps) = Ret (Bezier ds) ->
    (forall t, 0 < t < 1 -> bezier_eval (Bezier ds) t = Ret (v t)) ->
    arc_length ps = RInt (fun t => sqrt (Rsum (fun i => coord (v t) i * coord (v t) i) dim)) 0 1.
  Proof.
    intros Hd Hv. unfold arc_length. apply RInt_ext. rewrite Rmin_left, Rmax_right by lra.
    intros t Ht. apply speed_derivative with (ds := ds); auto.
  Qed.

  Lemma quad_arc_length (q : quad P) : arc_length (quad_control_points q)
    = RInt (fun t => sqrt (Rsum (fun i => coord (line_eval (quad_derivative q) t) i
                                        * coord (line_eval (quad_derivative q) t) i) dim)) 0 1.
  Proof.
    destruct q as [a b c]. cbn [quad_control_points q_start q_ctrl q_end].
    apply arc_length_derivative with (1 := bezier_derivative_quad a b c).
    intros t _. rewrite bezier_eval_line. reflexivity.
  Qed.

  Lemma cubic_arc_length (c : cubic P) : arc_length (cubic_control_points c)
    = RInt (fun t => sqrt (Rsum (fun i => coord (quad_eval (cubic_derivative c) t) i
                                        * coord (quad_eval (cubic_derivative c) t) i) dim)) 0 1.
  Proof.
    destruct c as [a b c d]. cbn [cubic_control_points c_start c_ctrl1 c_ctrl2 c_end].
    apply arc_length_derivative with (1 := bezier_derivative_cubic a b c d).
    intros t _. unfold quad_control_points. rewrite bezier_eval_quad. reflexivity.
  Qed.

  (** the velocity of the pieces at the cut *)
  Theorem split_velocity ps t v l r ds dl dr : bezier_derivative (Bezier ps) = Ret (Bezier ds) ->
    bezier_eval (Bezier ds) t = Ret v ->
    bezier_split (Bezier ps) t = Ret (Bezier l, Bezier r) ->
    bezier_derivative (Bezier l) = Ret (Bezier dl) -> bezier_derivative (Bezier r) = Ret (Bezier dr) ->
    bezier_eval (Bezier dl) 1 = Ret (p_mul v t) /\ bezier_eval (Bezier dr) 0 = Ret (p_mul v (1 - t)).
  Proof.
    intros Hd Hv Hs Hl Hr. assert (Hn : (2 <= length ps)%nat).
    { destruct ps as [|p [|q ps]]; [discriminate| |simpl; lia]. rewrite bezier_derivative_one in Hd. discriminate. }
    destruct (derivative_split ps t Hn) as (l' & r' & ds' & dl' & dr' & Hs' & Hd' & Hsd & Hl' & Hr').
    rewrite Hs in Hs'. injection Hs' as <- <-. rewrite Hd in Hd'. injection Hd' as <-.
    rewrite Hl in Hl'. injection Hl' as ->. rewrite Hr in Hr'. injection Hr' as ->.
    rewrite (bezier_eval_aff _ (scale_affine t)), (bezier_eval_aff _ (scale_affine (1 - t))).
    assert (Hne : ds <> []) by (intros ->; discriminate).
    destruct (bezier_split_spec ds t Hne) as (l' & r' & Hs' & _ & _ & He).
    rewrite Hsd in Hs'. injection Hs' as <- <-.
    assert (E1 : bezier_eval (Bezier dl') 1 = Ret v) by (rewrite (proj1 (He 1)), <- Hv; f_equal; ring).
    assert (E2 : bezier_eval (Bezier dr') 0 = Ret v) by (rewrite (proj2 (He 0)), <- Hv; f_equal; ring).
    rewrite E1, E2. split; reflexivity.
  Qed.
End DerivLaws.

Section Affine.
  Context {E : Eps} {P Q : Type} {PT : Point R P} {QT : Point R Q} {LP : LawfulPoint P} {LQ : LawfulPoint Q}.

  Theorem derivative_affine (F L : P -> Q) ps : linear_map L ->
    (forall p q j, (j < p_dim (P := Q))%nat -> coord (F p) j - coord (F q) j = coord (L p) j - coord (L q) j) ->
    (2 <= length ps)%nat ->
    exists ds, bezier_derivative (Bezier ps) = Ret (Bezier ds) /\
      bezier_derivative (Bezier (map F ps)) = Ret (Bezier (map L ds)).
  Proof.
    intros (A & HA) HF Hn. rewrite (bezier_derivative_closed ps p_default Hn). eexists. split; [reflexivity|].
    rewrite (bezier_derivative_closed (map F ps) (F p_default)) by (now rewrite map_length).
    rewrite map_length, map_map. f_equal. f_equal. apply map_ext. intros k. rewrite !map_nth.
    apply lp_ext. intros j Hj. rewrite lp_mul, lp_sub by exact Hj. rs. rewrite HF by exact Hj. rewrite !HA by exact Hj.
    rewrite <- Rsum_minus, Rmult_comm, <- Rsum_scal. apply Rsum_ext. intros i Hi. rewrite lp_mul, lp_sub by exact Hi. rs. ring.
  Qed.
End Affine.

Section Fixed.
  Context {E : Eps} {P : Type} {PT : Point R P} {LP : LawfulPoint P}.

  Definition scaled_quad (q : quad P) (s : R) : quad P :=
    Quad (p_mul (q_start q) s) (p_mul (q_ctrl q) s) (p_mul (q_end q) s).

  Theorem cubic_derivative_split (c : cubic P) t :
    cubic_derivative (fst (cubic_split c t)) = scaled_quad (fst (quad_split (cubic_derivative c) t)) t /\
    cubic_derivative (snd (cubic_split c t)) = scaled_quad (snd (quad_split (cubic_derivative c) t)) (1 - t).
  Proof.
    destruct c as [a b d e]. unfold scaled_quad, cubic_split, quad_split, cubic_derivative.
    cbn [fst snd q_start q_ctrl q_end c_start c_ctrl1 c_ctrl2 c_end].
    split; f_equal; pext; ring.
  Qed.

  Theorem quad_derivative_split (q : quad P) t u :
    line_eval (quad_derivative (fst (quad_split q t))) u = p_mul (line_eval (quad_derivative q) (t * u)) t /\
    line_eval (quad_derivative (snd (quad_split q t))) u
    = p_mul (line_eval (quad_derivative q) (t + (1 - t) * u)) (1 - t).
  Proof.
    destruct q as [a b c]. unfold quad_split, quad_derivative, line_eval.
    cbn [fst snd q_start q_ctrl q_end l_start l_end].
    split; pext; ring.
  Qed.
End Fixed.
