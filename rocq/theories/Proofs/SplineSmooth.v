(** B-splines at their knots: at a knot where m knots coincide the curve is D - m times
    continuously differentiable. *)
From Coq Require Import Reals List Arith Lia Lra.
From Verif Require Import Base.Outcome Base.Scalar Model.Point Model.BSpline Model.Repairs Inst.RealInst
  Spec.Sums Spec.Lawful Spec.Basis Spec.Smooth
  Proofs.PointFacts Proofs.RealTac Proofs.BSplineGeneric Proofs.BSplineReal Proofs.BSplineEval Proofs.BasisCalc Proofs.BSplineJump Proofs.RepairSpline.
Import ListNotations.
Local Open Scope R_scope.

(** a derivative that has a limit is the derivative there too *)
Lemma derivative_extends (f g : R -> R) x d : 0 < d -> continuity_pt f x -> continuity_pt g x ->
  (forall y, 0 < Rabs (y - x) < d -> derivable_pt_lim f y (g y)) -> derivable_pt_lim f x (g x).
Proof.
  intros Hd Hf Hg Hder e He.
  assert (Hg' : exists r, 0 < r /\ forall y, Rabs (y - x) < r -> Rabs (g y - g x) < e).
  { destruct (Hg e He) as (r & Hr & H). exists r. split; [exact Hr|]. intros y Hy.
    destruct (Req_dec x y) as [->|Hne]; [rewrite Rminus_diag_eq, Rabs_R0 by reflexivity; exact He|].
    apply (H y). split; [split; [exact I|exact Hne]|exact Hy]. }
  destruct Hg' as (r & Hr & Hc).
  assert (Hm : 0 < Rmin d r) by (apply Rmin_pos; assumption).
  exists (mkposreal _ Hm). intros h Hh Hl. cbn [pos] in Hl.
  assert (L1 : Rabs h < d) by (eapply Rlt_le_trans; [exact Hl|apply Rmin_l]).
  assert (L2 : Rabs h < r) by (eapply Rlt_le_trans; [exact Hl|apply Rmin_r]).
  (** mean value on the interval between x and x + h *)
  assert (M : forall a b, a < b -> (forall y, a < y < b -> 0 < Rabs (y - x) < d) -> (forall y, a <= y <= b -> continuity_pt f y) ->
    exists c, a < c < b /\ f b - f a = g c * (b - a)).
  { intros a b Hab Hin Hcont.
    assert (pr1 : forall c, a < c < b -> derivable_pt f c) by (intros c Hcc; exists (g c); apply Hder, Hin, Hcc).
    assert (pr2 : forall c, a < c < b -> derivable_pt id c) by (intros; apply derivable_pt_id).
    destruct (MVT f id a b pr1 pr2 Hab Hcont) as (c & P & Ec).
    { intros c _. apply derivable_continuous, derivable_id. }
    exists c. split; [exact P|].
    rewrite (derive_pt_eq_0 id c 1 (pr2 c P) (derivable_pt_lim_id c)) in Ec.
    rewrite (derive_pt_eq_0 f c (g c) (pr1 c P) (Hder c (Hin c P))) in Ec. unfold id in Ec. lra. }
  assert (Q : exists c, Rabs (c - x) < r /\ f (x + h) - f x = g c * h).
  { assert (CC : forall y, Rabs (y - x) < d -> continuity_pt f y).
    { intros y Hy. destruct (Req_dec y x) as [->|Hne]; [exact Hf|].
      apply derivable_continuous_pt. exists (g y). apply Hder. split; [apply Rabs_pos_lt; lra|exact Hy]. }
    destruct (Rlt_le_dec 0 h) as [Hp|Hn].
    - rewrite Rabs_pos_eq in L1, L2 by lra.
      destruct (M x (x + h)) as (c & Hcc & Ec); [lra| | |].
      + intros y Hy. rewrite Rabs_pos_eq by lra. lra.
      + intros y Hy. apply CC. rewrite Rabs_pos_eq by lra. lra.
      + exists c. split; [rewrite Rabs_pos_eq by lra; lra|]. rewrite Ec. ring.
    - assert (h < 0) by lra. rewrite Rabs_left in L1, L2 by assumption.
      destruct (M (x + h) x) as (c & Hcc & Ec); [lra| | |].
      + intros y Hy. rewrite Rabs_left by lra. lra.
      + intros y Hy. apply CC. rewrite Rabs_left1 by lra. lra.
      + exists c. split; [rewrite Rabs_left by lra; lra|].
        replace (g c * h) with (- (g c * (x - (x + h)))) by ring. rewrite <- Ec. ring. }
  destruct Q as (c & Hc1 & Hc2). rewrite Hc2.
  replace (g c * h / h - g x) with (g c - g x) by (field; exact Hh). apply Hc. exact Hc1.
Qed.

Lemma smooth_local n : forall f g x d, 0 < d -> (forall y, Rabs (y - x) < d -> f y = g y) -> smooth n f x -> smooth n g x.
Proof.
  induction n as [|n IH]; intros f g x d Hd He H; cbn [smooth] in *.
  - intros e Hee. destruct (H e Hee) as (r & Hr & Hc). exists (Rmin d r). split; [apply Rmin_pos; assumption|].
    intros y [Hy Hl]. cbn in Hl. unfold R_dist in Hl.
    rewrite <- !He; [apply Hc|rewrite Rminus_diag_eq, Rabs_R0 by reflexivity; exact Hd|eapply Rlt_le_trans; [exact Hl|apply Rmin_l]].
    split; [exact Hy|]. cbn. unfold R_dist. eapply Rlt_le_trans; [exact Hl|apply Rmin_r].
  - destruct H as (h & r & Hr & Hh & Hs). exists h, (Rmin (d / 2) r). split; [apply Rmin_pos; lra|]. split; [|exact Hs].
    intros y Hy. assert (L1 : Rabs (y - x) < d / 2) by (eapply Rlt_le_trans; [exact Hy|apply Rmin_l]).
    assert (L2 : Rabs (y - x) < r) by (eapply Rlt_le_trans; [exact Hy|apply Rmin_r]).
    apply (derivable_local f g y (h y) (d / 2)); [lra| |now apply Hh].
    intros z Hz. apply He. replace (z - x) with ((z - y) + (y - x)) by ring.
    eapply Rle_lt_trans; [apply Rabs_triang|]. lra.
Qed.

(** a neighbourhood without other knots *)
Lemma knots_apart (l : list R) x : exists d, 0 < d /\ forall k, In k l -> k <> x -> d <= Rabs (k - x).
Proof.
  induction l as [|a l IH].
  - exists 1. split; [lra|]. intros k [].
  - destruct IH as (d & Hd & H). destruct (Req_dec a x) as [->|Hne].
    + exists d. split; [exact Hd|]. intros k [<-|Hk] Hkx; [congruence|]. now apply H.
    + exists (Rmin d (Rabs (a - x))). split; [apply Rmin_pos; [exact Hd|apply Rabs_pos_lt; lra]|].
      intros k [<-|Hk] Hkx; [apply Rmin_r|]. eapply Rle_trans; [apply Rmin_l|]. now apply H.
Qed.

Section Smooth.
  Context {E : Eps} {P : Type} {PT : Point R P} {LP : LawfulPoint P}.

  Lemma new_exists D ks (ps : list P) : sorted ks -> length ks = (length ps + D + 1)%nat -> (D < length ps)%nat ->
    exists s, bspline_new D ks ps = Ret (Ok s).
  Proof.
    intros Hs HK HC. apply (proj2 (new_ok_iff D ks ps)). split; [exact HC|]. split; [exact HK|].
    intros i Hi. rs. apply Rltb_false. apply Hs. lia.
  Qed.
  Lemma inner_sorted ks : sorted ks -> sorted (inner_knots ks).
  Proof.
    intros Hs i j Hij.
    assert (Li : length (inner_knots ks) = (length ks - 2)%nat).
    { unfold inner_knots. rewrite removelast_firstn_len, firstn_length. destruct ks; simpl in *; lia. }
    rewrite !nth_inner by lia. apply Hs. lia.
  Qed.

  (** [spline_derivative] at a knot where at most D - 1 knots coincide *)
  Lemma spline_derivative_at D ks (ps : list P) s x : bspline_new D ks ps = Ret (Ok s) -> (1 <= D)%nat ->
    nth D ks 0 < x < nth (length ps) ks 0 ->
    (forall j, (j + D - 1 < length ks)%nat -> ~ (nth j ks 0 = x /\ nth (j + D - 1) ks 0 = x)) ->
    exists s', bspline_derivative s = Ret s' /\ bs_degree s' = (D - 1)%nat /\ bs_knots s' = ks /\
      length (bs_points s') = (length ps - 1)%nat /\
      exists d, 0 < d /\ forall y, Rabs (y - x) < d -> forall i, (i < p_dim (P := P))%nat ->
        derivable_pt_lim (fun y => spline_coord D ks ps y i) y
          (spline_coord (D - 1) (inner_knots ks) (bs_points s') y i).
  Proof.
    intros Hnew HD Hx Hmult. destruct (sizes D ks ps s Hnew) as [HC HK]. pose proof (ks_sorted D ks ps s Hnew) as Hs.
    destruct (derivative_ok s (wf D ks ps s Hnew)) as (qs & Eqs & Lqs & _); [destruct (fields D ks ps s Hnew) as (-> & _); lia|].
    destruct (fields D ks ps s Hnew) as (F1 & F2 & F3). rewrite F3 in Lqs.
    eexists. split; [exact Eqs|]. cbn [bs_degree bs_knots bs_points]. rewrite F1, F2. split; [reflexivity|]. split; [reflexivity|].
    split; [exact Lqs|].
    destruct (knots_apart ks x) as (d0 & Hd0 & Hap).
    set (d := Rmin d0 (Rmin (x - nth D ks 0) (nth (length ps) ks 0 - x))).
    assert (Hd : 0 < d) by (apply Rmin_pos; [exact Hd0|apply Rmin_pos; lra]).
    assert (Off : forall y, 0 < Rabs (y - x) < d -> forall i, (i < p_dim (P := P))%nat ->
      derivable_pt_lim (fun y => spline_coord D ks ps y i) y (spline_coord (D - 1) (inner_knots ks) qs y i)).
    { intros y [Hy0 Hy] i Hi.
      assert (Y1 : Rabs (y - x) < d0) by (eapply Rlt_le_trans; [exact Hy|apply Rmin_l]).
      assert (Y2 : Rabs (y - x) < x - nth D ks 0) by (eapply Rlt_le_trans; [exact Hy|]; eapply Rle_trans; [apply Rmin_r|apply Rmin_l]).
      assert (Y3 : Rabs (y - x) < nth (length ps) ks 0 - x) by (eapply Rlt_le_trans; [exact Hy|]; eapply Rle_trans; [apply Rmin_r|apply Rmin_r]).
      apply Rabs_def2 in Y2. apply Rabs_def2 in Y3.
      destruct (spline_derivative D ks ps s y Hnew HD) as (s' & Es' & _ & _ & H).
      - lra.
      - intros k Hk E0. assert (Hne : nth k ks 0 <> x).
        { intros E1. rewrite E1 in E0. rewrite E0, Rminus_diag_eq, Rabs_R0 in Hy0 by reflexivity. lra. }
        pose proof (Hap (nth k ks 0) ltac:(now apply nth_In) Hne). rewrite E0 in H. lra.
      - rewrite Eqs in Es'. injection Es' as <-. cbn [bs_points] in H. now apply H. }
    exists d. split; [exact Hd|]. intros y Hy i Hi. destruct (Req_dec y x) as [->|Hne].
    - apply (derivative_extends (fun y => spline_coord D ks ps y i) (fun y => spline_coord (D - 1) (inner_knots ks) qs y i) x d Hd).
      + apply spline_continuous; [exact Hs|lia|]. intros j Hj [E1 E2]. apply (Hmult j); [lia|]. split; [exact E1|].
        apply Rle_antisym; [rewrite <- E2; apply Hs; lia|rewrite <- E1; apply Hs; lia].
      + assert (Li : length (inner_knots ks) = (length ks - 2)%nat).
        { unfold inner_knots. rewrite removelast_firstn_len, firstn_length. destruct ks; simpl in *; lia. }
        apply spline_continuous; [now apply inner_sorted|rewrite Lqs, Li; lia|]. rewrite Lqs.
        intros j Hj [E1 E2]. rewrite nth_inner in E1, E2 by lia. apply (Hmult (j + 1)%nat); [lia|]. split; [exact E1|].
        rewrite <- E2. f_equal. lia.
      + intros y Hy'. apply Off; assumption.
    - apply Off; [|exact Hi]. split; [apply Rabs_pos_lt; lra|exact Hy].
  Qed.

  Theorem spline_smooth n : forall D ks (ps : list P) x i, sorted ks -> length ks = (length ps + D + 1)%nat -> (D < length ps)%nat ->
    (n <= D)%nat -> nth D ks 0 < x < nth (length ps) ks 0 -> (i < p_dim (P := P))%nat ->
    (forall j, (j + (D - n) < length ks)%nat -> ~ (nth j ks 0 = x /\ nth (j + (D - n)) ks 0 = x)) ->
    smooth n (fun t => spline_coord D ks ps t i) x.
  Proof.
    induction n as [|n IH]; intros D ks ps x i Hs HK HC Hn Hx Hi Hmult; cbn [smooth].
    - apply spline_continuous; [exact Hs|lia|]. intros j Hj. rewrite Nat.sub_0_r in Hmult. apply Hmult. lia.
    - destruct (new_exists D ks ps Hs HK HC) as (s & Hnew).
      destruct (spline_derivative_at D ks ps s x Hnew ltac:(lia) Hx) as (s' & _ & _ & _ & Ls & d & Hd & Hder).
      { intros j Hj [E1 E2]. apply (Hmult j); [lia|]. split; [exact E1|].
        apply Rle_antisym; [rewrite <- E2; apply Hs; lia|rewrite <- E1; apply Hs; lia]. }
      exists (fun y => spline_coord (D - 1) (inner_knots ks) (bs_points s') y i), d. split; [exact Hd|].
      split; [intros y Hy; now apply Hder|].
      assert (Li : length (inner_knots ks) = (length ks - 2)%nat).
      { unfold inner_knots. rewrite removelast_firstn_len, firstn_length. destruct ks; simpl in *; lia. }
      apply IH; [now apply inner_sorted|rewrite Ls, Li; lia|rewrite Ls; lia|lia| |exact Hi|].
      + rewrite Ls, !nth_inner by lia. replace (D - 1 + 1)%nat with D by lia. replace (length ps - 1 + 1)%nat with (length ps) by lia. exact Hx.
      + rewrite Li. intros j Hj [E1 E2]. rewrite nth_inner in E1, E2 by lia. apply (Hmult (j + 1)%nat); [lia|].
        split; [exact E1|]. rewrite <- E2. f_equal. lia.
  Qed.

  (** the repaired evaluation *)
  Variables (D : nat) (ks : list R) (ps : list P) (s : bspline R P).
  Hypothesis Hnew : bspline_new D ks ps = Ret (Ok s).
  Local Notation C := (length ps).
  Local Notation U i := (nth i ks 0).
  Variable e : R -> P.
  Hypothesis He : forall y, U D <= y <= U C -> fixed_eval s y = Ret (Ok (e y)).
  Lemma fixed_coord y i : U D <= y < U C -> (i < p_dim (P := P))%nat -> coord (e y) i = spline_coord D ks ps y i.
  Proof.
    intros Hy Hi. destruct (new_fixed_value D ks ps s Hnew y Hy) as (p & Ep & Hp). rewrite He in Ep by lra.
    injection Ep as ->. now apply Hp.
  Qed.
  Theorem fixed_smooth n x i : (n <= D)%nat -> U D < x < U C -> (i < p_dim (P := P))%nat ->
    (forall j, (j + (D - n) < length ks)%nat -> ~ (U j = x /\ U (j + (D - n)) = x)) ->
    smooth n (fun t => coord (e t) i) x.
  Proof.
    intros Hn Hx Hi Hmult. destruct (sizes D ks ps s Hnew) as [HC HK].
    set (d := Rmin (x - U D) (U C - x)). assert (Hd : 0 < d) by (apply Rmin_pos; lra).
    apply (smooth_local n (fun t => spline_coord D ks ps t i) _ x d Hd).
    - intros y Hy. symmetry. apply fixed_coord; [|exact Hi].
      assert (Y2 : Rabs (y - x) < x - U D) by (eapply Rlt_le_trans; [exact Hy|apply Rmin_l]).
      assert (Y3 : Rabs (y - x) < U C - x) by (eapply Rlt_le_trans; [exact Hy|apply Rmin_r]).
      apply Rabs_def2 in Y2. apply Rabs_def2 in Y3. lra.
    - apply spline_smooth; auto. exact (ks_sorted D ks ps s Hnew).
  Qed.

  (** its derivative spline, at the knots as well *)
  Theorem fixed_derivative_at x : (1 <= D)%nat -> U D < x < U C ->
    (forall j, (j + D - 1 < length ks)%nat -> ~ (U j = x /\ U (j + D - 1) = x)) ->
    exists s' p, fixed_derivative s = Ret s' /\ fixed_eval s' x = Ret (Ok p) /\
      forall i, (i < p_dim (P := P))%nat -> derivable_pt_lim (fun y => coord (e y) i) x (coord p i).
  Proof.
    intros HD Hx Hmult. destruct (sizes D ks ps s Hnew) as [HC HK]. pose proof (ks_sorted D ks ps s Hnew) as Hs.
    destruct (spline_derivative_at D ks ps s x Hnew HD Hx Hmult) as (q & Eq & Dq & Kq & Lq & d & Hd & Hder).
    set (s' := BSpline (bs_degree q) (inner_knots (bs_knots q)) (bs_kind q) (bs_points q)).
    assert (Li : length (inner_knots ks) = (length ks - 2)%nat).
    { unfold inner_knots. rewrite removelast_firstn_len, firstn_length. destruct ks; simpl in *; lia. }
    assert (Hwf' : well_formed s').
    { unfold s'. split; cbn [bs_degree bs_points bs_knots]; rewrite ?Kq, Dq, Lq; lia. }
    assert (Hs' : srt s').
    { unfold srt, s'. cbn [bs_knots]. rewrite Kq. exact (inner_sorted ks Hs). }
    assert (KD : knot s' (bs_degree s') = U D).
    { unfold knot, s'. cbn [bs_knots bs_degree]. rewrite Kq, Dq. rs. rewrite nth_inner by lia. f_equal. lia. }
    assert (KC : knot s' (length (bs_points s')) = U C).
    { unfold knot, s'. cbn [bs_knots bs_points]. rewrite Kq, Lq. rs. rewrite nth_inner by lia. f_equal. lia. }
    destruct (fixed_eval_value s' Hwf' Hs' x) as (p & Ep & Hp); [rewrite KD, KC; lra|].
    exists s', p. split; [unfold fixed_derivative; rewrite Eq; reflexivity|]. split; [exact Ep|].
    intros i Hi. rewrite (Hp i Hi). unfold s' at 1 2 3. cbn [bs_knots bs_degree bs_points]. rewrite Kq, Dq.
    set (d' := Rmin (x - U D) (U C - x)). assert (Hd' : 0 < d') by (apply Rmin_pos; lra).
    apply (derivable_local (fun y => spline_coord D ks ps y i) _ x _ d' Hd').
    - intros y Hy. symmetry. apply fixed_coord; [|exact Hi].
      assert (Y2 : Rabs (y - x) < x - U D) by (eapply Rlt_le_trans; [exact Hy|apply Rmin_l]).
      assert (Y3 : Rabs (y - x) < U C - x) by (eapply Rlt_le_trans; [exact Hy|apply Rmin_r]).
      apply Rabs_def2 in Y2. apply Rabs_def2 in Y3. lra.
    - apply Hder; [rewrite Rminus_diag_eq, Rabs_R0 by reflexivity; exact Hd|exact Hi].
  Qed.
End Smooth.
