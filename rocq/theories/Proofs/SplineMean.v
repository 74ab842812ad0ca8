(** Integrals of B-splines: the basis function N_(j,D) has integral (U_(j+D+1) - U_j) / (D+1). *)
From Coq Require Import Reals List Arith Lia Lra.
From Coquelicot Require Import Coquelicot.
From Verif Require Import Base.Outcome Base.Scalar Model.Point Model.BSpline Model.Repairs Inst.RealInst
  Spec.Sums Spec.Lawful Spec.Basis Spec.Limits
  Proofs.PointFacts Proofs.RealTac Proofs.BSplineGeneric Proofs.BSplineReal Proofs.BSplineEval Proofs.BasisCalc Proofs.BSplineJump
  Proofs.SplineSmooth Proofs.RepairSpline.
Import ListNotations.
Local Open Scope R_scope.

(** ** The fundamental theorem for functions with one-sided limits *)
Lemma ftc_open f F a b la lb : a < b -> (forall x, a <= x <= b -> continuity_pt F x) ->
  (forall x, a < x < b -> derivable_pt_lim F x (f x) /\ continuity_pt f x) ->
  lim f (fun t => a < t) a la -> lim f (fun t => t < b) b lb -> is_RInt f a b (F b - F a).
Proof.
  intros Hab HF Hd La Lb.
  set (g := fun x => if Rle_dec x a then la else if Rle_dec b x then lb else f x).
  assert (Gi : forall x, a < x < b -> g x = f x) by (intros x Hx; unfold g; destruct (Rle_dec x a); [lra|]; destruct (Rle_dec b x); lra).
  assert (Gc : forall x, continuity_pt g x).
  { intros x. destruct (Rtotal_order x a) as [Hx|[Hx|Hx]]; [| |destruct (Rtotal_order x b) as [Hx'|[Hx'|Hx']]].
    - apply (smooth_local 0 (fun _ => la) g x (a - x)); [lra| |apply continuity_pt_const; intros ? ?; reflexivity].
      intros y Hy. apply Rabs_def2 in Hy. unfold g. destruct (Rle_dec y a); lra.
    - subst x. apply two_sides.
      + apply lim_ext with (f := fun _ => la) (d := 1); [lra| |].
        * intros t Ht _. unfold g. destruct (Rle_dec t a); lra.
        * replace (g a) with la by (unfold g; destruct (Rle_dec a a); lra). apply lim_const.
      + apply lim_ext with (f := f) (d := b - a); [lra| |].
        * intros t Ht Hl. apply Rabs_def2 in Hl. symmetry. apply Gi. lra.
        * replace (g a) with la by (unfold g; destruct (Rle_dec a a); lra). exact La.
    - apply (smooth_local 0 f g x (Rmin (x - a) (b - x))); [apply Rmin_pos; lra| |now apply Hd].
      intros y Hy. pose proof (Rmin_l (x - a) (b - x)). pose proof (Rmin_r (x - a) (b - x)). apply Rabs_def2 in Hy. symmetry. apply Gi. lra.
    - subst x. assert (Eb : g b = lb) by (unfold g; destruct (Rle_dec b a); [lra|]; destruct (Rle_dec b b); lra). apply two_sides; rewrite Eb.
      + apply lim_ext with (f := f) (d := b - a); [lra| |exact Lb].
        intros t Ht Hl. apply Rabs_def2 in Hl. symmetry. apply Gi. lra.
      + apply lim_ext with (f := fun _ => lb) (d := 1); [lra| |apply lim_const].
        intros t Ht _. unfold g. destruct (Rle_dec t a); [lra|]. destruct (Rle_dec b t); lra.
    - apply (smooth_local 0 (fun _ => lb) g x (x - b)); [lra| |apply continuity_pt_const; intros ? ?; reflexivity].
      intros y Hy. apply Rabs_def2 in Hy. unfold g. destruct (Rle_dec y a); [lra|]. destruct (Rle_dec b y); lra. }
  assert (Gc' : forall x, continuous g x) by (intros x; apply continuity_pt_filterlim, Gc).
  assert (Ex : forall x y, ex_RInt g x y) by (intros; apply (ex_RInt_continuous (V := R_CompleteNormedModule)); intros; apply Gc').
  set (G := fun x => RInt g a x).
  assert (Gd : forall x, derivable_pt_lim G x (g x)).
  { intros x. apply is_derive_Reals. apply (is_derive_RInt (V := R_NormedModule) g G a x); [|apply Gc'].
    exists (mkposreal 1 Rlt_0_1). intros y _. apply (RInt_correct (V := R_CompleteNormedModule)). apply Ex. }
  (** F - G is constant *)
  assert (K : F b - F a = G b - G a).
  { assert (pr : forall c, a < c < b -> derivable_pt (fun x => F x - G x) c).
    { intros c Hc. exists (f c - g c). apply (derivable_pt_lim_minus F G); [now apply Hd|apply Gd]. }
    assert (pr2 : forall c, a < c < b -> derivable_pt id c) by (intros; apply derivable_pt_id).
    destruct (MVT (fun x => F x - G x) id a b pr pr2 Hab) as (c & Pc & Ec).
    - intros c Hc. apply (continuity_pt_minus F G); [now apply HF|]. apply derivable_continuous_pt. exists (g c). apply Gd.
    - intros c _. apply derivable_continuous, derivable_id.
    - rewrite (derive_pt_eq_0 (fun x => F x - G x) c (f c - g c) (pr c Pc)) in Ec
        by (apply (derivable_pt_lim_minus F G); [now apply Hd|apply Gd]).
      rewrite (derive_pt_eq_0 id c 1 (pr2 c Pc) (derivable_pt_lim_id c)) in Ec. rewrite (Gi c Pc) in Ec. lra. }
  rewrite K. apply (is_RInt_ext g).
  - intros x Hx. rewrite Rmin_left, Rmax_right in Hx by lra. now apply Gi.
  - replace (G b - G a) with (RInt g a b).
    + apply (RInt_correct (V := R_CompleteNormedModule)), Ex.
    + unfold G. rewrite (RInt_point a g). unfold zero. cbn. lra.
Qed.

Lemma ftc_pieces f F (l : list R) : forall a b, a <= b -> (forall x, a <= x <= b -> continuity_pt F x) ->
  (forall x, a < x < b -> ~ In x l -> derivable_pt_lim F x (f x) /\ continuity_pt f x) ->
  (forall x, exists r, lim f (fun t => x < t) x r) -> (forall x, exists r, lim f (fun t => t < x) x r) ->
  is_RInt f a b (F b - F a).
Proof.
  induction l as [|k l IH]; intros a b Hab HF Hd R L.
  - destruct (Req_dec a b) as [->|N].
    + rewrite Rminus_diag_eq by reflexivity. apply (is_RInt_point (V := R_NormedModule)).
    + destruct (R a) as (la & Ha). destruct (L b) as (lb & Hb). apply (ftc_open f F a b la lb); auto. lra.
  - destruct (Rlt_le_dec a k) as [H1|H1].
    + destruct (Rlt_le_dec k b) as [H2|H2].
      * replace (F b - F a) with (plus (F k - F a) (F b - F k)) by (unfold plus; cbn; ring).
        apply (is_RInt_Chasles (V := R_NormedModule)) with k; apply IH; auto; try lra.
        -- intros x Hx. apply HF. lra.
        -- intros x Hx Nx. apply Hd; [lra|]. intros [->|Hi]; [lra|now apply Nx].
        -- intros x Hx. apply HF. lra.
        -- intros x Hx Nx. apply Hd; [lra|]. intros [->|Hi]; [lra|now apply Nx].
      * apply IH; auto. intros x Hx Nx. apply Hd; [exact Hx|]. intros [->|Hi]; [lra|now apply Nx].
    + apply IH; auto. intros x Hx Nx. apply Hd; [exact Hx|]. intros [->|Hi]; [lra|now apply Nx].
Qed.

Lemma zero_RInt (f : R -> R) a b : (forall x, Rmin a b < x < Rmax a b -> f x = 0) -> is_RInt f a b 0.
Proof.
  intros H. apply (is_RInt_ext (fun _ => 0)); [intros x Hx; symmetry; now apply H|].
  refine (eq_ind (scal (b - a) 0) (fun v => is_RInt (fun _ : R => 0) a b v) (is_RInt_const (V := R_NormedModule) a b 0) 0 _).
  unfold scal. cbn. unfold mult. cbn. ring.
Qed.

(** ** One basis function *)
Section Basis.
  Variables (U : nat -> R) (D j : nat).
  Hypothesis Hm : forall a b, (j <= a <= b)%nat -> (b <= j + D + 1)%nat -> U a <= U b.
  Local Notation e := (j + D + 1)%nat.

  (** the knots after the support do not matter: take simple ones *)
  Definition spread (m : nat) : R := if (m <=? e)%nat then U m else U e + INR (m - e).
  Local Notation V := spread.
  Lemma spread_lo m : (m <= e)%nat -> V m = U m.
  Proof. intros H. unfold spread. apply Nat.leb_le in H. now rewrite H. Qed.
  Lemma spread_hi m : (e <= m)%nat -> V m = U e + INR (m - e).
  Proof.
    intros H. unfold spread. destruct (Nat.leb_spec m e) as [L|L]; [|reflexivity].
    replace m with e by lia. rewrite Nat.sub_diag. cbn. ring.
  Qed.
  Lemma spread_mono a b : (j <= a <= b)%nat -> V a <= V b.
  Proof.
    intros H. destruct (le_lt_dec b e) as [L|L]; [rewrite !spread_lo by lia; apply Hm; lia|].
    rewrite (spread_hi b) by lia. destruct (le_lt_dec a e) as [M|M].
    - rewrite spread_lo by lia. pose proof (Hm a e ltac:(lia) ltac:(lia)). pose proof (pos_INR (b - e)). lra.
    - rewrite spread_hi by lia. apply Rplus_le_compat_l, le_INR. lia.
  Qed.
  Lemma spread_simple a b : (j <= a < b)%nat -> (e < b)%nat -> V a < V b.
  Proof.
    intros H Hb. rewrite (spread_hi b) by lia. destruct (le_lt_dec a e) as [M|M].
    - rewrite spread_lo by lia. pose proof (Hm a e ltac:(lia) ltac:(lia)). pose proof (lt_0_INR (b - e) ltac:(lia)). lra.
    - rewrite spread_hi by lia. apply Rplus_lt_compat_l, lt_INR. lia.
  Qed.

  Hypothesis Hgap : U j < U e.
  Definition tails (t : R) : R := Rsum (fun m => basis V (S D) (j + m) t) (D + 2).

  Lemma tails_continuous x : continuity_pt tails x.
  Proof.
    unfold tails. apply two_sides; apply (lim_sum (fun m => basis V (S D) (j + m)) _ x (fun m => basis V (S D) (j + m) x));
      intros m Hmm; [|apply basis_from_right].
    rewrite <- (basis_no_jump V (S D) x (j + m)%nat); [apply basis_from_left|intros a b Ha Hb; apply spread_mono; lia| |].
    - intros [E1 E2]. destruct (Nat.eq_dec m 0) as [->|Hm0].
      + rewrite Nat.add_0_r in *. rewrite spread_lo in E1 by lia. replace (j + S D)%nat with e in E2 by lia. rewrite spread_lo in E2 by lia. lra.
      + pose proof (spread_simple (j + m) (j + m + S D) ltac:(lia) ltac:(lia)). lra.
    - intros [E1 E2]. pose proof (spread_simple (j + m + 1) (j + m + S D + 1) ltac:(lia) ltac:(lia)). lra.
  Qed.

  Lemma tails_derivative t : t < U e + 1 -> (forall a, (j <= a <= j + 2 * D + 4)%nat -> V a <> t) ->
    derivable_pt_lim tails t (INR (S D) / (U e - U j) * basis U D j t).
  Proof.
    intros Ht Hne.
    assert (A : derivable_pt_lim tails t (Rsum (fun m => dbasis V (S D) (j + m) t) (D + 2))).
    { unfold tails. apply (Rsum_derivative (fun m => basis V (S D) (j + m))). intros m Hmm.
      apply basis_derivative; [intros; apply spread_mono; lia|intros; apply Hne; lia]. }
    set (q := fun m => INR (S D) * (quot 1 (V (m + S D)%nat - V m) * basis V D m t)).
    assert (B : forall n, Rsum (fun m => dbasis V (S D) (j + m) t) n = q j - q (j + n)%nat).
    { induction n as [|n IH]; cbn [Rsum]; [rewrite Nat.add_0_r; ring|]. rewrite IH. unfold dbasis.
      fold (basis V). unfold q. replace (j + S n)%nat with (j + n + 1)%nat by lia.
      replace (j + n + 1 + S D)%nat with (j + n + S D + 1)%nat by lia. ring. }
    rewrite B in A.
    assert (Z : q (j + (D + 2))%nat = 0).
    { unfold q. rewrite basis_left; [ring|intros; apply spread_mono; lia|]. rewrite spread_hi by lia.
      replace (j + (D + 2) - e)%nat with 1%nat by lia. cbn [INR]. exact Ht. }
    rewrite Z in A. unfold q in A. replace (j + S D)%nat with e in A by lia. rewrite !spread_lo in A by lia.
    rewrite (basis_ext V U) in A by (intros; apply spread_lo; lia).
    rewrite quot_nz in A by lra.
    replace (INR (S D) / (U e - U j) * basis U D j t) with (INR (S D) * (1 / (U e - U j) * basis U D j t) - 0); [exact A|].
    field. lra.
  Qed.

  Lemma tails_before t : t < U j -> tails t = 0.
  Proof.
    intros Ht. unfold tails. rewrite (Rsum_ext _ (fun _ => 0)); [apply Rsum_0|]. intros m Hmm.
    apply basis_left; [intros; apply spread_mono; lia|]. apply Rlt_le_trans with (U j); [exact Ht|].
    rewrite <- (spread_lo j) by lia. apply spread_mono. lia.
  Qed.
  Lemma tails_after : tails (U e + / 2) = 1.
  Proof.
    unfold tails. transitivity (Rsum (fun m => 1 * basis V (S D) (m + e - S D) (U e + / 2)) (S D + 1)).
    - replace (S D + 1)%nat with (D + 2)%nat by lia. apply Rsum_ext. intros m Hmm. rewrite Rmult_1_l. f_equal. lia.
    - symmetry. apply (de_boor_sum V (S D) e (U e + / 2) (fun _ _ => 1)).
      + lia.
      + intros a b Ha Hb. apply spread_mono. lia.
      + rewrite (spread_lo e), (spread_hi (e + 1)) by lia. replace (e + 1 - e)%nat with 1%nat by lia. cbn [INR]. lra.
      + intros r m Hr Hj. cbn zeta. ring.
  Qed.

  Lemma basis_integral_gap : is_RInt (basis U D j) (U j - 1) (U e + / 2) ((U e - U j) / INR (S D)).
  Proof.
    set (w := (U e - U j) / INR (S D)).
    assert (Hw : w * (INR (S D) / (U e - U j)) = 1) by (unfold w; field; split; [lra|apply not_0_INR; lia]).
    replace w with (w * tails (U e + / 2) - w * tails (U j - 1)) by (rewrite tails_after, tails_before by lra; ring).
    apply (ftc_pieces (basis U D j) (fun t => w * tails t) (map V (seq j (2 * D + 5)))).
    - lra.
    - intros x _. apply (continuity_pt_mult (fct_cte w) tails); [apply continuity_pt_const; intros ? ?; reflexivity|apply tails_continuous].
    - intros x Hx Nx. assert (Hne : forall a, (j <= a <= j + 2 * D + 4)%nat -> V a <> x).
      { intros a Ha E. apply Nx. rewrite <- E. apply in_map, in_seq. lia. }
      split.
      + pose proof (derivable_pt_lim_mult (fct_cte w) tails x 0 _ (derivable_pt_lim_const w x) (tails_derivative x ltac:(lra) Hne)) as M.
        replace (basis U D j x) with (0 * tails x + fct_cte w x * (INR (S D) / (U e - U j) * basis U D j x)); [exact M|].
        unfold fct_cte. rewrite <- Rmult_assoc, Hw. ring.
      + apply derivable_continuous_pt. exists (dbasis U D j x). apply basis_derivative; [exact Hm|].
        intros a Ha. rewrite <- spread_lo by lia. apply Hne. lia.
    - intros x. exists (basis U D j x). apply basis_from_right.
    - intros x. exists (basisL U D j x). apply basis_from_left.
  Qed.
End Basis.

Lemma basis_integral U D j a b : (forall a b, (j <= a <= b)%nat -> (b <= j + D + 1)%nat -> U a <= U b) ->
  a <= U j -> U (j + D + 1)%nat <= b -> is_RInt (basis U D j) a b ((U (j + D + 1)%nat - U j) / INR (S D)).
Proof.
  intros Hm Ha Hb. pose proof (Hm j (j + D + 1)%nat ltac:(lia) ltac:(lia)) as Hje.
  destruct (Req_dec (U j) (U (j + D + 1)%nat)) as [E|N].
  - rewrite <- E, Rminus_diag_eq by reflexivity. unfold Rdiv. rewrite Rmult_0_l. apply zero_RInt. intros x _.
    destruct (Rlt_le_dec x (U j)); [apply basis_left|apply basis_right]; auto. lra.
  - assert (G : U j < U (j + D + 1)%nat) by lra.
    replace ((U (j + D + 1)%nat - U j) / INR (S D)) with (plus 0 (plus ((U (j + D + 1)%nat - U j) / INR (S D)) 0)) by (unfold plus; cbn -[INR]; ring).
    apply (is_RInt_Chasles (V := R_NormedModule)) with (U j - 1).
    + apply zero_RInt. intros x [_ Hx]. apply basis_left; auto. eapply Rlt_le_trans; [exact Hx|]. apply Rmax_lub; lra.
    + apply (is_RInt_Chasles (V := R_NormedModule)) with (U (j + D + 1)%nat + / 2); [apply basis_integral_gap; assumption|].
      apply zero_RInt. intros x [Hx _]. apply basis_right; auto. left. eapply Rle_lt_trans; [|exact Hx]. apply Rmin_glb; lra.
Qed.

Lemma Rsum_RInt (f : nat -> R -> R) (v : nat -> R) a b n : (forall k, (k < n)%nat -> is_RInt (f k) a b (v k)) ->
  is_RInt (fun t => Rsum (fun k => f k t) n) a b (Rsum v n).
Proof.
  induction n as [|n IH]; intros H; cbn [Rsum]; [apply zero_RInt; reflexivity|].
  apply (is_RInt_plus (V := R_NormedModule) (fun t => Rsum (fun k => f k t) n) (f n)); [apply IH; intros; apply H; lia|apply H; lia].
Qed.

(** ** Whole splines *)
Section Curve.
  Context {P : Type} {PT : Point R P} {LP : LawfulPoint P}.
  Variables (D : nat) (ks : list R) (ps : list P).
  Local Notation C := (length ps).
  Local Notation U i := (nth i ks 0).
  Hypotheses (Hs : sorted ks) (HK : length ks = (C + D + 1)%nat) (HC : (D < C)%nat).
  Hypotheses (H0 : U 0 = U D) (H1 : U C = U (C + D)).

  Theorem curve_mean i : is_RInt (fun t => spline_coord D ks ps t i) (U D) (U C)
    (Rsum (fun j => (U (j + D + 1) - U j) / INR (S D) * coord (nth j ps p_default) i) C).
  Proof.
    unfold spline_coord.
    apply (Rsum_RInt (fun j t => basis (fun m => U m) D j t * coord (nth j ps p_default) i)
      (fun j => (U (j + D + 1) - U j) / INR (S D) * coord (nth j ps p_default) i)). intros j Hj.
    assert (B : is_RInt (basis (fun m => U m) D j) (U D) (U C) ((U (j + D + 1) - U j) / INR (S D))).
    { apply (basis_integral (fun m => U m)); [intros; apply Hs; lia|rewrite <- H0; apply Hs; lia|rewrite H1; apply Hs; lia]. }
    pose proof (is_RInt_scal (V := R_NormedModule) _ (U D) (U C) (coord (nth j ps p_default) i) _ B) as M.
    unfold scal in M. cbn -[basis INR] in M. unfold mult in M. cbn -[basis INR] in M.
    rewrite Rmult_comm. apply (is_RInt_ext (fun y => coord (nth j ps p_default) i * basis (fun m => U m) D j y)); [|exact M].
    intros x _. apply Rmult_comm.
  Qed.

  (** the weights: a mean *)
  Theorem mean_weights : Rsum (fun j => (U (j + D + 1) - U j) / INR (S D)) C = U C - U D.
  Proof.
    assert (T : forall n, Rsum (fun j => U (j + D + 1) - U j) n
      = Rsum (fun m => U (n + m)) (S D) - Rsum (fun m => U m) (S D)).
    { induction n as [|n IH]; [cbn [Rsum Nat.add]; ring|].
      change (Rsum (fun j => U (j + D + 1) - U j) (S n)) with (Rsum (fun j => U (j + D + 1) - U j) n + (U (n + D + 1) - U n)).
      rewrite IH. pose proof (Rsum_shift (fun m => U (n + m)) (S D)) as A.
      change (Rsum (fun m => U (n + m)) (S (S D))) with (Rsum (fun m => U (n + m)) (S D) + U (n + S D)) in A. cbv beta in A.
      rewrite (Rsum_ext (fun m => U (S n + m)) (fun k => U (n + S k))) by (intros; f_equal; lia).
      rewrite Nat.add_0_r in A. replace (n + S D)%nat with (n + D + 1)%nat in A by lia. lra. }
    rewrite (Rsum_ext _ (fun j => / INR (S D) * (U (j + D + 1) - U j))) by (intros; unfold Rdiv; ring).
    rewrite Rsum_scal, T.
    rewrite (Rsum_ext (fun m => U (C + m)) (fun _ => U C)), (Rsum_ext (fun m => U m) (fun _ => U D)).
    - assert (K : forall c n, Rsum (fun _ => c) n = INR n * c).
      { intros c n. induction n as [|n IH]; cbn [Rsum]; [cbn; ring|]. rewrite IH, S_INR. ring. }
      rewrite !K. field. apply not_0_INR. lia.
    - intros m Hm. apply Rle_antisym; [apply Hs; lia|rewrite <- H0; apply Hs; lia].
    - intros m Hm. apply Rle_antisym; [rewrite H1; apply Hs; lia|apply Hs; lia].
  Qed.
End Curve.

Section Code.
  Context {E : Eps} {P : Type} {PT : Point R P} {LP : LawfulPoint P}.
  Variables (D : nat) (ks : list R) (ps : list P) (s : bspline R P).
  Hypothesis Hnew : bspline_new D ks ps = Ret (Ok s).
  Local Notation C := (length ps).
  Local Notation U i := (nth i ks 0).

  Theorem fixed_mean (e : R -> P) i : (forall y, U D <= y <= U C -> fixed_eval s y = Ret (Ok (e y))) ->
    U 0 = U D -> U C = U (C + D) -> (i < p_dim (P := P))%nat ->
    is_RInt (fun t => coord (e t) i) (U D) (U C)
      (Rsum (fun j => (U (j + D + 1) - U j) / INR (S D) * coord (nth j ps p_default) i) C).
  Proof.
    intros He H0 H1 Hi. destruct (sizes D ks ps s Hnew) as [HC HK]. pose proof (ks_sorted D ks ps s Hnew) as Hs.
    apply (is_RInt_ext (fun t => spline_coord D ks ps t i)); [|apply curve_mean; auto].
    intros x Hx. rewrite Rmin_left, Rmax_right in Hx by (apply Hs; lia). symmetry.
    apply (fixed_coord D ks ps s Hnew e He); [lra|exact Hi].
  Qed.

  (** what the evaluation misses on a span, between EPSILON after the knot and the next knot *)
  Theorem span_defect k (e : R -> P) i : bs_kind s <> Unclamped -> (D <= k < C)%nat -> U k + eps <= U (k + 1) ->
    (forall t, U k + eps <= t < U (k + 1) -> bspline_eval s t = Ret (Ok (e t))) -> (i < p_dim (P := P))%nat ->
    is_RInt (fun t => spline_coord D ks ps t i - coord (e t) i) (U k + eps) (U (k + 1))
      (((U (k + 1) - U k) ^ S D - eps ^ S D) / (INR (S D) * Rprod (fun r => U (k + 1 + r) - U k) D) * coord (nth k ps p_default) i).
  Proof.
    intros Hkind Hk Hg He Hi. pose proof eps_pos as Hep. destruct (sizes D ks ps s Hnew) as [HC HK].
    set (c := coord (nth k ps p_default) i). set (w := Rprod (fun r => U (k + 1 + r) - U k) D).
    assert (Hw : 0 < w).
    { apply prod_pos. intros r Hr. apply (gaps_pos (fun m => U m) k D); [apply (monoU D ks ps s Hnew); lia|lra|exact Hr]. }
    apply (is_RInt_ext (fun t => span_weight (fun m => U m) D k t * c)).
    - intros t Ht. rewrite Rmin_left, Rmax_right in Ht by lra.
      destruct (eval_in_span D ks ps s Hnew t k Hkind Hk ltac:(lra)) as (p & Ep & V).
      rewrite He in Ep by lra. injection Ep as ->. rewrite (V i Hi). unfold c.
      match goal with |- ?a = ?b => change (@eq R a b) end. ring.
    - set (F := fun t => (t - U k) ^ S D / (INR (S D) * w) * c).
      replace (((U (k + 1) - U k) ^ S D - eps ^ S D) / (INR (S D) * w) * c) with (minus (F (U (k + 1))) (F (U k + eps))).
      2:{ unfold F, minus, plus, opp. cbn -[INR pow]. replace (U k + eps - U k) with eps by ring. field.
          split; [lra|apply not_0_INR; lia]. }
      apply (is_RInt_derive (V := R_CompleteNormedModule) F).
      + intros t _. unfold F, span_weight. fold w. auto_derive; [exact I|]. cbn [Init.Nat.pred].
        assert (INR (S D) <> 0) by (apply not_0_INR; lia). change (match D with O => 1 | S _ => INR D + 1 end) with (INR (S D)). match goal with |- ?a = ?b => change (@eq R a b) end. unfold Rminus. field. split; [lra|assumption].
      + intros t _. unfold span_weight. fold w. apply (ex_derive_continuous (fun t => (t - U k) ^ D / w * c)). auto_derive. exact I.
  Qed.
End Code.
