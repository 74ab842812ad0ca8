(** The generic Bezier curve over the reals: Bernstein form, splitting,
    derivative, convex hull, affine invariance. *)
From Coq Require Import Reals List Arith Lia Lra Psatz.
From Verif Require Import Base.Outcome Base.Scalar Model.Point Model.Line Model.Quadratic
  Model.Cubic Model.Bezier Inst.RealInst Spec.Sums Spec.Lawful Spec.Bernstein Spec.Metric Spec.Hull
  Proofs.OutcomeFacts Proofs.PointFacts Proofs.RealTac Proofs.ExactEval Proofs.BezierGeneric.
Import ListNotations.
Local Open Scope R_scope.

(** ** The De Casteljau operator on real sequences *)
Fixpoint dc (t : R) (n : nat) (f : nat -> R) (j : nat) : R :=
  match n with
  | O => f j
  | S m => (1 - t) * dc t m f j + t * dc t m f (j + 1)
  end.

Lemma dc_ext t n f g j : (forall i, (j <= i <= j + n)%nat -> f i = g i) -> dc t n f j = dc t n g j.
Proof.
  revert j. induction n as [|n IH]; intros j H; simpl; [apply H; lia|].
  rewrite (IH j), (IH (j + 1)%nat); auto; intros; apply H; lia.
Qed.

Lemma dc_S t n f j : dc t (S n) f j = dc t n (fun i => (1 - t) * f i + t * f (i + 1)%nat) j.
Proof.
  revert j. induction n as [|n IH]; intros j; [reflexivity|].
  change (dc t (S (S n)) f j) with ((1 - t) * dc t (S n) f j + t * dc t (S n) f (j + 1)).
  rewrite !IH. reflexivity.
Qed.

Lemma dc_lin t n a b f g j :
  dc t n (fun i => a * f i + b * g i) j = a * dc t n f j + b * dc t n g j.
Proof.
  revert j. induction n as [|n IH]; intros j; simpl; [reflexivity|]. rewrite !IH. ring.
Qed.

Lemma dc_shift t n f j k : dc t n (fun i => f (i + k)%nat) j = dc t n f (j + k).
Proof.
  revert j. induction n as [|n IH]; intros j; simpl; [reflexivity|]. rewrite !IH.
  replace (j + 1 + k)%nat with (j + k + 1)%nat by lia. reflexivity.
Qed.

Lemma dc_const t n c j : dc t n (fun _ => c) j = c.
Proof. revert j. induction n as [|n IH]; intros j; simpl; [reflexivity|]. rewrite !IH. ring. Qed.

Lemma dc_0 n f j : dc 0 n f j = f j.
Proof. revert j. induction n as [|n IH]; intros j; simpl; [reflexivity|]. rewrite !IH. ring. Qed.
Lemma dc_1 n f j : dc 1 n f j = f (j + n)%nat.
Proof.
  revert j. induction n as [|n IH]; intros j; simpl; [f_equal; lia|]. rewrite !IH.
  replace (j + 1 + n)%nat with (j + S n)%nat by lia. ring.
Qed.

(** left half *)
Lemma dc_left t s n f k :
  dc s n (fun k => dc t k f 0) k = dc t k (dc (t * s) n f) 0.
Proof.
  revert k. induction n as [|n IH]; intros k; simpl; [reflexivity|].
  rewrite !IH. rewrite Nat.add_1_r, dc_S. rewrite <- dc_lin. apply dc_ext. intros i _. ring.
Qed.

(** right half *)
Lemma dc_right t s N f m j : (m + j <= N)%nat ->
  dc s m (fun j => dc t (N - j) f j) j = dc t (N - m - j) (dc (t + s * (1 - t)) m f) j.
Proof.
  revert j. induction m as [|m IH]; intros j Hj; simpl; [now rewrite Nat.sub_0_r|].
  rewrite !IH by lia.
  replace (N - m - j)%nat with (S (N - S m - j)) by lia.
  replace (N - m - (j + 1))%nat with (N - S m - j)%nat by lia.
  set (q := (N - S m - j)%nat). set (tau := t + s * (1 - t)). set (g := dc tau m f).
  rewrite (dc_lin t q (1 - tau) tau g (fun i => g (i + 1)%nat)).
  rewrite dc_shift. simpl. unfold tau. ring.
Qed.

(** derivative in the parameter *)
Lemma dc_derivative n f j t :
  derivable_pt_lim (fun t => dc t n f j) t
    (INR n * dc t (n - 1) (fun i => f (i + 1)%nat - f i) j).
Proof.
  revert j. induction n as [|n IH]; intros j.
  - simpl. rewrite Rmult_0_l. apply derivable_pt_lim_const.
  - set (D := fun i => f (i + 1)%nat - f i) in *.
    assert (E1 : dc t n D j = dc t n f (j + 1) - dc t n f j).
    { unfold D. rewrite (dc_ext t n _ (fun i => 1 * f (i + 1)%nat + (-1) * f i)) by (intros; ring).
      rewrite (dc_lin t n 1 (-1) (fun i => f (i + 1)%nat) f), dc_shift. ring. }
    change (derivable_pt_lim (fun t => (1 - t) * dc t n f j + t * dc t n f (j + 1)) t
              (INR (S n) * dc t (S n - 1) D j)).
    replace (INR (S n) * dc t (S n - 1) D j)
      with (((0 - 1) * dc t n f j + (1 - t) * (INR n * dc t (n - 1) D j))
            + (1 * dc t n f (j + 1) + t * (INR n * dc t (n - 1) D (j + 1)))).
    + apply (derivable_pt_lim_plus (fun t => (1 - t) * dc t n f j) (fun t => t * dc t n f (j + 1))).
      * apply (derivable_pt_lim_mult (fun t => 1 - t) (fun t => dc t n f j)); [|apply IH].
        apply (derivable_pt_lim_minus (fun _ => 1) (fun t => t));
          [apply derivable_pt_lim_const|apply derivable_pt_lim_id].
      * apply (derivable_pt_lim_mult (fun t => t) (fun t => dc t n f (j + 1))); [|apply IH].
        apply derivable_pt_lim_id.
    + rewrite S_INR. replace (S n - 1)%nat with n by lia.
      destruct n as [|n]; [simpl; unfold D; ring|].
      replace (S n - 1)%nat with n by lia.
      assert (E2 : dc t (S n) D j = (1 - t) * dc t n D j + t * dc t n D (j + 1)) by reflexivity.
      rewrite Rmult_plus_distr_r, Rmult_1_l. rewrite E1 at 2. rewrite E2. ring.
Qed.

(** Bernstein form *)
Lemma binom_0 n : binom n 0 = 1%nat.
Proof. destruct n; reflexivity. Qed.
Lemma binom_gt n k : (n < k)%nat -> binom n k = 0%nat.
Proof.
  revert k. induction n as [|n IH]; intros [|k] H; simpl; try lia.
  rewrite !IH; lia.
Qed.

Lemma bernstein_S n i t : (i <= n)%nat ->
  bernstein (S n) (S i) t
  = t * bernstein n i t + (if (i <? n)%nat then (1 - t) * bernstein n (S i) t else 0).
Proof.
  intros Hi. unfold bernstein. simpl binom. rewrite plus_INR. simpl pow. simpl Nat.sub.
  destruct (Nat.ltb_spec i n).
  - replace (n - i)%nat with (S (n - S i)) by lia. simpl pow. ring.
  - rewrite (binom_gt n (S i)) by lia. simpl INR. ring.
Qed.

Lemma bernstein_S0 n t : bernstein (S n) 0 t = (1 - t) * bernstein n 0 t.
Proof. unfold bernstein. rewrite !binom_0, !Nat.sub_0_r. simpl pow. ring. Qed.

Lemma dc_bernstein t n f j :
  dc t n f j = Rsum (fun i => bernstein n i t * f (j + i)%nat) (S n).
Proof.
  revert j. induction n as [|n IH]; intros j.
  - simpl. unfold bernstein. simpl. rewrite Nat.add_0_r. ring.
  - simpl dc. rewrite (Rsum_shift _ (S n)). rewrite bernstein_S0.
    rewrite (Rsum_ext (fun i => bernstein (S n) (S i) t * f (j + S i)%nat)
      (fun i => t * (bernstein n i t * f (j + 1 + i)%nat)
                + (if (i <? n)%nat then (1 - t) * (bernstein n (S i) t * f (j + S i)%nat) else 0)) (S n)).
    2:{ intros i Hi. rewrite bernstein_S by lia. replace (j + 1 + i)%nat with (j + S i)%nat by lia.
        destruct (i <? n)%nat; ring. }
    rewrite Rsum_plus, Rsum_scal, <- IH.
    rewrite IH. rewrite (Rsum_shift _ n).
    simpl (Rsum (fun i => if (i <? n)%nat then _ else 0) (S n)).
    rewrite Nat.ltb_irrefl.
    rewrite (Rsum_ext (fun i => if (i <? n)%nat then _ else 0)
               (fun i => (1 - t) * (bernstein n (S i) t * f (j + S i)%nat)) n).
    2:{ intros i Hi. destruct (Nat.ltb_spec i n); [auto|lia]. }
    rewrite Rsum_scal. ring.
Qed.

Lemma bernstein_sum n t : Rsum (fun i => bernstein n i t) (S n) = 1.
Proof.
  rewrite (Rsum_ext _ (fun i => bernstein n i t * (fun _ => 1) (0 + i)%nat)).
  - rewrite <- (dc_bernstein t n (fun _ => 1) 0). apply dc_const.
  - intros; ring.
Qed.

Lemma bernstein_nonneg n i t : 0 <= t <= 1 -> 0 <= bernstein n i t.
Proof.
  intros Ht. unfold bernstein. apply Rmult_le_pos; [apply Rmult_le_pos|].
  - apply pos_INR.
  - apply pow_le; lra.
  - apply pow_le; lra.
Qed.

Lemma dc_between t n f j lo hi : 0 <= t <= 1 ->
  (forall i, (j <= i <= j + n)%nat -> lo <= f i <= hi) -> lo <= dc t n f j <= hi.
Proof.
  intros Ht. revert j. induction n as [|n IH]; intros j H; simpl; [apply H; lia|].
  assert (H1 := IH j). assert (H2 := IH (j + 1)%nat).
  assert (lo <= dc t n f j <= hi) by (apply H1; intros; apply H; lia).
  assert (lo <= dc t n f (j + 1) <= hi) by (apply H2; intros; apply H; lia).
  split; nra.
Qed.

(** reversal *)
Lemma dc_rev t n f N j : (j + n <= N)%nat ->
  dc t n (fun i => f (N - i)%nat) j = dc (1 - t) n f (N - n - j).
Proof.
  revert j. induction n as [|n IH]; intros j H; simpl; [f_equal; lia|].
  rewrite !IH by lia.
  replace (N - n - (j + 1))%nat with (N - S n - j)%nat by lia.
  replace (N - S n - j + 1)%nat with (N - n - j)%nat by lia. ring.
Qed.

Section BezierReal.
  Context {E : Eps} {P : Type} {PT : Point R P} {LP : LawfulPoint P}.

  Lemma lerp_coord t (a b : P) i : (i < p_dim (P := P))%nat ->
    coord (lerp t a b) i = (1 - t) * coord a i + t * coord b i.
  Proof. intros Hi. unfold lerp. coords. rs. ring. Qed.

  Lemma tri_coord t (p : nat -> P) m j i : (i < p_dim (P := P))%nat ->
    coord (tri t p m j) i = dc t m (fun k => coord (p k) i) j.
  Proof.
    intros Hi. revert j. induction m as [|m IH]; intros j; simpl; auto.
    rewrite lerp_coord, !IH by assumption. reflexivity.
  Qed.

  (** a default point to name list elements *)
  Notation dflt := (p_default (P := P)).

  Definition cs (ps : list P) (i : nat) : nat -> R := fun k => coord (nth k ps dflt) i.

  Lemma bezier_eval_ret (ps : list P) t : ps <> [] ->
    exists x, bezier_eval (Bezier ps) t = Ret x /\
      forall i, (i < p_dim (P := P))%nat -> coord x i = dc t (length ps - 1) (cs ps i) 0.
  Proof.
    intros H. rewrite (bezier_eval_closed ps t dflt H). eexists. split; [reflexivity|].
    intros i Hi. now rewrite tri_coord.
  Qed.

  Lemma curve_coord_dc (ps : list P) t i : ps <> [] ->
    curve_coord ps t i = dc t (length ps - 1) (cs ps i) 0.
  Proof.
    intros H. unfold curve_coord, bezier_poly. rewrite map_length.
    rewrite dc_bernstein. assert (0 < length ps)%nat by (destruct ps; [contradiction|simpl; lia]).
    replace (S (length ps - 1)) with (length ps) by lia. apply Rsum_ext.
    intros k Hk. f_equal. simpl. unfold cs. now rewrite (nth_map_lt _ _ _ dflt).
  Qed.

  Theorem bezier_eval_spec (ps : list P) t : ps <> [] ->
    exists x, bezier_eval (Bezier ps) t = Ret x /\
      forall i, (i < p_dim (P := P))%nat -> coord x i = curve_coord ps t i.
  Proof.
    intros H. destruct (bezier_eval_ret ps t H) as (x & Hx & Hc). exists x. split; auto.
    intros i Hi. rewrite curve_coord_dc by assumption. auto.
  Qed.

  Theorem bezier_eval_0 (p : P) (ps : list P) : bezier_eval (Bezier (p :: ps)) 0 = Ret p.
  Proof.
    destruct (bezier_eval_ret (p :: ps) 0) as (x & Hx & Hc); [discriminate|].
    rewrite Hx. f_equal. apply lp_ext. intros i Hi. rewrite Hc, dc_0 by assumption. reflexivity.
  Qed.
  Theorem bezier_eval_1 (ps : list P) (p : P) : bezier_eval (Bezier (ps ++ [p])) 1 = Ret p.
  Proof.
    destruct (bezier_eval_ret (ps ++ [p]) 1) as (x & Hx & Hc); [destruct ps; discriminate|].
    rewrite Hx. f_equal. apply lp_ext. intros i Hi. rewrite Hc, dc_1 by assumption.
    unfold cs. rewrite app_length. simpl. rewrite app_nth2 by lia.
    replace (length ps + 1 - 1 - length ps)%nat with 0%nat by lia. reflexivity.
  Qed.

  Theorem bezier_split_spec (ps : list P) t : ps <> [] ->
    exists l r, bezier_split (Bezier ps) t = Ret (Bezier l, Bezier r) /\
      length l = length ps /\ length r = length ps /\
      forall u, bezier_eval (Bezier l) u = bezier_eval (Bezier ps) (t * u) /\
                bezier_eval (Bezier r) u = bezier_eval (Bezier ps) (t + u * (1 - t)).
  Proof.
    intros H. assert (Hpos : (0 < length ps)%nat) by (destruct ps; [contradiction|simpl; lia]).
    destruct (bezier_split_closed ps t dflt) as (l & r & Hs & Hl & Hr & Hvl & Hvr).
    exists l, r. split; auto. split; auto. split; auto. intros u.
    assert (Hlne : l <> []) by (intros ->; simpl in Hl; lia).
    assert (Hrne : r <> []) by (intros ->; simpl in Hr; lia).
    split.
    - destruct (bezier_eval_ret l u Hlne) as (x & Hx & Hcx).
      destruct (bezier_eval_ret ps (t * u) H) as (y & Hy & Hcy).
      rewrite Hx, Hy. f_equal. apply lp_ext. intros i Hi. rewrite Hcx, Hcy, Hl by assumption.
      rewrite (dc_ext u _ (cs l i) (fun k => dc t k (cs ps i) 0)).
      + rewrite dc_left. reflexivity.
      + intros k Hk. unfold cs at 1. rewrite Hvl by lia. now rewrite tri_coord.
    - destruct (bezier_eval_ret r u Hrne) as (x & Hx & Hcx).
      destruct (bezier_eval_ret ps (t + u * (1 - t)) H) as (y & Hy & Hcy).
      rewrite Hx, Hy. f_equal. apply lp_ext. intros i Hi. rewrite Hcx, Hcy, Hr by assumption.
      rewrite (dc_ext u _ (cs r i) (fun k => dc t (length ps - 1 - k) (cs ps i) k)).
      + rewrite dc_right by lia. replace (length ps - 1 - (length ps - 1) - 0)%nat with 0%nat by lia.
        reflexivity.
      + intros k Hk. unfold cs at 1. rewrite Hvr by lia. now rewrite tri_coord.
  Qed.


  Theorem bezier_derivative_spec (ps : list P) : (2 <= length ps)%nat ->
    exists qs, bezier_derivative (Bezier ps) = Ret (Bezier qs) /\
      length qs = (length ps - 1)%nat /\
      (forall t, exists x, bezier_eval (Bezier qs) t = Ret x /\
        forall i, (i < p_dim (P := P))%nat ->
          derivable_pt_lim (fun t => curve_coord ps t i) t (coord x i)).
  Proof.
    intros Hn. rewrite (bezier_derivative_closed ps dflt Hn). eexists. split; [reflexivity|].
    split; [now rewrite map_length, seq_length|].
    intros t. set (qs := map _ _).
    assert (Hl : length qs = (length ps - 1)%nat) by (unfold qs; now rewrite map_length, seq_length).
    destruct (bezier_eval_ret qs t) as (x & Hx & Hc).
    { intros Hq. rewrite Hq in Hl. simpl in Hl. lia. }
    exists x. split; auto. intros i Hi. rewrite Hc by assumption. rewrite Hl.
    assert (Hne : ps <> []) by (intros ->; simpl in Hn; lia).
    apply (derivable_pt_lim_ext (fun t => dc t (length ps - 1) (cs ps i) 0)).
    { intros s. now rewrite curve_coord_dc. }
    replace (dc t (length ps - 1 - 1) (cs qs i) 0)
      with (INR (length ps - 1) * dc t (length ps - 1 - 1) (fun k => cs ps i (k + 1)%nat - cs ps i k) 0).
    - apply dc_derivative.
    - rewrite (dc_ext t _ (cs qs i)
        (fun k => INR (length ps - 1) * (cs ps i (k + 1)%nat - cs ps i k) + 0 * 0)).
      + rewrite (dc_lin t _ _ 0 (fun k => cs ps i (k + 1)%nat - cs ps i k) (fun _ => 0)). ring.
      + intros k Hk. unfold cs at 1. unfold qs. rewrite (nth_map_lt _ _ _ 0%nat) by (rewrite seq_length; lia).
        rewrite seq_nth by lia. simpl (0 + k)%nat. coords. rs. unfold cs. ring.
  Qed.

  (** convex hull *)
  Theorem bezier_hull (ps : list P) t x : 0 <= t <= 1 ->
    bezier_eval (Bezier ps) t = Ret x -> in_hull ps x.
  Proof.
    intros Ht Hx. assert (Hne : ps <> []) by (intros ->; discriminate).
    assert (Hpos : (0 < length ps)%nat) by (destruct ps; [contradiction|simpl; lia]).
    destruct (bezier_eval_ret ps t Hne) as (y & Hy & Hc). rewrite Hx in Hy. injection Hy as <-.
    exists (fun k => bernstein (length ps - 1) k t). split; [|split].
    - intros k _. now apply bernstein_nonneg.
    - rewrite <- (bernstein_sum (length ps - 1) t). f_equal. lia.
    - intros i Hi. rewrite Hc, dc_bernstein by assumption.
      replace (S (length ps - 1)) with (length ps) by lia. apply Rsum_ext.
      intros k Hk. unfold cs. simpl. now rewrite (nth_indep ps dflt x).
  Qed.

  Lemma hull_box (ps : list P) x i lo hi : (i < p_dim (P := P))%nat -> in_hull ps x ->
    (forall p, In p ps -> lo <= coord p i <= hi) -> lo <= coord x i <= hi.
  Proof.
    intros Hi (w & Hw & Hs & Hx) Hb. rewrite Hx by assumption.
    assert (forall k, (k < length ps)%nat -> lo <= coord (nth k ps x) i <= hi).
    { intros k Hk. apply Hb, nth_In, Hk. }
    assert (E1 : lo = Rsum (fun k => w k * lo) (length ps)).
    { rewrite (Rsum_ext _ (fun k => lo * w k)) by (intros; ring). rewrite Rsum_scal, Hs. ring. }
    assert (E2 : hi = Rsum (fun k => w k * hi) (length ps)).
    { rewrite (Rsum_ext _ (fun k => hi * w k)) by (intros; ring). rewrite Rsum_scal, Hs. ring. }
    rewrite E1, E2. split; apply Rsum_le; intros k Hk; apply Rmult_le_compat_l; auto; now apply H.
  Qed.

  (** affine maps *)
  Theorem bezier_affine A b (ps qs : list P) t x y :
    length ps = length qs ->
    (forall k, (k < length ps)%nat -> affine_image A b (nth k ps dflt) (nth k qs dflt)) ->
    bezier_eval (Bezier ps) t = Ret x -> bezier_eval (Bezier qs) t = Ret y ->
    affine_image A b x y.
  Proof.
    intros Hl Himg Hx Hy.
    assert (Hne : ps <> []) by (intros ->; discriminate).
    assert (Hne' : qs <> []) by (intros ->; discriminate).
    assert (Hpos : (0 < length ps)%nat) by (destruct ps; [contradiction|simpl; lia]).
    destruct (bezier_eval_ret ps t Hne) as (x' & Hx' & Hcx). rewrite Hx in Hx'. injection Hx' as <-.
    destruct (bezier_eval_ret qs t Hne') as (y' & Hy' & Hcy). rewrite Hy in Hy'. injection Hy' as <-.
    intros j Hj. rewrite Hcy by assumption. rewrite <- Hl.
    rewrite (dc_ext t _ (cs qs j)
      (fun k => 1 * Rsum (fun m => A j m * cs ps m k) (p_dim (P := P)) + 1 * b j)).
    - rewrite (dc_lin t _ 1 1 (fun k => Rsum (fun m => A j m * cs ps m k) (p_dim (P := P)))
                 (fun _ => b j)).
      rewrite dc_const. rewrite !Rmult_1_l. f_equal.
      transitivity (Rsum (fun m => A j m * dc t (length ps - 1) (cs ps m) 0) (p_dim (P := P))).
      + generalize (p_dim (P := P)) at 1 2 as n. clear. induction n as [|n IH]; simpl.
        * apply dc_const.
        * rewrite <- IH.
          rewrite (dc_ext t _ (fun k => Rsum (fun m => A j m * cs ps m k) n + A j n * cs ps n k)
            (fun k => 1 * Rsum (fun m => A j m * cs ps m k) n + A j n * cs ps n k)) by (intros; ring).
          rewrite (dc_lin t _ 1 (A j n)). ring.
      + apply Rsum_ext. intros m Hm. now rewrite Hcx.
    - intros k Hk. unfold cs. rewrite (Himg k) by (lia || assumption). ring.
  Qed.

  Theorem bezier_reverse (ps : list P) t :
    bezier_eval (Bezier (rev ps)) t = bezier_eval (Bezier ps) (1 - t).
  Proof.
    destruct ps as [|p0 ps0] eqn:Eps0; [reflexivity|]. rewrite <- Eps0.
    assert (Hne : ps <> []) by (rewrite Eps0; discriminate). clear Eps0 p0 ps0.
    assert (Hpos : (0 < length ps)%nat) by (destruct ps; [contradiction|simpl; lia]).
    assert (Hne' : rev ps <> []).
    { intros Hr. apply (f_equal (@length P)) in Hr. rewrite rev_length in Hr. simpl in Hr. lia. }
    destruct (bezier_eval_ret ps (1 - t) Hne) as (x & Hx & Hcx).
    destruct (bezier_eval_ret (rev ps) t Hne') as (y & Hy & Hcy).
    rewrite Hx, Hy. f_equal. apply lp_ext. intros i Hi. rewrite Hcx, Hcy, rev_length by assumption.
    rewrite (dc_ext t _ _ (fun k => cs ps i (length ps - 1 - k)%nat)).
    - rewrite dc_rev by lia. f_equal. lia.
    - intros k Hk. unfold cs. rewrite rev_nth by lia.
      replace (length ps - S k)%nat with (length ps - 1 - k)%nat by lia. reflexivity.
  Qed.

  (** ** Agreement with the specialised types *)
  Theorem bezier_eval_line (a b : P) t :
    bezier_eval (Bezier [a; b]) t = Ret (line_eval (Line a b) t).
  Proof.
    rewrite (bezier_eval_closed _ t dflt) by discriminate. f_equal. apply lp_ext. intros i Hi.
    rewrite tri_coord, line_eval_coord by assumption. simpl. ring.
  Qed.
  Theorem bezier_eval_quad (a b c : P) t :
    bezier_eval (Bezier [a; b; c]) t = Ret (quad_eval (Quad a b c) t).
  Proof.
    rewrite (bezier_eval_closed _ t dflt) by discriminate. f_equal. apply lp_ext. intros i Hi.
    rewrite tri_coord, quad_eval_coord by assumption. simpl. ring.
  Qed.
  Theorem bezier_eval_cubic (a b c d : P) t :
    bezier_eval (Bezier [a; b; c; d]) t = Ret (cubic_eval (Cubic a b c d) t).
  Proof.
    rewrite (bezier_eval_closed _ t dflt) by discriminate. f_equal. apply lp_ext. intros i Hi.
    rewrite tri_coord, cubic_eval_coord by assumption. simpl. ring.
  Qed.

  Theorem bezier_split_quad (a b c : P) t :
    let (l, r) := quad_split (Quad a b c) t in
    bezier_split (Bezier [a; b; c]) t
    = Ret (Bezier (quad_control_points l), Bezier (quad_control_points r)).
  Proof.
    unfold quad_split, quad_control_points. simpl.
    unfold bezier_split. simpl. f_equal. f_equal; f_equal.
    - f_equal. f_equal; [pext; ring|]. f_equal. pext. ring.
    - f_equal; [pext; ring|]. f_equal. pext. ring.
  Qed.
  Theorem bezier_split_cubic (a b c d : P) t :
    let (l, r) := cubic_split (Cubic a b c d) t in
    bezier_split (Bezier [a; b; c; d]) t
    = Ret (Bezier (cubic_control_points l), Bezier (cubic_control_points r)).
  Proof.
    unfold cubic_split, cubic_control_points. simpl.
    unfold bezier_split. simpl. f_equal. f_equal; f_equal.
    - f_equal. f_equal; [pext; ring|]. f_equal; [pext; ring|]. f_equal. pext. ring.
    - f_equal; [pext; ring|]. f_equal; [pext; ring|]. f_equal. pext. ring.
  Qed.
  Theorem bezier_derivative_line (a b : P) :
    bezier_derivative (Bezier [a; b]) = Ret (Bezier [line_derivative (Line a b)]).
  Proof.
    unfold bezier_derivative. simpl. unfold line_derivative. simpl.
    do 2 f_equal. f_equal. pext. ring.
  Qed.
  Theorem bezier_derivative_quad (a b c : P) :
    bezier_derivative (Bezier [a; b; c])
    = Ret (Bezier [l_start (quad_derivative (Quad a b c)); l_end (quad_derivative (Quad a b c))]).
  Proof.
    unfold bezier_derivative. cbn [for_break range bz_points length seq Nat.sub].
    repeat (cbn; f_equal); pext; ring.
  Qed.
  Theorem bezier_derivative_cubic (a b c d : P) :
    bezier_derivative (Bezier [a; b; c; d])
    = Ret (Bezier (quad_control_points (cubic_derivative (Cubic a b c d)))).
  Proof.
    unfold bezier_derivative, quad_control_points. simpl. do 2 f_equal.
    f_equal; [|f_equal; [|f_equal]]; pext; ring.
  Qed.
End BezierReal.
