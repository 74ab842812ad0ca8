(** Root finders and bounding boxes over the reals. *)
From Coq Require Import Reals List Arith Lia Lra Psatz Bool Sorted.
From Verif Require Import Base.Outcome Base.Scalar Model.Point Model.Line Model.Quadratic
  Model.Cubic Inst.RealInst Spec.Sums Spec.Lawful Spec.Metric Proofs.OutcomeFacts
  Proofs.PointFacts Proofs.RealTac Proofs.ExactEval Proofs.LineFacts.
Import ListNotations.
Local Open Scope R_scope.

Lemma filter_length_le' {A} (f : A -> bool) l : (length (filter f l) <= length l)%nat.
Proof. induction l as [|x l IH]; simpl; [lia|]. destruct (f x); simpl; lia. Qed.

(** ** Sorting *)
Section Sorting.
  Context {E : Eps}.

  Lemma insert_in (x y : R) l : In y (s_insert x l) <-> y = x \/ In y l.
  Proof.
    induction l as [|z l IH]; simpl.
    - intuition.
    - destruct (Rleb x z); simpl; [intuition|]. rewrite IH. intuition.
  Qed.
  Lemma isort_in (y : R) l : In y (s_isort l) <-> In y l.
  Proof.
    induction l as [|z l IH]; simpl; [tauto|]. rewrite insert_in, IH. intuition.
  Qed.
  Lemma insert_length (x : R) l : length (s_insert x l) = S (length l).
  Proof. induction l as [|z l IH]; simpl; auto. destruct (Rleb x z); simpl; auto. Qed.
  Lemma isort_length (l : list R) : length (s_isort l) = length l.
  Proof. induction l as [|z l IH]; simpl; auto. now rewrite insert_length, IH. Qed.
  Lemma insert_sorted (x : R) l : StronglySorted Rle l -> StronglySorted Rle (s_insert x l).
  Proof.
    induction l as [|z l IH]; intros H; simpl.
    - repeat constructor.
    - inversion H as [|? ? Hs Hz]; subst. destruct (Rleb_spec x z) as [Hxz|Hxz].
      + constructor; auto. constructor; auto. rewrite Forall_forall in *. intros y Hy.
        specialize (Hz y Hy). lra.
      + constructor; auto. rewrite Forall_forall in *. intros y Hy.
        apply insert_in in Hy as [->|Hy]; [lra|auto].
  Qed.
  Lemma isort_sorted (l : list R) : StronglySorted Rle (s_isort l).
  Proof. induction l; simpl; [constructor|]. now apply insert_sorted. Qed.

  Lemma sort_R (l : list R) : sort_by_partial_cmp l = Ret (s_isort l).
  Proof.
    unfold sort_by_partial_cmp. destruct l as [|x [|y l]]; auto.
    assert (H : forall l : list R, existsb s_is_nan l = false)
      by (clear; induction l; simpl; auto).
    now rewrite H.
  Qed.

  Lemma sorted_ends (l : list R) : StronglySorted Rle l -> l <> [] ->
    exists lo hi, idx l 0 = Ret lo /\ idx l (length l - 1) = Ret hi /\ In lo l /\ In hi l /\
                  forall x, In x l -> lo <= x <= hi.
  Proof.
    intros Hs Hne. destruct l as [|a l]; [contradiction|].
    exists a, (last (a :: l) 0). split; [reflexivity|]. split.
    - clear Hs Hne. revert a. induction l as [|b l IH]; intros a; [reflexivity|].
      specialize (IH b). replace (length (a :: b :: l) - 1)%nat with (S (length (b :: l) - 1))
        by (simpl; lia). exact IH.
    - assert (Hlast : In (last (a :: l) 0) (a :: l)).
      { clear. revert a. induction l as [|b l IH]; intros a; [now left|]. right. apply IH. }
      split; [now left|]. split; [exact Hlast|].
      intros x Hx. split.
      + inversion Hs as [|? ? _ Hf]; subst. destruct Hx as [->|Hx]; [lra|].
        rewrite Forall_forall in Hf. auto.
      + clear Hlast Hne. revert a x Hs Hx. induction l as [|b l IH]; intros a x Hs Hx.
        * destruct Hx as [->|[]]. simpl. lra.
        * inversion Hs as [|? ? Hs' Hf]; subst.
          change (last (a :: b :: l) 0) with (last (b :: l) 0).
          destruct Hx as [->|Hx]; [|auto].
          rewrite Forall_forall in Hf. specialize (Hf b (or_introl eq_refl)).
          specialize (IH b b Hs' (or_introl eq_refl)). lra.
  Qed.

  Lemma isort_ends (l : list R) : l <> [] ->
    exists lo hi, idx (s_isort l) 0 = Ret lo /\ idx (s_isort l) (length (s_isort l) - 1) = Ret hi
      /\ In lo l /\ In hi l /\ forall x, In x l -> lo <= x <= hi.
  Proof.
    intros Hne. destruct (sorted_ends (s_isort l)) as (lo & hi & H1 & H2 & H3 & H4 & H5).
    - apply isort_sorted.
    - intros H. apply Hne. apply length_zero_iff_nil. rewrite <- isort_length, H. reflexivity.
    - exists lo, hi. rewrite isort_in in H3, H4. repeat split; auto; intros;
        apply H5; now apply isort_in.
  Qed.

  Lemma in_unit_R (r : R) : in_unit r = true <-> 0 < r < 1.
  Proof.
    unfold in_unit. rs. rewrite andb_true_iff.
    destruct (Rltb_spec 0 r), (Rltb_spec r 1); intuition (try discriminate; try lra).
  Qed.
End Sorting.

(** ** Extrema of a cubic polynomial *)
Definition poly (a b c d t : R) := a + b * t + c * (t * t) + d * (t * (t * t)).
Definition dpoly (b c d t : R) := b + 2 * c * t + 3 * d * (t * t).

Lemma poly_derivable a b c d t : derivable_pt_lim (poly a b c d) t (dpoly b c d t).
Proof. apply cubic_poly_lim. Qed.

Lemma poly_max a b c d : exists m, 0 <= m <= 1 /\
  (forall t, 0 <= t <= 1 -> poly a b c d t <= poly a b c d m) /\
  (m = 0 \/ m = 1 \/ (0 < m < 1 /\ dpoly b c d m = 0)).
Proof.
  destruct (continuity_ab_maj (poly a b c d) 0 1) as (m & Hm & Hm01); [lra| |].
  { intros x _. apply derivable_continuous_pt. exists (dpoly b c d x). apply poly_derivable. }
  exists m. split; [lra|]. split; [auto|].
  destruct (Req_dec m 0); [auto|]. destruct (Req_dec m 1); [auto|]. right; right.
  split; [lra|].
  assert (pr : derivable_pt (poly a b c d) m).
  { exists (dpoly b c d m). apply poly_derivable. }
  assert (H1 : derive_pt (poly a b c d) m pr = 0).
  { apply (deriv_maximum _ 0 1); try lra. intros x H1 H2. apply Hm. lra. }
  apply (derive_pt_eq_0 _ _ (dpoly b c d m) pr) in H1 || idtac.
  rewrite <- H1. symmetry. apply derive_pt_eq_0. apply poly_derivable.
Qed.

Lemma poly_min a b c d : exists m, 0 <= m <= 1 /\
  (forall t, 0 <= t <= 1 -> poly a b c d m <= poly a b c d t) /\
  (m = 0 \/ m = 1 \/ (0 < m < 1 /\ dpoly b c d m = 0)).
Proof.
  destruct (poly_max (-a) (-b) (-c) (-d)) as (m & H1 & H2 & H3).
  exists m. split; auto. split.
  - intros t Ht. specialize (H2 t Ht). unfold poly in *. lra.
  - destruct H3 as [|[|[? H3]]]; auto. right; right. split; auto. unfold dpoly in *. lra.
Qed.

(** If [rs] contains every critical point in (0,1), the hull of the values at
    [rs], 0 and 1 contains the whole polynomial. *)
Lemma poly_hull a b c d (l : list R) lo hi :
  (forall t, 0 < t < 1 -> dpoly b c d t = 0 -> In t l) ->
  lo <= poly a b c d 0 <= hi -> lo <= poly a b c d 1 <= hi ->
  (forall t, In t l -> 0 < t < 1 -> lo <= poly a b c d t <= hi) ->
  forall t, 0 <= t <= 1 -> lo <= poly a b c d t <= hi.
Proof.
  intros Hc H0 H1 Hl t Ht. split.
  - destruct (poly_min a b c d) as (m & Hm & Hle & Hcase). apply Rle_trans with (poly a b c d m); [|auto].
    destruct Hcase as [->|[->|[Hin Hd]]]; [lra|lra|]. apply Hl; auto.
  - destruct (poly_max a b c d) as (m & Hm & Hle & Hcase). apply Rle_trans with (poly a b c d m); [auto|].
    destruct Hcase as [->|[->|[Hin Hd]]]; [lra|lra|]. apply Hl; auto.
Qed.

(** ** Root finders *)
Section Roots.
  Context {E : Eps}.

  Lemma line_root_value (a b : R) :
    line_root a b = Ret (if Rlt_dec (Rabs a) eps then [] else [- b / a]).
  Proof. unfold line_root. rs. unfold Rltb. destruct (Rlt_dec (Rabs a) eps); reflexivity. Qed.

  Lemma abs_ge_eps_neq (a : R) : ~ Rabs a < eps -> a <> 0.
  Proof. intros H ->. apply H. rewrite Rabs_R0. apply eps_pos. Qed.

  (** at most two roots, never a capacity overflow *)
  Lemma quad_roots_ret (a b c : R) : exists l, quad_real_roots a b c = Ret l /\ (length l <= 2)%nat.
  Proof.
    unfold quad_real_roots. rs.
    destruct (Rltb (Rabs a) eps), (Rltb (Rabs b) eps), (Rltb 0 (b * b - a * c * 4)),
      (Rltb (Rabs (b * b - a * c * 4)) eps); (eexists; split; [reflexivity|simpl; lia]).
  Qed.

  Lemma quad_formula (a b c t : R) : a <> 0 ->
    a * (t * t) + b * t + c = 0 <->
    (2 * a * t + b) * (2 * a * t + b) = b * b - a * c * 4.
  Proof.
    intros Ha. split; intros H.
    - assert (4 * a * (a * (t * t) + b * t + c) = 0) by (rewrite H; ring). lra.
    - apply (Rmult_eq_reg_l (4 * a)); [|lra]. rewrite Rmult_0_r. lra.
  Qed.

  Lemma quad_roots_complete (a b c t : R) : eps <= Rabs a ->
    a * (t * t) + b * t + c = 0 ->
    exists l, quad_real_roots a b c = Ret l /\ In t l.
  Proof.
    intros Ha Ht. assert (Hne : a <> 0) by (apply abs_ge_eps_neq; lra).
    apply quad_formula in Ht; auto.
    unfold quad_real_roots. rs. rewrite Rltb_false by lra.
    set (delta := b * b - a * c * 4) in *.
    assert (0 <= delta) by (rewrite <- Ht; apply Rle_0_sqr).
    destruct (Rltb_spec 0 delta) as [Hd|Hd].
    - eexists. split; [reflexivity|]. simpl.
      assert (Hs : sqrt delta * sqrt delta = delta) by (apply sqrt_sqrt; lra).
      assert (Hf : (2 * a * t + b - sqrt delta) * (2 * a * t + b + sqrt delta) = 0) by lra.
      apply Rmult_integral in Hf as [Hf|Hf].
      + right; left. apply (Rmult_eq_reg_r (a * 2)); [|lra]. field_simplify; lra.
      + left. apply (Rmult_eq_reg_r (a * 2)); [|lra]. field_simplify; lra.
    - assert (E0 : delta = 0) by lra. rewrite E0, Rabs_R0.
      rewrite Rltb_true by apply eps_pos. eexists. split; [reflexivity|]. left.
      assert (Hz : 2 * a * t + b = 0) by (apply Rsqr_0_uniq; unfold Rsqr; lra).
      apply (Rmult_eq_reg_r (a * 2)); [|lra]. field_simplify; lra.
  Qed.

  (** soundness away from the [|delta| < EPSILON], [delta < 0] window *)
  Lemma quad_roots_sound (a b c : R) l t : eps <= Rabs a ->
    (0 <= b * b - a * c * 4 \/ b * b - a * c * 4 <= - eps) ->
    quad_real_roots a b c = Ret l -> In t l -> a * (t * t) + b * t + c = 0.
  Proof.
    intros Ha Hd. pose proof eps_pos. assert (Hne : a <> 0) by (apply abs_ge_eps_neq; lra).
    unfold quad_real_roots. rs. rewrite Rltb_false by lra.
    set (delta := b * b - a * c * 4) in *. intros Hl Hin.
    apply quad_formula; auto. fold delta.
    destruct (Rltb_spec 0 delta) as [Hp|Hp].
    - injection Hl as <-. assert (Hs : sqrt delta * sqrt delta = delta) by (apply sqrt_sqrt; lra).
      destruct Hin as [<-|[<-|[]]].
      + replace (2 * a * ((- b - sqrt delta) / (a * 2)) + b) with (- sqrt delta) by (field; auto). lra.
      + replace (2 * a * ((- b + sqrt delta) / (a * 2)) + b) with (sqrt delta) by (field; auto). lra.
    - destruct Hd as [Hd|Hd].
      + assert (E0 : delta = 0) by lra. rewrite E0 in *. rewrite Rabs_R0, Rltb_true in Hl by lra.
        injection Hl as <-. destruct Hin as [<-|[]].
        replace (2 * a * (- b / (a * 2)) + b) with 0 by (field; auto). ring.
      + rewrite Rabs_left, Rltb_false in Hl by lra. injection Hl as <-. destruct Hin.
  Qed.

  Lemma quad_roots_linear (a b c : R) : Rabs a < eps -> eps <= Rabs b ->
    quad_real_roots a b c = Ret [- c / b].
  Proof.
    intros Ha Hb. unfold quad_real_roots. rs. now rewrite Rltb_true, Rltb_false by lra.
  Qed.
  Lemma quad_roots_none (a b c : R) : Rabs a < eps -> Rabs b < eps ->
    quad_real_roots a b c = Ret [].
  Proof.
    intros Ha Hb. unfold quad_real_roots. rs. now rewrite !Rltb_true by lra.
  Qed.
End Roots.

Lemma t_1mt t : 0 <= t <= 1 -> 0 <= t * (1 - t) <= 1 / 4.
Proof.
  intros Ht. split; [apply Rmult_le_pos; lra|].
  pose proof (Rle_0_sqr (t - 1/2)) as H. unfold Rsqr in H. lra.
Qed.
Lemma mix_between lo hi x y t : 0 <= t <= 1 -> lo <= x <= hi -> lo <= y <= hi ->
  lo <= (1 - t) * x + t * y <= hi.
Proof. intros. split; nra. Qed.

(** ** Bounding boxes *)
Section BBox.
  Context {E : Eps} {P : Type} {PT : Point R P} {LP : LawfulPoint P}.

  Lemma quad_eval_roots_value (c : quad P) i l : (i < p_dim (P := P))%nat ->
    quad_eval_roots c i l = Ret (map (fun t => coord (quad_eval c t) i) l).
  Proof.
    intros Hi. induction l as [|t l IH]; simpl; auto.
    rewrite quad_casteljau_eval, axis_lt by assumption. simpl. rewrite IH. reflexivity.
  Qed.
  Lemma cubic_eval_roots_value (c : cubic P) i l : (i < p_dim (P := P))%nat ->
    cubic_eval_roots c i l = Ret (map (fun t => coord (cubic_eval c t) i) l).
  Proof.
    intros Hi. induction l as [|t l IH]; simpl; auto.
    rewrite cubic_casteljau_eval, axis_lt by assumption. simpl. rewrite IH. reflexivity.
  Qed.

  (** The tail of a bounding box iteration: values at the retained roots and
      the end points, sorted. *)
  Lemma bbox_tail (f : R -> R) (roots : list R) cap :
    (length roots + 2 <= cap)%nat ->
    exists lo hi,
      (let! extrema := av_push cap (map f (filter in_unit roots)) (f 0) in
       let! extrema := av_push cap extrema (f 1) in
       let! extrema := sort_by_partial_cmp extrema in
       let! lo := idx extrema 0 in
       let! hi := idx extrema (length extrema - 1) in
       Ret (lo, hi)) = Ret (lo, hi) /\
      (exists t, 0 <= t <= 1 /\ lo = f t) /\ (exists t, 0 <= t <= 1 /\ hi = f t) /\
      lo <= f 0 <= hi /\ lo <= f 1 <= hi /\
      (forall t, In t roots -> 0 < t < 1 -> lo <= f t <= hi).
  Proof.
    intros Hcap. pose proof (filter_length_le' in_unit roots) as Hf.
    set (vals := map f (filter in_unit roots)).
    assert (Hlen : (length vals <= length roots)%nat) by (unfold vals; now rewrite map_length).
    rewrite av_push_lt by lia. cbn [bind].
    rewrite av_push_lt by (rewrite app_length; simpl; lia). cbn [bind].
    rewrite sort_R. cbn [bind]. rewrite <- app_assoc. simpl app.
    destruct (isort_ends (vals ++ [f 0; f 1])) as (lo & hi & H1 & H2 & H3 & H4 & H5).
    { destruct vals; discriminate. }
    exists lo, hi. rewrite H1. cbn [bind]. rewrite H2. cbn [bind]. split; auto.
    assert (Hval : forall x, In x (vals ++ [f 0; f 1]) -> exists t, 0 <= t <= 1 /\ x = f t).
    { intros x Hx. apply in_app_or in Hx as [Hx|Hx].
      - unfold vals in Hx. apply in_map_iff in Hx as (t & <- & Ht).
        apply filter_In in Ht as [_ Ht]. apply in_unit_R in Ht. exists t. split; [lra|auto].
      - destruct Hx as [<-|[<-|[]]]; [exists 0|exists 1]; split; auto; lra. }
    split; [auto|]. split; [auto|].
    split; [apply H5, in_or_app; right; simpl; auto|].
    split; [apply H5, in_or_app; right; simpl; auto|].
    intros t Ht Hin. apply H5. apply in_or_app. left. unfold vals. apply in_map.
    apply filter_In. split; auto. now apply in_unit_R.
  Qed.

  (** *** Quadratic *)
  Definition qa (c : quad P) i :=
    2 * (coord (q_start c) i - 2 * coord (q_ctrl c) i + coord (q_end c) i).

  Lemma quad_bbox_axis_spec (c : quad P) i : (i < p_dim (P := P))%nat ->
    exists lo hi, quad_bbox_axis c i = Ret (lo, hi) /\
      (exists t, 0 <= t <= 1 /\ lo = coord (quad_eval c t) i) /\
      (exists t, 0 <= t <= 1 /\ hi = coord (quad_eval c t) i) /\
      (eps <= Rabs (qa c i) ->
        forall t, 0 <= t <= 1 -> lo <= coord (quad_eval c t) i <= hi) /\
      (forall t, 0 <= t <= 1 ->
         lo - Rmin eps (Rabs (qa c i)) / 8 <= coord (quad_eval c t) i
         <= hi + Rmin eps (Rabs (qa c i)) / 8).
  Proof.
    intros Hi. unfold quad_bbox_axis. cbv zeta. rewrite !axis_lt by assumption. cbn [bind].
    unfold quad_derivative. cbn [l_start l_end]. coords. rs.
    set (x := coord (q_start c) i). set (y := coord (q_ctrl c) i). set (z := coord (q_end c) i).
    replace ((y - x) * 2 * -1 + (z - y) * 2) with (qa c i) by (unfold qa; fold x y z; ring).
    assert (Eqa : qa c i = 2 * (x - 2 * y + z)) by reflexivity.
    set (a := qa c i) in *. set (b := (y - x) * 2).
    rewrite line_root_value. cbn [bind].
    set (roots := if Rlt_dec (Rabs a) eps then [] else [- b / a]).
    assert (Hlen : (length roots <= 1)%nat) by (unfold roots; destruct (Rlt_dec (Rabs a) eps); simpl; lia).
    rewrite av_extend_le by (simpl; lia). cbn [bind]. simpl app.
    rewrite quad_eval_roots_value by assumption. cbn [bind].
    set (f := fun t => coord (quad_eval c t) i).
    assert (E0 : x = f 0) by (unfold f; now rewrite quad_eval_0).
    assert (E1 : z = f 1) by (unfold f; now rewrite quad_eval_1).
    assert (Ef : forall t, f t = poly x b (a / 2) 0 t).
    { intros t. unfold f, poly. rewrite quad_eval_coord by assumption. fold x y z.
      rewrite Eqa. unfold b. field. }
    rewrite E0, E1.
    destruct (bbox_tail f roots 3) as (lo & hi & Heq & Hlo & Hhi & H0 & H1 & Hr); [lia|].
    exists lo, hi. split; [exact Heq|]. split; [exact Hlo|]. split; [exact Hhi|].
    assert (Hexact : eps <= Rabs a -> forall t, 0 <= t <= 1 -> lo <= f t <= hi).
    { intros Ha t Ht. rewrite Ef. apply (poly_hull x b (a/2) 0 roots); auto.
      - intros u Hu Hd. unfold roots. destruct (Rlt_dec (Rabs a) eps) as [|Hn]; [lra|].
        left. apply abs_ge_eps_neq in Hn. unfold dpoly in Hd.
        apply (Rmult_eq_reg_r a); auto. field_simplify; auto. lra.
      - now rewrite <- Ef.
      - now rewrite <- Ef.
      - intros u Hu Hu'. rewrite <- Ef. auto. }
    split; [exact Hexact|].
    intros t Ht. pose proof eps_pos. pose proof (Rabs_pos a).
    assert (0 <= Rmin eps (Rabs a)) by (apply Rmin_glb; lra).
    destruct (Rle_dec eps (Rabs a)) as [Ha|Ha].
    - specialize (Hexact Ha t Ht). fold (f t). lra.
    - rewrite Rmin_right by lra. fold (f t).
      assert (Hdev : f t = (1 - t) * f 0 + t * f 1 - a * (t * (1 - t)) / 2).
      { rewrite !Ef. unfold poly. field. }
      assert (Hq := t_1mt t Ht).
      assert (Rabs (a * (t * (1 - t))) <= Rabs a / 4).
      { rewrite Rabs_mult, (Rabs_pos_eq (t * (1 - t))) by lra. nra. }
      assert (Hab := Rle_abs (a * (t * (1 - t)))).
      assert (Hab' := Rle_abs (- (a * (t * (1 - t))))). rewrite Rabs_Ropp in Hab'.
      assert (Hmb := mix_between lo hi (f 0) (f 1) t Ht H0 H1).
      lra.
  Qed.

  Definition unret {A} (d : A) (x : outcome A) : A := match x with Ret a => a | _ => d end.

  Lemma quad_bbox_value (c : quad P) :
    quad_bounding_box c
    = Ret (map (fun i => unret (0, 0) (quad_bbox_axis c i)) (seq 0 (p_dim (P := P)))).
  Proof.
    unfold quad_bounding_box. apply (fill_loop (quad_bbox_axis c)).
    intros i Hi. destruct (quad_bbox_axis_spec c i Hi) as (lo & hi & H & _). now rewrite H.
  Qed.

  (** *** Cubic: coefficients of the derivative a t^2 + b t + c on axis i *)
  Definition ca (c : cubic P) i :=
    3 * (coord (c_end c) i - 3 * coord (c_ctrl2 c) i + 3 * coord (c_ctrl1 c) i - coord (c_start c) i).
  Definition cb (c : cubic P) i :=
    6 * (coord (c_start c) i - 2 * coord (c_ctrl1 c) i + coord (c_ctrl2 c) i).
  Definition cc (c : cubic P) i := 3 * (coord (c_ctrl1 c) i - coord (c_start c) i).

  Lemma cubic_bbox_axis_spec (c : cubic P) i : (i < p_dim (P := P))%nat ->
    exists lo hi, cubic_bbox_axis c i = Ret (lo, hi) /\
      (exists t, 0 <= t <= 1 /\ lo = coord (cubic_eval c t) i) /\
      (exists t, 0 <= t <= 1 /\ hi = coord (cubic_eval c t) i) /\
      (eps <= Rabs (ca c i) \/ (ca c i = 0 /\ eps <= Rabs (cb c i)) ->
        forall t, 0 <= t <= 1 -> lo <= coord (cubic_eval c t) i <= hi) /\
      (forall t, 0 <= t <= 1 ->
         lo - 3 * eps / 8 <= coord (cubic_eval c t) i <= hi + 3 * eps / 8).
  Proof.
    intros Hi. unfold cubic_bbox_axis. cbv zeta. rewrite !axis_lt by assumption. cbn [bind].
    unfold cubic_derivative. cbn [q_start q_ctrl q_end]. coords. rs.
    set (x := coord (c_start c) i). set (y := coord (c_ctrl1 c) i).
    set (z := coord (c_ctrl2 c) i). set (w := coord (c_end c) i).
    match goal with |- context [quad_real_roots ?A ?B ?C] =>
      replace A with (ca c i) by (unfold ca; fold x y z w; ring);
      replace B with (cb c i) by (unfold cb; fold x y z w; ring);
      replace C with (cc c i) by (unfold cc; fold x y z w; ring) end.
    assert (Ea : ca c i = 3 * (w - 3 * z + 3 * y - x)) by reflexivity.
    assert (Eb : cb c i = 6 * (x - 2 * y + z)) by reflexivity.
    assert (Ec : cc c i = 3 * (y - x)) by reflexivity.
    set (a := ca c i) in *. set (b := cb c i) in *. set (cc0 := cc c i) in *.
    destruct (quad_roots_ret a b cc0) as (roots & Hroots & Hlen). rewrite Hroots. cbn [bind].
    rewrite av_extend_le by (simpl; lia). cbn [bind]. simpl app.
    rewrite cubic_eval_roots_value by assumption. cbn [bind].
    set (f := fun t => coord (cubic_eval c t) i).
    assert (E0 : x = f 0) by (unfold f; now rewrite cubic_eval_0).
    assert (E1 : w = f 1) by (unfold f; now rewrite cubic_eval_1).
    assert (Ef : forall t, f t = poly x cc0 (b / 2) (a / 3) t).
    { intros t. unfold f, poly. rewrite cubic_eval_coord by assumption. fold x y z w.
      rewrite Ea, Eb, Ec. field. }
    rewrite E0, E1.
    destruct (bbox_tail f roots 4) as (lo & hi & Heq & Hlo & Hhi & H0 & H1 & Hr); [lia|].
    exists lo, hi. split; [exact Heq|]. split; [exact Hlo|]. split; [exact Hhi|].
    pose proof eps_pos as Hep. pose proof (Rabs_pos a).
    assert (Hexact : eps <= Rabs a \/ (a = 0 /\ eps <= Rabs b) ->
                     forall t, 0 <= t <= 1 -> lo <= f t <= hi).
    { intros Hc t Ht. rewrite Ef. apply (poly_hull x cc0 (b/2) (a/3) roots); auto.
      - intros u Hu Hd. unfold dpoly in Hd. destruct Hc as [Ha|[Ha Hb]].
        + destruct (quad_roots_complete a b cc0 u Ha) as (l & Hl & Hin); [lra|].
          rewrite Hroots in Hl. now injection Hl as ->.
        + rewrite quad_roots_linear in Hroots by (rewrite ?Ha, ?Rabs_R0; lra).
          injection Hroots as <-. left.
          assert (b <> 0) by (apply abs_ge_eps_neq; lra).
          apply (Rmult_eq_reg_r b); auto. field_simplify; auto. rewrite Ha in Hd. lra.
      - now rewrite <- Ef.
      - now rewrite <- Ef.
      - intros u Hu Hu'. rewrite <- Ef. auto. }
    split; [exact Hexact|].
    intros t Ht. change (lo - 3 * eps / 8 <= f t <= hi + 3 * eps / 8).
    destruct (Rle_dec eps (Rabs a)) as [Ha|Ha].
    { specialize (Hexact (or_introl Ha) t Ht). lra. }
    assert (Ha' : - eps < a < eps) by (destruct (Rabs_def2 a eps); lra).
    destruct (Rle_dec eps (Rabs b)) as [Hb|Hb].
    - (* linear root only *)
      rewrite quad_roots_linear in Hroots by lra. injection Hroots as <-.
      assert (Hbne : b <> 0) by (apply abs_ge_eps_neq; lra).
      assert (Hcube : forall u, 0 <= u <= 1 -> 0 <= u * (u * u) <= 1) by (intros; nra).
      (* g: the polynomial without its cubic term *)
      set (g := poly x cc0 (b / 2) 0).
      assert (Hfg : forall u, f u = g u + a / 3 * (u * (u * u))).
      { intros u. rewrite Ef. unfold g, poly. ring. }
      assert (Hcrit : forall u, 0 < u < 1 -> dpoly cc0 (b/2) 0 u = 0 -> u = - cc0 / b).
      { intros u Hu Hd. unfold dpoly in Hd. apply (Rmult_eq_reg_r b); auto.
        field_simplify; auto. lra. }
      assert (Hbound : forall u v, 0 <= u <= 1 -> 0 <= v <= 1 ->
                - eps / 3 <= a / 3 * (u * (u * u)) - a / 3 * (v * (v * v)) <= eps / 3).
      { intros u v Hu Hv. pose proof (Hcube u Hu). pose proof (Hcube v Hv).
        replace (a / 3 * (u * (u * u)) - a / 3 * (v * (v * v)))
          with (a * (u * (u * u) - v * (v * v)) / 3) by field.
        assert (- eps <= a * (u * (u * u) - v * (v * v)) <= eps) by (split; nra). lra. }
      split.
      + destruct (poly_min x cc0 (b/2) 0) as (m & Hm & Hle & Hcase).
        specialize (Hle t Ht). fold (g m) (g t) in Hle.
        assert (lo <= f m).
        { destruct Hcase as [->|[->|[Hin Hd]]]; [lra|lra|]. apply Hr; auto.
          left. symmetry. auto. }
        rewrite Hfg in *. specialize (Hbound t m Ht Hm). lra.
      + destruct (poly_max x cc0 (b/2) 0) as (m & Hm & Hle & Hcase).
        specialize (Hle t Ht). fold (g m) (g t) in Hle.
        assert (f m <= hi).
        { destruct Hcase as [->|[->|[Hin Hd]]]; [lra|lra|]. apply Hr; auto.
          left. symmetry. auto. }
        rewrite Hfg in *. specialize (Hbound t m Ht Hm). lra.
    - (* no roots: the curve is nearly straight on this axis *)
      assert (Hb' : - eps < b < eps) by (destruct (Rabs_def2 b eps); lra).
      assert (Hdev : f t = (1 - t) * f 0 + t * f 1
                           - t * (1 - t) * (b / 2 + a * (1 + t) / 3)).
      { rewrite !Ef. unfold poly. field. }
      assert (Hq := t_1mt t Ht).
      assert (Hmb := mix_between lo hi (f 0) (f 1) t Ht H0 H1).
      assert (Hmix : - (3 * eps / 2) <= b / 2 + a * (1 + t) / 3 <= 3 * eps / 2).
      { assert (- (2 * eps) <= a * (1 + t) <= 2 * eps) by (split; nra). lra. }
      set (m := b / 2 + a * (1 + t) / 3) in *. set (q := t * (1 - t)) in *.
      assert (- (3 * eps / 8) <= q * m <= 3 * eps / 8) by (split; nra). lra.
  Qed.

  Lemma cubic_bbox_value (c : cubic P) :
    cubic_bounding_box c
    = Ret (map (fun i => unret (0, 0) (cubic_bbox_axis c i)) (seq 0 (p_dim (P := P)))).
  Proof.
    unfold cubic_bounding_box. apply (fill_loop (cubic_bbox_axis c)).
    intros i Hi. destruct (cubic_bbox_axis_spec c i Hi) as (lo & hi & H & _). now rewrite H.
  Qed.
End BBox.
