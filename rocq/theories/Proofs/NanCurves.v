(** Proofs for C139: a NaN among the control points. *)
From Coq Require Import Reals ZArith List Arith Lia Lra Bool.
From Flocq Require Import Core.Core IEEE754.BinarySingleNaN.
From Verif Require Import Base.Outcome Base.Scalar Model.Point Model.Line Model.Quadratic Model.Cubic Model.Bezier
  Inst.FloatInst Spec.Rounding Spec.Componentwise Spec.FloatPoints Spec.Adaptive
  Proofs.OutcomeFacts Proofs.FloatPoint Proofs.BezierGeneric Proofs.BoxGeneric Proofs.FloatBox Proofs.Poison
  Proofs.AdaptiveFloat.
Import ListNotations.

Section Scalars.
  Context {F : Format}.
  Implicit Types x y : @float F.
  Lemma nan_is x : nan x -> x = B754_nan.
  Proof. unfold nan. now destruct x. Qed.
  Lemma nan_sub_r x y : nan y -> nan (s_sub x y).
  Proof. intros H. rewrite (nan_is y H). now destruct x. Qed.
  Lemma nan_mul_r x y : nan y -> nan (s_mul x y).
  Proof. intros H. rewrite (nan_is y H). now destruct x. Qed.
  Lemma nan_div_r x y : nan y -> nan (s_div x y).
  Proof. intros H. rewrite (nan_is y H). now destruct x. Qed.
  Lemma nan_sqrt x : nan x -> nan (s_sqrt x).
  Proof. intros H. now rewrite (nan_is x H). Qed.
  Lemma nan_abs x : nan x -> nan (s_abs x).
  Proof. intros H. now rewrite (nan_is x H). Qed.
  Lemma ltb_nan_l x y : nan x -> s_ltb x y = false.
  Proof. intros H. now rewrite (nan_is x H). Qed.
  Lemma ltb_nan_r x y : nan y -> s_ltb x y = false.
  Proof. intros H. rewrite (nan_is y H). now destruct x as [[]|[]| |[]]. Qed.
  Lemma leb_nan_l x y : nan x -> s_leb x y = false.
  Proof. intros H. now rewrite (nan_is x H). Qed.
End Scalars.

(** searches a NaN inside an arithmetic expression *)
Ltac nans := lazymatch goal with
  | |- nan (s_add _ _) => first [apply nan_add_l; nans | apply nan_add_r; nans]
  | |- nan (s_sub _ _) => first [apply nan_sub_l; nans | apply nan_sub_r; nans]
  | |- nan (s_mul _ _) => first [apply nan_mul_l; nans | apply nan_mul_r; nans]
  | |- nan (s_div _ _) => apply nan_div_r; nans
  | |- nan (s_sqrt _) => apply nan_sqrt; nans
  | |- nan (s_abs _) => apply nan_abs; nans
  | |- nan _ => assumption
  end.

Section Nan.
  Context {F : Format} {P : Type} {PT : Point float P} {CP : CwPoint float P}.
  Variable i : nat.
  Hypothesis Hi : i < p_dim (P := P).
  Notation bad := (fun p : P => nan (cw p i)).
  Ltac coords := repeat (first [rewrite cw_add by exact Hi | rewrite cw_sub by exact Hi | rewrite cw_mul by exact Hi]).

  Lemma line_nan (l : line P) t : bad (l_start l) \/ bad (l_end l) -> bad (line_eval l t).
  Proof. intros [H|H]; unfold line_eval; coords; nans. Qed.
  Lemma quad_nan (q : quad P) t : bad (q_start q) \/ bad (q_ctrl q) \/ bad (q_end q) ->
    bad (quad_eval q t) /\ bad (quad_eval_casteljau q t).
  Proof. intros [H|[H|H]]; (split; [unfold quad_eval|unfold quad_eval_casteljau]); cbv zeta; coords; nans. Qed.
  Lemma cubic_nan (c : cubic P) t : bad (c_start c) \/ bad (c_ctrl1 c) \/ bad (c_ctrl2 c) \/ bad (c_end c) ->
    bad (cubic_eval c t) /\ bad (cubic_eval_casteljau c t).
  Proof. intros [H|[H|[H|H]]]; (split; [unfold cubic_eval|unfold cubic_eval_casteljau]); cbv zeta; coords; nans. Qed.
  Lemma tri_nan (p : nat -> P) t m : forall j k, j <= k <= j + m -> bad (p k) -> bad (tri t p m j).
  Proof.
    induction m as [|m IH]; intros j k Hk H; cbn [tri].
    - now replace j with k by lia.
    - unfold lerp. destruct (Nat.eq_dec k (j + S m)) as [->|].
      + assert (A : bad (tri t p m (j + 1))) by (apply (IH (j + 1) (j + S m)); [lia|exact H]). coords. nans.
      + assert (A : bad (tri t p m j)) by (apply (IH j k); [lia|exact H]). coords. nans.
  Qed.
  Lemma bezier_nan (ps : list P) t q : In q ps -> bad q -> exists p, bezier_eval (Bezier ps) t = Ret p /\ bad p.
  Proof.
    intros Hq H. destruct ps as [|p0 ps]; [inversion Hq|].
    rewrite (bezier_eval_closed _ t p0) by discriminate. eexists. split; [reflexivity|].
    destruct (In_nth _ _ p0 Hq) as (k & Hk & Ek). apply tri_nan with k; [cbn [length] in *; lia|]. now rewrite Ek.
  Qed.

  Lemma dot_total (x y : P) : exists d, dot_loop x y = Ret d.
  Proof.
    unfold dot_loop. destruct (for_in_range_inv (fun _ _ => True) 0 (p_dim (P := P)) (s_lit 0)
      (fun i dot => let! a := p_axis x i in let! b := p_axis y i in Ret (s_add dot (s_mul a b)))) as (d & H & _); try lia; auto.
    - intros j d Hj _. rewrite !cw_axis. destruct (Nat.ltb_spec j (p_dim (P := P))); [|lia]. cbn [bind]. eauto.
    - exists d. exact H.
  Qed.

  (** distances *)
  Lemma quad_distance_nan (q : quad P) p : bad (q_start q) \/ bad (q_ctrl q) \/ bad (q_end q) ->
    quad_distance_to_point q p = Ret (s_sqrt (p_sqlen (p_sub p (q_start q)))).
  Proof. intros H. apply (search_blind _ _ _ i Hi). intros t. eexists. split; [reflexivity|]. now apply quad_nan. Qed.
  Lemma cubic_distance_nan (c : cubic P) p : bad (c_start c) \/ bad (c_ctrl1 c) \/ bad (c_ctrl2 c) \/ bad (c_end c) ->
    cubic_distance_to_point c p = Ret (s_sqrt (p_sqlen (p_sub p (c_start c)))).
  Proof. intros H. apply (search_blind _ _ _ i Hi). intros t. eexists. split; [reflexivity|]. now apply cubic_nan. Qed.
  Lemma bezier_distance_nan (ps : list P) p q d : In q ps -> bad q ->
    bezier_distance_to_point (Bezier ps) p = Ret (s_sqrt (p_sqlen (p_sub p (nth 0 ps d)))).
  Proof.
    intros Hq H. destruct ps as [|p0 ps]; [inversion Hq|]. unfold bezier_distance_to_point. cbn [bz_points idx nth].
    change (idx (p0 :: ps) 0) with (Ret p0). cbn [bind].
    apply (search_blind _ _ _ i Hi). intros t. apply bezier_nan with q; assumption.
  Qed.
  Lemma line_distance_nan (l : line P) p : bad (l_start l) \/ bad (l_end l) \/ bad p ->
    exists d, line_distance_to_point l p = Ret d /\ (bad (l_start l) \/ bad p -> nan d) /\
      (bad (l_end l) -> nan d).
  Proof.
    intros H. unfold line_distance_to_point. cbv zeta.
    assert (E : bad (l_start l) \/ bad (l_end l) -> nan (p_sqlen (p_sub (l_end l) (l_start l)))).
    { intros H'. apply sqlen_nan with i; [exact Hi|]. destruct H'; coords; nans. }
    destruct (s_ltb (p_sqlen (p_sub (l_end l) (l_start l))) s_eps) eqn:El.
    - eexists. split; [reflexivity|].
      assert (N : ~ (bad (l_start l) \/ bad (l_end l))).
      { intros H'. rewrite ltb_nan_l in El by (apply E, H'). discriminate. }
      split; intros H'; [|tauto]. apply nan_sqrt, sqlen_nan with i; [exact Hi|]. destruct H' as [H'|H']; [tauto|]. coords. nans.
    - destruct (dot_total (p_sub p (l_start l)) (p_sub (l_end l) (l_start l))) as (dd & ->). cbn [bind].
      eexists. split; [reflexivity|]. split; intros H'; apply nan_sqrt, sqlen_nan with i; try exact Hi.
      + destruct H' as [H'|H']; coords; nans.
      + coords; nans.
  Qed.

  Lemma line_distance_total (l : line P) p : exists d, line_distance_to_point l p = Ret d.
  Proof.
    unfold line_distance_to_point. cbv zeta. destruct (s_ltb _ _); [eauto|].
    destruct (dot_total (p_sub p (l_start l)) (p_sub (l_end l) (l_start l))) as (d & ->). cbn [bind]. eauto.
  Qed.

  (** flatness tests *)
  Lemma quad_flat_nan (q : quad P) tol : bad (q_start q) \/ bad (q_ctrl q) \/ bad (q_end q) ->
    quad_is_linear q tol = Ret false /\ quad_is_a_point q tol = false.
  Proof.
    intros H. split.
    - unfold quad_is_linear, quad_are_points_colinear. destruct (s_ltb _ _); [reflexivity|].
      destruct (line_distance_nan (quad_baseline q) (q_ctrl q)) as (d & -> & N1 & N2); [cbn [quad_baseline l_start l_end]; tauto|].
      cbn [bind]. rewrite leb_nan_l; [reflexivity|]. cbn [quad_baseline l_start l_end] in *. tauto.
    - unfold quad_is_a_point. cbv zeta. destruct H as [H|[H|H]].
      + rewrite leb_nan_l; [reflexivity|]. apply sqlen_nan with i; [exact Hi|]. coords. nans.
      + rewrite (leb_nan_l (p_sqlen (p_sub (q_start q) (q_ctrl q)))); [apply andb_false_r|].
        apply sqlen_nan with i; [exact Hi|]. coords. nans.
      + rewrite leb_nan_l; [reflexivity|]. apply sqlen_nan with i; [exact Hi|]. coords. nans.
  Qed.
  Lemma cubic_flat_nan (c : cubic P) tol : bad (c_start c) \/ bad (c_ctrl1 c) \/ bad (c_ctrl2 c) \/ bad (c_end c) ->
    cubic_is_linear c tol = Ret false /\ cubic_is_a_point c tol = false.
  Proof.
    intros H. split.
    - unfold cubic_is_linear, cubic_are_points_colinear. destruct (s_ltb _ _); [reflexivity|].
      destruct (line_distance_total (cubic_baseline c) (c_ctrl1 c)) as (d1 & E1). rewrite E1. cbn [bind].
      destruct (s_leb d1 tol) eqn:L1; [|reflexivity].
      destruct (line_distance_total (cubic_baseline c) (c_ctrl2 c)) as (d2 & E2). rewrite E2. cbn [bind].
      destruct H as [H|[H|[H|H]]].
      + destruct (line_distance_nan (cubic_baseline c) (c_ctrl1 c)) as (d & E & N1 & N2); [now left|].
        rewrite E1 in E. injection E as <-. rewrite leb_nan_l in L1 by (apply N1; now left). discriminate.
      + destruct (line_distance_nan (cubic_baseline c) (c_ctrl1 c)) as (d & E & N1 & N2); [tauto|].
        rewrite E1 in E. injection E as <-. rewrite leb_nan_l in L1 by (apply N1; now right). discriminate.
      + destruct (line_distance_nan (cubic_baseline c) (c_ctrl2 c)) as (d & E & N1 & N2); [tauto|].
        rewrite E2 in E. injection E as <-. rewrite leb_nan_l by (apply N1; now right). reflexivity.
      + destruct (line_distance_nan (cubic_baseline c) (c_ctrl1 c)) as (d & E & N1 & N2); [right; left; exact H|].
        rewrite E1 in E. injection E as <-. rewrite leb_nan_l in L1 by (apply N2; exact H). discriminate.
    - unfold cubic_is_a_point. cbv zeta.
      assert (S : forall a b : P, bad a \/ bad b -> s_leb (p_sqlen (p_sub a b)) (s_mul tol tol) = false).
      { intros a b Hab. apply leb_nan_l, sqlen_nan with i; [exact Hi|]. destruct Hab; coords; nans. }
      destruct H as [H|[H|[H|H]]].
      + rewrite (S (c_start c) (c_end c)) by tauto. reflexivity.
      + rewrite (S (c_start c) (c_ctrl1 c)) by tauto. now rewrite ?andb_false_r.
      + rewrite (S (c_end c) (c_ctrl2 c)) by tauto. now rewrite ?andb_false_r.
      + rewrite (S (c_start c) (c_end c)) by tauto. reflexivity.
  Qed.

  (** adaptive flattening *)
  Theorem quad_flatten_nan (q : quad P) tol t d l : bad (q_start q) \/ bad (q_ctrl q) \/ bad (q_end q) ->
    flattened (fun q => if quad_is_a_point q tol then Ret true else quad_is_linear q tol)
      (fun q => quad_split q t) d q <> Ret (Some l).
  Proof.
    apply (flattened_not _ _ (fun q => bad (q_start q) \/ bad (q_ctrl q) \/ bad (q_end q))).
    intros [a b c] H. cbn [q_start q_ctrl q_end] in H. destruct (quad_flat_nan (Quad a b c) tol H) as [-> ->]. split; [reflexivity|].
    left. unfold quad_split. cbv zeta. cbn [snd q_start q_ctrl q_end]. destruct H as [H|[H|H]]; coords; nans.
  Qed.
  Theorem cubic_flatten_nan (c : cubic P) tol t d l : bad (c_start c) \/ bad (c_ctrl1 c) \/ bad (c_ctrl2 c) \/ bad (c_end c) ->
    flattened (fun q => if cubic_is_a_point q tol then Ret true else cubic_is_linear q tol)
      (fun q => cubic_split q t) d c <> Ret (Some l).
  Proof.
    apply (flattened_not _ _ (fun q => bad (c_start q) \/ bad (c_ctrl1 q) \/ bad (c_ctrl2 q) \/ bad (c_end q))).
    intros [a b c' e] H. cbn [c_start c_ctrl1 c_ctrl2 c_end] in H. destruct (cubic_flat_nan (Cubic a b c' e) tol H) as [-> ->]. split; [reflexivity|].
    left. unfold cubic_split. cbv zeta. cbn [snd c_start c_ctrl1 c_ctrl2 c_end]. destruct H as [H|[H|[H|H]]]; coords; nans.
  Qed.

  (** lengths *)
  Lemma sum_nan (f g : nat -> outcome P) l (acc : float) :
    (forall j, exists p, f j = Ret p /\ bad p) -> (forall j, exists p, g j = Ret p) -> nan acc \/ l <> [] ->
    exists r, for_in l acc (fun j arclen => let! p1 := f j in let! p2 := g j in
      Ret (s_add arclen (s_sqrt (p_sqlen (p_sub p1 p2))))) = Ret r /\ nan r.
  Proof.
    intros Hf Hg. revert acc. induction l as [|j l IH]; intros acc H; cbn [for_in].
    - exists acc. split; [reflexivity|]. destruct H as [H|H]; [exact H|congruence].
    - destruct (Hf j) as (p & -> & Hp). destruct (Hg j) as (q & ->). cbn [bind]. apply IH. left.
      apply nan_add_r, nan_sqrt, sqlen_nan with i; [exact Hi|]. coords. nans.
  Qed.
  Lemma range_ne n : 2 <= n -> range 1 n <> [].
  Proof. intros H E. pose proof (one_in n H) as I1. rewrite E in I1. inversion I1. Qed.
  Theorem quad_arclen_nan (q : quad P) n : bad (q_start q) \/ bad (q_ctrl q) \/ bad (q_end q) -> 2 <= n ->
    exists r, quad_arclen q n = Ret r /\ nan r.
  Proof.
    intros H Hn. unfold quad_arclen.
    apply (sum_nan (fun i => Ret (quad_eval_casteljau q (s_div (s_mul (s_of_usize i) (s_lit 1)) (s_of_usize n))))
      (fun i => Ret (quad_eval_casteljau q (s_add (s_div (s_mul (s_of_usize i) (s_lit 1)) (s_of_usize n)) (s_div (s_lit 1) (s_of_usize n)))))).
    - intros j. eexists. split; [reflexivity|]. now apply quad_nan.
    - intros j. eexists. reflexivity.
    - right. now apply range_ne.
  Qed.
  Theorem cubic_arclen_nan (c : cubic P) n : bad (c_start c) \/ bad (c_ctrl1 c) \/ bad (c_ctrl2 c) \/ bad (c_end c) -> 2 <= n ->
    exists r, cubic_arclen c n = Ret r /\ nan r.
  Proof.
    intros H Hn. unfold cubic_arclen.
    apply (sum_nan (fun i => Ret (cubic_eval_casteljau c (s_div (s_mul (s_of_usize i) (s_lit 1)) (s_of_usize n))))
      (fun i => Ret (cubic_eval_casteljau c (s_add (s_div (s_mul (s_of_usize i) (s_lit 1)) (s_of_usize n)) (s_div (s_lit 1) (s_of_usize n)))))).
    - intros j. eexists. split; [reflexivity|]. now apply cubic_nan.
    - intros j. eexists. reflexivity.
    - right. now apply range_ne.
  Qed.
  Theorem bezier_arclen_nan (ps : list P) n q : In q ps -> bad q -> 2 <= n ->
    exists r, bezier_arclen (Bezier ps) n = Ret r /\ nan r.
  Proof.
    intros Hq H Hn. unfold bezier_arclen.
    apply (sum_nan (fun i => bezier_eval (Bezier ps) (s_div (s_mul (s_of_usize i) (s_lit 1)) (s_of_usize n)))
      (fun i => bezier_eval (Bezier ps) (s_add (s_div (s_mul (s_of_usize i) (s_lit 1)) (s_of_usize n)) (s_div (s_lit 1) (s_of_usize n))))).
    - intros j. now apply bezier_nan with q.
    - intros j. destruct (bezier_nan ps (s_add (s_div (s_mul (s_of_usize j) (s_lit 1)) (s_of_usize n)) (s_div (s_lit 1) (s_of_usize n))) q Hq H)
        as (p & -> & _). eauto.
    - right. now apply range_ne.
  Qed.

  (** bounding boxes *)
  Lemma box_ends (s e : float) b : box_of [s; e] = Ret b ->
    (b = (s, e) /\ s_leb s e = true) \/ (b = (e, s) /\ s_leb e s = true).
  Proof.
    unfold box_of, sort_by_partial_cmp. cbn [existsb s_isort s_insert].
    destruct (s_is_nan s) eqn:Ns; [discriminate|]. destruct (s_is_nan e) eqn:Ne; [discriminate|]. cbn [orb bind].
    destruct (s_leb s e) eqn:L; cbn; intros H; injection H as <-; [now left|right]. split; [reflexivity|].
    apply leb_total; [intros N; unfold nan in N; cbn in Ns, N; congruence|intros N; unfold nan in N; cbn in Ne, N; congruence|exact L].
  Qed.
  Lemma nan_unit (x : float) : nan x -> in_unit x = false.
  Proof. intros H. unfold in_unit. now rewrite (ltb_nan_r _ x H). Qed.
  Lemma quad_axis_nan (q : quad P) : bad (q_ctrl q) -> quad_bbox_axis q i = box_of [cw (q_start q) i; cw (q_end q) i].
  Proof.
    intros H. destruct (quad_bbox_axis_box q i Hi) as (l & _ & Hl & ->).
    destruct l as [|r l]; [reflexivity|]. destruct (Hl r (or_introl eq_refl)) as [U E]. exfalso.
    rewrite nan_unit in U; [discriminate|]. rewrite E. nans.
  Qed.
  Lemma cubic_axis_nan (c : cubic P) : bad (c_ctrl1 c) \/ bad (c_ctrl2 c) ->
    cubic_bbox_axis c i = box_of [cw (c_start c) i; cw (c_end c) i].
  Proof.
    intros H. destruct (cubic_bbox_axis_box c i Hi) as (l & _ & Hl & ->).
    destruct l as [|r l]; [reflexivity|]. destruct (Hl r (or_introl eq_refl)) as [U E]. exfalso.
    rewrite nan_unit in U; [discriminate|]. destruct E as [[E _]|[x E]].
    - rewrite ltb_nan_l in E; [discriminate|]. destruct H; nans.
    - rewrite E. destruct H; nans.
  Qed.
  Lemma fill_at {B : Type} (f : nat -> outcome B) init n bs j : fill f init n = Ret bs -> n <= length init -> j < n ->
    (forall k, k < n -> f k = Panic \/ exists b, f k = Ret b) -> exists b, f j = Ret b /\ nth_error bs j = Some b.
  Proof.
    intros E Hn Hj Hf.
    assert (A : forall k, k < n -> exists b, f k = Ret b).
    { intros k Hk. destruct (Hf k Hk) as [Ep|Er]; [|exact Er].
      rewrite (fill_panic f init n Hn Hf) in E by eauto. discriminate. }
    destruct (fill_ret f init n Hn A) as (bs' & E' & _ & H). rewrite E in E'. injection E' as <-. apply H, Hj.
  Qed.
  Theorem quad_box_ctrl_nan (q : quad P) bounds : bad (q_ctrl q) -> quad_bounding_box q = Ret bounds ->
    let s := cw (q_start q) i in let e := cw (q_end q) i in
    (nth_error bounds i = Some (s, e) /\ s_leb s e = true) \/ (nth_error bounds i = Some (e, s) /\ s_leb e s = true).
  Proof.
    intros H E. cbv zeta. rewrite quad_box_fill in E.
    destruct (fill_at _ _ _ _ i E) as (b & Eb & ->); [rewrite repeat_length; lia|exact Hi|intros k Hk; now apply quad_axis_cases|].
    rewrite quad_axis_nan in Eb by exact H. destruct (box_ends _ _ _ Eb) as [[-> L]|[-> L]]; auto.
  Qed.
  Theorem cubic_box_ctrl_nan (c : cubic P) bounds : bad (c_ctrl1 c) \/ bad (c_ctrl2 c) -> cubic_bounding_box c = Ret bounds ->
    let s := cw (c_start c) i in let e := cw (c_end c) i in
    (nth_error bounds i = Some (s, e) /\ s_leb s e = true) \/ (nth_error bounds i = Some (e, s) /\ s_leb e s = true).
  Proof.
    intros H E. cbv zeta. rewrite cubic_box_fill in E.
    destruct (fill_at _ _ _ _ i E) as (b & Eb & ->); [rewrite repeat_length; lia|exact Hi|intros k Hk; now apply cubic_axis_cases|].
    rewrite cubic_axis_nan in Eb by exact H. destruct (box_ends _ _ _ Eb) as [[-> L]|[-> L]]; auto.
  Qed.
End Nan.
