(** Scalar homomorphisms commute with the (sqrt-free part of the) model; used to
    carry runs over Q to the real instance. *)
From Coq Require Import Reals QArith Qabs Qreals List Arith Bool Lia Lra.
From Verif Require Import Base.Outcome Base.Scalar Model.Point Model.Line Model.Quadratic Model.Cubic
  Model.Bezier Model.BSpline Inst.RealInst Inst.RatInst Spec.Maps Proofs.OutcomeFacts Proofs.PointFacts.
Import ListNotations.
Local Open Scope nat_scope.

Lemma omap_bind {A B C D} (f : A -> C) (g : B -> D) (x : outcome A) k k' :
  (forall a, k' (f a) = omap g (k a)) -> bind (omap f x) k' = omap g (bind x k).
Proof. intros H. destruct x; simpl; auto. Qed.
Lemma bind_same {A B D} (g : B -> D) (x : outcome A) k k' :
  (forall a, k' a = omap g (k a)) -> bind x k' = omap g (bind x k).
Proof. intros H. destruct x; simpl; auto. Qed.
Lemma idx_map {A B} (f : A -> B) l i : idx (map f l) i = omap f (idx l i).
Proof. unfold idx. rewrite nth_error_map. destruct (nth_error l i); reflexivity. Qed.
Lemma replace_nth_map {A B} (f : A -> B) l i v : replace_nth (map f l) i (f v) = map f (replace_nth l i v).
Proof. revert i. induction l as [|x l IH]; intros [|i]; simpl; auto. now rewrite IH. Qed.
Lemma set_idx_map {A B} (f : A -> B) l i v : set_idx (map f l) i (f v) = omap (map f) (set_idx l i v).
Proof. unfold set_idx. rewrite map_length. destruct (i <? length l); simpl; auto. now rewrite replace_nth_map. Qed.

Lemma for_in_map {S S'} (h : S -> S') is s body body' :
  (forall i s, body' i (h s) = omap h (body i s)) ->
  for_in is (h s) body' = omap h (for_in is s body).
Proof.
  intros H. revert s. induction is as [|i is IH]; intros s; simpl; auto.
  rewrite H. apply omap_bind. auto.
Qed.
Lemma for_result_map {S S' E} (h : S -> S') is s (body : nat -> S -> outcome (result S E)) body' :
  (forall i s, body' i (h s) = omap (rmap h) (body i s)) ->
  for_result is (h s) body' = omap (rmap h) (for_result is s body).
Proof.
  intros H. revert s. induction is as [|i is IH]; intros s; simpl; auto.
  rewrite H. apply omap_bind. intros [a|e]; simpl; auto.
Qed.
Lemma for_break_map {S S'} (h : S -> S') is s (body : nat -> S -> outcome (S * bool)) body' :
  (forall i s, body' i (h s) = omap (fun r => (h (fst r), snd r)) (body i s)) ->
  for_break is (h s) body' = omap h (for_break is s body).
Proof.
  intros H. revert s. induction is as [|i is IH]; intros s; simpl; auto.
  rewrite H. apply omap_bind. intros [a [|]]; simpl; auto.
Qed.
Lemma map_repeat {A B} (f : A -> B) x n : map f (repeat x n) = repeat (f x) n.
Proof. induction n; simpl; congruence. Qed.

Class SHom {A B : Type} {SA : Scalar A} {SB : Scalar B} (h : A -> B) : Prop := {
  h_add : forall x y, s_add (h x) (h y) = h (s_add x y);
  h_sub : forall x y, s_sub (h x) (h y) = h (s_sub x y);
  h_mul : forall x y, s_mul (h x) (h y) = h (s_mul x y);
  h_div : forall x y, s_div (h x) (h y) = h (s_div x y);
  h_neg : forall x, s_neg (h x) = h (s_neg x);
  h_abs : forall x, s_abs (h x) = h (s_abs x);
  h_ltb : forall x y, s_ltb (h x) (h y) = s_ltb x y;
  h_leb : forall x y, s_leb (h x) (h y) = s_leb x y;
  h_eqb : forall x y, s_eqb (h x) (h y) = s_eqb x y;
  h_nan : forall x, s_is_nan (h x) = s_is_nan x;
  h_lit : forall z, s_lit z = h (s_lit z);
  h_half : s_half = h s_half;
  h_usize : forall n, s_of_usize n = h (s_of_usize n)
}.
(** only needed by functions that use EPSILON *)
Class EHom {A B : Type} {SA : Scalar A} {SB : Scalar B} (h : A -> B) : Prop := {
  h_eps : s_eps = h s_eps
}.

(** maps of points respecting the linear operations *)
Class LHom {A B PA PB : Type} {SA : Scalar A} {SB : Scalar B} {TA : Point A PA} {TB : Point B PB}
  (h : A -> B) (g : PA -> PB) : Prop := {
  g_add : forall x y, p_add (g x) (g y) = g (p_add x y);
  g_sub : forall x y, p_sub (g x) (g y) = g (p_sub x y);
  g_mul : forall x s, p_mul (g x) (h s) = g (p_mul x s);
  g_default : p_default = g p_default
}.
(** ... and the coordinates *)
Class PHom {A B PA PB : Type} {SA : Scalar A} {SB : Scalar B} {TA : Point A PA} {TB : Point B PB}
  (h : A -> B) (g : PA -> PB) : Prop := {
  g_sqlen : forall x, p_sqlen (g x) = h (p_sqlen x);
  g_dim : p_dim (P := PB) = p_dim (P := PA);
  g_axis : forall x i, p_axis (g x) i = omap h (p_axis x i)
}.

Section Hom.
  Context {A B PA PB : Type} {SA : Scalar A} {SB : Scalar B} {TA : Point A PA} {TB : Point B PB}
    (h : A -> B) (g : PA -> PB) {HS : SHom h} {HL : LHom h g}.

  Definition lmap (l : line PA) := Line (g (l_start l)) (g (l_end l)).
  Definition qmap (c : quad PA) := Quad (g (q_start c)) (g (q_ctrl c)) (g (q_end c)).
  Definition cmap (c : cubic PA) := Cubic (g (c_start c)) (g (c_ctrl1 c)) (g (c_ctrl2 c)) (g (c_end c)).
  Definition zmap (c : bezier PA) := Bezier (map g (bz_points c)).
  Definition smap (s : bspline A PA) :=
    BSpline (bs_degree s) (map h (bs_knots s)) (bs_kind s) (map g (bs_points s)).
  Definition h2 (p : A * A) := (h (fst p), h (snd p)).

  Ltac sh := repeat first [rewrite (h_add (h := h)) | rewrite (h_sub (h := h)) | rewrite (h_mul (h := h))
    | rewrite (h_div (h := h)) | rewrite (h_neg (h := h)) | rewrite (h_abs (h := h))
    | rewrite (h_ltb (h := h)) | rewrite (h_leb (h := h)) | rewrite (h_eqb (h := h))
    | rewrite (h_nan (h := h))
    | rewrite (g_add (g := g)) | rewrite (g_sub (g := g))
    | rewrite (g_mul (h := h) (g := g))].

  Lemma quad_eval_hom c t : quad_eval (qmap c) (h t) = g (quad_eval c t).
  Proof. unfold quad_eval. simpl. rewrite !(h_lit (h := h)). sh. reflexivity. Qed.
  Lemma cubic_eval_hom c t : cubic_eval (cmap c) (h t) = g (cubic_eval c t).
  Proof. unfold cubic_eval. simpl. rewrite !(h_lit (h := h)). sh. reflexivity. Qed.

  Lemma casteljau_level_hom t i p :
    casteljau_level (h t) i (map g p) = omap (map g) (casteljau_level t i p).
  Proof.
    unfold casteljau_level. rewrite map_length. apply bind_same. intros m.
    apply for_in_map. intros j s. rewrite !idx_map.
    apply omap_bind. intros a. apply omap_bind. intros b.
    rewrite !(h_lit (h := h)). sh. apply set_idx_map.
  Qed.
  Lemma bezier_eval_hom c t : bezier_eval (zmap c) (h t) = omap g (bezier_eval c t).
  Proof.
    unfold bezier_eval. simpl. rewrite map_length.
    rewrite (for_in_map (map g) _ (bz_points c) (fun i p => casteljau_level t i p)).
    - apply omap_bind. intros p. apply idx_map.
    - intros i s. apply casteljau_level_hom.
  Qed.

  Section Search.
    Context {HP : PHom h g}.
    Ltac sp := repeat first [progress sh | rewrite (g_sqlen (h := h) (g := g))].
    Variables (ev : A -> outcome PA) (ev' : B -> outcome PB).
    Hypothesis Hev : forall t, ev' (h t) = omap g (ev t).
    Lemma coarse_hom p i st : coarse_body ev' (g p) i (h2 st) = omap h2 (coarse_body ev p i st).
    Proof.
      unfold coarse_body. rewrite !(h_lit (h := h)), !(h_usize (h := h)). sp.
      rewrite Hev. apply omap_bind. intros c. simpl. sp. destruct (s_ltb _ _); reflexivity.
    Qed.
    Lemma fine_hom p i st : fine_body ev' (g p) i (h2 st) = omap h2 (fine_body ev p i st).
    Proof.
      unfold fine_body. rewrite !(h_lit (h := h)), !(h_usize (h := h)). simpl fst. sp.
      rewrite Hev. apply omap_bind. intros c. simpl. sp. destruct (s_ltb _ _); reflexivity.
    Qed.
    (** the search up to its final square root *)
    Definition search_sq (first p : PA) : outcome A :=
      let! st := for_in (range 0 nsteps) (s_half, p_sqlen (p_sub p first)) (coarse_body ev p) in
      let! st := for_in (range 0 nsteps) st (fine_body ev p) in
      Ret (snd st).
    Lemma search_hom first p :
      search_distance ev' (g first) (g p) = omap (fun d => s_sqrt (h d)) (search_sq first p).
    Proof.
      unfold search_distance, search_sq. rewrite (h_half (h := h)). sp.
      change (h s_half, h (p_sqlen (p_sub p first))) with (h2 (s_half, p_sqlen (p_sub p first))).
      rewrite (for_in_map h2 _ _ (coarse_body ev p)) by (intros; apply coarse_hom).
      apply omap_bind. intros st.
      rewrite (for_in_map h2 _ _ (fine_body ev p)) by (intros; apply fine_hom).
      apply omap_bind. intros st'. reflexivity.
    Qed.
  End Search.

  (** B-splines *)
  Context {HE : EHom h}.
  Lemma any_decreasing_hom l : any_decreasing (map h l) = any_decreasing l.
  Proof.
    induction l as [|a [|b l] IH]; auto. cbn [map any_decreasing] in *. sh. now rewrite IH.
  Qed.
  Lemma all_close_hom r l : all_close (h r) (map h l) = all_close r l.
  Proof.
    unfold all_close. induction l as [|a l IH]; auto. cbn [map forallb].
    rewrite (h_eps (h := h)). sh. f_equal. rewrite <- IH. rewrite (h_eps (h := h)). reflexivity.
  Qed.
  Lemma bspline_new_hom D ks ps :
    bspline_new D (map h ks) (map g ps) = omap (rmap smap) (bspline_new D ks ps).
  Proof.
    unfold bspline_new. rewrite !map_length, any_decreasing_hom.
    destruct (_ <=? _); [reflexivity|]. destruct (_ <? _); [reflexivity|].
    destruct (_ <? _); [reflexivity|]. destruct (any_decreasing ks); [reflexivity|].
    rewrite idx_map. apply omap_bind. intros first. apply bind_same. intros kd. apply bind_same. intros from.
    apply bind_same. intros km1. rewrite idx_map. apply omap_bind. intros last.
    rewrite firstn_map, skipn_map, !all_close_hom. reflexivity.
  Qed.
  Lemma knot_domain_hom s : knot_domain (smap s) = omap h2 (knot_domain s).
  Proof.
    unfold knot_domain, knot_domain_clamped, knot_domain_clamped_start, knot_domain_clamped_end,
      knot_domain_unclamped. simpl.
    destruct (bs_kind s); rewrite !map_length;
      repeat first [apply bind_same; intro | rewrite idx_map; apply omap_bind; intro]; reflexivity.
  Qed.
  Lemma search_loop_hom fuel ks t lo hi : search_loop fuel (map h ks) (h t) lo hi = search_loop fuel ks t lo hi.
  Proof.
    revert lo hi. induction fuel as [|n IH]; intros lo hi; cbn [search_loop]; auto.
    destruct (lo <=? hi); auto. generalize ((lo + hi) / 2). intros mid. cbn zeta.
    rewrite !idx_map. destruct (idx ks mid) as [km| |]; cbn [bind omap]; auto. sh.
    destruct (s_leb km t); cbn [bind].
    - destruct (idx ks (mid + 1)) as [k1| |]; cbn [bind omap]; auto. sh.
      destruct (s_ltb t k1); auto. destruct (s_ltb t km); auto. destruct (usub mid 1); cbn [bind]; auto.
    - destruct (s_ltb t km); auto. destruct (usub mid 1); cbn [bind]; auto.
  Qed.
  Lemma search_unclamped_hom fuel ks t first count :
    search_unclamped_loop fuel (map h ks) (h t) first count = search_unclamped_loop fuel ks t first count.
  Proof.
    revert first count. induction fuel as [|n IH]; intros first count; cbn [search_unclamped_loop]; auto.
    destruct (0 <? count); auto. rewrite !idx_map, map_length.
    destruct (idx ks (first + count / 2 + 1)) as [k1| |]; cbn [bind omap]; auto. sh.
    destruct (s_ltb t k1); cbn [bind]; auto.
    destruct (usub (length ks) 2) as [m| |]; cbn [bind]; auto.
    destruct (first + count / 2 + 1 =? m); cbn [bind omap]; sh.
    - destruct (s_eqb t k1); auto. destruct (idx ks (first + count / 2)) as [k0| |]; cbn [bind omap]; auto. sh.
      destruct (s_leb k0 t); auto.
    - destruct (idx ks (first + count / 2)) as [k0| |]; cbn [bind omap]; auto. sh.
      destruct (s_leb k0 t); auto.
  Qed.
  Lemma knot_span_hom s t : knot_span_start_for_t (smap s) (h t) = knot_span_start_for_t s t.
  Proof.
    unfold knot_span_start_for_t, knot_span_start_for_t_unclamped, knot_span_start_for_t_clamped,
      knot_span_start_for_t_clamped_start, knot_span_start_for_t_clamped_end.
    cbn [smap bs_kind bs_knots bs_points bs_degree]. rewrite !map_length.
    destruct (bs_kind s).
    - apply search_unclamped_hom.
    - destruct (usub (length (bs_points s)) 1) as [n| |]; cbn [bind]; auto.
      destruct (usub (length (bs_knots s)) 1) as [m| |]; cbn [bind]; auto.
      rewrite !idx_map. destruct (idx (bs_knots s) m) as [km| |]; cbn [bind omap]; auto. sh.
      destruct (s_eqb t km); auto. destruct (idx (bs_knots s) (bs_degree s)) as [kp| |]; cbn [bind omap]; auto. sh.
      destruct (s_ltb t kp || s_ltb km t); auto. destruct (usub m 1); cbn [bind]; auto. apply search_loop_hom.
    - destruct (usub (length (bs_points s)) 1) as [n| |]; cbn [bind]; auto.
      rewrite !idx_map. destruct (idx (bs_knots s) (n + 1)) as [kn| |]; cbn [bind omap]; auto. sh.
      destruct (s_eqb t kn); auto. destruct (idx (bs_knots s) 0) as [k0| |]; cbn [bind omap]; auto. sh.
      destruct (s_ltb t k0 || s_ltb kn t); auto. apply search_loop_hom.
    - destruct (usub (length (bs_points s)) 1) as [n| |]; cbn [bind]; auto.
      rewrite !idx_map. destruct (idx (bs_knots s) (n + 1)) as [kn| |]; cbn [bind omap]; auto. sh.
      destruct (s_eqb t kn); auto. apply search_loop_hom.
  Qed.
  Lemma alpha_hom ks D t k r j : alpha_of (map h ks) D (h t) k r j = omap h (alpha_of ks D t k r j).
  Proof.
    unfold alpha_of. apply bind_same. intros a. rewrite !idx_map. apply omap_bind. intros ka.
    apply bind_same. intros b. rewrite idx_map. apply omap_bind. intros kb. apply omap_bind. intros ka'.
    rewrite !(h_lit (h := h)), !(h_eps (h := h)). sh.
    destruct (s_ltb _ _); [reflexivity|]. destruct (s_ltb _ _); reflexivity.
  Qed.
  Lemma de_boor_body_hom ks D t k r j d :
    de_boor_body (map h ks) D (h t) k r j (map g d) = omap (rmap (map g)) (de_boor_body ks D t k r j d).
  Proof.
    unfold de_boor_body. rewrite alpha_hom. apply omap_bind. intros al. sh.
    destruct (s_is_nan al); [reflexivity|]. apply bind_same. intros jm. rewrite !idx_map.
    apply omap_bind. intros dl. apply omap_bind. intros dr. rewrite !(h_lit (h := h)). sh.
    rewrite set_idx_map. apply omap_bind. reflexivity.
  Qed.
  Lemma de_boor_load_hom s k : de_boor_load (smap s) k = omap (map g) (de_boor_load s k).
  Proof.
    unfold de_boor_load. simpl bs_degree. rewrite (g_default (g := g)), <- map_repeat.
    apply for_in_map. intros i d. apply bind_same. intros a. simpl bs_points. rewrite idx_map.
    apply omap_bind. intros c. apply set_idx_map.
  Qed.
  Lemma de_boor_hom s t : de_boor_iterative (smap s) (h t) = omap (rmap g) (de_boor_iterative s t).
  Proof.
    unfold de_boor_iterative. rewrite knot_span_hom. cbn [smap bs_kind bs_knots bs_points bs_degree].
    rewrite idx_map, !map_length. apply omap_bind. intros kc. sh. destruct (s_eqb t kc).
    - apply bind_same. intros l. rewrite idx_map. apply omap_bind. reflexivity.
    - apply bind_same. intros [k|]; [|reflexivity].
      change (BSpline (bs_degree s) (map h (bs_knots s)) (bs_kind s) (map g (bs_points s))) with (smap s).
      rewrite de_boor_load_hom. apply omap_bind. intros d.
      rewrite (for_result_map (map g) _ d (fun r d =>
              for_result (rev (range_incl r (bs_degree s))) d (fun j d =>
                de_boor_body (bs_knots s) (bs_degree s) t k r j d))).
      + apply omap_bind. intros [d'|e]; [|reflexivity]. simpl. rewrite idx_map. apply omap_bind. reflexivity.
      + intros r d'. apply for_result_map. intros j d''. apply de_boor_body_hom.
  Qed.
  Lemma bspline_eval_hom s t : bspline_eval (smap s) (h t) = omap (rmap g) (bspline_eval s t).
  Proof.
    unfold bspline_eval. rewrite knot_domain_hom. apply omap_bind. intros [a b]. simpl. sh.
    destruct (_ || _); [reflexivity|]. apply de_boor_hom.
  Qed.
  Lemma bspline_derivative_hom s : bspline_derivative (smap s) = omap smap (bspline_derivative s).
  Proof.
    unfold bspline_derivative. cbn [smap bs_kind bs_knots bs_points bs_degree]. rewrite map_length.
    apply bind_same. intros cm. apply bind_same. intros dm.
    rewrite (g_default (g := g)), <- map_repeat. 
    erewrite (for_break_map (map g)).
    - apply omap_bind. intros p. reflexivity.
    - intros i p. simpl. rewrite !idx_map. apply omap_bind. intros a. apply omap_bind. intros b.
      apply omap_bind. intros ka. apply omap_bind. intros kb. rewrite (h_usize (h := h)). sh.
      rewrite set_idx_map. apply omap_bind. intros np. apply bind_same. intros l. reflexivity.
  Qed.
End Hom.

(** ** The embedding of Q in R *)
Local Open Scope R_scope.

Lemma Q2R_red q : Q2R (Qred q) = Q2R q.
Proof. apply Qeq_eqR, Qred_correct. Qed.
Lemma Q2R_0 : Q2R 0 = 0. Proof. unfold Q2R. simpl. lra. Qed.
Lemma Q2R_Z z : Q2R (inject_Z z) = IZR z. Proof. unfold Q2R. simpl. lra. Qed.

Lemma Qle_Rleb x y : Rleb (Q2R x) (Q2R y) = Qle_bool x y.
Proof.
  destruct (Rleb_spec (Q2R x) (Q2R y)) as [H|H]; symmetry.
  - apply Qle_bool_iff. now apply Rle_Qle.
  - apply not_true_iff_false. intros C. apply H. apply Qle_Rle. now apply Qle_bool_iff.
Qed.

Section QHom.
  Context (QE : QEps) (E : Eps).
  #[local] Instance Q2R_hom : SHom Q2R.
  Proof.
    constructor; intros; cbn [s_add s_sub s_mul s_div s_neg s_abs s_ltb s_leb s_eqb s_is_nan s_lit
      s_half s_of_usize s_eps RScalar QScalar]; rewrite ?Q2R_red, ?Q2R_Z.
    - symmetry; apply Q2R_plus.
    - symmetry; apply Q2R_minus.
    - symmetry; apply Q2R_mult.
    - unfold Qdiv, Rdiv. rewrite Q2R_mult. f_equal. symmetry.
      destruct (Qeq_dec y 0) as [H|H].
      + rewrite (Qeq_eqR _ _ H), Q2R_0, Rinv_0. transitivity (Q2R (/ 0)).
        * apply Qeq_eqR. now rewrite H.
        * apply Q2R_0.
      + now apply Q2R_inv.
    - symmetry; apply Q2R_opp.
    - symmetry. apply Qabs_case; intros H; apply Qle_Rle in H; rewrite Q2R_0 in H.
      + now rewrite Rabs_pos_eq.
      + rewrite Q2R_opp. now rewrite Rabs_left1.
    - rewrite <- Qle_Rleb. destruct (Rltb_spec (Q2R x) (Q2R y)), (Rleb_spec (Q2R y) (Q2R x)); auto; lra.
    - apply Qle_Rleb.
    - destruct (Reqb_spec (Q2R x) (Q2R y)) as [H|H]; symmetry.
      + apply Qeq_bool_iff. now apply eqR_Qeq.
      + apply not_true_iff_false. intros C. apply H. apply Qeq_eqR. now apply Qeq_bool_iff.
    - reflexivity.
    - reflexivity.
    - unfold Q2R. simpl. lra.
    - apply INR_IZR_INZ.
  Qed.

  Definition pq2r {N} (p : PointN Q N) : PointN R N := mkPointN (map Q2R (pn_arr p)) (
    eq_trans (f_equal (fun n => Nat.eqb n N) (map_length Q2R (pn_arr p))) (pn_len p)).

  Lemma map2_map (f : Q -> Q -> Q) (f' : R -> R -> R) a b :
    (forall x y, f' (Q2R x) (Q2R y) = Q2R (f x y)) ->
    map2 f' (map Q2R a) (map Q2R b) = map Q2R (map2 f a b).
  Proof.
    intros H. revert b. induction a as [|x a IH]; intros [|y b]; simpl; auto. now rewrite H, IH.
  Qed.

  #[local] Instance pq2r_lhom N : LHom Q2R (@pq2r N).
  Proof.
    constructor; intros.
    - apply pn_eq. cbn [p_add p_sub p_mul p_default PointN_Point pn_add pn_sub pn_mul pn_default pn_arr pq2r]. apply map2_map. intros; apply (h_add (h := Q2R)).
    - apply pn_eq. cbn [p_add p_sub p_mul p_default PointN_Point pn_add pn_sub pn_mul pn_default pn_arr pq2r]. apply map2_map. intros; apply (h_sub (h := Q2R)).
    - apply pn_eq. cbn [p_add p_sub p_mul p_default PointN_Point pn_add pn_sub pn_mul pn_default pn_arr pq2r]. rewrite !map_map. apply map_ext. intros; apply (h_mul (h := Q2R)).
    - apply pn_eq. cbn [p_add p_sub p_mul p_default PointN_Point pn_add pn_sub pn_mul pn_default pn_arr pq2r]. rewrite map_repeat. f_equal. symmetry. apply Q2R_0.
  Qed.
  #[local] Instance pq2r_hom N : PHom Q2R (@pq2r N).
  Proof.
    constructor; intros.
    - cbn [p_axis p_sqlen PointN_Point]. unfold pn_sqlen. cbn [pn_arr pq2r].
      change (s_lit 0) with (IZR 0) at 1. rewrite <- (Q2R_Z 0).
      change (s_lit 0) with (inject_Z 0).
      generalize (inject_Z 0). induction (pn_arr x) as [|a l IH]; intros acc; cbn [map fold_left]; auto.
      rewrite <- IH. f_equal. rewrite (h_mul (h := Q2R)), (h_add (h := Q2R)). reflexivity.
    - reflexivity.
    - cbn [p_axis p_sqlen PointN_Point]. unfold pn_axis. destruct (i <=? N)%nat; [|reflexivity]. apply idx_map.
  Qed.
End QHom.
#[global] Existing Instance Q2R_hom.
#[global] Existing Instance pq2r_lhom.
#[global] Existing Instance pq2r_hom.

Lemma Q2R_pow2 n : Q2R (1 # (2 ^ n)) = / 2 ^ (Pos.to_nat n).
Proof.
  unfold Q2R. cbn [Qnum Qden]. rewrite Rmult_1_l. f_equal.
  rewrite Pos2Z.inj_pow, pow_IZR, positive_nat_Z. reflexivity.
Qed.
#[global] Instance EHom64 : @EHom Q R (@QScalar QEps64) (@RScalar Eps64) Q2R.
Proof. constructor. symmetry. apply Q2R_pow2. Qed.
#[global] Instance EHom32 : @EHom Q R (@QScalar QEps32) (@RScalar Eps32) Q2R.
Proof. constructor. symmetry. apply Q2R_pow2. Qed.
