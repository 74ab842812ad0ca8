(** Proofs for C102: a finite result comes from finite data. *)
From Coq Require Import Reals ZArith List Arith Lia Lra Bool.
From Flocq Require Import Core.Core IEEE754.BinarySingleNaN.
From Verif Require Import Base.Outcome Base.Scalar Model.Point Model.Line Model.Quadratic Model.Cubic Model.Bezier
  Model.BSpline Inst.FloatInst Spec.Rounding Spec.Componentwise Spec.FloatPoints
  Spec.Points Proofs.OutcomeFacts Proofs.FloatPoint Proofs.BezierGeneric Proofs.BSplineGeneric.
Import ListNotations.

Section Scalars.
  Context {F : Format}.
  Implicit Types x y : @float F.
  Lemma fin_add x y : fin (s_add x y) -> fin x /\ fin y.
  Proof. unfold fin. destruct x as [s|s| |s m e B], y as [u|u| |u n f C]; cbn; try (split; reflexivity); try discriminate.
    destruct s, u; discriminate. Qed.
  Lemma fin_sub x y : fin (s_sub x y) -> fin x /\ fin y.
  Proof. unfold fin. destruct x as [s|s| |s m e B], y as [u|u| |u n f C]; cbn; try (split; reflexivity); try discriminate.
    destruct s, u; discriminate. Qed.
  Lemma fin_mul x y : fin (s_mul x y) -> fin x /\ fin y.
  Proof. unfold fin. destruct x as [s|s| |s m e B], y as [u|u| |u n f C]; cbn; try (split; reflexivity); discriminate. Qed.
  Lemma fin_neg x : fin (s_neg x) -> fin x.
  Proof. unfold fin. now destruct x. Qed.
  Lemma fin_sqrt x : fin (s_sqrt x) -> fin x.
  Proof. unfold fin. destruct x as [s|[]| |s m e B]; cbn; auto; discriminate. Qed.
End Scalars.

(** splits every finiteness hypothesis about a sum, difference, product, square root *)
Ltac fins := repeat match goal with
  | H : fin (s_add _ _) |- _ => apply fin_add in H; destruct H
  | H : fin (s_sub _ _) |- _ => apply fin_sub in H; destruct H
  | H : fin (s_mul _ _) |- _ => apply fin_mul in H; destruct H
  | H : fin (s_neg _) |- _ => apply fin_neg in H
  | H : fin (s_sqrt _) |- _ => apply fin_sqrt in H
  end.

Section Poison.
  Context {F : Format} {P : Type} {PT : Point float P} {CP : CwPoint float P}.
  Ltac coords Hi := repeat (first [rewrite cw_add in * by exact Hi | rewrite cw_sub in * by exact Hi
    | rewrite cw_mul in * by exact Hi]).

  Lemma line_eval_fin (l : line P) t i : i < p_dim (P := P) -> fin (cw (line_eval l t) i) ->
    fin t /\ fin (cw (l_start l) i) /\ fin (cw (l_end l) i).
  Proof. intros Hi H. unfold line_eval in H. coords Hi. fins. auto. Qed.
  Lemma line_derivative_fin (l : line P) i : i < p_dim (P := P) -> fin (cw (line_derivative l) i) ->
    fin (cw (l_start l) i) /\ fin (cw (l_end l) i).
  Proof. intros Hi H. unfold line_derivative in H. coords Hi. fins. auto. Qed.

  Lemma quad_eval_fin (q : quad P) t i : i < p_dim (P := P) ->
    fin (cw (quad_eval q t) i) \/ fin (cw (quad_eval_casteljau q t) i) ->
    fin t /\ fin (cw (q_start q) i) /\ fin (cw (q_ctrl q) i) /\ fin (cw (q_end q) i).
  Proof.
    intros Hi [H|H]; [unfold quad_eval in H|unfold quad_eval_casteljau in H]; cbv zeta in H; coords Hi; fins; auto.
  Qed.
  Lemma quad_derivative_fin (q : quad P) i : i < p_dim (P := P) ->
    fin (cw (l_start (quad_derivative q)) i) -> fin (cw (l_end (quad_derivative q)) i) ->
    fin (cw (q_start q) i) /\ fin (cw (q_ctrl q) i) /\ fin (cw (q_end q) i).
  Proof. intros Hi H H'. unfold quad_derivative in *. cbn [l_start l_end] in *. coords Hi. fins. auto. Qed.

  Lemma cubic_eval_fin (c : cubic P) t i : i < p_dim (P := P) ->
    fin (cw (cubic_eval c t) i) \/ fin (cw (cubic_eval_casteljau c t) i) ->
    fin t /\ fin (cw (c_start c) i) /\ fin (cw (c_ctrl1 c) i) /\ fin (cw (c_ctrl2 c) i) /\ fin (cw (c_end c) i).
  Proof.
    intros Hi [H|H]; [unfold cubic_eval in H|unfold cubic_eval_casteljau in H]; cbv zeta in H; coords Hi; fins; auto 6.
  Qed.
  Lemma cubic_derivative_fin (c : cubic P) i : i < p_dim (P := P) -> let d := cubic_derivative c in
    fin (cw (q_start d) i) -> fin (cw (q_ctrl d) i) -> fin (cw (q_end d) i) ->
    fin (cw (c_start c) i) /\ fin (cw (c_ctrl1 c) i) /\ fin (cw (c_ctrl2 c) i) /\ fin (cw (c_end c) i).
  Proof.
    cbv zeta. intros Hi H H' H''. unfold cubic_derivative in *. cbn [q_start q_ctrl q_end] in *. coords Hi. fins. auto 6.
  Qed.

  Lemma tri_fin (p : nat -> P) t i : i < p_dim (P := P) -> forall m j, fin (cw (tri t p m j) i) ->
    (m <> 0 -> fin t) /\ forall k, j <= k <= j + m -> fin (cw (p k) i).
  Proof.
    intros Hi. induction m as [|m IH]; intros j H; cbn [tri] in H.
    - split; [congruence|]. intros k Hk. now replace k with j by lia.
    - unfold lerp in H. coords Hi. fins. split; [auto|].
      match goal with A : fin (cw (tri t p m j) i), B : fin (cw (tri t p m (j + 1)) i) |- _ =>
        destruct (IH _ A) as [_ A']; destruct (IH _ B) as [_ B'] end.
      intros k Hk. destruct (Nat.eq_dec k (j + S m)) as [->|]; [apply B'; lia|apply A'; lia].
  Qed.
  Lemma bezier_eval_fin (ps : list P) t p i : i < p_dim (P := P) ->
    bezier_eval (Bezier ps) t = Ret p -> fin (cw p i) ->
    (2 <= length ps -> fin t) /\ forall q, In q ps -> fin (cw q i).
  Proof.
    intros Hi He H. destruct ps as [|p0 ps]; [rewrite bezier_eval_nil in He; discriminate|].
    rewrite (bezier_eval_closed _ t p0) in He by discriminate. injection He as <-.
    apply tri_fin in H; [|exact Hi]. destruct H as [A B]. split.
    - intros L. apply A. cbn [length] in *. lia.
    - intros q Hq. destruct (In_nth _ _ p0 Hq) as (k & Hk & <-). apply B. cbn [length] in *. lia.
  Qed.
  Lemma bezier_derivative_fin (ps qs : list P) i : i < p_dim (P := P) -> 2 <= length ps ->
    bezier_derivative (Bezier ps) = Ret (Bezier qs) -> (forall q, In q qs -> fin (cw q i)) ->
    forall q, In q ps -> fin (cw q i).
  Proof.
    intros Hi L He H q Hq. destruct ps as [|p0 ps]; [inversion L|]. set (l := p0 :: ps) in *.
    rewrite (bezier_derivative_closed _ p0) in He by exact L. injection He as <-.
    destruct (In_nth _ _ p0 Hq) as (k & Hk & <-).
    assert (A : forall j, j < length l - 1 -> fin (cw (nth (j + 1) l p0) i) /\ fin (cw (nth j l p0) i)).
    { intros j Hj. assert (J : In j (seq 0 (length l - 1))) by (apply in_seq; lia).
      pose proof (H _ (in_map (fun i => p_mul (p_sub (nth (i + 1) l p0) (nth i l p0)) (s_of_usize (length l - 1))) _ j J)) as G.
      cbv beta in G. coords Hi. fins. auto. }
    destruct (Nat.eq_dec k 0) as [->|]; [apply (A 0); lia|].
    replace k with (k - 1 + 1) by lia. apply (A (k - 1)). lia.
  Qed.

  (** lengths *)
  Lemma sqlen_fin (p : P) : fin (p_sqlen p) -> fin_point p.
  Proof.
    rewrite cw_sqlen. unfold fin_point. generalize (p_dim (P := P)) as n.
    enough (G : forall l (acc : float), fin (fold_left (fun acc i => s_add acc (s_mul (cw p i) (cw p i))) l acc) ->
      fin acc /\ forall i, In i l -> fin (cw p i)).
    { intros n H i Hi. apply (G _ _ H). apply in_seq. lia. }
    induction l as [|a l IH]; intros acc H; cbn [fold_left] in H.
    - split; [exact H|intros i []].
    - destruct (IH _ H) as [A B]. fins. split; [assumption|]. intros i [<-|Hi]; auto.
  Qed.
  Lemma sub_fin (p q : P) : fin_point (p_sub p q) -> fin_point p /\ fin_point q.
  Proof. intros H. split; intros i Hi; specialize (H i Hi); coords Hi; fins; auto. Qed.

  (** arclen: a finite sum has finite terms *)
  Lemma sum_fin (f : nat -> outcome P) (g : nat -> outcome P) l (acc r : float) :
    for_in l acc (fun i arclen => let! p1 := f i in let! p2 := g i in
      Ret (s_add arclen (s_sqrt (p_sqlen (p_sub p1 p2))))) = Ret r -> fin r ->
    fin acc /\ forall i, In i l -> exists p, f i = Ret p /\ fin_point p.
  Proof.
    revert acc. induction l as [|a l IH]; intros acc E Hr; cbn [for_in] in E.
    - injection E as ->. split; [exact Hr|intros i []].
    - destruct (f a) as [p1| |] eqn:Ef; cbn [bind] in E; try discriminate.
      destruct (g a) as [p2| |]; cbn [bind] in E; try discriminate.
      destruct (IH _ E Hr) as [A B]. fins. split; [assumption|]. intros i [<-|Hi]; [|auto].
      exists p1. split; [exact Ef|].
      match goal with X : fin (p_sqlen _) |- _ => apply sqlen_fin, sub_fin in X; apply X end.
  Qed.
  Lemma one_in n : 2 <= n -> In 1 (range 1 n).
  Proof. intros H. unfold range. apply in_seq. lia. Qed.

  Lemma quad_arclen_fin (q : quad P) n r : 2 <= n -> quad_arclen q n = Ret r -> fin r ->
    fin_point (q_start q) /\ fin_point (q_ctrl q) /\ fin_point (q_end q).
  Proof.
    intros Hn E Hr. unfold quad_arclen in E.
    pose proof (sum_fin (fun i => Ret (quad_eval_casteljau q (s_div (s_mul (s_of_usize i) (s_lit 1)) (s_of_usize n))))
      (fun i => Ret (quad_eval_casteljau q (s_add (s_div (s_mul (s_of_usize i) (s_lit 1)) (s_of_usize n)) (s_div (s_lit 1) (s_of_usize n)))))
      _ _ _ E Hr) as G. clear E. rename G into E.
    destruct E as [_ E]. destruct (E 1 (one_in n Hn)) as (p & [= <-] & Hp).
    repeat split; intros i Hi; apply (quad_eval_fin q _ i Hi (or_intror (Hp i Hi))).
  Qed.
  Lemma cubic_arclen_fin (c : cubic P) n r : 2 <= n -> cubic_arclen c n = Ret r -> fin r ->
    fin_point (c_start c) /\ fin_point (c_ctrl1 c) /\ fin_point (c_ctrl2 c) /\ fin_point (c_end c).
  Proof.
    intros Hn E Hr. unfold cubic_arclen in E.
    pose proof (sum_fin (fun i => Ret (cubic_eval_casteljau c (s_div (s_mul (s_of_usize i) (s_lit 1)) (s_of_usize n))))
      (fun i => Ret (cubic_eval_casteljau c (s_add (s_div (s_mul (s_of_usize i) (s_lit 1)) (s_of_usize n)) (s_div (s_lit 1) (s_of_usize n)))))
      _ _ _ E Hr) as G. clear E. rename G into E.
    destruct E as [_ E]. destruct (E 1 (one_in n Hn)) as (p & [= <-] & Hp).
    repeat split; intros i Hi; apply (cubic_eval_fin c _ i Hi (or_intror (Hp i Hi))).
  Qed.
  Lemma bezier_arclen_fin (ps : list P) n r : 2 <= n -> bezier_arclen (Bezier ps) n = Ret r -> fin r ->
    forall q, In q ps -> fin_point q.
  Proof.
    intros Hn E Hr q Hq. unfold bezier_arclen in E.
    pose proof (sum_fin (fun i => bezier_eval (Bezier ps) (s_div (s_mul (s_of_usize i) (s_lit 1)) (s_of_usize n)))
      (fun i => bezier_eval (Bezier ps) (s_add (s_div (s_mul (s_of_usize i) (s_lit 1)) (s_of_usize n)) (s_div (s_lit 1) (s_of_usize n))))
      _ _ _ E Hr) as G. clear E. rename G into E.
    destruct E as [_ E]. destruct (E 1 (one_in n Hn)) as (p & He & Hp).
    intros i Hi. now apply (bezier_eval_fin ps _ p i Hi He (Hp i Hi)).
  Qed.

  (** distance: if no candidate is at a finite distance, neither is the result *)
  Lemma search_fin (eval : float -> outcome P) first point r :
    search_distance eval first point = Ret r -> fin r ->
    fin_point point /\ (fin_point first \/ exists t p, eval t = Ret p /\ fin_point p).
  Proof.
    intros E Hr. unfold search_distance in E. cbv zeta in E.
    set (I := fun st : float * float => fin (snd st) ->
      fin_point point /\ (fin_point first \/ exists t p, eval t = Ret p /\ fin_point p)).
    assert (I0 : I (s_half, p_sqlen (p_sub point first))).
    { unfold I. cbn [snd]. intros H. apply sqlen_fin, sub_fin in H. destruct H. auto. }
    assert (St : forall t p (st : float * float), eval t = Ret p -> fin (p_sqlen (p_sub p point)) ->
      fin_point point /\ (fin_point first \/ exists t p, eval t = Ret p /\ fin_point p)).
    { intros t p st Ep H. apply sqlen_fin, sub_fin in H. destruct H. split; [assumption|right; eauto]. }
    assert (L : forall body l st st', (forall i st st', I st -> body i st = Ret st' -> I st') -> I st ->
      for_in l st body = Ret st' -> I st').
    { intros body l. induction l as [|a l IH]; intros st st' Hb Hs; cbn [for_in].
      - now intros [= <-].
      - destruct (body a st) as [s1| |] eqn:Eb; cbn [bind]; try discriminate. apply IH; [exact Hb|eauto]. }
    destruct (for_in (range 0 nsteps) (s_half, _) _) as [st1| |] eqn:E1; cbn [bind] in E; try discriminate.
    destruct (for_in (range 0 nsteps) st1 _) as [st2| |] eqn:E2; cbn [bind] in E; try discriminate.
    injection E as <-. apply fin_sqrt in Hr. revert Hr. change (I st2).
    eapply L; [|eapply L; [|exact I0|exact E1]|exact E2].
    - intros i st st' Hs. unfold fine_body. cbv zeta. destruct (eval _) as [p| |] eqn:Ep; cbn [bind]; try discriminate.
      destruct (s_ltb _ (snd st)); intros [= <-]; [|exact Hs]. unfold I. cbn [snd]. eauto.
    - intros i st st' Hs. unfold coarse_body. cbv zeta. destruct (eval _) as [p| |] eqn:Ep; cbn [bind]; try discriminate.
      destruct (s_ltb _ (snd st)); intros [= <-]; [|exact Hs]. unfold I. cbn [snd]. eauto.
  Qed.
  Lemma quad_distance_fin (q : quad P) p r : quad_distance_to_point q p = Ret r -> fin r ->
    fin_point p /\ fin_point (q_start q).
  Proof.
    intros E Hr. apply search_fin in E; [|exact Hr]. destruct E as [A [B|(t & x & [= <-] & B)]]; split; auto.
    intros i Hi. apply (quad_eval_fin q t i Hi (or_introl (B i Hi))).
  Qed.
  Lemma cubic_distance_fin (c : cubic P) p r : cubic_distance_to_point c p = Ret r -> fin r ->
    fin_point p /\ fin_point (c_start c).
  Proof.
    intros E Hr. apply search_fin in E; [|exact Hr]. destruct E as [A [B|(t & x & [= <-] & B)]]; split; auto.
    intros i Hi. apply (cubic_eval_fin c t i Hi). auto.
  Qed.
  Lemma bezier_distance_fin (ps : list P) p d r : bezier_distance_to_point (Bezier ps) p = Ret r -> fin r ->
    fin_point p /\ fin_point (nth 0 ps d).
  Proof.
    intros E Hr. unfold bezier_distance_to_point in E. cbn [bz_points] in E.
    destruct ps as [|p0 ps]; [discriminate|]. cbn [idx nth_error bind] in E.
    apply search_fin in E; [|exact Hr]. destruct E as [A [B|(t & x & Ex & B)]]; split; auto.
    intros i Hi. apply (bezier_eval_fin _ t x i Hi Ex (B i Hi)). now left.
  Qed.

  (** B-splines *)
  Lemma entry_fin (s : bspline float P) t k i : i < p_dim (P := P) -> forall r j, r <= j ->
    fin (cw (entry s t k r j) i) -> forall m, j - r <= m <= j -> fin (cw (entry s t k 0 m) i).
  Proof.
    intros Hi. induction r as [|r IH]; intros j Hj H m Hm.
    - now replace m with j by lia.
    - cbn [entry] in H. coords Hi. fins. destruct (Nat.eq_dec m j) as [->|].
      + eapply (IH j); [lia|eassumption|lia].
      + eapply (IH (j - 1)); [lia|eassumption|lia].
  Qed.
  Lemma bspline_eval_fin D ks (ps : list P) s t k p i d : i < p_dim (P := P) ->
    bspline_new D ks ps = Ret (Ok s) -> knot_span_start_for_t s t = Ret (Some k) -> D <= k <= length ps ->
    s_eqb t (nth (length ps) ks (s_lit 0)) = false ->
    bspline_eval s t = Ret (Ok p) -> fin (cw p i) ->
    forall j, k - D <= j < k -> fin (cw (nth j ps d) i).
  Proof.
    intros Hi Hn Hk Hr Hne E H j Hj. pose proof (new_wf D ks ps s Hn) as W.
    destruct (new_fields D ks ps s Hn) as (F1 & F2 & F3). unfold bspline_knots, bspline_control_points in *.
    unfold bspline_eval in E. rewrite domain_value in E by exact W. cbn [bind] in E.
    destruct (_ || _)%bool; [discriminate|].
    destruct (de_boor_cases s t (Some k) (wf_roomy s W) Hk) as [[A B]|[A B]].
    - intros k' [= <-]. now rewrite F1, F3.
    - unfold knot in A. rewrite F2, F3 in A. congruence.
    - rewrite E in B. destruct B as [[= ->]|[B _]]; [|discriminate B].
      rewrite F1 in H. pose proof (entry_fin s t k i Hi D D (le_n _) H (j + D - k) ltac:(lia)) as G.
      cbn [entry] in G. rewrite F1 in G. destruct (Nat.ltb_spec (j + D - k) D) as [_|]; [|lia].
      unfold cpoint in G. rewrite F3 in G. replace (j + D - k + k - D) with j in G by lia.
      rewrite (nth_indep ps d p_default) by lia. exact G.
  Qed.
End Poison.

(** ** NaN control points and the search for the nearest point *)
Section Blind.
  Context {F : Format} {P : Type} {PT : Point float P} {CP : CwPoint float P}.
  Lemma nan_add_l (x y : float) : nan x -> nan (s_add x y).
  Proof. unfold nan. destruct x; try discriminate. reflexivity. Qed.
  Lemma nan_add_r (x y : float) : nan y -> nan (s_add x y).
  Proof. unfold nan. destruct y; try discriminate. destruct x; reflexivity. Qed.
  Lemma nan_sub_l (x y : float) : nan x -> nan (s_sub x y).
  Proof. unfold nan. destruct x; try discriminate. reflexivity. Qed.
  Lemma nan_mul_l (x y : float) : nan x -> nan (s_mul x y).
  Proof. unfold nan. destruct x; try discriminate. reflexivity. Qed.
  Lemma sqlen_nan (p : P) i : i < p_dim (P := P) -> nan (cw p i) -> nan (p_sqlen p).
  Proof.
    intros Hi H. rewrite cw_sqlen.
    enough (G : forall l (acc : float), nan acc \/ In i l ->
      nan (fold_left (fun acc i => s_add acc (s_mul (cw p i) (cw p i))) l acc)).
    { apply G. right. apply in_seq. lia. }
    induction l as [|a l IH]; intros acc G; cbn [fold_left].
    - destruct G as [G|[]]. exact G.
    - apply IH. destruct G as [G|[->|G]]; [left; now apply nan_add_l|left|now right].
      now apply nan_add_r, nan_mul_l.
  Qed.
  Lemma search_blind (eval : float -> outcome P) first point i : i < p_dim (P := P) ->
    (forall t, exists p, eval t = Ret p /\ nan (cw p i)) ->
    search_distance eval first point = Ret (s_sqrt (p_sqlen (p_sub point first))).
  Proof.
    intros Hi H. unfold search_distance. cbv zeta.
    assert (L : forall body (st : float * float), (forall i, body i st = Ret st) ->
      for_in (range 0 nsteps) st body = Ret st).
    { intros body st Hb. generalize (range 0 nsteps) as l. induction l as [|a l IH]; cbn [for_in]; [reflexivity|].
      rewrite Hb. exact IH. }
    assert (C : forall p y, nan (cw p i) -> s_ltb (p_sqlen (p_sub p point)) y = false).
    { intros p y Hp. assert (N : nan (p_sqlen (p_sub p point))).
      { apply sqlen_nan with i; [exact Hi|]. rewrite cw_sub by exact Hi. now apply nan_sub_l. }
      revert N. generalize (p_sqlen (p_sub p point)). intros x N. unfold nan in N. destruct x; try discriminate. reflexivity. }
    rewrite L.
    - cbn [bind]. rewrite L; [reflexivity|]. intros j. unfold fine_body. cbv zeta.
      destruct (H (s_sub (s_add (fst (s_half, p_sqlen (p_sub point first))) (s_div (s_mul (s_of_usize j) (s_lit 1)) (s_of_usize (nsteps * nsteps))))
        (s_mul (s_div (s_mul (s_of_usize j) (s_lit 1)) (s_of_usize (nsteps * nsteps))) (s_div (s_of_usize nsteps) (s_lit 2))))) as (p & -> & Hp).
      cbn [bind]. now rewrite C.
    - intros j. unfold coarse_body. cbv zeta.
      destruct (H (s_div (s_mul (s_of_usize j) (s_lit 1)) (s_of_usize nsteps))) as (p & -> & Hp). cbn [bind]. now rewrite C.
  Qed.
  Lemma quad_distance_blind (q : quad P) p i : i < p_dim (P := P) -> nan (cw (q_ctrl q) i) ->
    quad_distance_to_point q p = Ret (s_sqrt (p_sqlen (p_sub p (q_start q)))).
  Proof.
    intros Hi H. apply (search_blind _ _ _ i Hi). intros t. eexists. split; [reflexivity|].
    unfold quad_eval. rewrite !cw_add, !cw_mul by exact Hi. now apply nan_add_l, nan_add_r, nan_mul_l, nan_mul_l, nan_mul_l.
  Qed.
End Blind.

Lemma distance_poison_refuted {F : Format} : ~ (forall (q : quad (PointN float 1)) p r,
  quad_distance_to_point q p = Ret r -> fin r -> fin_point (q_ctrl q)).
Proof.
  intros H. set (z := fpt1 (B754_zero false)).
  assert (Z : 0 < p_dim (P := PointN float 1)) by (cbn; lia).
  specialize (H (Quad z (fpt1 B754_nan) z) z _ (quad_distance_blind (Quad z (fpt1 B754_nan) z) z 0 Z eq_refl) eq_refl 0 Z). discriminate H.
Qed.
