(** Adaptive flattening in IEEE arithmetic: it ends, and the chords stay near the curve. *)
From Coq Require Import Reals ZArith List Arith Lia Lra Psatz Bool.
From Flocq Require Import Core.Core IEEE754.BinarySingleNaN.
From Verif Require Import Base.Outcome Base.Scalar Model.Point Model.Line Model.Quadratic Model.Cubic
  Inst.FloatInst Spec.Sums Spec.Bernstein Spec.Rounding Spec.Componentwise Spec.FloatCurves Spec.Adaptive
  Proofs.PointFacts Proofs.Metric Proofs.FloatFacts Proofs.ExactEval Proofs.FloatNear Spec.FloatPoints Proofs.FloatNorm Proofs.FloatCurve Proofs.FloatSplit
  Proofs.FloatFlat Proofs.FloatFoot Proofs.NanCurves.
Import ListNotations.
Local Open Scope R_scope.

Section Generic.
  Context {F : Format} {P : Type} {PT : Point float P} {CP : CwPoint float P}.
  Notation D := (p_dim (P := P)).

  Lemma gap_tri (f g h : nat -> R) : gap (P := P) f h <= gap (P := P) f g + gap (P := P) g h.
  Proof.
    pose proof (minkowski (fun i => f i - g i) (fun i => g i - h i) D) as K.
    unfold nrm, sq in K. unfold gap. eapply Rle_trans; [|exact K].
    apply Req_le. f_equal. apply Rsum_ext. intros i _. ring.
  Qed.
  Lemma gap_axis (f g : nat -> R) d : 0 <= d -> (forall i, (i < D)%nat -> Rabs (f i - g i) <= d) ->
    gap (P := P) f g <= sqrt (INR D) * d.
  Proof. intros Hd H. exact (nrm_const_bound (fun i => f i - g i) D d Hd H). Qed.

  Context {A : Type}.
  Variables (eval chord : A -> R -> nat -> R) (good : R -> R -> A -> Prop) (stop : A -> outcome bool) (halve : A -> A * A).
  Variables M dN dW er B small : R.
  Hypotheses (HdN : 0 <= dN) (Her : 0 <= er)
    (Htot : forall c, exists b, stop c = Ret b)
    (Hhalf : forall N W c, good N W c -> N + dN <= M ->
      good (N + dN) (W / 2 + dW) (fst (halve c)) /\ good (N + dN) (W / 2 + dW) (snd (halve c)) /\
      forall s i, 0 <= s <= 1 -> (i < D)%nat ->
        Rabs (eval (fst (halve c)) s i - eval c (s / 2) i) <= er /\
        Rabs (eval (snd (halve c)) s i - eval c (/ 2 + s / 2) i) <= er)
    (Hsmall : forall N W c, good N W c -> N <= M -> W <= small -> stop c = Ret true)
    (Hsound : forall N W c, good N W c -> N <= M -> stop c = Ret true ->
      forall t, 0 <= t <= 1 -> exists v, 0 <= v <= 1 /\ gap (P := P) (eval c t) (chord c v) <= B).

  Lemma flattened_round d : forall N W c, good N W c -> N + INR d * dN <= M -> (W - 2 * dW) / 2 ^ d + 2 * dW <= small ->
    exists l, flattened stop halve d c = Ret (Some l) /\ (length l <= 2 ^ d)%nat /\
      forall t, 0 <= t <= 1 -> exists q v, In q l /\ 0 <= v <= 1 /\
        gap (P := P) (eval c t) (chord q v) <= B + INR d * (sqrt (INR D) * er).
  Proof.
    assert (Se : 0 <= sqrt (INR D) * er) by (apply Rmult_le_pos; [apply sqrt_pos|exact Her]).
    induction d as [|d IH]; intros N W c G HN HW.
    - cbn [pow INR] in *. assert (T : stop c = Ret true) by (apply (Hsmall N W); [exact G|lra|lra]).
      exists [c]. cbn [flattened]. rewrite T. cbn [bind]. split; [reflexivity|]. split; [cbn; lia|].
      intros t Ht. destruct (Hsound N W c G ltac:(lra) T t Ht) as (v & Hv & Hg).
      exists c, v. split; [now left|]. split; [exact Hv|lra].
    - rewrite S_INR in *. pose proof (pos_INR d) as Pd.
      assert (P0 : 0 <= INR d * dN) by nra.
      assert (Q0 : 0 <= INR d * (sqrt (INR D) * er)) by nra.
      destruct (Htot c) as ([|] & T).
      + exists [c]. cbn [flattened]. rewrite T. cbn [bind]. split; [reflexivity|].
        split; [cbn [length]; pose proof (Nat.pow_nonzero 2 (S d) ltac:(lia)); lia|].
        intros t Ht. destruct (Hsound N W c G ltac:(lra) T t Ht) as (v & Hv & Hg).
        exists c, v. split; [now left|]. split; [exact Hv|lra].
      + destruct (Hhalf N W c G ltac:(lra)) as (G1 & G2 & HE).
        assert (HW' : (W / 2 + dW - 2 * dW) / 2 ^ d + 2 * dW <= small).
        { eapply Rle_trans; [|exact HW]. apply Req_le. cbn [pow].
          assert (2 ^ d <> 0) by (apply pow_nonzero; lra). field. exact H. }
        destruct (IH _ _ _ G1 ltac:(lra) HW') as (l & El & Ll & Cl).
        destruct (IH _ _ _ G2 ltac:(lra) HW') as (r & Er & Lr & Cr).
        exists (l ++ r). cbn [flattened]. rewrite T. cbn [bind]. rewrite El, Er. cbn [bind].
        split; [reflexivity|]. split; [rewrite app_length; cbn [Nat.pow]; lia|].
        intros t Ht. destruct (Rle_dec t (/ 2)) as [H|H].
        * destruct (Cl (2 * t) ltac:(lra)) as (q & v & Iq & Hv & Hg).
          exists q, v. split; [apply in_or_app; now left|]. split; [exact Hv|].
          eapply Rle_trans; [apply (gap_tri _ (eval (fst (halve c)) (2 * t)))|].
          assert (X : gap (P := P) (eval c t) (eval (fst (halve c)) (2 * t)) <= sqrt (INR D) * er).
          { apply gap_axis; [exact Her|]. intros i Hi. destruct (HE (2 * t) i ltac:(lra) Hi) as [X _].
            replace (2 * t / 2) with t in X by field. rewrite Rabs_minus_sym. exact X. }
          lra.
        * destruct (Cr (2 * t - 1) ltac:(lra)) as (q & v & Iq & Hv & Hg).
          exists q, v. split; [apply in_or_app; now right|]. split; [exact Hv|].
          eapply Rle_trans; [apply (gap_tri _ (eval (snd (halve c)) (2 * t - 1)))|].
          assert (X : gap (P := P) (eval c t) (eval (snd (halve c)) (2 * t - 1)) <= sqrt (INR D) * er).
          { apply gap_axis; [exact Her|]. intros i Hi. destruct (HE (2 * t - 1) i ltac:(lra) Hi) as [_ X].
            replace (/ 2 + (2 * t - 1) / 2) with t in X by field. rewrite Rabs_minus_sym. exact X. }
          lra.
  Qed.
End Generic.

Section Round.
  Context {F : Format} {P : Type} {PT : Point float P} {CP : CwPoint float P}.
  Notation D := (p_dim (P := P)).
  Notation ex p := (fun i => val (cw p i)).
  Variable M : R.
  Hypotheses (HM : 0 <= M) (HD0 : (0 < D)%nat) (HD : 64 * INR (D + 1) * uro <= 1).
  Hypothesis Big : 64 * INR (D + 1) * ((M + 1) * (M + 1)) <= fmax.
  Variables (tol h : float).
  Hypotheses (Ft : fin tol) (Ht : val tol * val tol <= fmax) (Fh : fin h) (Vh : val h = / 2).
  Notation e := (sqrt (INR D) * ((6 * INR D + 35) * uro * M + 4 * sqrt eta)).
  Notation step := (6 * uro * M + 2 * eta).

  Lemma step_pos : 0 <= step.
  Proof. pose proof uro_pos. pose proof eta_pos. assert (0 <= uro * M) by (apply Rmult_le_pos; lra). lra. Qed.

  (** a coordinate of a point at most [N], and of two neighbours at most [W] apart *)
  Notation le_at N p i := (fin (cw p i) /\ Rabs (val (cw p i)) <= N).
  Notation leg W p q i := (Rabs (val (cw q i) - val (cw p i)) <= W).

  Lemma mid_err (a b : P) N i : (i < D)%nat -> N <= M -> le_at N a i -> le_at N b i ->
    let m := p_add a (p_mul (p_sub b a) h) in
    fin (cw m i) /\ Rabs (val (cw m i) - (val (cw a i) + val (cw b i)) / 2) <= step.
  Proof.
    intros Hi HN [Fa Ba] [Fb Bb] m.
    destruct (line_eval_err M HM (fH4 M HM Big) (Line a b) h i Hi Fh) as [A B].
    - rewrite Vh. lra.
    - split; [exact Fa|cbn; lra].
    - split; [exact Fb|cbn; lra].
    - cbn [l_start l_end] in B. rewrite Vh, line_poly in B.
      replace (val (cw a i) + (val (cw b i) - val (cw a i)) * / 2) with ((val (cw a i) + val (cw b i)) / 2) in B by field.
      exact (conj A B).
  Qed.

  Lemma mid_le (x y z N E : R) : Rabs x <= N -> Rabs y <= N -> Rabs (z - (x + y) / 2) <= E -> Rabs z <= N + E.
  Proof. intros A B C. apply Rabs_le. apply Rabs_le_inv in A, B, C. lra. Qed.

  Definition quad_good (N W : R) (q : quad P) : Prop := forall i, (i < D)%nat ->
    le_at N (q_start q) i /\ le_at N (q_ctrl q) i /\ le_at N (q_end q) i /\
    leg W (q_start q) (q_ctrl q) i /\ leg W (q_ctrl q) (q_end q) i.

  Lemma good_bounded N W q : quad_good N W q -> N <= M -> forall p, In p (quad_control_points q) -> bounded M p.
  Proof.
    intros G HN p Hp i Hi. destruct (G i Hi) as ([A1 A2] & [B1 B2] & [C1 C2] & _).
    destruct Hp as [<-|[<-|[<-|[]]]]; split; try assumption; lra.
  Qed.

  Ltac bnd := repeat match goal with H : Rabs _ <= _ |- _ => apply Rabs_le_inv in H end; apply Rabs_le; lra.

  Lemma quad_half N W q : quad_good N W q -> N + 2 * step <= M ->
    quad_good (N + 2 * step) (W / 2 + 2 * step) (fst (quad_split q h)) /\
    quad_good (N + 2 * step) (W / 2 + 2 * step) (snd (quad_split q h)) /\
    forall s i, 0 <= s <= 1 -> (i < D)%nat ->
      Rabs (exact_at (quad_control_points (fst (quad_split q h))) s i - exact_at (quad_control_points q) (s / 2) i)
        <= 11 * uro * M + 3 * eta /\
      Rabs (exact_at (quad_control_points (snd (quad_split q h))) s i - exact_at (quad_control_points q) (/ 2 + s / 2) i)
        <= 11 * uro * M + 3 * eta.
  Proof.
    intros G HN. pose proof step_pos as S0. assert (HN0 : N <= M) by lra. assert (HN1 : N + step <= M) by lra.
    assert (K : quad_good (N + 2 * step) (W / 2 + 2 * step) (fst (quad_split q h)) /\
                quad_good (N + 2 * step) (W / 2 + 2 * step) (snd (quad_split q h))).
    { split; intros i Hi; destruct (G i Hi) as ([A1 A2] & [B1 B2] & [C1 C2] & L1 & L2);
        unfold quad_split; cbn [fst snd q_start q_ctrl q_end];
        (destruct (mid_err (q_start q) (q_ctrl q) N i Hi HN0 (conj A1 A2) (conj B1 B2)) as [X1 X2];
         destruct (mid_err (q_ctrl q) (q_end q) N i Hi HN0 (conj B1 B2) (conj C1 C2)) as [Y1 Y2];
         set (ab := p_add (q_start q) (p_mul (p_sub (q_ctrl q) (q_start q)) h)) in *;
         set (bc := p_add (q_ctrl q) (p_mul (p_sub (q_end q) (q_ctrl q)) h)) in *;
         pose proof (mid_le _ _ _ _ _ A2 B2 X2) as X3; pose proof (mid_le _ _ _ _ _ B2 C2 Y2) as Y3;
         destruct (mid_err ab bc (N + step) i Hi HN1 (conj X1 X3) (conj Y1 Y3)) as [Z1 Z2];
         set (m := p_add ab (p_mul (p_sub bc ab) h)) in *; pose proof (mid_le _ _ _ _ _ X3 Y3 Z2) as Z3;
         refine (conj (conj _ _) (conj (conj _ _) (conj (conj _ _) (conj _ _)))); try assumption; try lra;
         clear X3 Y3 Z3 A2 B2 C2; bnd). }
    destruct K as [K1 K2]. split; [exact K1|]. split; [exact K2|].
    intros s i Hs Hi. destruct (G i Hi) as ([A1 A2] & [B1 B2] & [C1 C2] & _).
    destruct (quad_split q h) as [l r] eqn:Hsp. cbn [fst snd].
    destruct (quad_split_err M HM (fH4 M HM Big) q h i Hi Fh ltac:(rewrite Vh; lra)
      (conj A1 (Rle_trans _ _ _ A2 HN0)) (conj B1 (Rle_trans _ _ _ B2 HN0)) (conj C1 (Rle_trans _ _ _ C2 HN0)) l r Hsp) as [_ E].
    destruct (E s Hs) as [E1 E2]. rewrite Vh in E1, E2. unfold exact_at.
    replace (s / 2) with (/ 2 * s) by field. split; [exact E1|].
    replace (/ 2 + / 2 * s) with (/ 2 + s * (1 - / 2)) by field. exact E2.
  Qed.

  Definition quad_stop q : outcome bool := if quad_is_a_point q tol then Ret true else quad_is_linear q tol.
  Lemma quad_stop_total q : exists b, quad_stop q = Ret b.
  Proof.
    unfold quad_stop. destruct (quad_is_a_point q tol); [eauto|]. unfold quad_is_linear, quad_are_points_colinear. destruct (s_ltb _ _); [eauto|].
    destruct (line_distance_total 0%nat HD0 (quad_baseline q) (q_ctrl q)) as (d & ->). cbn [bind]. eauto.
  Qed.

  Lemma gap_const p q W : 0 <= W -> (forall i, (i < D)%nat -> leg W p q i) ->
    gap (P := P) (ex p) (ex q) <= sqrt (INR D) * W.
  Proof. intros HW H. apply gap_axis; [exact HW|]. intros i Hi. rewrite Rabs_minus_sym. now apply H. Qed.

  (** curves this short per axis are points *)
  Variable small : R.
  Notation acc k := (sqrt (INR D) * (k * small) + e + 3 * sqrt eta <= (1 - 2 * uro) * Rabs (val tol)).

  Lemma leg_nonneg x W : Rabs x <= W -> 0 <= W.
  Proof. intros H. pose proof (Rabs_pos x). lra. Qed.

  Lemma quad_small N W q : acc 2 -> quad_good N W q -> N <= M -> W <= small -> quad_stop q = Ret true.
  Proof.
    intros Hs G HN HW. unfold quad_stop.
    assert (W0 : 0 <= W) by (destruct (G 0%nat HD0) as (_ & _ & _ & L & _); exact (leg_nonneg _ _ L)).
    pose proof (sqrt_pos (INR D)) as S0.
    rewrite (quad_point_complete M HM HD0 HD Big tol Ft Ht q (good_bounded N W q G HN)); [reflexivity| |].
    - assert (X := gap_const (q_start q) (q_end q) (2 * W) ltac:(lra)
        ltac:(intros i Hi; destruct (G i Hi) as (_ & _ & _ & L1 & L2); bnd)).
      assert (sqrt (INR D) * (2 * W) <= sqrt (INR D) * (2 * small)) by (apply Rmult_le_compat_l; lra).
      unfold flat_err. lra.
    - assert (X := gap_const (q_start q) (q_ctrl q) W ltac:(lra)
        ltac:(intros i Hi; destruct (G i Hi) as (_ & _ & _ & L1 & L2); bnd)).
      assert (sqrt (INR D) * W <= sqrt (INR D) * (2 * small)) by (apply Rmult_le_compat_l; lra).
      unfold flat_err. lra.
  Qed.

  Notation chord_of a b := (exact_at [a; b]).
  Lemma chord_start (a b : P) : forall i, (i < D)%nat -> chord_of a b 0 i = val (cw a i).
  Proof. intros i _. unfold exact_at. cbn [map]. rewrite line_poly. ring. Qed.

  Lemma quad_sound N W q : quad_good N W q -> N <= M -> quad_stop q = Ret true ->
    forall t, 0 <= t <= 1 -> exists v, 0 <= v <= 1 /\
      gap (P := P) (exact_at (quad_control_points q) t) (chord_of (q_start q) (q_end q) v)
        <= (1 + 3 * uro) * Rabs (val tol) + 2 * sqrt eta + e.
  Proof.
    intros G HN H t Hr. pose proof (good_bounded N W q G HN) as B. unfold quad_stop in H.
    pose proof uro_pos as U. pose proof (sqrt_pos eta) as S. pose proof (Rabs_pos (val tol)) as T.
    assert (0 <= uro * Rabs (val tol)) by (apply Rmult_le_pos; lra).
    destruct (quad_is_a_point q tol) eqn:Q.
    - exists 0. split; [lra|].
      rewrite (gap_ext _ (exact_at (quad_control_points q) t) _ (ex (q_start q))
                 (fun i _ => eq_refl) (chord_start (q_start q) (q_end q))).
      exact (quad_point_sound M HM HD0 HD Big tol Ft Ht q B Q t Hr).
    - destruct (quad_flat M HM HD0 HD Big q tol B Ft H t Hr) as (v & Hv & Hg). exists v. split; [exact Hv|].
      unfold flat_err in Hg. pose proof (Rle_abs (val tol)). lra.
  Qed.

  (** cubic curves *)
  Definition cubic_good (N W : R) (q : cubic P) : Prop := forall i, (i < D)%nat ->
    (le_at N (c_start q) i /\ le_at N (c_ctrl1 q) i /\ le_at N (c_ctrl2 q) i /\ le_at N (c_end q) i) /\
    leg W (c_start q) (c_ctrl1 q) i /\ leg W (c_ctrl1 q) (c_ctrl2 q) i /\ leg W (c_ctrl2 q) (c_end q) i.

  Lemma cgood_bounded N W q : cubic_good N W q -> N <= M -> forall p, In p (cubic_control_points q) -> bounded M p.
  Proof.
    intros G HN p Hp i Hi. destruct (G i Hi) as (([A1 A2] & [B1 B2] & [C1 C2] & [E1 E2]) & _).
    destruct Hp as [<-|[<-|[<-|[<-|[]]]]]; split; try assumption; lra.
  Qed.

  Lemma cubic_half N W q : cubic_good N W q -> N + 3 * step <= M ->
    cubic_good (N + 3 * step) (W / 2 + 3 * step) (fst (cubic_split q h)) /\
    cubic_good (N + 3 * step) (W / 2 + 3 * step) (snd (cubic_split q h)) /\
    forall s i, 0 <= s <= 1 -> (i < D)%nat ->
      Rabs (exact_at (cubic_control_points (fst (cubic_split q h))) s i - exact_at (cubic_control_points q) (s / 2) i)
        <= 16 * uro * M + 4 * eta /\
      Rabs (exact_at (cubic_control_points (snd (cubic_split q h))) s i - exact_at (cubic_control_points q) (/ 2 + s / 2) i)
        <= 16 * uro * M + 4 * eta.
  Proof.
    intros G HN. pose proof step_pos as S0. assert (HN0 : N <= M) by lra. assert (HN1 : N + step <= M) by lra.
    assert (HN2 : N + step + step <= M) by lra.
    assert (K : cubic_good (N + 3 * step) (W / 2 + 3 * step) (fst (cubic_split q h)) /\
                cubic_good (N + 3 * step) (W / 2 + 3 * step) (snd (cubic_split q h))).
    { split; intros i Hi; destruct (G i Hi) as (([A1 A2] & [B1 B2] & [C1 C2] & [E1 E2]) & L1 & L2 & L3);
        unfold cubic_split; cbn [fst snd c_start c_ctrl1 c_ctrl2 c_end];
        (destruct (mid_err (c_start q) (c_ctrl1 q) N i Hi HN0 (conj A1 A2) (conj B1 B2)) as [X1 X2];
         destruct (mid_err (c_ctrl1 q) (c_ctrl2 q) N i Hi HN0 (conj B1 B2) (conj C1 C2)) as [Y1 Y2];
         destruct (mid_err (c_ctrl2 q) (c_end q) N i Hi HN0 (conj C1 C2) (conj E1 E2)) as [Z1 Z2];
         set (ab := p_add (c_start q) (p_mul (p_sub (c_ctrl1 q) (c_start q)) h)) in *;
         set (bc := p_add (c_ctrl1 q) (p_mul (p_sub (c_ctrl2 q) (c_ctrl1 q)) h)) in *;
         set (cd := p_add (c_ctrl2 q) (p_mul (p_sub (c_end q) (c_ctrl2 q)) h)) in *;
         pose proof (mid_le _ _ _ _ _ A2 B2 X2) as X3; pose proof (mid_le _ _ _ _ _ B2 C2 Y2) as Y3;
         pose proof (mid_le _ _ _ _ _ C2 E2 Z2) as Z3;
         destruct (mid_err ab bc (N + step) i Hi HN1 (conj X1 X3) (conj Y1 Y3)) as [V1 V2];
         destruct (mid_err bc cd (N + step) i Hi HN1 (conj Y1 Y3) (conj Z1 Z3)) as [U1 U2];
         set (abc := p_add ab (p_mul (p_sub bc ab) h)) in *;
         set (bcd := p_add bc (p_mul (p_sub cd bc) h)) in *;
         pose proof (mid_le _ _ _ _ _ X3 Y3 V2) as V3; pose proof (mid_le _ _ _ _ _ Y3 Z3 U2) as U3;
         destruct (mid_err abc bcd (N + step + step) i Hi HN2 (conj V1 V3) (conj U1 U3)) as [T1 T2];
         set (m := p_add abc (p_mul (p_sub bcd abc) h)) in *; pose proof (mid_le _ _ _ _ _ V3 U3 T2) as T3;
         refine (conj (conj (conj _ _) (conj (conj _ _) (conj (conj _ _) (conj _ _)))) (conj _ (conj _ _)));
         try assumption; try lra; clear X3 Y3 Z3 V3 U3 T3 A2 B2 C2 E2; bnd). }
    destruct K as [K1 K2]. split; [exact K1|]. split; [exact K2|].
    intros s i Hs Hi. destruct (G i Hi) as (([A1 A2] & [B1 B2] & [C1 C2] & [E1 E2]) & _).
    destruct (cubic_split q h) as [l r] eqn:Hsp. cbn [fst snd].
    destruct (cubic_split_err M HM (fH4 M HM Big) q h i Hi Fh ltac:(rewrite Vh; lra)
      (conj A1 (Rle_trans _ _ _ A2 HN0)) (conj B1 (Rle_trans _ _ _ B2 HN0)) (conj C1 (Rle_trans _ _ _ C2 HN0))
      (conj E1 (Rle_trans _ _ _ E2 HN0)) l r Hsp) as [_ E].
    destruct (E s Hs) as [X1 X2]. rewrite Vh in X1, X2. unfold exact_at.
    replace (s / 2) with (/ 2 * s) by field. split; [exact X1|].
    replace (/ 2 + / 2 * s) with (/ 2 + s * (1 - / 2)) by field. exact X2.
  Qed.

  Definition cubic_stop q : outcome bool := if cubic_is_a_point q tol then Ret true else cubic_is_linear q tol.
  Lemma cubic_stop_total q : exists b, cubic_stop q = Ret b.
  Proof.
    unfold cubic_stop. destruct (cubic_is_a_point q tol); [eauto|]. unfold cubic_is_linear, cubic_are_points_colinear. destruct (s_ltb _ _); [eauto|].
    destruct (line_distance_total 0%nat HD0 (cubic_baseline q) (c_ctrl1 q)) as (d & ->). cbn [bind].
    destruct (line_distance_total 0%nat HD0 (cubic_baseline q) (c_ctrl2 q)) as (d' & ->).
    destruct (s_leb d tol); cbn [bind]; eauto.
  Qed.

  Lemma cubic_small N W q : acc 3 -> cubic_good N W q -> N <= M -> W <= small -> cubic_stop q = Ret true.
  Proof.
    intros Hs G HN HW. unfold cubic_stop.
    assert (W0 : 0 <= W) by (destruct (G 0%nat HD0) as (_ & L & _); exact (leg_nonneg _ _ L)).
    pose proof (sqrt_pos (INR D)) as S0.
    assert (S1 : sqrt (INR D) * W <= sqrt (INR D) * (3 * small)) by (apply Rmult_le_compat_l; lra).
    rewrite (cubic_point_complete M HM HD0 HD Big tol Ft Ht q (cgood_bounded N W q G HN)); [reflexivity| | |].
    - assert (X := gap_const (c_start q) (c_end q) (3 * W) ltac:(lra)
        ltac:(intros i Hi; destruct (G i Hi) as (_ & L1 & L2 & L3); bnd)).
      assert (sqrt (INR D) * (3 * W) <= sqrt (INR D) * (3 * small)) by (apply Rmult_le_compat_l; lra).
      unfold flat_err. lra.
    - assert (X := gap_const (c_start q) (c_ctrl1 q) W ltac:(lra)
        ltac:(intros i Hi; destruct (G i Hi) as (_ & L1 & L2 & L3); bnd)).
      unfold flat_err. lra.
    - assert (X := gap_const (c_end q) (c_ctrl2 q) W ltac:(lra)
        ltac:(intros i Hi; destruct (G i Hi) as (_ & L1 & L2 & L3); bnd)).
      unfold flat_err. lra.
  Qed.

  (** a cubic that is a point stays within the tolerance of its chord *)
  Lemma cubic_point_chord q : (forall p, In p (cubic_control_points q) -> bounded M p) -> cubic_is_a_point q tol = true ->
    forall t, 0 <= t <= 1 -> exists v, 0 <= v <= 1 /\
      gap (P := P) (exact_at (cubic_control_points q) t) (chord_of (c_start q) (c_end q) v)
        <= (1 + 3 * uro) * Rabs (val tol) + 2 * sqrt eta + e.
  Proof.
    intros B H t Hr. destruct q as [a b c d]. unfold cubic_is_a_point in H. cbn [c_start c_ctrl1 c_ctrl2 c_end] in *.
    assert (Ba : bounded M a) by (apply B; cbn; auto). assert (Bb : bounded M b) by (apply B; cbn; auto).
    assert (Bc : bounded M c) by (apply B; cbn; auto). assert (Bd : bounded M d) by (apply B; cbn; auto).
    cbv zeta in H. apply andb_true_iff in H. destruct H as [H H3]. apply andb_true_iff in H. destruct H as [_ H2].
    pose proof (small_sound M HM HD0 HD Big tol Ft Ht a b Ba Bb H2) as G2.
    pose proof (small_sound M HM HD0 HD Big tol Ft Ht d c Bd Bc H3) as G3. unfold flat_err in G2, G3.
    set (T := (1 + 3 * uro) * Rabs (val tol) + 2 * sqrt eta + e) in *.
    set (w1 := 3 * (1 - t) * (1 - t) * t). set (w2 := 3 * (1 - t) * t * t).
    assert (W1 : 0 <= w1) by (unfold w1; repeat apply Rmult_le_pos; lra).
    assert (W2 : 0 <= w2) by (unfold w2; repeat apply Rmult_le_pos; lra).
    assert (T3 : 0 <= t * t * t) by (repeat apply Rmult_le_pos; lra).
    assert (S3 : 0 <= (1 - t) * (1 - t) * (1 - t)) by (repeat apply Rmult_le_pos; lra).
    assert (W : w1 + w2 <= 1) by (unfold w1, w2; lra).
    assert (V : w2 + t * t * t <= 1) by (unfold w1, w2 in *; lra).
    exists (w2 + t * t * t). split; [lra|].
    pose proof (minkowski (fun i => - w1 * (val (cw a i) - val (cw b i))) (fun i => - w2 * (val (cw d i) - val (cw c i))) D) as K.
    rewrite !nrm_scal, !Rabs_Ropp, (Rabs_pos_eq w1), (Rabs_pos_eq w2) in K by assumption.
    change (nrm (fun i => val (cw a i) - val (cw b i)) D) with (gap (P := P) (ex a) (ex b)) in K.
    change (nrm (fun i => val (cw d i) - val (cw c i)) D) with (gap (P := P) (ex d) (ex c)) in K.
    assert (T0 : 0 <= T) by (eapply Rle_trans; [|exact G2]; apply sqrt_pos).
    apply Rle_trans with (w1 * T + w2 * T).
    2:{ rewrite <- Rmult_plus_distr_r. rewrite <- (Rmult_1_l T) at 2. apply Rmult_le_compat_r; lra. }
    assert (w1 * gap (P := P) (ex a) (ex b) <= w1 * T) by (apply Rmult_le_compat_l; lra).
    assert (w2 * gap (P := P) (ex d) (ex c) <= w2 * T) by (apply Rmult_le_compat_l; lra).
    eapply Rle_trans; [apply Req_le|eapply Rle_trans; [exact K|lra]].
    unfold gap, nrm, sq. f_equal. apply Rsum_ext. intros i _.
    unfold exact_at, cubic_control_points. cbn [c_start c_ctrl1 c_ctrl2 c_end map]. rewrite line_poly, cubic_poly.
    unfold w1, w2. ring.
  Qed.

  Lemma cubic_sound N W q : cubic_good N W q -> N <= M -> cubic_stop q = Ret true ->
    forall t, 0 <= t <= 1 -> exists v, 0 <= v <= 1 /\
      gap (P := P) (exact_at (cubic_control_points q) t) (chord_of (c_start q) (c_end q) v)
        <= (1 + 3 * uro) * Rabs (val tol) + 2 * sqrt eta + e.
  Proof.
    intros G HN H t Hr. pose proof (cgood_bounded N W q G HN) as B. unfold cubic_stop in H.
    pose proof uro_pos as U. pose proof (sqrt_pos eta) as S. pose proof (Rabs_pos (val tol)) as T.
    assert (0 <= uro * Rabs (val tol)) by (apply Rmult_le_pos; lra).
    destruct (cubic_is_a_point q tol) eqn:Q.
    - exact (cubic_point_chord q B Q t Hr).
    - destruct (cubic_flat M HM HD0 HD Big q tol B Ft H t Hr) as (v & Hv & Hg). exists v. split; [exact Hv|].
      unfold flat_err in Hg. pose proof (Rle_abs (val tol)). lra.
  Qed.
End Round.

Section Final.
  Context {F : Format} {P : Type} {PT : Point float P} {CP : CwPoint float P}.
  Notation D := (p_dim (P := P)).
  Variables M N : R.
  Hypotheses (HN : 0 <= N <= M) (HD0 : (0 < D)%nat) (HD : 64 * INR (D + 1) * uro <= 1).
  Hypothesis Big : 64 * INR (D + 1) * ((M + 1) * (M + 1)) <= fmax.
  Variables (tol h : float) (d : nat).
  Hypotheses (Ft : fin tol) (Ht : val tol * val tol <= fmax) (Fh : fin h) (Vh : val h = / 2).
  Notation e := (sqrt (INR D) * ((6 * INR D + 35) * uro * M + 4 * sqrt eta)).
  Notation step := (6 * uro * M + 2 * eta).

  Lemma leg_two (x y : R) : Rabs x <= N -> Rabs y <= N -> Rabs (y - x) <= 2 * N.
  Proof. intros A B. apply Rabs_le_inv in A, B. apply Rabs_le. lra. Qed.

  Lemma shrunk k : 0 <= k -> (2 * N - 2 * k) / 2 ^ d + 2 * k <= 2 * N / 2 ^ d + 2 * k.
  Proof.
    intros Hk. apply Rplus_le_compat_r. unfold Rdiv. apply Rmult_le_compat_r; [|lra].
    apply Rlt_le, Rinv_0_lt_compat, pow_lt. lra.
  Qed.

  Theorem quad_adaptive_round (c : quad P) : (forall p, In p (quad_control_points c) -> bounded N p) ->
    N + INR d * (2 * step) <= M ->
    sqrt (INR D) * (4 * N / 2 ^ d + 8 * step) + e + 3 * sqrt eta <= (1 - 2 * uro) * Rabs (val tol) ->
    exists l, flattened (fun q => if quad_is_a_point q tol then Ret true else quad_is_linear q tol)
        (fun q => quad_split q h) d c = Ret (Some l) /\ (length l <= 2 ^ d)%nat /\
      forall t, 0 <= t <= 1 -> exists q v, In q l /\ 0 <= v <= 1 /\
        gap (P := P) (exact_at (quad_control_points c) t) (exact_at [q_start q; q_end q] v)
          <= (1 + 3 * uro) * Rabs (val tol) + 2 * sqrt eta + e + INR d * (sqrt (INR D) * (11 * uro * M + 3 * eta)).
  Proof.
    intros B Hd Hs. assert (HM : 0 <= M) by lra. pose proof (step_pos M HM) as S0.
    set (small := 2 * N / 2 ^ d + 2 * (2 * step)).
    apply (flattened_round (fun q => exact_at (quad_control_points q)) (fun q => exact_at [q_start q; q_end q])
      quad_good (quad_stop tol) (fun q => quad_split q h) M (2 * step) (2 * step) (11 * uro * M + 3 * eta)
      ((1 + 3 * uro) * Rabs (val tol) + 2 * sqrt eta + e) small) with (N := N) (W := 2 * N).
    - lra.
    - pose proof uro_pos. pose proof eta_pos. assert (0 <= uro * M) by (apply Rmult_le_pos; lra). lra.
    - exact (quad_stop_total HD0 tol).
    - intros N' W q. exact (quad_half M HM Big h Fh Vh N' W q).
    - intros N' W q. apply (quad_small M HM HD0 HD Big tol Ft Ht small).
      replace (2 * small) with (4 * N / 2 ^ d + 8 * step); [exact Hs|]. unfold small. field. apply pow_nonzero. lra.
    - intros N' W q. exact (quad_sound M HM HD0 HD Big tol Ft Ht N' W q).
    - intros i Hi. assert (B1 := B (q_start c) ltac:(cbn; auto) i Hi). assert (B2 := B (q_ctrl c) ltac:(cbn; auto) i Hi).
      assert (B3 := B (q_end c) ltac:(cbn; auto) i Hi).
      refine (conj B1 (conj B2 (conj B3 (conj _ _)))); apply leg_two; first [apply B1|apply B2|apply B3].
    - exact Hd.
    - apply (shrunk (2 * step)). lra.
  Qed.

  Theorem cubic_adaptive_round (c : cubic P) : (forall p, In p (cubic_control_points c) -> bounded N p) ->
    N + INR d * (3 * step) <= M ->
    sqrt (INR D) * (6 * N / 2 ^ d + 18 * step) + e + 3 * sqrt eta <= (1 - 2 * uro) * Rabs (val tol) ->
    exists l, flattened (fun q => if cubic_is_a_point q tol then Ret true else cubic_is_linear q tol)
        (fun q => cubic_split q h) d c = Ret (Some l) /\ (length l <= 2 ^ d)%nat /\
      forall t, 0 <= t <= 1 -> exists q v, In q l /\ 0 <= v <= 1 /\
        gap (P := P) (exact_at (cubic_control_points c) t) (exact_at [c_start q; c_end q] v)
          <= (1 + 3 * uro) * Rabs (val tol) + 2 * sqrt eta + e + INR d * (sqrt (INR D) * (16 * uro * M + 4 * eta)).
  Proof.
    intros B Hd Hs. assert (HM : 0 <= M) by lra. pose proof (step_pos M HM) as S0.
    set (small := 2 * N / 2 ^ d + 2 * (3 * step)).
    apply (flattened_round (fun q => exact_at (cubic_control_points q)) (fun q => exact_at [c_start q; c_end q])
      cubic_good (cubic_stop tol) (fun q => cubic_split q h) M (3 * step) (3 * step) (16 * uro * M + 4 * eta)
      ((1 + 3 * uro) * Rabs (val tol) + 2 * sqrt eta + e) small) with (N := N) (W := 2 * N).
    - lra.
    - pose proof uro_pos. pose proof eta_pos. assert (0 <= uro * M) by (apply Rmult_le_pos; lra). lra.
    - exact (cubic_stop_total HD0 tol).
    - intros N' W q. exact (cubic_half M HM Big h Fh Vh N' W q).
    - intros N' W q. apply (cubic_small M HM HD0 HD Big tol Ft Ht small).
      replace (3 * small) with (6 * N / 2 ^ d + 18 * step); [exact Hs|]. unfold small. field. apply pow_nonzero. lra.
    - intros N' W q. exact (cubic_sound M HM HD0 HD Big tol Ft Ht N' W q).
    - intros i Hi. assert (B1 := B (c_start c) ltac:(cbn; auto) i Hi). assert (B2 := B (c_ctrl1 c) ltac:(cbn; auto) i Hi).
      assert (B3 := B (c_ctrl2 c) ltac:(cbn; auto) i Hi). assert (B4 := B (c_end c) ltac:(cbn; auto) i Hi).
      refine (conj (conj B1 (conj B2 (conj B3 B4))) (conj _ (conj _ _))); apply leg_two;
        first [apply B1|apply B2|apply B3|apply B4].
    - exact Hd.
    - apply (shrunk (3 * step)). lra.
  Qed.
End Final.
