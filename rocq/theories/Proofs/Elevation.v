(** Degree elevation, and curves determined by finitely many of their points. *)
From Coq Require Import Reals List ZArith Arith Lia Lra Sorting.Sorted FinFun.
From Verif Require Import Base.Outcome Base.Scalar Model.Point Model.Line Model.Quadratic
  Model.Cubic Model.Bezier Inst.RealInst Spec.Sums Spec.Lawful Spec.Bernstein Spec.Elevation
  Proofs.OutcomeFacts Proofs.PointFacts Proofs.RealTac Proofs.ExactEval Proofs.BezierGeneric
  Proofs.BezierReal Proofs.BBoxFacts.
Import ListNotations.
Local Open Scope R_scope.

(** ** Zeros of a polynomial in Bernstein form *)
Lemma finite_choice (Q : nat -> R -> Prop) n : (forall i, (i <= n)%nat -> exists y, Q i y) ->
  exists f, forall i, (i <= n)%nat -> Q i (f i).
Proof.
  induction n as [|n IH]; intros H.
  - destruct (H 0%nat ltac:(lia)) as (y & Hy). exists (fun _ => y). intros i Hi. now replace i with 0%nat by lia.
  - destruct IH as (f & Hf); [intros; apply H; lia|]. destruct (H (S n) ltac:(lia)) as (y & Hy).
    exists (fun i => if (i <=? n)%nat then f i else y). intros i Hi. destruct (Nat.leb_spec i n); [now apply Hf|].
    now replace i with (S n) by lia.
Qed.

(** n + 1 zeros: every coefficient is zero (Rolle, by induction on the degree) *)
Lemma dc_zeros n : forall (f : nat -> R) (x : nat -> R), (forall i, (i < n)%nat -> x i < x (i + 1)%nat) ->
  (forall i, (i <= n)%nat -> dc (x i) n f 0 = 0) -> forall k, (k <= n)%nat -> f k = 0.
Proof.
  induction n as [|n IH]; intros f x Hx H k Hk.
  - replace k with 0%nat by lia. exact (H 0%nat ltac:(lia)).
  - set (d := fun i => f (i + 1)%nat - f i).
    destruct (finite_choice (fun i y => x i < y < x (i + 1)%nat /\ dc y n d 0 = 0) n) as (y & Hy).
    { intros i Hi.
      destruct (MVT_cor2 (fun t => dc t (S n) f 0) (fun t => INR (S n) * dc t (S n - 1) d 0) (x i) (x (i + 1)%nat))
        as (c & Hc & Hin).
      - apply Hx. lia.
      - intros c _. exact (dc_derivative (S n) f 0 c).
      - exists c. split; [exact Hin|]. rewrite !H in Hc by lia. replace (S n - 1)%nat with n in Hc by lia.
        assert (Z : INR (S n) * dc c n d 0 * (x (i + 1)%nat - x i) = 0) by lra.
        apply Rmult_integral in Z. destruct Z as [Z|Z]; [|specialize (Hx i ltac:(lia)); lra].
        apply Rmult_integral in Z. destruct Z as [Z|Z]; [|exact Z].
        pose proof (lt_0_INR (S n) ltac:(lia)). lra. }
    assert (Hd : forall i, (i <= n)%nat -> d i = 0).
    { apply (IH d y).
      - intros i Hi. destruct (Hy i ltac:(lia)) as [A _]. destruct (Hy (i + 1)%nat ltac:(lia)) as [B _]. lra.
      - intros i Hi. apply Hy. exact Hi. }
    assert (Hf : forall i, (i <= S n)%nat -> f i = f 0%nat).
    { induction i as [|i IHi]; intros Hi; [reflexivity|]. specialize (Hd i ltac:(lia)). unfold d in Hd.
      rewrite Nat.add_1_r in Hd. specialize (IHi ltac:(lia)). lra. }
    rewrite (Hf k Hk). rewrite <- (H 0%nat ltac:(lia)).
    rewrite (dc_ext _ _ f (fun _ => f 0%nat)); [now rewrite dc_const|]. intros i Hi. apply Hf. lia.
Qed.

(** ** Elevation of a real sequence *)
Lemma binom_absorb n : forall k,
  (S k * binom (S n) (S k) = S n * binom n k)%nat /\ (k * binom (S n) k + S n * binom n k = S n * binom (S n) k)%nat.
Proof.
  induction n as [|n IH]; intros k.
  - destruct k as [|[|k]]; cbn; lia.
  - assert (B : (k * binom (S (S n)) k + S (S n) * binom (S n) k = S (S n) * binom (S (S n)) k)%nat).
    { destruct k as [|k]; [rewrite !binom_0; lia|].
      destruct (IH k) as [A1 A2]. destruct (IH (S k)) as [B1 B2].
      change (binom (S (S n)) (S k)) with (binom (S n) k + binom (S n) (S k))%nat. nia. }
    split; [|exact B].
    destruct (IH k) as [A1 A2].
    change (binom (S (S n)) (S k)) with (binom (S n) k + binom (S n) (S k))%nat.
    destruct k as [|k]; [rewrite !binom_0 in *; lia|]. nia.
Qed.

Lemma bernstein_low n k t : (k <= n)%nat ->
  (INR (S n) - INR k) * bernstein (S n) k t = INR (S n) * ((1 - t) * bernstein n k t).
Proof.
  intros Hk. unfold bernstein. replace (S n - k)%nat with (S (n - k)) by lia. cbn [pow].
  destruct (binom_absorb n k) as [_ E]. apply (f_equal INR) in E. rewrite plus_INR, !mult_INR in E.
  replace ((INR (S n) - INR k) * (INR (binom (S n) k) * t ^ k * ((1 - t) * (1 - t) ^ (n - k))))
    with ((INR (S n) * INR (binom (S n) k) - INR k * INR (binom (S n) k)) * t ^ k * (1 - t) * (1 - t) ^ (n - k)) by ring.
  rewrite <- E. ring.
Qed.
Lemma bernstein_high n k t :
  INR (S k) * bernstein (S n) (S k) t = INR (S n) * (t * bernstein n k t).
Proof.
  unfold bernstein. cbn [Nat.sub pow].
  destruct (binom_absorb n k) as [E _]. apply (f_equal INR) in E. rewrite !mult_INR in E.
  replace (INR (S k) * (INR (binom (S n) (S k)) * (t * t ^ k) * (1 - t) ^ (n - k)))
    with ((INR (S k) * INR (binom (S n) (S k))) * t * t ^ k * (1 - t) ^ (n - k)) by ring.
  rewrite E. ring.
Qed.

Lemma dc_raise n (f g : nat -> R) t :
  (forall j, (j <= S n)%nat -> g j = INR j / INR (S n) * f (j - 1)%nat + (1 - INR j / INR (S n)) * f j) ->
  dc t (S n) g 0 = dc t n f 0.
Proof.
  intros H. pose proof (lt_0_INR (S n) ltac:(lia)) as Pn. rewrite !dc_bernstein. cbn [Nat.add].
  rewrite (Rsum_ext _ (fun i => INR i / INR (S n) * bernstein (S n) i t * f (i - 1)%nat
                                + (INR (S n) - INR i) / INR (S n) * bernstein (S n) i t * f i)).
  2:{ intros i Hi. rewrite H by lia. field. lra. }
  rewrite Rsum_plus.
  rewrite (Rsum_shift (fun i => INR i / INR (S n) * bernstein (S n) i t * f (i - 1)%nat) (S n)).
  rewrite (Rsum_ext (fun i => INR (S i) / INR (S n) * bernstein (S n) (S i) t * f (S i - 1)%nat)
                    (fun i => t * (bernstein n i t * f i))).
  2:{ intros i Hi. replace (S i - 1)%nat with i by lia.
      replace (INR (S i) / INR (S n) * bernstein (S n) (S i) t * f i)
        with (INR (S i) * bernstein (S n) (S i) t / INR (S n) * f i) by (unfold Rdiv; ring).
      rewrite bernstein_high. field. lra. }
  set (h := fun i => (INR (S n) - INR i) / INR (S n) * bernstein (S n) i t * f i).
  change (Rsum h (S (S n))) with (Rsum h (S n) + h (S n)).
  assert (Z : h (S n) = 0) by (unfold h; field; lra). rewrite Z.
  rewrite (Rsum_ext h
                    (fun i => (1 - t) * (bernstein n i t * f i)) (S n)).
  2:{ intros i Hi. unfold h.
      replace ((INR (S n) - INR i) / INR (S n) * bernstein (S n) i t * f i)
        with ((INR (S n) - INR i) * bernstein (S n) i t / INR (S n) * f i) by (unfold Rdiv; ring).
      rewrite bernstein_low by lia. field. lra. }
  rewrite !Rsum_scal. change (INR 0) with 0. unfold Rdiv. ring.
Qed.

(** ** Lists of distinct parameters *)
Lemma distinct_increasing {E : Eps} (ts : list R) : NoDup ts ->
  let x := fun i => nth i (s_isort ts) 0 in
  (forall i, (i + 1 < length ts)%nat -> x i < x (i + 1)%nat) /\
  (forall i, (i < length ts)%nat -> In (x i) ts).
Proof.
  intros Hd x.
  assert (Hnd : NoDup (s_isort ts)).
  { refine (NoDup_incl_NoDup (l := ts) Hd _ _); [rewrite isort_length; lia|].
    intros y Hy. now apply isort_in. }
  assert (Hin : forall i, (i < length ts)%nat -> In (x i) (s_isort ts)).
  { intros i Hi. apply nth_In. now rewrite isort_length. }
  split; [|intros i Hi; now apply isort_in, Hin].
  intros i Hi. pose proof (isort_sorted ts) as Hs.
  assert (Hle : forall (l : list R) j, StronglySorted Rle l -> (j + 1 < length l)%nat ->
    nth j l 0 <= nth (j + 1) l 0).
  { clear. intros l. induction l as [|a l IH]; intros j Hs Hj; [simpl in Hj; lia|].
    inversion Hs as [|? ? Hs' Ha]; subst. destruct j as [|j].
    - rewrite Forall_forall in Ha. apply Ha. simpl (0 + 1)%nat. cbn [nth]. apply nth_In. simpl in Hj. lia.
    - simpl (S j + 1)%nat. cbn [nth]. apply IH; [exact Hs'|]. simpl in Hj. lia. }
  specialize (Hle (s_isort ts) i Hs). rewrite isort_length in Hle. specialize (Hle Hi).
  destruct Hle as [L|L]; [exact L|exfalso].
  assert (i = i + 1)%nat; [|lia].
  apply (proj1 (NoDup_nth (s_isort ts) 0) Hnd); rewrite ?isort_length; auto; lia.
Qed.

Lemma INR_distinct n : NoDup (map INR (seq 0 n)).
Proof.
  apply Injective_map_NoDup; [|apply seq_NoDup]. intros a b. apply INR_eq.
Qed.

(** a polynomial in Bernstein form is determined by n + 1 values *)
Lemma dc_determined {E : Eps} n (f g : nat -> R) (ts : list R) : NoDup ts -> (n < length ts)%nat ->
  (forall t, In t ts -> dc t n f 0 = dc t n g 0) -> forall k, (k <= n)%nat -> f k = g k.
Proof.
  intros Hd Hl H k Hk. destruct (distinct_increasing ts Hd) as [Hx Hin].
  set (x := fun i => nth i (s_isort ts) 0) in *.
  assert (Z : (fun k => 1 * f k + (- (1)) * g k) k = 0).
  { apply (dc_zeros n (fun k => 1 * f k + (- (1)) * g k) x); [intros i Hi; apply Hx; lia| |exact Hk].
    intros i Hi. rewrite dc_lin. rewrite (H (x i)); [ring|]. apply Hin. lia. }
  cbn beta in Z. lra.
Qed.

Lemma search_distance_ext {T P : Type} {ST : Scalar T} {PT : Point T P} (f g : T -> outcome P) first p :
  (forall t, f t = g t) -> search_distance f first p = search_distance g first p.
Proof.
  intros H. unfold search_distance.
  rewrite (for_in_ext (range 0 nsteps) _ (coarse_body f p) (coarse_body g p)).
  2:{ intros i s _. unfold coarse_body. now rewrite H. }
  destruct (for_in _ _ _) as [st| |]; [|reflexivity|reflexivity]. cbn [bind].
  rewrite (for_in_ext (range 0 nsteps) _ (fine_body f p) (fine_body g p)); [reflexivity|].
  intros i s _. unfold fine_body. now rewrite H.
Qed.

Section Raised.
  Context {E : Eps} {P : Type} {PT : Point R P} {LP : LawfulPoint P}.

  (** C84 *)
  Theorem bezier_determined (ps qs : list P) (ts : list R) : length ps = length qs -> NoDup ts ->
    (length ps <= length ts)%nat ->
    (forall t, In t ts -> bezier_eval (Bezier ps) t = bezier_eval (Bezier qs) t) -> ps = qs.
  Proof.
    intros Hl Hd Hts H. destruct ps as [|p0 ps']; [destruct qs; [reflexivity|discriminate]|].
    set (ps := p0 :: ps') in *. assert (Hp : ps <> []) by discriminate.
    assert (Hq : qs <> []) by (destruct qs; discriminate).
    assert (Hpos : (0 < length ps)%nat) by (simpl; lia).
    apply (nth_ext ps qs p_default p_default Hl). intros k Hk. apply lp_ext. intros i Hi.
    change (cs ps i k = cs qs i k).
    apply (dc_determined (length ps - 1) (cs ps i) (cs qs i) ts Hd); [lia| |lia].
    intros t Ht. specialize (H t Ht).
    destruct (bezier_eval_ret ps t Hp) as (x & Hx & Hcx). destruct (bezier_eval_ret qs t Hq) as (y & Hy & Hcy).
    rewrite Hx, Hy in H. injection H as H. rewrite <- Hcx by exact Hi. rewrite H, Hcy by exact Hi. now rewrite Hl.
  Qed.

  (** C83 *)
  Theorem raised_eval (ps qs : list P) t : ps <> [] -> raised ps qs ->
    bezier_eval (Bezier qs) t = bezier_eval (Bezier ps) t.
  Proof.
    intros Hp [Hl Hr]. assert (Hq : qs <> []) by (intros ->; discriminate).
    assert (Hpos : (0 < length ps)%nat) by (destruct ps; [contradiction|simpl; lia]).
    destruct (bezier_eval_ret ps t Hp) as (x & Hx & Hcx). destruct (bezier_eval_ret qs t Hq) as (y & Hy & Hcy).
    rewrite Hx, Hy. f_equal. apply lp_ext. intros i Hi. rewrite Hcx, Hcy by exact Hi. rewrite Hl.
    replace (S (length ps) - 1)%nat with (S (length ps - 1)) by lia.
    apply dc_raise. intros j Hj. replace (S (length ps - 1)) with (length ps) in * by lia. now apply Hr.
  Qed.

  Theorem raised_of_eval (ps qs : list P) (ts : list R) : ps <> [] -> length qs = S (length ps) -> NoDup ts ->
    (length qs <= length ts)%nat ->
    (forall t, In t ts -> bezier_eval (Bezier qs) t = bezier_eval (Bezier ps) t) -> raised ps qs.
  Proof.
    intros Hp Hl Hd Hts H. split; [exact Hl|]. intros j i Hj Hi.
    assert (Hq : qs <> []) by (intros ->; discriminate).
    assert (Hpos : (0 < length ps)%nat) by (destruct ps; [contradiction|simpl; lia]).
    set (g := fun j => INR j / INR (length ps) * cs ps i (j - 1)%nat + (1 - INR j / INR (length ps)) * cs ps i j).
    change (cs qs i j = g j).
    apply (dc_determined (length ps) (cs qs i) g ts Hd); [lia| |exact Hj].
    intros t Ht. specialize (H t Ht).
    destruct (bezier_eval_ret ps t Hp) as (x & Hx & Hcx). destruct (bezier_eval_ret qs t Hq) as (y & Hy & Hcy).
    rewrite Hx, Hy in H. injection H as H. specialize (Hcy i Hi). rewrite Hl in Hcy. cbn [Nat.sub] in Hcy.
    rewrite Nat.sub_0_r in Hcy. rewrite <- Hcy, H, Hcx by exact Hi.
    destruct (length ps) as [|n] eqn:En; [lia|]. replace (S n - 1)%nat with n by lia.
    symmetry. apply dc_raise. intros; reflexivity.
  Qed.

  Lemma raised_of_all (ps qs : list P) : ps <> [] -> length qs = S (length ps) ->
    (forall t, bezier_eval (Bezier qs) t = bezier_eval (Bezier ps) t) -> raised ps qs.
  Proof.
    intros Hp Hl H. apply (raised_of_eval ps qs (map INR (seq 0 (length qs))) Hp Hl).
    - apply INR_distinct.
    - rewrite map_length, seq_length. lia.
    - intros t _. apply H.
  Qed.

  Theorem raised_split (ps qs : list P) t : ps <> [] -> raised ps qs ->
    exists l r l' r', bezier_split (Bezier ps) t = Ret (Bezier l, Bezier r) /\
      bezier_split (Bezier qs) t = Ret (Bezier l', Bezier r') /\ raised l l' /\ raised r r'.
  Proof.
    intros Hp Hr. assert (Hq : qs <> []) by (destruct Hr as [Hl _]; intros ->; discriminate).
    assert (Hpos : (0 < length ps)%nat) by (destruct ps; [contradiction|simpl; lia]).
    destruct (bezier_split_spec ps t Hp) as (l & r & Hs & Hl & Hrr & He).
    destruct (bezier_split_spec qs t Hq) as (l' & r' & Hs' & Hl' & Hrr' & He').
    exists l, r, l', r'. split; [exact Hs|]. split; [exact Hs'|].
    pose proof (proj1 Hr) as Hlen. split.
    - apply raised_of_all; [intros ->; simpl in *; lia|lia|]. intros u.
      rewrite (proj1 (He u)), (proj1 (He' u)). now apply raised_eval.
    - apply raised_of_all; [intros ->; simpl in *; lia|lia|]. intros u.
      rewrite (proj2 (He u)), (proj2 (He' u)). now apply raised_eval.
  Qed.

  Lemma raised_coord (ps qs : list P) t i : ps <> [] -> raised ps qs -> (i < p_dim (P := P))%nat ->
    curve_coord qs t i = curve_coord ps t i.
  Proof.
    intros Hp Hr Hi. assert (Hq : qs <> []) by (destruct Hr as [Hl _]; intros ->; discriminate).
    destruct (bezier_eval_spec ps t Hp) as (x & Hx & Hcx). destruct (bezier_eval_spec qs t Hq) as (y & Hy & Hcy).
    rewrite <- Hcx, <- Hcy by exact Hi. rewrite (raised_eval ps qs t Hp Hr), Hx in Hy. now injection Hy as ->.
  Qed.

  Theorem raised_derivative (ps qs : list P) : (2 <= length ps)%nat -> raised ps qs ->
    exists ds es, bezier_derivative (Bezier ps) = Ret (Bezier ds) /\
      bezier_derivative (Bezier qs) = Ret (Bezier es) /\ raised ds es.
  Proof.
    intros Hn Hr. pose proof (proj1 Hr) as Hlen.
    assert (Hp : ps <> []) by (intros ->; simpl in Hn; lia).
    destruct (bezier_derivative_spec ps Hn) as (ds & Hd & Hld & Hed).
    destruct (bezier_derivative_spec qs) as (es & He & Hle & Hee); [lia|].
    exists ds, es. split; [exact Hd|]. split; [exact He|].
    apply raised_of_all; [intros ->; simpl in *; lia|lia|]. intros t.
    destruct (Hed t) as (x & Hx & Hdx). destruct (Hee t) as (y & Hy & Hdy). rewrite Hx, Hy. f_equal.
    apply lp_ext. intros i Hi. specialize (Hdx i Hi). specialize (Hdy i Hi).
    eapply uniqueness_limite; [exact Hdy|].
    apply (derivable_pt_lim_ext (fun t => curve_coord ps t i)); [|exact Hdx].
    intros s. symmetry. now apply raised_coord.
  Qed.

  Theorem raised_arclen (ps qs : list P) m : ps <> [] -> raised ps qs ->
    bezier_arclen (Bezier qs) m = bezier_arclen (Bezier ps) m.
  Proof.
    intros Hp Hr. unfold bezier_arclen. apply for_in_ext. intros i s _.
    rewrite !(raised_eval ps qs _ Hp Hr). reflexivity.
  Qed.

  Theorem raised_distance (ps qs : list P) p : ps <> [] -> raised ps qs ->
    bezier_distance_to_point (Bezier qs) p = bezier_distance_to_point (Bezier ps) p.
  Proof.
    intros Hp Hr. unfold bezier_distance_to_point. cbn [bz_points].
    destruct ps as [|p0 ps]; [contradiction|]. destruct qs as [|q0 qs]; [destruct Hr; discriminate|].
    pose proof (raised_eval (p0 :: ps) (q0 :: qs) 0 Hp Hr) as H0. rewrite !bezier_eval_0 in H0.
    assert (q0 = p0) by congruence. subst q0. cbn [idx nth_error bind].
    apply search_distance_ext. intros t. now apply raised_eval.
  Qed.
End Raised.

(** ** Line segments, quadratic and cubic curves *)
Ltac small H :=
  cbn [nth Nat.sub quad_control_points cubic_control_points] in H;
  repeat first [rewrite (INR_IZR_INZ 0) in H | rewrite (INR_IZR_INZ 1) in H
               | rewrite (INR_IZR_INZ 2) in H | rewrite (INR_IZR_INZ 3) in H];
  cbn [Z.of_nat Pos.of_succ_nat Pos.succ] in H; lra.

Section Typed.
  Context {E : Eps} {P : Type} {PT : Point R P} {LP : LawfulPoint P}.

  Lemma raised_line_quad (a b : P) (c : quad P) : raised [a; b] (quad_control_points c) ->
    q_start c = a /\ q_end c = b /\
    forall i, (i < p_dim (P := P))%nat -> coord (q_ctrl c) i = (coord a i + coord b i) / 2.
  Proof.
    intros [_ H]. cbn [length quad_control_points] in H. split; [|split].
    - apply lp_ext. intros i Hi. pose proof (H 0%nat i ltac:(lia) Hi) as H0. small H0.
    - apply lp_ext. intros i Hi. pose proof (H 2%nat i ltac:(lia) Hi) as H0. small H0.
    - intros i Hi. pose proof (H 1%nat i ltac:(lia) Hi) as H0. small H0.
  Qed.

  Lemma raised_quad_cubic (q : quad P) (c : cubic P) : raised (quad_control_points q) (cubic_control_points c) ->
    c_start c = q_start q /\ c_end c = q_end q /\
    forall i, (i < p_dim (P := P))%nat ->
      coord (c_ctrl1 c) i = (coord (q_start q) i + 2 * coord (q_ctrl q) i) / 3 /\
      coord (c_ctrl2 c) i = (2 * coord (q_ctrl q) i + coord (q_end q) i) / 3.
  Proof.
    intros [_ H]. cbn [length quad_control_points cubic_control_points] in H. split; [|split; [|intros i Hi; split]].
    - apply lp_ext. intros i Hi. pose proof (H 0%nat i ltac:(lia) Hi) as H0. small H0.
    - apply lp_ext. intros i Hi. pose proof (H 3%nat i ltac:(lia) Hi) as H0. small H0.
    - pose proof (H 1%nat i ltac:(lia) Hi) as H1. small H1.
    - pose proof (H 2%nat i ltac:(lia) Hi) as H1. small H1.
  Qed.

  Theorem raised_quad_eval (a b : P) (c : quad P) t : raised [a; b] (quad_control_points c) ->
    quad_eval c t = line_eval (Line a b) t.
  Proof.
    intros H. pose proof (raised_eval [a; b] (quad_control_points c) t ltac:(discriminate) H) as HE.
    unfold quad_control_points in HE. rewrite bezier_eval_quad, bezier_eval_line in HE.
    destruct c as [c0 c1 c2]. cbn [q_start q_ctrl q_end] in HE. congruence.
  Qed.
  Theorem raised_cubic_eval (q : quad P) (c : cubic P) t : raised (quad_control_points q) (cubic_control_points c) ->
    cubic_eval c t = quad_eval q t.
  Proof.
    intros H. pose proof (raised_eval (quad_control_points q) (cubic_control_points c) t ltac:(discriminate) H) as HE.
    unfold quad_control_points, cubic_control_points in HE. rewrite bezier_eval_quad, bezier_eval_cubic in HE.
    destruct c as [c0 c1 c2 c3], q as [q0 q1 q2]. cbn [q_start q_ctrl q_end c_start c_ctrl1 c_ctrl2 c_end] in HE. congruence.
  Qed.

  Theorem raised_cubic_arclen (q : quad P) (c : cubic P) m : raised (quad_control_points q) (cubic_control_points c) ->
    cubic_arclen c m = quad_arclen q m.
  Proof.
    intros H. unfold cubic_arclen, quad_arclen. apply for_in_ext. intros i s _.
    rewrite !(cubic_casteljau_eval c), !(quad_casteljau_eval q), !(raised_cubic_eval q c _ H). reflexivity.
  Qed.
  Theorem raised_cubic_distance (q : quad P) (c : cubic P) p : raised (quad_control_points q) (cubic_control_points c) ->
    cubic_distance_to_point c p = quad_distance_to_point q p.
  Proof.
    intros H. unfold cubic_distance_to_point, quad_distance_to_point.
    destruct (raised_quad_cubic q c H) as (-> & _). apply search_distance_ext. intros t. f_equal.
    now apply raised_cubic_eval.
  Qed.
  Theorem raised_cubic_split (q : quad P) (c : cubic P) t : raised (quad_control_points q) (cubic_control_points c) ->
    let (l, r) := quad_split q t in let (l', r') := cubic_split c t in
    raised (quad_control_points l) (cubic_control_points l') /\
    raised (quad_control_points r) (cubic_control_points r').
  Proof.
    intros H. destruct (raised_split (quad_control_points q) (cubic_control_points c) t) as (l & r & l' & r' & A & B & C & D);
      [discriminate|exact H|].
    destruct q as [q0 q1 q2]. destruct c as [c0 c1 c2 c3].
    unfold quad_control_points, cubic_control_points in A, B.
    cbn [q_start q_ctrl q_end c_start c_ctrl1 c_ctrl2 c_end] in A, B.
    pose proof (bezier_split_quad q0 q1 q2 t) as A'. pose proof (bezier_split_cubic c0 c1 c2 c3 t) as B'.
    destruct (quad_split _ t) as [ql qr]. destruct (cubic_split _ t) as [cl cr].
    rewrite A in A'. rewrite B in B'. injection A' as -> ->. injection B' as -> ->. now split.
  Qed.

  Theorem raised_cubic_derivative (q : quad P) (c : cubic P) : raised (quad_control_points q) (cubic_control_points c) ->
    raised [l_start (quad_derivative q); l_end (quad_derivative q)] (quad_control_points (cubic_derivative c)).
  Proof.
    intros H. destruct (raised_derivative (quad_control_points q) (cubic_control_points c)) as (ds & es & A & B & C);
      [simpl; lia|exact H|].
    destruct q as [q0 q1 q2]. destruct c as [c0 c1 c2 c3].
    unfold quad_control_points, cubic_control_points in A, B.
    cbn [q_start q_ctrl q_end c_start c_ctrl1 c_ctrl2 c_end] in A, B.
    rewrite bezier_derivative_quad in A. rewrite bezier_derivative_cubic in B.
    injection A as <-. injection B as <-. exact C.
  Qed.

  (** *** Boxes *)
  Lemma line_root_none (a b : R) : a = 0 -> line_root a b = Ret [].
  Proof.
    intros ->. unfold line_root. rs. destruct (Rltb_spec (Rabs 0) eps) as [L|L]; [reflexivity|].
    rewrite Rabs_R0 in L. pose proof eps_pos. lra.
  Qed.

  Theorem raised_quad_box (a b : P) (c : quad P) : raised [a; b] (quad_control_points c) ->
    quad_bounding_box c = line_bounding_box (Line a b).
  Proof.
    intros H. destruct (raised_line_quad a b c H) as (Ha & Hb & Hc).
    unfold quad_bounding_box, line_bounding_box. apply for_in_ext. intros i bs Hin.
    assert (Hi : (i < p_dim (P := P))%nat) by (unfold range in Hin; apply in_seq in Hin; lia).
    cbn [l_start l_end]. unfold quad_bbox_axis.
    rewrite !axis_lt by exact Hi. cbn [bind].
    rewrite line_root_none.
    2:{ unfold quad_derivative. cbn [l_start l_end]. coords. rs. rewrite (Hc i Hi), Ha, Hb. lra. }
    cbn [bind av_extend filter length Nat.add Nat.leb app quad_eval_roots]. rewrite Ha, Hb.
    rewrite !av_push_lt by (simpl; lia). cbn [bind app]. rewrite av_push_lt by (simpl; lia). cbn [bind app].
    rewrite sort_R. cbn [bind s_isort s_insert]. rs.
    destruct (Rleb_spec (coord a i) (coord b i)) as [L|L]; destruct (Rltb_spec (coord a i) (coord b i)) as [M|M];
      cbn [length Nat.sub idx nth_error bind]; try reflexivity; try lra.
    replace (coord a i) with (coord b i) by lra. reflexivity.
  Qed.

  Theorem raised_cubic_box (q : quad P) (c : cubic P) : raised (quad_control_points q) (cubic_control_points c) ->
    cubic_bounding_box c = quad_bounding_box q.
  Proof.
    intros H. destruct (raised_quad_cubic q c H) as (Ha & Hb & Hc).
    unfold quad_bounding_box, cubic_bounding_box. apply for_in_ext. intros i bs Hin.
    assert (Hi : (i < p_dim (P := P))%nat) by (unfold range in Hin; apply in_seq in Hin; lia).
    destruct (Hc i Hi) as [H1 H2].
    unfold quad_bbox_axis, cubic_bbox_axis. rewrite !axis_lt by exact Hi. cbn [bind].
    set (A := coord (l_start (quad_derivative q) *^ s_lit (-1) +^ l_end (quad_derivative q))%P i).
    set (B := coord (l_start (quad_derivative q)) i).
    match goal with |- context [quad_real_roots ?x ?y ?z] =>
      assert (Ex : x = 0); [|assert (Ey : y = A); [|assert (Ez : z = B)]] end.
    { unfold cubic_derivative. cbn [q_start q_ctrl q_end]. coords. rs. rewrite H1, H2, Ha, Hb. lra. }
    { unfold A, cubic_derivative, quad_derivative. cbn [q_start q_ctrl q_end l_start l_end]. coords. rs.
      rewrite H1, H2, Ha. lra. }
    { unfold B, cubic_derivative, quad_derivative. cbn [q_start q_ctrl q_end l_start l_end]. coords. rs.
      rewrite H1, Ha. lra. }
    rewrite Ex, Ey, Ez.
    assert (HR : exists roots, quad_real_roots 0 A B = Ret roots /\ line_root A B = Ret roots /\ (length roots <= 1)%nat).
    { unfold quad_real_roots, line_root. rs.
      destruct (Rltb_spec (Rabs 0) eps) as [L|L]; [|rewrite Rabs_R0 in L; pose proof eps_pos; lra].
      destruct (Rltb_spec (Rabs A) eps) as [M|M].
      - exists []. repeat split. simpl. lia.
      - rewrite !av_push_lt by (simpl; lia). exists [(- B) / A]. repeat split. simpl. lia. }
    destruct HR as (roots & R1 & R2 & R3). rewrite R1, R2. cbn [bind].
    rewrite !av_extend_le by (simpl; lia). cbn [bind app].
    rewrite cubic_eval_roots_value, quad_eval_roots_value by exact Hi. cbn [bind].
    rewrite (map_ext (fun t => coord (cubic_eval c t) i) (fun t => coord (quad_eval q t) i))
      by (intros t; now rewrite (raised_cubic_eval q c t H)).
    pose proof (filter_length_le' in_unit roots) as HF.
    rewrite Ha, Hb. rewrite !av_push_lt by (rewrite ?map_length; lia). cbn [bind].
    rewrite !av_push_lt by (rewrite ?app_length, ?map_length; simpl; lia). reflexivity.
  Qed.

  (** *** Determined by finitely many points *)
  Theorem line_determined (l m : line P) s t : s <> t ->
    line_eval l s = line_eval m s -> line_eval l t = line_eval m t -> l = m.
  Proof.
    intros Hst H1 H2. destruct l as [a b], m as [c d].
    assert (H : [a; b] = [c; d]).
    { apply (bezier_determined _ _ [s; t]); [reflexivity| |simpl; lia|].
      - repeat constructor; simpl; intuition.
      - intros x Hx. rewrite !bezier_eval_line. f_equal. destruct Hx as [<-|[<-|[]]]; assumption. }
    now injection H as -> ->.
  Qed.
  Theorem quad_determined (c d : quad P) ts : NoDup ts -> (3 <= length ts)%nat ->
    (forall t, In t ts -> quad_eval c t = quad_eval d t) -> c = d.
  Proof.
    intros Hd Hl H. destruct c as [a b c], d as [a' b' c'].
    assert (HE : [a; b; c] = [a'; b'; c']).
    { apply (bezier_determined _ _ ts); [reflexivity|exact Hd|exact Hl|].
      intros x Hx. rewrite !bezier_eval_quad. f_equal. now apply H. }
    now injection HE as -> -> ->.
  Qed.
  Theorem cubic_determined (c d : cubic P) ts : NoDup ts -> (4 <= length ts)%nat ->
    (forall t, In t ts -> cubic_eval c t = cubic_eval d t) -> c = d.
  Proof.
    intros Hd Hl H. destruct c as [a b c e], d as [a' b' c' e'].
    assert (HE : [a; b; c; e] = [a'; b'; c'; e']).
    { apply (bezier_determined _ _ ts); [reflexivity|exact Hd|exact Hl|].
      intros x Hx. rewrite !bezier_eval_cubic. f_equal. now apply H. }
    now injection HE as -> -> -> ->.
  Qed.
  Theorem quad_cubic_determined (q : quad P) (c : cubic P) ts : NoDup ts -> (4 <= length ts)%nat ->
    (forall t, In t ts -> cubic_eval c t = quad_eval q t) -> raised (quad_control_points q) (cubic_control_points c).
  Proof.
    intros Hd Hl H. apply (raised_of_eval _ _ ts); [discriminate|reflexivity|exact Hd|exact Hl|].
    intros t Ht. destruct q as [a b d], c as [a' b' c' d']. unfold quad_control_points, cubic_control_points.
    cbn [q_start q_ctrl q_end c_start c_ctrl1 c_ctrl2 c_end]. rewrite bezier_eval_quad, bezier_eval_cubic.
    f_equal. now apply H.
  Qed.
End Typed.
