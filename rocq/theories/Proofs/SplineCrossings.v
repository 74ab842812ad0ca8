(** B-splines cross a hyperplane no more often than their control polygon: inserting knots cuts
    corners, and after D insertions at t the value at t is a control value. *)
From Coq Require Import Reals List Arith Lia Lra Psatz.
From Verif Require Import Base.Outcome Base.Scalar Model.Point Model.BSpline Inst.RealInst
  Spec.Sums Spec.Lawful Spec.Basis Spec.Crossings Spec.SplinePoints Spec.Blossom Spec.Bending
  Proofs.PointFacts Proofs.BSplineReal Proofs.BSplineEval Proofs.BasisCalc Proofs.KnotInsertion Proofs.SplineOrder.
Import ListNotations.
Local Open Scope R_scope.

Definition crosses (c : nat -> R) (C m : nat) : Prop :=
  exists idx : nat -> nat, (forall j, (j < m)%nat -> (idx j < idx (S j))%nat) /\
    (forall j, (j <= m)%nat -> (idx j < C)%nat) /\ (forall j, (j < m)%nat -> c (idx j) * c (idx (S j)) < 0).

Lemma sign_trans a b d e : 0 < a * b -> 0 < d * e -> b * e < 0 -> a * d < 0.
Proof.
  intros H1 H2 H3. assert (H : 0 < (a * d) * (b * e)) by (replace (a * d * (b * e)) with ((a * b) * (d * e)) by ring; now apply Rmult_lt_0_compat).
  destruct (Rlt_le_dec (a * d) 0) as [L|L]; [exact L|]. nra.
Qed.

Section Cut.
  Variables (U : nat -> R) (k : nat) (x : R) (D : nat) (c : nat -> R) (C : nat).
  Hypotheses (Hm : forall a b, (a <= b)%nat -> U a <= U b) (Hx : U k <= x < U (k + 1)%nat) (HD : (D <= k < C)%nat).
  Local Notation d := (cins U k x D c).
  Local Notation sh := (share U k x D).

  Lemma cut_pick q : d q <> 0 -> (q <= C)%nat -> exists q', (q - 1 <= q' <= q)%nat /\ (q' < C)%nat /\ 0 < c q' * d q.
  Proof.
    intros Hd Hq. assert (S0 : 0 < d q * d q) by nra. pose proof (share_unit U k x Hm Hx D q) as Hs.
    assert (E : d q * d q = sh q * (c q * d q) + (1 - sh q) * (c (q - 1)%nat * d q)) by (unfold cins; ring).
    destruct (Rlt_le_dec 0 (sh q * (c q * d q))) as [L|L].
    - exists q. split; [lia|]. split.
      + destruct (le_lt_dec q k) as [H|H]; [lia|]. rewrite share_hi in L by exact H. lra.
      + destruct (Rlt_le_dec 0 (c q * d q)) as [Y|Y]; [exact Y|]. nra.
    - exists (q - 1)%nat. split; [lia|]. split.
      + destruct q as [|q]; lia.
      + destruct (Rlt_le_dec 0 (c (q - 1)%nat * d q)) as [Y|Y]; [exact Y|]. nra.
  Qed.
End Cut.

(** Greville abscissae move like control values, and points on consecutive legs of a polygon
    that bends up bend up *)
Lemma total_app l m : total (l ++ m) = total l + total m.
Proof. unfold total. induction l as [|x l IH]; cbn [app fold_right]; [now rewrite Rplus_0_l|]. rewrite IH. ring. Qed.
Lemma total_ext (f g : nat -> R) : forall n a, (forall i, (a <= i < a + n)%nat -> f i = g i) -> total (map f (seq a n)) = total (map g (seq a n)).
Proof.
  induction n as [|n IH]; intros a H; [reflexivity|]. cbn [seq map]. unfold total in *. cbn [fold_right].
  rewrite IH by (intros i Hi; apply H; lia). now rewrite (H a ltac:(lia)).
Qed.
Lemma total_one x : total [x] = x.
Proof. unfold total. cbn [fold_right]. ring. Qed.
Lemma total_split (f : nat -> R) a m n : total (map f (seq a (m + n))) = total (map f (seq a m)) + total (map f (seq (a + m) n)).
Proof. now rewrite seq_app, map_app, total_app. Qed.
Lemma total_shift (f : nat -> R) : forall n a, total (map f (seq (S a) n)) = total (map (fun i => f (S i)) (seq a n)).
Proof. intros n a. rewrite <- seq_shift, map_map. reflexivity. Qed.

Section Greville.
  Variables (U : nat -> R) (k : nat) (x : R) (D : nat) (C : nat).
  Hypotheses (Hm : forall a b, (a <= b)%nat -> U a <= U b) (Hx : U k <= x < U (k + 1)%nat) (HD : (D <= k < C)%nat).
  Lemma greville_ins q : (q <= C)%nat -> greville (ins k x U) D q = cins U k x D (greville U D) q.
  Proof.
    intros Hq. unfold cins, greville, after. destruct (le_lt_dec q (k - D)) as [H|H].
    { rewrite share_lo by exact H. rewrite (total_ext (ins k x U) U); [ring|].
      intros i Hi. apply ins_lo. lia. }
    destruct (le_lt_dec q k) as [H'|H'].
    2:{ rewrite share_hi by exact H'. replace (q + 1)%nat with (S q) by lia. rewrite total_shift.
        replace (q - 1 + 1)%nat with q by lia.
        rewrite (total_ext (fun i => ins k x U (S i)) U); [ring|].
        intros i Hi. apply ins_hi. lia. }
    assert (ND : (1 <= D)%nat) by lia.
    rewrite share_mid by lia. pose proof (share_wide U k x Hm Hx D q ltac:(lia)) as Hw.
    replace D with ((k - q) + (1 + (D - 1 - (k - q))))%nat at 1 by lia. rewrite !total_split.
    replace (q - 1 + 1)%nat with q by lia.
    assert (E1 : total (map (ins k x U) (seq (q + 1) (k - q))) = total (map U (seq (q + 1) (k - q)))).
    { apply total_ext. intros i Hi. apply ins_lo. lia. }
    assert (E2 : total (map (ins k x U) (seq (q + 1 + (k - q)) 1)) = x).
    { replace (q + 1 + (k - q))%nat with (S k) by lia. cbn [seq map]. unfold total. cbn [fold_right]. rewrite ins_at. ring. }
    assert (E3 : total (map (ins k x U) (seq (q + 1 + (k - q) + 1) (D - 1 - (k - q)))) = total (map U (seq (q + 1 + (k - q)) (D - 1 - (k - q))))).
    { replace (q + 1 + (k - q) + 1)%nat with (S (S k)) by lia. rewrite total_shift.
      replace (q + 1 + (k - q))%nat with (S k) by lia. apply total_ext. intros i Hi. apply ins_hi. lia. }
    rewrite E1, E2, E3.
    assert (E4 : total (map U (seq (q + 1) (k - q))) + total (map U (seq (q + 1 + (k - q)) (D - 1 - (k - q)))) = total (map U (seq (q + 1) (D - 1)))).
    { rewrite <- total_split. do 3 f_equal. lia. }
    assert (E5 : total (map U (seq (q + 1) D)) = total (map U (seq (q + 1) (D - 1))) + U (q + D)%nat).
    { replace D with (D - 1 + 1)%nat at 1 by lia. rewrite total_split. cbn [seq map]. rewrite total_one.
      replace (q + 1 + (D - 1))%nat with (q + D)%nat by lia. ring. }
    assert (E6 : total (map U (seq q D)) = U q + total (map U (seq (q + 1) (D - 1)))).
    { replace D with (1 + (D - 1))%nat at 1 by lia. rewrite total_split. cbn [seq map]. rewrite total_one. ring. }
    rewrite E5, E6. rewrite <- E4.
    assert (0 < INR D) by (apply lt_0_INR; lia). field. lra.
  Qed.

  Lemma cut_bends c : rises_ever_steeper (greville U D) c C ->
    rises_ever_steeper (greville (ins k x U) D) (cins U k x D c) (S C).
  Proof.
    intros H a b e Hab He. unfold below_chord. rewrite !greville_ins by lia. unfold cins.
    pose proof (share_unit U k x Hm Hx D a) as Sa. pose proof (share_unit U k x Hm Hx D b) as Sb. pose proof (share_unit U k x Hm Hx D e) as Se.
    assert (Ze : (C <= e)%nat -> share U k x D e = 0) by (intros; apply share_hi; lia).
    assert (Za : a = 0%nat -> share U k x D a = 1) by (intros ->; apply share_lo; lia).
    set (g := greville U D) in *. set (u := share U k x D a) in *. set (v := share U k x D b) in *. set (w := share U k x D e) in *.
    assert (HH : forall i j l, (i <= j <= l)%nat -> (l < C)%nat -> 0 <= (g l - g j) * c i + (g j - g i) * c l - (g l - g i) * c j).
    { intros i j l Hij Hl. destruct (Nat.eq_dec i j) as [->|N1]; [lra|]. destruct (Nat.eq_dec j l) as [->|N2]; [lra|].
      pose proof (H i j l ltac:(lia) Hl) as X. unfold below_chord in X. lra. }
    set (h := fun i j l => (g l - g j) * c i + (g j - g i) * c l - (g l - g i) * c j) in *.
    assert (W : 0 <= u * (v * (w * h a b e + (1 - w) * h a b (e - 1)%nat) + (1 - v) * (w * h a (b - 1)%nat e + (1 - w) * h a (b - 1)%nat (e - 1)%nat))
      + (1 - u) * (v * (w * h (a - 1)%nat b e + (1 - w) * h (a - 1)%nat b (e - 1)%nat) + (1 - v) * (w * h (a - 1)%nat (b - 1)%nat e + (1 - w) * h (a - 1)%nat (b - 1)%nat (e - 1)%nat))).
    { assert (T : forall i j, (i <= a)%nat -> (b - 1 <= j <= b)%nat -> 0 <= w * h i j e + (1 - w) * h i j (e - 1)%nat).
      { intros i j Hi Hj. destruct (le_lt_dec C e) as [L|L].
        - rewrite (Ze L). pose proof (HH i j (e - 1)%nat ltac:(lia) ltac:(lia)). unfold h. lra.
        - pose proof (HH i j (e - 1)%nat ltac:(lia) ltac:(lia)). pose proof (HH i j e ltac:(lia) ltac:(lia)).
          apply Rplus_le_le_0_compat; apply Rmult_le_pos; try lra; assumption. }
      apply Rplus_le_le_0_compat; (apply Rmult_le_pos; [lra|]); apply Rplus_le_le_0_compat; (apply Rmult_le_pos; [lra|]); apply T; lia. }
    unfold h in W. lra.
  Qed.
End Greville.

Lemma bounded_choice {A : Type} (R0 : nat -> A -> Prop) (a0 : A) n : (forall j, (j < n)%nat -> exists a, R0 j a) ->
  exists g, forall j, (j < n)%nat -> R0 j (g j).
Proof.
  induction n as [|n IH]; intros H.
  - exists (fun _ => a0). intros j Hj. lia.
  - destruct IH as [g Hg]; [intros; apply H; lia|]. destruct (H n ltac:(lia)) as [a Ha].
    exists (fun j => if (j =? n)%nat then a else g j). intros j Hj. destruct (Nat.eqb_spec j n) as [->|N]; [exact Ha|]. apply Hg. lia.
Qed.

Lemma cut_crosses U k x D c C m : (forall a b, (a <= b)%nat -> U a <= U b) -> U k <= x < U (k + 1)%nat -> (D <= k < C)%nat ->
  crosses (cins U k x D c) (S C) m -> crosses c C m.
Proof.
  intros Hm Hx HD (idx & H1 & H2 & H3). destruct m as [|m].
  { exists (fun _ => 0%nat). repeat split; intros; lia. }
  destruct (bounded_choice (fun j q' => (idx j - 1 <= q' <= idx j)%nat /\ (q' < C)%nat /\ 0 < c q' * cins U k x D c (idx j)) 0%nat (S (S m)))
    as [g Hg].
  { intros j Hj. apply (cut_pick U k x D c C Hm Hx HD); [|pose proof (H2 j ltac:(lia)); lia].
    intros Z. destruct j as [|j].
    - pose proof (H3 0%nat ltac:(lia)) as H. rewrite Z in H. lra.
    - pose proof (H3 j ltac:(lia)) as H. rewrite Z in H. lra. }
  assert (Sg : forall j, (j < S m)%nat -> c (g j) * c (g (S j)) < 0).
  { intros j Hj. destruct (Hg j ltac:(lia)) as (_ & _ & P1). destruct (Hg (S j) ltac:(lia)) as (_ & _ & P2).
    exact (sign_trans _ _ _ _ P1 P2 (H3 j Hj)). }
  exists g. split; [|split; [|exact Sg]].
  - intros j Hj. destruct (Hg j ltac:(lia)) as (P1 & _). destruct (Hg (S j) ltac:(lia)) as (P2 & _).
    pose proof (H1 j Hj). assert (N : g j <> g (S j)).
    { intros E. pose proof (Sg j Hj) as H0. rewrite E in H0. nra. }
    lia.
  - intros j Hj. apply (Hg j). lia.
Qed.

(** ** Refinements *)
Record sys := Sys { kn : nat -> R; cf : nat -> R; num : nat }.
Section Refine.
  Variable D : nat.
  Definition value (s : sys) (t : R) : R := Rsum (fun j => basis (kn s) D j t * cf s j) (num s).
  Definition good (s : sys) : Prop := (forall a b, (a <= b)%nat -> kn s a <= kn s b) /\ (D < num s)%nat.
  Definition refines (s s' : sys) : Prop :=
    good s' /\ kn s' D = kn s D /\ kn s' (num s') = kn s (num s) /\ cf s' (num s' - 1)%nat = cf s (num s - 1)%nat /\
    (forall t, value s' t = value s t) /\ (forall m, crosses (cf s') (num s') m -> crosses (cf s) (num s) m) /\
    (forall m, kn s' (num s' + m)%nat = kn s (num s + m)%nat) /\
    (rises_ever_steeper (greville (kn s) D) (cf s) (num s) -> rises_ever_steeper (greville (kn s') D) (cf s') (num s')).
  Definition multiple (s : sys) (r : nat) (x : R) : Prop := exists k, (D <= k < num s)%nat /\
    kn s k <= x < kn s (k + 1)%nat /\ forall i, (k - r < i <= k)%nat -> kn s i = x.

  Lemma refines_refl s : good s -> refines s s.
  Proof. intros H. repeat split; auto; apply H. Qed.
  Lemma refines_trans a b c : refines a b -> refines b c -> refines a c.
  Proof.
    intros (A1 & A2 & A3 & A4 & A5 & A6 & A7 & A8) (B1 & B2 & B3 & B4 & B5 & B6 & B7 & B8). split; [exact B1|].
    split; [congruence|]. split; [congruence|]. split; [congruence|]. split; [intros t; now rewrite B5|]. split; [auto|]. split; [intros m; now rewrite B7|auto].
  Qed.

  Lemma refine_step s r x : good s -> multiple s r x -> (r <= D)%nat ->
    exists s', refines s s' /\ multiple s' (S r) x /\ forall q y, (q <= D)%nat -> multiple s q y -> multiple s' q y.
  Proof.
    destruct s as [U c C]. intros [Hm HC] (k & Hk & Hx & He) Hr. cbn [kn cf num] in *.
    exists (Sys (ins k x U) (cins U k x D c) (S C)).
    split; [|split].
    - split; [|split; [|split; [|split; [|split; [|split; [|split]]]]]]; cbn [kn cf num].
      + split; cbn [kn num]; [|lia]. exact (ins_mono U k x Hm Hx).
      + apply ins_lo. lia.
      + apply ins_hi. lia.
      + unfold cins. rewrite share_hi by lia. replace (S C - 1 - 1)%nat with (C - 1)%nat by lia. ring.
      + intros t. unfold value. cbn [kn cf num]. symmetry. apply (insertion U k x Hm Hx D t c C). lia.
      + intros m. apply cut_crosses; assumption.
      + intros m. apply (ins_hi U k x (C + m)). lia.
      + apply cut_bends; assumption.
    - exists (S k). cbn [kn num]. split; [lia|]. split.
      + rewrite ins_at. replace (S k + 1)%nat with (S (k + 1)) by lia. rewrite ins_hi by lia. lra.
      + intros i Hi. destruct (Nat.eq_dec i (S k)) as [->|N]; [apply ins_at|]. rewrite ins_lo by lia. apply He. lia.
    - intros q y Hq (k' & Hk' & Hy & He'). cbn [kn num] in *.
      destruct (lt_dec k' k) as [L|L]; [|destruct (Nat.eq_dec k' k) as [->|N]].
      + exists k'. cbn [kn num]. rewrite !ins_lo by lia. split; [lia|]. split; [exact Hy|].
        intros i Hi. rewrite ins_lo by lia. apply He'. lia.
      + destruct (Rlt_le_dec y x) as [Lx|Lx].
        * exists k. cbn [kn num]. rewrite (ins_lo U k x k) by lia. rewrite Nat.add_1_r, ins_at. split; [lia|]. split; [lra|].
          intros i Hi. rewrite ins_lo by lia. apply He'. lia.
        * exists (S k). cbn [kn num]. rewrite ins_at. replace (S k + 1)%nat with (S (k + 1)) by lia. rewrite ins_hi by lia.
          split; [lia|]. split; [lra|]. intros i Hi. destruct (Nat.eq_dec i (S k)) as [->|N].
          -- rewrite ins_at. pose proof (He' k ltac:(lia)). lra.
          -- rewrite ins_lo by lia. apply He'. lia.
      + exists (S k'). cbn [kn num]. replace (S k' + 1)%nat with (S (k' + 1)) by lia. rewrite !ins_hi by lia.
        split; [lia|]. split; [exact Hy|]. intros i Hi.
        destruct (ins_cases U k x i) as [[-> A]|[[-> A]|[-> A]]].
        * apply He'. lia.
        * exfalso. pose proof (He' k ltac:(lia)). pose proof (He' k' ltac:(lia)). pose proof (Hm (k + 1) k' ltac:(lia))%nat. lra.
        * apply He'. lia.
  Qed.
  Lemma refine_full n : forall s r x, good s -> multiple s r x -> (r + n = D)%nat ->
    exists s', refines s s' /\ multiple s' D x /\ forall y, multiple s D y -> multiple s' D y.
  Proof.
    induction n as [|n IH]; intros s r x Hg Hx Hr.
    - exists s. split; [now apply refines_refl|]. split; [|auto]. replace r with D in Hx by lia. exact Hx.
    - destruct (refine_step s r x Hg Hx ltac:(lia)) as (s1 & R1 & M1 & K1).
      pose proof (IH s1 (S r) x (proj1 R1) M1) as IH1. destruct IH1 as (s2 & R2 & M2 & K2); [lia|].
      exists s2. split; [exact (refines_trans _ _ _ R1 R2)|]. split; [exact M2|]. auto.
  Qed.
  Lemma span_fun (U : nat -> R) t lo : forall hi, (lo <= hi)%nat -> U lo <= t < U hi ->
    exists k, (lo <= k < hi)%nat /\ U k <= t < U (k + 1)%nat.
  Proof.
    induction hi as [|hi IH]; intros Hl Ht.
    - replace lo with 0%nat in Ht by lia. lra.
    - destruct (Nat.eq_dec lo (S hi)) as [->|Hne]; [lra|].
      destruct (Rlt_le_dec t (U hi)) as [H|H].
      + destruct IH as (k & Hk & Hb); [lia|lra|]. exists k. split; [lia|exact Hb].
      + exists hi. split; [lia|]. rewrite Nat.add_1_r. lra.
  Qed.
  Lemma refine_list ts : forall s, good s -> (forall t, In t ts -> kn s D <= t < kn s (num s)) ->
    exists s', refines s s' /\ (forall t, In t ts -> multiple s' D t) /\ forall y, multiple s D y -> multiple s' D y.
  Proof.
    induction ts as [|t ts IH]; intros s Hg Ht.
    - exists s. split; [now apply refines_refl|]. split; [intros t []|auto].
    - destruct (span_fun (kn s) t D (num s)) as (k & Hk & Hs); [destruct Hg; lia|apply Ht; now left|].
      assert (M0 : multiple s 0 t) by (exists k; split; [exact Hk|split; [exact Hs|intros; lia]]).
      destruct (refine_full D s 0 t Hg M0 ltac:(lia)) as (s1 & R1 & M1 & K1).
      destruct (IH s1 (proj1 R1)) as (s2 & R2 & M2 & K2).
      { intros u Hu. destruct R1 as (_ & -> & -> & _). apply Ht. now right. }
      exists s2. split; [exact (refines_trans _ _ _ R1 R2)|]. split; [|auto].
      intros u [<-|Hu]; [apply K2; exact M1|apply M2; exact Hu].
  Qed.

  (** values of alternating sign *)
  Theorem spline_crosses s (ts vs : nat -> R) m : good s ->
    (forall j, (j < m)%nat -> ts j <= ts (S j)) ->
    (forall j, (j <= m)%nat -> kn s D <= ts j < kn s (num s) /\ vs j = value s (ts j) \/
                               ts j = kn s (num s) /\ vs j = cf s (num s - 1)%nat) ->
    (forall j, (j < m)%nat -> vs j * vs (S j) < 0) -> crosses (cf s) (num s) m.
  Proof.
    intros Hg Ht Hv Ha.
    set (L := filter (fun t => if Rlt_dec t (kn s (num s)) then true else false) (map ts (seq 0 (S m)))).
    destruct (refine_list L s Hg) as (s' & Hr & HM & _).
    { intros t Hi. apply filter_In in Hi. destruct Hi as [Hi Hb]. apply in_map_iff in Hi. destruct Hi as (j & <- & Hj).
      apply in_seq in Hj. destruct (Rlt_dec (ts j) (kn s (num s))) as [Hl|]; [|discriminate].
      destruct (Hv j ltac:(lia)) as [[H _]|[H _]]; lra. }
    destruct Hr as (Hg' & ED & EC & EL & EV & EX & _). apply EX.
    destruct s' as [V d C]. cbn [kn cf num] in *. destruct Hg' as [Vm HC]. cbn [kn num] in *.
    destruct (bounded_choice (fun j q => (q < C)%nat /\ d q = vs j /\
      (ts j < V C /\ V (q + D)%nat <= ts j < V (q + D + 1)%nat \/ ts j = V C /\ q = (C - 1)%nat)) 0%nat (S m)) as [g G].
    { intros j Hj. destruct (Hv j ltac:(lia)) as [[H E]|[H E]].
      - destruct (HM (ts j)) as (k & Hk & Hb & He).
        { apply filter_In. split; [apply in_map, in_seq; lia|]. destruct (Rlt_dec _ _); [reflexivity|lra]. }
        cbn [kn num] in *. exists (k - D)%nat. split; [lia|]. split.
        + rewrite E, <- EV. unfold value. cbn [kn cf num]. symmetry. apply value_at_multiple; auto; lia.
        + left. rewrite EC. replace (k - D + D)%nat with k by lia. split; [apply H|exact Hb].
      - exists (C - 1)%nat. split; [lia|]. split; [now rewrite E, EL|]. right. split; [now rewrite EC|reflexivity]. }
    assert (Sg : forall j, (j < m)%nat -> d (g j) * d (g (S j)) < 0).
    { intros j Hj. destruct (G j ltac:(lia)) as (_ & -> & _). destruct (G (S j) ltac:(lia)) as (_ & -> & _). apply Ha. exact Hj. }
    exists g. split; [|split; [intros j Hj; apply G; lia|exact Sg]].
    intros j Hj. assert (N : g j <> g (S j)).
    { intros Ej. pose proof (Sg j Hj) as H0. rewrite Ej in H0. nra. }
    destruct (G j ltac:(lia)) as (B1 & _ & P1). destruct (G (S j) ltac:(lia)) as (B2 & _ & P2). pose proof (Ht j Hj) as Hle.
    destruct P1 as [[Q1 P1]|[Q1 P1]], P2 as [[Q2 P2]|[Q2 P2]]; try lia; try lra.
    destruct (lt_dec (g j) (g (S j))) as [Y|Y]; [exact Y|]. exfalso.
    pose proof (Vm (g (S j) + D + 1) (g j + D) ltac:(lia))%nat. lra.
  Qed.

  Lemma greville_multiple (U : nat -> R) j x : (1 <= D)%nat -> (forall i, (j < i <= j + D)%nat -> U i = x) -> greville U D j = x.
  Proof.
    intros HD H. unfold greville, after. rewrite (total_ext U (fun _ => x)) by (intros i Hi; apply H; lia).
    assert (T : forall n a, total (map (fun _ => x) (seq a n)) = INR n * x).
    { clear. induction n as [|n IH]; intros a; [cbn; ring|]. rewrite S_INR. cbn [seq map]. unfold total in *. cbn [fold_right].
      rewrite IH. ring. }
    rewrite T. assert (0 < INR D) by (apply lt_0_INR; lia). field. lra.
  Qed.

  (** values of a spline whose control values bend up *)
  Theorem spline_bends s a b e va vb ve : good s -> (1 <= D)%nat -> a <= b <= e ->
    (forall x v, (x, v) = (a, va) \/ (x, v) = (b, vb) \/ (x, v) = (e, ve) ->
       kn s D <= x < kn s (num s) /\ v = value s x \/
       x = kn s (num s) /\ v = cf s (num s - 1)%nat /\ kn s (num s + D - 1)%nat = kn s (num s)) ->
    rises_ever_steeper (greville (kn s) D) (cf s) (num s) -> below_chord a va b vb e ve.
  Proof.
    intros Hg HD Ho Hv Hb.
    set (L := filter (fun t => if Rlt_dec t (kn s (num s)) then true else false) [a; b; e]).
    assert (HL : forall x v, (x, v) = (a, va) \/ (x, v) = (b, vb) \/ (x, v) = (e, ve) -> x < kn s (num s) -> In x L).
    { intros x v Hx Hlt. apply filter_In. split; [destruct Hx as [E|[E|E]]; injection E as -> ->; cbn; auto|].
      destruct (Rlt_dec x (kn s (num s))); [reflexivity|lra]. }
    destruct (refine_list L s Hg) as (s' & Hr & HM & _).
    { intros t Hi. apply filter_In in Hi. destruct Hi as [Hi Hbt]. destruct (Rlt_dec t (kn s (num s))) as [Hl|]; [|discriminate].
      assert (Hq : exists v, (t, v) = (a, va) \/ (t, v) = (b, vb) \/ (t, v) = (e, ve)).
      { destruct Hi as [<-|[<-|[<-|[]]]]; eexists; eauto. }
      destruct Hq as [v Hq]. destruct (Hv t v Hq) as [[H _]|[H _]]; lra. }
    destruct Hr as (Hg' & ED & EC & EL & EV & _ & EK & EB). specialize (EB Hb).
    destruct s' as [V d C]. cbn [kn cf num] in *. destruct Hg' as [Vm HC]. cbn [kn num] in *.
    assert (G : forall x v, (x, v) = (a, va) \/ (x, v) = (b, vb) \/ (x, v) = (e, ve) ->
      exists q, (q < C)%nat /\ d q = v /\ greville V D q = x /\
        (x < V C /\ V (q + D)%nat <= x < V (q + D + 1)%nat \/ x = V C /\ q = (C - 1)%nat)).
    { intros x v Hx. destruct (Hv x v Hx) as [[H E]|(H & E & EE)].
      - destruct (HM x (HL x v Hx ltac:(lra))) as (k & Hk & Hbk & He). cbn [kn num] in *.
        exists (k - D)%nat. split; [lia|]. split; [|split].
        + rewrite E, <- EV. unfold value. cbn [kn cf num]. symmetry. apply value_at_multiple; auto; lia.
        + apply greville_multiple; [exact HD|]. intros i Hi. apply He. lia.
        + left. rewrite EC. replace (k - D + D)%nat with k by lia. split; [apply H|exact Hbk].
      - exists (C - 1)%nat. split; [lia|]. split; [now rewrite E, EL|]. split.
        + apply greville_multiple; [exact HD|]. intros i Hi. rewrite H. apply Rle_antisym.
          * rewrite <- EE. replace (num s + D - 1)%nat with (num s + (D - 1))%nat by lia. rewrite <- EK. apply Vm. lia.
          * rewrite <- EC. apply Vm. lia.
        + right. split; [now rewrite EC|reflexivity]. }
    destruct (G a va ltac:(auto)) as (qa & A1 & A2 & A3 & A4). destruct (G b vb ltac:(auto)) as (qb & B1 & B2 & B3 & B4).
    destruct (G e ve ltac:(auto)) as (qe & E1 & E2 & E3 & E4).
    assert (Ord : forall q r x y, (q < C)%nat -> (r < C)%nat -> x <= y ->
      (x < V C /\ V (q + D)%nat <= x < V (q + D + 1)%nat \/ x = V C /\ q = (C - 1)%nat) ->
      (y < V C /\ V (r + D)%nat <= y < V (r + D + 1)%nat \/ y = V C /\ r = (C - 1)%nat) -> (q <= r)%nat).
    { intros q r x y Hq Hr Hxy [[X1 X2]|[X1 X2]] [[Y1 Y2]|[Y1 Y2]]; try lia; try lra.
      destruct (le_lt_dec q r) as [Y|Y]; [exact Y|]. exfalso. pose proof (Vm (r + D + 1) (q + D) ltac:(lia))%nat. lra. }
    pose proof (Ord qa qb a b A1 B1 ltac:(lra) A4 B4). pose proof (Ord qb qe b e B1 E1 ltac:(lra) B4 E4).
    destruct (Nat.eq_dec qa qb) as [Ea|Na].
    { assert (a = b) by (rewrite <- A3, <- B3, Ea; reflexivity). assert (va = vb) by (rewrite <- A2, <- B2, Ea; reflexivity).
      subst. unfold below_chord. lra. }
    destruct (Nat.eq_dec qb qe) as [Eb|Nb].
    { assert (Z1 : b = e) by (rewrite <- B3, <- E3, Eb; reflexivity). assert (Z2 : vb = ve) by (rewrite <- B2, <- E2, Eb; reflexivity).
      rewrite Z1, Z2. unfold below_chord. lra. }
    pose proof (EB qa qb qe ltac:(lia) E1) as X. now rewrite A2, B2, E2, A3, B3, E3 in X.
  Qed.
End Refine.

(** ** Points *)
Section Curve.
  Context {P : Type} {PT : Point R P} {LP : LawfulPoint P}.
  Variables (D : nat) (ks : list R) (ps : list P).
  Local Notation C := (length ps).
  Local Notation U i := (nth i ks 0).
  Hypotheses (Hs : sorted ks) (HK : (C + D + 1 <= length ks)%nat) (HC : (D < C)%nat).

  Theorem curve_crosses w c (ts : list R) (qs : list P) m : curve_points D ks ps ts qs ->
    (forall i j, (i <= j < length ts)%nat -> nth i ts 0 <= nth j ts 0) ->
    polygon_crosses w c qs m -> polygon_crosses w c ps m.
  Proof.
    intros Hc Hr (idx & I1 & I2 & I3).
    assert (Hc' : forall i, (i < length qs)%nat -> curve_point D ks ps (nth i ts 0) (nth i qs p_default)).
    { clear - Hc. induction Hc as [|t q ts qs H Hc IH]; intros i Hi; [cbn in Hi; lia|]. destruct i as [|i]; [exact H|]. apply IH. cbn in Hi. lia. }
    assert (Hl : length ts = length qs) by (clear - Hc; induction Hc; cbn; congruence).
    assert (Inc : forall j j', (j <= j' <= m)%nat -> (idx j <= idx j')%nat).
    { intros j j' H. induction j' as [|j' IH]; [replace j with 0%nat by lia; lia|].
      destruct (Nat.eq_dec j (S j')) as [->|N]; [lia|]. pose proof (IH ltac:(lia)). pose proof (I1 j' ltac:(lia)). lia. }
    set (W := fun i => U (Nat.min i (length ks - 1))).
    set (lv := fun j => level w (nth j ps p_default) - c).
    assert (Wlo : forall i, (i < length ks)%nat -> W i = U i) by (intros i Hi; unfold W; f_equal; lia).
    assert (X : crosses lv C m).
    { apply (spline_crosses D (Sys W lv C) (fun j => nth (idx j) ts 0) (fun j => level w (nth (idx j) qs p_default) - c) m).
      - split; cbn [kn num]; [|exact HC]. intros a b Hab. unfold W. apply Hs. lia.
      - intros j Hj. apply Hr. pose proof (I1 j Hj). pose proof (I2 (S j) ltac:(lia)). lia.
      - intros j Hj. cbn [kn cf num]. rewrite !Wlo by lia. pose proof (Hc' (idx j) (I2 j Hj)) as H.
        destruct H as [[Hd Hp]|[Hd Hp]].
        + left. split; [exact Hd|]. unfold value. cbn [kn cf num].
          rewrite (Rsum_ext _ (fun q => basis (fun i => U i) D q (nth (idx j) ts 0) * level w (nth q ps p_default)
            - c * basis (fun i => U i) D q (nth (idx j) ts 0))).
          2:{ intros q Hq. unfold lv. rewrite (basis_ext W (fun i => U i)); [ring|]. intros i Hi. apply Wlo. lia. }
          rewrite Rsum_minus, Rsum_scal, (partition_of_unity D C ks) by assumption. rewrite Rmult_1_r. f_equal.
          unfold level. rewrite (Rsum_ext _ (fun i => w i * spline_coord D ks ps (nth (idx j) ts 0) i)).
          2:{ intros i Hi. now rewrite Hp. }
          unfold spline_coord.
          rewrite (Rsum_ext _ (fun i => Rsum (fun q => w i * (basis (fun i => U i) D q (nth (idx j) ts 0) * coord (nth q ps p_default) i)) C)).
          2:{ intros i Hi. now rewrite Rsum_scal. }
          rewrite Rsum_swap. apply Rsum_ext. intros q Hq. rewrite <- Rsum_scal. apply Rsum_ext. intros i Hi. ring.
        + right. split; [exact Hd|]. unfold lv. now rewrite Hp.
      - intros j Hj. apply I3. exact Hj. }
    destruct X as (g & G1 & G2 & G3). exists g. split; [exact G1|]. split; [exact G2|]. exact G3.
  Qed.
End Curve.
