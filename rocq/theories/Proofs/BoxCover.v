(** Boxes of the pieces after repeated halving. *)
From Coq Require Import Reals List Arith Lia Lra.
From Verif Require Import Base.Outcome Base.Scalar Model.Point Model.Line Model.Quadratic Model.Cubic
  Inst.RealInst Spec.Sums Spec.Lawful Spec.Box Spec.Length Spec.Subdivision Spec.Boxes
  Proofs.PointFacts Proofs.RealTac Proofs.Metric Proofs.ExactEval Proofs.BoxSpec Proofs.MonotoneBox Proofs.Sampling Proofs.Stability Proofs.Subdivision.
Import ListNotations.
Local Open Scope R_scope.

Lemma cell n x : (0 < n)%nat -> 0 <= x <= INR n -> exists i, (i < n)%nat /\ INR i <= x <= INR i + 1.
Proof.
  induction n as [|n IH]; [lia|]. intros _ Hx. rewrite S_INR in Hx.
  destruct (Rle_dec x (INR n)) as [H|H].
  - destruct n as [|n].
    + exists 0%nat. cbn [INR] in *. split; [lia|lra].
    + destruct (IH ltac:(lia) ltac:(lra)) as (i & Hi & B). exists i. split; [lia|exact B].
  - exists n. split; [lia|lra].
Qed.
Lemma piece_of k t : 0 <= t <= 1 -> exists i u, (i < 2 ^ k)%nat /\ 0 <= u <= 1 /\ t = (INR i + u) / 2 ^ k.
Proof.
  intros Ht. assert (Hp : 0 < 2 ^ k) by (apply pow_lt; lra).
  destruct (cell (2 ^ k) (t * 2 ^ k)) as (i & Hi & B).
  - apply Nat.neq_0_lt_0, Nat.pow_nonzero. lia.
  - rewrite pow_INR. change (INR 2) with (1 + 1). replace (1 + 1) with 2 by ring. split; [nra|]. nra.
  - exists i, (t * 2 ^ k - INR i). split; [exact Hi|]. split; [lra|]. field. lra.
Qed.
Lemma part_of k i u : (i < 2 ^ k)%nat -> 0 <= u <= 1 -> 0 <= (INR i + u) / 2 ^ k <= 1.
Proof.
  intros Hi Hu. assert (Hp : 0 < 2 ^ k) by (apply pow_lt; lra). pose proof (pos_INR i).
  assert (INR i + 1 <= 2 ^ k).
  { replace (2 ^ k) with (INR (2 ^ k)) by (rewrite pow_INR; f_equal; cbn; ring). rewrite <- S_INR. apply le_INR. lia. }
  split.
  - apply Rmult_le_pos; [lra|]. now apply Rlt_le, Rinv_0_lt_compat.
  - apply Rmult_le_reg_r with (2 ^ k); [exact Hp|]. unfold Rdiv. rewrite Rmult_assoc, Rinv_l by lra. lra.
Qed.
Lemma forall2_ex {A B} (R' : A -> B -> Prop) l : (forall a, In a l -> exists b, R' a b) -> exists bs, Forall2 R' l bs.
Proof.
  induction l as [|a l IH]; intros H; [exists []; constructor|].
  destruct (H a (or_introl eq_refl)) as (b & Hb). destruct IH as (bs & Hbs); [intros x Hx; apply H; now right|].
  exists (b :: bs). now constructor.
Qed.
Lemma forall2_length {A B} (R' : A -> B -> Prop) l bs : Forall2 R' l bs -> length l = length bs.
Proof. induction 1; cbn; congruence. Qed.
Lemma forall2_nth {A B} (R' : A -> B -> Prop) l bs : Forall2 R' l bs ->
  (forall i a, nth_error l i = Some a -> exists b, nth_error bs i = Some b /\ R' a b) /\
  (forall b, In b bs -> exists i a, nth_error l i = Some a /\ R' a b).
Proof.
  induction 1 as [|a b l bs H H' [IH1 IH2]]; split.
  - intros [|i] a; discriminate.
  - intros b [].
  - intros [|i] x; cbn; [intros [= <-]; eauto|apply IH1].
  - intros x [<-|Hx]; [exists 0%nat, a; auto|]. destruct (IH2 x Hx) as (i & y & Hy & Ry). now exists (S i), y.
Qed.
Lemma forall2_unique {A B} (f : A -> outcome B) l bs bs' :
  Forall2 (fun q b => f q = Ret b) l bs -> Forall2 (fun q b => f q = Ret b) l bs' -> bs = bs'.
Proof.
  intros H. revert bs'. induction H as [|a b l bs H H' IH]; intros bs' K; inversion K; subst; [reflexivity|].
  f_equal; [congruence|auto].
Qed.
Lemma boxes_unique {A B} halve (box : A -> outcome B) k c bs bs' :
  boxes_of halve box k c bs -> boxes_of halve box k c bs' -> bs = bs'.
Proof.
  intros (l & E & H) (l' & E' & H'). rewrite E in E'. injection E' as <-. exact (forall2_unique box l bs bs' H H').
Qed.
Lemma axis_dec (Q : nat -> Prop) n : (forall i, (i < n)%nat -> Q i \/ ~ Q i) ->
  (exists i, (i < n)%nat /\ Q i) \/ forall i, (i < n)%nat -> ~ Q i.
Proof.
  induction n as [|n IH]; intros H; [right; lia|].
  destruct (H n ltac:(lia)) as [A|A]; [left; exists n; split; [lia|exact A]|].
  destruct IH as [(i & Hi & B)|B].
  - intros i Hi. apply H. lia.
  - left. exists i. split; [lia|exact B].
  - right. intros i Hi. destruct (Nat.eq_dec i n) as [->|]; [exact A|apply B; lia].
Qed.

Lemma pieces_covered {A B} n (eval : A -> R -> nat -> R) (box : A -> outcome B) (rb : B -> list (R * R))
  (halve : A -> outcome (A * A)) (c : A) k l slack touch w er :
  halved halve k c = Ret l -> length l = (2 ^ k)%nat ->
  (forall i q, nth_error l i = Some q ->
     (forall u j, 0 <= u <= 1 -> (j < n)%nat -> Rabs (eval q u j - eval c ((INR i + u) / 2 ^ k) j) <= er) /\
     exists b, box q = Ret b /\ forall j, (j < n)%nat ->
       exists lo hi, nth_error (rb b) j = Some (lo, hi) /\
         (forall u, 0 <= u <= 1 -> lo - slack <= eval q u j <= hi + slack) /\
         lo - touch <= eval q 0 j <= hi + touch /\ hi - lo <= w) ->
  exists bs, boxes_of halve box k c bs /\ length bs = (2 ^ k)%nat /\
    covered n (eval c) (map rb bs) (slack + er) (touch + er) w.
Proof.
  intros El Hl H.
  assert (AB : forall x y, Rabs (x - y) <= er -> x - er <= y <= x + er)
    by (intros x y; unfold Rabs; destruct (Rcase_abs _); lra).
  destruct (forall2_ex (fun q b => box q = Ret b) l) as (bs & Hbs).
  { intros q Hq. destruct (In_nth_error _ _ Hq) as (i & Hi). destruct (H i q Hi) as (_ & b & Eb & _). eauto. }
  exists bs. split; [exists l; auto|]. split; [rewrite <- Hl; symmetry; exact (forall2_length _ _ _ Hbs)|].
  destruct (forall2_nth _ _ _ Hbs) as [N1 N2]. split.
  - intros t Ht. destruct (piece_of k t Ht) as (i & u & Hi & Hu & ->).
    destruct (nth_error l i) as [q|] eqn:Eq; [|apply nth_error_None in Eq; lia].
    destruct (N1 i q Eq) as (b & Eb & Bq). destruct (H i q Eq) as (Ev & b' & Eb' & Hb). rewrite Bq in Eb'. injection Eb' as <-.
    exists (rb b). split; [apply in_map, (nth_error_In _ _ Eb)|]. intros j Hj. destruct (Hb j Hj) as (lo & hi & En & Hc & _).
    exists lo, hi. split; [exact En|]. pose proof (AB _ _ (Ev u j Hu Hj)). specialize (Hc u Hu). lra.
  - intros x Hx. apply in_map_iff in Hx. destruct Hx as (b & <- & Hb).
    destruct (N2 b Hb) as (i & q & Eq & Bq). destruct (H i q Eq) as (Ev & b' & Eb' & Hb').
    rewrite Bq in Eb'. injection Eb' as <-. split.
    + exists ((INR i + 0) / 2 ^ k). split.
      { apply part_of; [|lra]. rewrite <- Hl. apply nth_error_Some. congruence. }
      intros j Hj. destruct (Hb' j Hj) as (lo & hi & En & _ & Hs & _). exists lo, hi. split; [exact En|].
      assert (Z : 0 <= 0 <= 1) by lra. pose proof (AB _ _ (Ev 0 j Z Hj)). lra.
    + intros j lo hi Hj En. destruct (Hb' j Hj) as (lo' & hi' & En' & _ & _ & Hw). rewrite En in En'.
      injection En' as <- <-. exact Hw.
Qed.

(** ** Two curves *)
Section Two.
  Variables (n : nat) (f g : R -> nat -> R) (bs bs' : list (list (R * R))) (s s' e e' w w' : R).
  Hypothesis Hf : covered n f bs s e w.
  Hypothesis Hg : covered n g bs' s' e' w'.

  Lemma near_boxes t u d : 0 <= t <= 1 -> 0 <= u <= 1 -> (forall i, (i < n)%nat -> Rabs (f t i - g u i) <= d) ->
    exists b b', In b bs /\ In b' bs' /\ ~ apart n b b' (d + (s + s')).
  Proof.
    intros Ht Hu Hd. destruct (proj1 Hf t Ht) as (b & Hb & B). destruct (proj1 Hg u Hu) as (b' & Hb' & B').
    exists b, b'. split; [exact Hb|]. split; [exact Hb'|]. intros (i & lo & hi & lo' & hi' & Hi & E1 & E2 & G).
    destruct (B i Hi) as (a1 & a2 & F1 & G1). rewrite E1 in F1. injection F1 as <- <-.
    destruct (B' i Hi) as (a1 & a2 & F2 & G2). rewrite E2 in F2. injection F2 as <- <-.
    pose proof (Hd i Hi) as X.
    assert (- d <= f t i - g u i <= d) by (revert X; unfold Rabs; destruct (Rcase_abs _); lra). lra.
  Qed.

  (** boxes that are not apart hold points of the curves that are close *)
  Lemma far_boxes m b b' : In b bs -> In b' bs' -> apart n b b' m \/
    exists t u, 0 <= t <= 1 /\ 0 <= u <= 1 /\ forall i, (i < n)%nat -> Rabs (f t i - g u i) <= w + w' + (e + e') + m.
  Proof.
    intros Hb Hb'.
    destruct (proj2 Hf b Hb) as ((t & Ht & B) & W). destruct (proj2 Hg b' Hb') as ((u & Hu & B') & W').
    destruct (axis_dec (fun i => exists lo hi lo' hi', nth_error b i = Some (lo, hi) /\ nth_error b' i = Some (lo', hi') /\
      (hi + m < lo' \/ hi' + m < lo)) n) as [(i & Hi & X)|X].
    - intros i Hi. destruct (B i Hi) as (lo & hi & E1 & _). destruct (B' i Hi) as (lo' & hi' & E2 & _).
      destruct (Rlt_dec (hi + m) lo'); [left; exists lo, hi, lo', hi'; auto|].
      destruct (Rlt_dec (hi' + m) lo); [left; exists lo, hi, lo', hi'; auto|].
      right. intros (a & b0 & a' & b0' & F1 & F2 & G). rewrite E1 in F1. injection F1 as <- <-.
      rewrite E2 in F2. injection F2 as <- <-. lra.
    - left. destruct X as (lo & hi & lo' & hi' & X). exists i, lo, hi, lo', hi'. tauto.
    - right. exists t, u. split; [exact Ht|]. split; [exact Hu|].
      intros i Hi. destruct (B i Hi) as (lo & hi & E1 & C1).
      destruct (B' i Hi) as (lo' & hi' & E2 & C2). pose proof (W i lo hi Hi E1). pose proof (W' i lo' hi' Hi E2).
      destruct (Rlt_dec (hi + m) lo') as [Q|Q]; [exfalso; apply (X i Hi); exists lo, hi, lo', hi'; auto|].
      destruct (Rlt_dec (hi' + m) lo) as [Q'|Q']; [exfalso; apply (X i Hi); exists lo, hi, lo', hi'; auto|].
      apply Rabs_le. lra.
  Qed.
End Two.

Section Cover.
  Context {E : Eps} {P : Type} {PT : Point R P} {LP : LawfulPoint P}.
  Notation D := (p_dim (P := P)).

  Theorem quad_boxes (c : quad P) k L : leg_bound (quad_control_points c) L ->
    exists bs, boxes_of (fun c => Ret (quad_split c (/ 2))) quad_bounding_box k c bs /\ length bs = (2 ^ k)%nat /\
      covered D (fun t => coord (quad_eval c t)) bs (eps / 8) 0 (2 * (L / 2 ^ k)).
  Proof.
    intros HL. destruct (bend_bound_ex (quad_control_points c)) as (S & HS).
    destruct (quad_pieces c k L S HL HS) as (l & El & Hl & H).
    destruct (pieces_covered D (fun c t => coord (quad_eval c t)) quad_bounding_box (fun b => b) _ c k l (eps / 8) 0 (2 * (L / 2 ^ k)) 0 El Hl)
      as (bs & Hb & Hn & Hc).
    2:{ exists bs. rewrite map_id, !Rplus_0_r in Hc. auto. }
    intros i q Hq. destruct (H i q Hq) as (Ev & Lq & _). split.
    { intros u j _ _. rewrite Ev, Rminus_diag_eq, Rabs_R0 by reflexivity. lra. }
    destruct (quad_box q) as (b & Eb & _ & Hb). destruct (quad_box_has_ends q) as (b' & Eb' & He).
    rewrite Eb in Eb'. injection Eb' as <-. exists b. split; [exact Eb|]. intros j Hj.
    destruct (Hb j Hj) as ((lo & hi & En & (t & Ht & Et) & (u & Hu & Eu)) & (lo2 & hi2 & En2 & Hc) & _).
    rewrite En in En2. injection En2 as <- <-.
    destruct (He j Hj) as (lo' & hi' & En' & Hs & _). rewrite En in En'. injection En' as <- <-.
    exists lo, hi. split; [exact En|]. split; [exact Hc|]. split; [rewrite quad_eval_0; lra|].
    rewrite <- Et, <- Eu. pose proof (coord_dist (quad_eval q u) (quad_eval q t) j Hj) as D1.
    pose proof (quad_lip q _ u t Lq Hu Ht) as D2. pose proof (Rle_abs (coord (quad_eval q u) j - coord (quad_eval q t) j)).
    assert (Rabs (t - u) <= 1) by (apply Rabs_le; lra). destruct Lq as [Lq _]. nra.
  Qed.

  Theorem cubic_boxes (c : cubic P) k L : leg_bound (cubic_control_points c) L ->
    exists bs, boxes_of (fun c => Ret (cubic_split c (/ 2))) cubic_bounding_box k c bs /\ length bs = (2 ^ k)%nat /\
      covered D (fun t => coord (cubic_eval c t)) bs (3 * eps / 8) 0 (3 * (L / 2 ^ k)).
  Proof.
    intros HL. destruct (bend_bound_ex (cubic_control_points c)) as (S & HS).
    destruct (cubic_pieces c k L S HL HS) as (l & El & Hl & H).
    destruct (pieces_covered D (fun c t => coord (cubic_eval c t)) cubic_bounding_box (fun b => b) _ c k l (3 * eps / 8) 0 (3 * (L / 2 ^ k)) 0 El Hl)
      as (bs & Hb & Hn & Hc).
    2:{ exists bs. rewrite map_id, !Rplus_0_r in Hc. auto. }
    intros i q Hq. destruct (H i q Hq) as (Ev & Lq & _). split.
    { intros u j _ _. rewrite Ev, Rminus_diag_eq, Rabs_R0 by reflexivity. lra. }
    destruct (cubic_box q) as (b & Eb & _ & Hb). destruct (cubic_box_has_ends q) as (b' & Eb' & He).
    rewrite Eb in Eb'. injection Eb' as <-. exists b. split; [exact Eb|]. intros j Hj.
    destruct (Hb j Hj) as ((lo & hi & En & (t & Ht & Et) & (u & Hu & Eu)) & (lo2 & hi2 & En2 & Hc) & _).
    rewrite En in En2. injection En2 as <- <-.
    destruct (He j Hj) as (lo' & hi' & En' & Hs & _). rewrite En in En'. injection En' as <- <-.
    exists lo, hi. split; [exact En|]. split; [exact Hc|]. split; [rewrite cubic_eval_0; lra|].
    rewrite <- Et, <- Eu. pose proof (coord_dist (cubic_eval q u) (cubic_eval q t) j Hj) as D1.
    pose proof (cubic_lip q _ u t Lq Hu Ht) as D2. pose proof (Rle_abs (coord (cubic_eval q u) j - coord (cubic_eval q t) j)).
    assert (Rabs (t - u) <= 1) by (apply Rabs_le; lra). destruct Lq as [Lq _]. nra.
  Qed.

  Lemma width_nonneg L k : 0 <= L -> 0 <= L / 2 ^ k.
  Proof. intros H. apply Rmult_le_pos; [exact H|]. apply Rlt_le, Rinv_0_lt_compat, pow_lt. lra. Qed.

  Theorem two_quads (a : quad P) (b : quad P) k k' L L' bs bs' :
    leg_bound (quad_control_points a) L -> leg_bound (quad_control_points b) L' ->
    boxes_of (fun c => Ret (quad_split c (/ 2))) quad_bounding_box k a bs ->
    boxes_of (fun c => Ret (quad_split c (/ 2))) quad_bounding_box k' b bs' ->
    (forall t u, 0 <= t <= 1 -> 0 <= u <= 1 -> exists x y, In x bs /\ In y bs' /\
       ~ apart D x y (dist (quad_eval a t) (quad_eval b u) + eps / 4)) /\
    (forall d m, 0 <= m -> (forall t u, 0 <= t <= 1 -> 0 <= u <= 1 -> d <= dist (quad_eval a t) (quad_eval b u)) ->
       sqrt (INR D) * (2 * (L / 2 ^ k) + 2 * (L' / 2 ^ k') + m) < d ->
       forall x y, In x bs -> In y bs' -> apart D x y m).
  Proof.
    intros HL HL' Hb Hb'.
    destruct (quad_boxes a k L HL) as (l & El & _ & Hc). destruct (quad_boxes b k' L' HL') as (l' & El' & _ & Hc').
    rewrite (boxes_unique _ _ _ _ _ _ Hb El), (boxes_unique _ _ _ _ _ _ Hb' El').
    split.
    - intros t u Ht Hu.
      destruct (near_boxes _ _ _ _ _ _ _ _ _ _ _ Hc Hc' t u _ Ht Hu (fun i Hi => coord_dist (quad_eval a t) (quad_eval b u) i Hi))
        as (x & y & X & Y & Z).
      exists x, y. split; [exact X|]. split; [exact Y|]. intros W. apply Z.
      destruct W as (i & lo & hi & lo' & hi' & W). exists i, lo, hi, lo', hi'. intuition lra.
    - intros d m Hm Hd Hs x y Hx Hy.
      destruct (far_boxes _ _ _ _ _ _ _ _ _ _ _ Hc Hc' m x y Hx Hy) as [Z|(t & u & Ht & Hu & Z)]; [exact Z|].
      exfalso. specialize (Hd t u Ht Hu). pose proof (width_nonneg L k (proj1 HL)). pose proof (width_nonneg L' k' (proj1 HL')).
      assert (Y := dist_coords (quad_eval a t) (quad_eval b u) (2 * (L / 2 ^ k) + 2 * (L' / 2 ^ k') + m) ltac:(lra) ltac:(intros i Hi; specialize (Z i Hi); lra)). lra.
  Qed.

  Theorem two_cubics (a : cubic P) (b : cubic P) k k' L L' bs bs' :
    leg_bound (cubic_control_points a) L -> leg_bound (cubic_control_points b) L' ->
    boxes_of (fun c => Ret (cubic_split c (/ 2))) cubic_bounding_box k a bs ->
    boxes_of (fun c => Ret (cubic_split c (/ 2))) cubic_bounding_box k' b bs' ->
    (forall t u, 0 <= t <= 1 -> 0 <= u <= 1 -> exists x y, In x bs /\ In y bs' /\
       ~ apart D x y (dist (cubic_eval a t) (cubic_eval b u) + 3 * eps / 4)) /\
    (forall d m, 0 <= m -> (forall t u, 0 <= t <= 1 -> 0 <= u <= 1 -> d <= dist (cubic_eval a t) (cubic_eval b u)) ->
       sqrt (INR D) * (3 * (L / 2 ^ k) + 3 * (L' / 2 ^ k') + m) < d ->
       forall x y, In x bs -> In y bs' -> apart D x y m).
  Proof.
    intros HL HL' Hb Hb'.
    destruct (cubic_boxes a k L HL) as (l & El & _ & Hc). destruct (cubic_boxes b k' L' HL') as (l' & El' & _ & Hc').
    rewrite (boxes_unique _ _ _ _ _ _ Hb El), (boxes_unique _ _ _ _ _ _ Hb' El').
    split.
    - intros t u Ht Hu.
      destruct (near_boxes _ _ _ _ _ _ _ _ _ _ _ Hc Hc' t u _ Ht Hu (fun i Hi => coord_dist (cubic_eval a t) (cubic_eval b u) i Hi))
        as (x & y & X & Y & Z).
      exists x, y. split; [exact X|]. split; [exact Y|]. intros W. apply Z.
      destruct W as (i & lo & hi & lo' & hi' & W). exists i, lo, hi, lo', hi'. intuition lra.
    - intros d m Hm Hd Hs x y Hx Hy.
      destruct (far_boxes _ _ _ _ _ _ _ _ _ _ _ Hc Hc' m x y Hx Hy) as [Z|(t & u & Ht & Hu & Z)]; [exact Z|].
      exfalso. specialize (Hd t u Ht Hu). pose proof (width_nonneg L k (proj1 HL)). pose proof (width_nonneg L' k' (proj1 HL')).
      assert (Y := dist_coords (cubic_eval a t) (cubic_eval b u) (3 * (L / 2 ^ k) + 3 * (L' / 2 ^ k') + m) ltac:(lra) ltac:(intros i Hi; specialize (Z i Hi); lra)). lra.
  Qed.

  Theorem quad_cubic (a : quad P) (b : cubic P) k k' L L' bs bs' :
    leg_bound (quad_control_points a) L -> leg_bound (cubic_control_points b) L' ->
    boxes_of (fun c => Ret (quad_split c (/ 2))) quad_bounding_box k a bs ->
    boxes_of (fun c => Ret (cubic_split c (/ 2))) cubic_bounding_box k' b bs' ->
    (forall t u, 0 <= t <= 1 -> 0 <= u <= 1 -> exists x y, In x bs /\ In y bs' /\
       ~ apart D x y (dist (quad_eval a t) (cubic_eval b u) + eps / 2)) /\
    (forall d m, 0 <= m -> (forall t u, 0 <= t <= 1 -> 0 <= u <= 1 -> d <= dist (quad_eval a t) (cubic_eval b u)) ->
       sqrt (INR D) * (2 * (L / 2 ^ k) + 3 * (L' / 2 ^ k') + m) < d ->
       forall x y, In x bs -> In y bs' -> apart D x y m).
  Proof.
    intros HL HL' Hb Hb'.
    destruct (quad_boxes a k L HL) as (l & El & _ & Hc). destruct (cubic_boxes b k' L' HL') as (l' & El' & _ & Hc').
    rewrite (boxes_unique _ _ _ _ _ _ Hb El), (boxes_unique _ _ _ _ _ _ Hb' El').
    split.
    - intros t u Ht Hu.
      destruct (near_boxes _ _ _ _ _ _ _ _ _ _ _ Hc Hc' t u _ Ht Hu (fun i Hi => coord_dist (quad_eval a t) (cubic_eval b u) i Hi))
        as (x & y & X & Y & Z).
      exists x, y. split; [exact X|]. split; [exact Y|]. intros W. apply Z.
      destruct W as (i & lo & hi & lo' & hi' & W). exists i, lo, hi, lo', hi'. intuition lra.
    - intros d m Hm Hd Hs x y Hx Hy.
      destruct (far_boxes _ _ _ _ _ _ _ _ _ _ _ Hc Hc' m x y Hx Hy) as [Z|(t & u & Ht & Hu & Z)]; [exact Z|].
      exfalso. specialize (Hd t u Ht Hu). pose proof (width_nonneg L k (proj1 HL)). pose proof (width_nonneg L' k' (proj1 HL')).
      assert (Y := dist_coords (quad_eval a t) (cubic_eval b u) (2 * (L / 2 ^ k) + 3 * (L' / 2 ^ k') + m) ltac:(lra) ltac:(intros i Hi; specialize (Z i Hi); lra)). lra.
  Qed.
End Cover.
