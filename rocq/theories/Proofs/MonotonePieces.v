(** Proofs for C142: pieces between stationary parameters. *)
From Coq Require Import Reals List Arith Lia Lra Psatz.
From Verif Require Import Base.Outcome Base.Scalar Model.Point Model.Line Model.Quadratic Model.Cubic
  Inst.RealInst Spec.Sums Spec.Lawful Spec.Box Spec.Monotone
  Proofs.OutcomeFacts Proofs.PointFacts Proofs.RealTac Proofs.ExactEval Proofs.BBoxFacts Proofs.BoxSpec Proofs.MonotoneBox.
Import ListNotations.
Local Open Scope R_scope.

(** a quadratic without zeros inside an interval keeps its sign there *)
Lemma sign_kept (Q : R -> R) x y : continuity Q -> x < y -> (forall t, x < t < y -> Q t <> 0) ->
  (forall t, x <= t <= y -> 0 <= Q t) \/ (forall t, x <= t <= y -> Q t <= 0).
Proof.
  intros HQ Hxy Hn. set (m := (x + y) / 2). assert (Hm : x < m < y) by (unfold m; lra).
  assert (K : forall a b, x <= a <= b -> b <= y -> Q a * Q b < 0 -> False).
  { intros a b Ha Hb Hp. destruct (IVT_cor Q a b HQ ltac:(lra) ltac:(lra)) as (z & Hz & Ez).
    assert (z <> a) by (intros ->; rewrite Ez in Hp; lra). assert (z <> b) by (intros ->; rewrite Ez in Hp; lra).
    apply (Hn z); [lra|exact Ez]. }
  pose proof (Hn m Hm) as Nm.
  destruct (Rlt_dec 0 (Q m)) as [Pm|Pm]; [left|right]; intros t Ht.
  - apply Rnot_lt_le. intros Nt. destruct (Rle_dec t m).
    + apply (K t m); nra.
    + apply (K m t); nra.
  - apply Rnot_lt_le. intros Nt. destruct (Rle_dec t m).
    + apply (K t m); nra.
    + apply (K m t); nra.
Qed.
(** Simpson's rule is exact for these derivatives *)
Lemma simpson_monotone (f Q : R -> R) x y : x <= y ->
  (forall a b, f b - f a = (b - a) / 6 * (Q a + 4 * Q ((a + b) / 2) + Q b)) ->
  (forall t, x <= t <= y -> 0 <= Q t) \/ (forall t, x <= t <= y -> Q t <= 0) ->
  monotone (fun u => f (x + u * (y - x))).
Proof.
  intros Hxy HS H.
  assert (I : forall u, 0 <= u <= 1 -> x <= x + u * (y - x) <= y) by (intros; nra).
  destruct H as [H|H]; [left|right]; intros a b Ha Hb.
  - set (X := x + a * (y - x)). set (Y := x + b * (y - x)). assert (HX : X <= Y) by (unfold X, Y; nra).
    pose proof (I a ltac:(lra)). pose proof (I b ltac:(lra)). fold X in H0. fold Y in H1.
    pose proof (H X ltac:(lra)). pose proof (H Y ltac:(lra)). pose proof (H ((X + Y) / 2) ltac:(lra)). specialize (HS X Y).
    assert (0 <= (Y - X) / 6 * (Q X + 4 * Q ((X + Y) / 2) + Q Y)) by (apply Rmult_le_pos; lra). lra.
  - set (X := x + a * (y - x)). set (Y := x + b * (y - x)). assert (HX : X <= Y) by (unfold X, Y; nra).
    pose proof (I a ltac:(lra)). pose proof (I b ltac:(lra)). fold X in H0. fold Y in H1.
    pose proof (H X ltac:(lra)). pose proof (H Y ltac:(lra)). pose proof (H ((X + Y) / 2) ltac:(lra)). specialize (HS X Y).
    assert (0 <= (Y - X) / 6 * - (Q X + 4 * Q ((X + Y) / 2) + Q Y)) by (apply Rmult_le_pos; lra). lra.
Qed.

Section Pieces.
  Context {E : Eps} {P : Type} {PT : Point R P} {LP : LawfulPoint P}.
  Notation D := (p_dim (P := P)).

  Lemma monotone_box (f : R -> P) bounds i lo hi : monotone (fun t => coord (f t) i) -> box_attained f bounds i ->
    nth_error bounds i = Some (lo, hi) -> lo <= coord (f 0) i <= hi -> lo <= coord (f 1) i <= hi ->
    spans bounds i (coord (f 0) i) (coord (f 1) i).
  Proof.
    intros Hm (lo' & hi' & E1 & (t & Ht & Et) & (u & Hu & Eu)) E2 H0 H1. rewrite E2 in E1. injection E1 as <- <-.
    unfold spans. rewrite E2. do 2 f_equal.
    - destruct Hm as [Hm|Hm]; pose proof (Hm 0 t ltac:(lra) ltac:(lra)); pose proof (Hm t 1 ltac:(lra) ltac:(lra));
        pose proof (Hm 0 1 ltac:(lra) ltac:(lra)); cbv beta in *; [rewrite Rmin_left by lra|rewrite Rmin_right by lra]; lra.
    - destruct Hm as [Hm|Hm]; pose proof (Hm 0 u ltac:(lra) ltac:(lra)); pose proof (Hm u 1 ltac:(lra) ltac:(lra));
        pose proof (Hm 0 1 ltac:(lra) ltac:(lra)); cbv beta in *; [rewrite Rmax_right by lra|rewrite Rmax_left by lra]; lra.
  Qed.
  Lemma quad_box_of_monotone (p : quad P) i : (i < D)%nat -> monotone (fun t => coord (quad_eval p t) i) ->
    exists bounds, quad_bounding_box p = Ret bounds /\ spans bounds i (coord (q_start p) i) (coord (q_end p) i).
  Proof.
    intros Hi Hm. destruct (quad_box p) as (bounds & Eb & _ & HB). exists bounds. split; [exact Eb|].
    destruct (quad_box_has_ends p) as (bounds' & Eb' & HE). rewrite Eb in Eb'. injection Eb' as <-.
    destruct (HB i Hi) as [HA _]. destruct (HE i Hi) as (lo & hi & En & H0 & H1).
    assert (F0 : coord (quad_eval p 0) i = coord (q_start p) i) by (rewrite quad_eval_coord by exact Hi; ring).
    assert (F1 : coord (quad_eval p 1) i = coord (q_end p) i) by (rewrite quad_eval_coord by exact Hi; ring).
    rewrite <- F0, <- F1 in *. exact (monotone_box (quad_eval p) bounds i lo hi Hm HA En H0 H1).
  Qed.
  Lemma cubic_box_of_monotone (p : cubic P) i : (i < D)%nat -> monotone (fun t => coord (cubic_eval p t) i) ->
    exists bounds, cubic_bounding_box p = Ret bounds /\ spans bounds i (coord (c_start p) i) (coord (c_end p) i).
  Proof.
    intros Hi Hm. destruct (cubic_box p) as (bounds & Eb & _ & HB). exists bounds. split; [exact Eb|].
    destruct (cubic_box_has_ends p) as (bounds' & Eb' & HE). rewrite Eb in Eb'. injection Eb' as <-.
    destruct (HB i Hi) as [HA _]. destruct (HE i Hi) as (lo & hi & En & H0 & H1).
    assert (F0 : coord (cubic_eval p 0) i = coord (c_start p) i) by (rewrite cubic_eval_coord by exact Hi; ring).
    assert (F1 : coord (cubic_eval p 1) i = coord (c_end p) i) by (rewrite cubic_eval_coord by exact Hi; ring).
    rewrite <- F0, <- F1 in *. exact (monotone_box (cubic_eval p) bounds i lo hi Hm HA En H0 H1).
  Qed.

  (** a piece over [x, y] *)
  Lemma quad_sign_piece (c p : quad P) i x y : (i < D)%nat -> x <= y ->
    (forall u, quad_eval p u = quad_eval c (x + u * (y - x))) ->
    (forall t, x <= t <= y -> 0 <= coord (line_eval (quad_derivative c) t) i) \/
      (forall t, x <= t <= y -> coord (line_eval (quad_derivative c) t) i <= 0) ->
    monotone (fun t => coord (quad_eval p t) i) /\
    exists bounds, quad_bounding_box p = Ret bounds /\ spans bounds i (coord (q_start p) i) (coord (q_end p) i).
  Proof.
    intros Hi Hxy Hp HQ.
    assert (Hm : monotone (fun t => coord (quad_eval p t) i)).
    { pose proof (simpson_monotone (fun t => coord (quad_eval c t) i) (fun t => coord (line_eval (quad_derivative c) t) i) x y Hxy) as S.
      assert (M : monotone (fun u => coord (quad_eval c (x + u * (y - x))) i)).
      { apply S; [|exact HQ]. intros a b. rewrite !quad_eval_coord, !line_eval_coord by exact Hi.
        unfold quad_derivative. cbn [l_start l_end]. coords. rs. field. }
      destruct M as [M|M]; [left|right]; intros a b Ha Hb; rewrite !Hp; now apply M. }
    split; [exact Hm|now apply quad_box_of_monotone].
  Qed.
  Lemma cubic_sign_piece (c p : cubic P) i x y : (i < D)%nat -> x <= y ->
    (forall u, cubic_eval p u = cubic_eval c (x + u * (y - x))) ->
    (forall t, x <= t <= y -> 0 <= coord (quad_eval (cubic_derivative c) t) i) \/
      (forall t, x <= t <= y -> coord (quad_eval (cubic_derivative c) t) i <= 0) ->
    monotone (fun t => coord (cubic_eval p t) i) /\
    exists bounds, cubic_bounding_box p = Ret bounds /\ spans bounds i (coord (c_start p) i) (coord (c_end p) i).
  Proof.
    intros Hi Hxy Hp HQ.
    assert (Hm : monotone (fun t => coord (cubic_eval p t) i)).
    { pose proof (simpson_monotone (fun t => coord (cubic_eval c t) i) (fun t => coord (quad_eval (cubic_derivative c) t) i) x y Hxy) as S.
      assert (M : monotone (fun u => coord (cubic_eval c (x + u * (y - x))) i)).
      { apply S; [|exact HQ]. intros a b. rewrite !cubic_eval_coord, !quad_eval_coord by exact Hi.
        unfold cubic_derivative. cbn [q_start q_ctrl q_end]. coords. rs. field. }
      destruct M as [M|M]; [left|right]; intros a b Ha Hb; rewrite !Hp; now apply M. }
    split; [exact Hm|now apply cubic_box_of_monotone].
  Qed.

  Lemma quad_derivative_continuous (c : quad P) i : (i < D)%nat -> continuity (fun t => coord (line_eval (quad_derivative c) t) i).
  Proof.
    intros Hi. set (a := coord (l_start (quad_derivative c)) i). set (b := coord (l_end (quad_derivative c)) i).
    assert (H : continuity (fun t => a + t * (b - a))) by reg.
    intros t e He. destruct (H t e He) as (d & Hd & K). exists d. split; [exact Hd|]. intros x Hx. specialize (K x Hx).
    cbn in K |- *. rewrite !line_eval_coord by exact Hi. fold a b. unfold R_dist in *. 
    match goal with |- Rabs ?z < _ => replace z with (a + x * (b - a) - (a + t * (b - a))) by ring end. exact K.
  Qed.
  Lemma cubic_derivative_continuous (c : cubic P) i : (i < D)%nat -> continuity (fun t => coord (quad_eval (cubic_derivative c) t) i).
  Proof.
    intros Hi. set (a := coord (q_start (cubic_derivative c)) i). set (b := coord (q_ctrl (cubic_derivative c)) i).
    set (d := coord (q_end (cubic_derivative c)) i).
    assert (H : continuity (fun t => a * ((1 - t) * (1 - t)) + 2 * b * (t * (1 - t)) + d * (t * t))) by reg.
    intros t e He. destruct (H t e He) as (dl & Hd & K). exists dl. split; [exact Hd|]. intros x Hx. specialize (K x Hx).
    cbn in K |- *. rewrite !quad_eval_coord by exact Hi. fold a b d. unfold R_dist in *.
    match goal with |- Rabs ?z < _ => match type of K with Rabs ?w < _ => replace z with w by ring end end. exact K.
  Qed.

  (** no stationary parameter inside *)
  Theorem quad_between (c p : quad P) i x y : (i < D)%nat -> x < y ->
    (forall u, quad_eval p u = quad_eval c (x + u * (y - x))) ->
    (forall t, x < t < y -> coord (line_eval (quad_derivative c) t) i <> 0) ->
    monotone (fun t => coord (quad_eval p t) i) /\
    exists bounds, quad_bounding_box p = Ret bounds /\ spans bounds i (coord (q_start p) i) (coord (q_end p) i).
  Proof.
    intros Hi Hxy Hp Hn. apply (quad_sign_piece c p i x y Hi ltac:(lra) Hp).
    exact (sign_kept _ x y (quad_derivative_continuous c i Hi) Hxy Hn).
  Qed.
  Theorem cubic_between (c p : cubic P) i x y : (i < D)%nat -> x < y ->
    (forall u, cubic_eval p u = cubic_eval c (x + u * (y - x))) ->
    (forall t, x < t < y -> coord (quad_eval (cubic_derivative c) t) i <> 0) ->
    monotone (fun t => coord (cubic_eval p t) i) /\
    exists bounds, cubic_bounding_box p = Ret bounds /\ spans bounds i (coord (c_start p) i) (coord (c_end p) i).
  Proof.
    intros Hi Hxy Hp Hn. apply (cubic_sign_piece c p i x y Hi ltac:(lra) Hp).
    exact (sign_kept _ x y (cubic_derivative_continuous c i Hi) Hxy Hn).
  Qed.

  (** cut at the stationary parameters *)
  Theorem quad_cut (c p : quad P) i r : (i < D)%nat -> 0 <= r <= 1 -> coord (line_eval (quad_derivative c) r) i = 0 ->
    p = fst (quad_split c r) \/ p = snd (quad_split c r) ->
    monotone (fun t => coord (quad_eval p t) i) /\
    exists bounds, quad_bounding_box p = Ret bounds /\ spans bounds i (coord (q_start p) i) (coord (q_end p) i).
  Proof.
    intros Hi Hr H0 Hp.
    assert (L : forall t, coord (line_eval (quad_derivative c) t) i
      = (t - r) * (coord (l_end (quad_derivative c)) i - coord (l_start (quad_derivative c)) i)).
    { intros t. rewrite line_eval_coord in H0 |- * by exact Hi. lra. }
    set (A := coord (l_end (quad_derivative c)) i - coord (l_start (quad_derivative c)) i) in L.
    destruct Hp as [-> | ->]; [apply (quad_sign_piece c _ i 0 r)|apply (quad_sign_piece c _ i r 1)]; try lra; try assumption.
    - intros u. rewrite (proj1 (quad_split_spec c r u)). f_equal. ring.
    - destruct (Rle_dec 0 A); [right|left]; intros t Ht; rewrite L; nra.
    - intros u. apply (quad_split_spec c r u).
    - destruct (Rle_dec 0 A); [left|right]; intros t Ht; rewrite L; nra.
  Qed.
  Theorem cubic_cut (c p : cubic P) i r r' : (i < D)%nat -> 0 <= r < r' -> r' <= 1 ->
    coord (quad_eval (cubic_derivative c) r) i = 0 -> coord (quad_eval (cubic_derivative c) r') i = 0 ->
    p = fst (cubic_split c r) \/ p = fst (cubic_split (snd (cubic_split c r)) ((r' - r) / (1 - r))) \/ p = snd (cubic_split c r') ->
    monotone (fun t => coord (cubic_eval p t) i) /\
    exists bounds, cubic_bounding_box p = Ret bounds /\ spans bounds i (coord (c_start p) i) (coord (c_end p) i).
  Proof.
    intros Hi Hr Hr' H0 H1 Hp.
    assert (L : exists A, forall t, coord (quad_eval (cubic_derivative c) t) i = A * ((t - r) * (t - r'))).
    { rewrite quad_eval_coord in H0, H1 by exact Hi. set (a := coord (q_start _) i) in *. set (b := coord (q_ctrl _) i) in *.
      set (d := coord (q_end _) i) in *. exists (a - 2 * b + d). intros t. rewrite quad_eval_coord by exact Hi. fold a b d.
      apply (Rmult_eq_reg_l (r' - r)); [|lra].
      match type of H0 with ?z = 0 => set (Z0 := z) in H0 end. match type of H1 with ?z = 0 => set (Z1 := z) in H1 end.
      match goal with |- ?l = ?s => replace l with (s + ((r' - t) * Z0 + (t - r) * Z1)) by (unfold Z0, Z1; ring) end.
      rewrite H0, H1. ring. }
    destruct L as [A L].
    destruct Hp as [-> |[-> | ->]].
    - apply (cubic_sign_piece c _ i 0 r); try lra; try assumption.
      + intros u. rewrite (proj1 (cubic_split_spec c r u)). f_equal. ring.
      + assert (K : forall t, 0 <= t <= r -> 0 <= (t - r) * (t - r')) by (intros; nra).
        destruct (Rle_dec 0 A); [left|right]; intros t Ht; rewrite L; specialize (K t Ht); nra.
    - apply (cubic_sign_piece c _ i r r'); try lra; try assumption.
      + intros u. rewrite (proj1 (cubic_split_spec (snd (cubic_split c r)) _ u)), (proj2 (cubic_split_spec c r _)). f_equal. field. lra.
      + assert (K : forall t, r <= t <= r' -> (t - r) * (t - r') <= 0) by (intros; nra).
        destruct (Rle_dec 0 A); [right|left]; intros t Ht; rewrite L; specialize (K t Ht); nra.
    - apply (cubic_sign_piece c _ i r' 1); try lra; try assumption.
      + intros u. apply (cubic_split_spec c r' u).
      + assert (K : forall t, r' <= t <= 1 -> 0 <= (t - r) * (t - r')) by (intros; nra).
        destruct (Rle_dec 0 A); [left|right]; intros t Ht; rewrite L; specialize (K t Ht); nra.
  Qed.
End Pieces.
