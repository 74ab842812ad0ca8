(** Repeated halving: the pieces shrink and flatten. *)
From Coq Require Import Reals List Arith Lia Lra Psatz.
From Verif Require Import Base.Outcome Base.Scalar Model.Point Model.Line Model.Quadratic Model.Cubic
  Model.Bezier Inst.RealInst Spec.Sums Spec.Lawful Spec.Bernstein Spec.Metric Spec.Length Spec.Subdivision
  Proofs.OutcomeFacts Proofs.PointFacts Proofs.RealTac Proofs.Metric Proofs.ExactEval
  Proofs.LineFacts Proofs.BezierGeneric Proofs.BezierReal Proofs.Linearity Proofs.ArclenFacts.
Import ListNotations.
Local Open Scope R_scope.

Section Split.
  Context {E : Eps} {P : Type} {PT : Point R P} {LP : LawfulPoint P}.
  Notation dim := (p_dim (P := P)).
  Notation dflt := (p_default (P := P)).

  (** norm of a combination of points, coordinate by coordinate *)
  Definition leg (p : nat -> P) k : R := nrm (fun i => coord (p (k + 1)%nat) i - coord (p k) i) dim.
  Definition bend (p : nat -> P) k : R :=
    nrm (fun i => coord (p k) i - 2 * coord (p (k + 1)%nat) i + coord (p (k + 2)%nat) i) dim.

  Lemma nrm_mix t (v w : nat -> R) n B : 0 <= t <= 1 -> nrm v n <= B -> nrm w n <= B ->
    nrm (fun i => (1 - t) * v i + t * w i) n <= B.
  Proof.
    intros Ht Hv Hw. eapply Rle_trans; [apply (minkowski (fun i => (1 - t) * v i) (fun i => t * w i))|].
    rewrite !nrm_scal, !Rabs_pos_eq by lra. pose proof (nrm_nonneg v n). nra.
  Qed.

  (** every level of the triangle has no longer legs and no sharper bends *)
  Lemma tri_leg t (p : nat -> P) L n : 0 <= t <= 1 -> (forall k, (k < n)%nat -> leg p k <= L) ->
    forall m j, (m + j < n)%nat -> leg (tri t p m) j <= L.
  Proof.
    intros Ht H. induction m as [|m IH]; intros j Hj; [apply H; lia|].
    unfold leg. cbn [tri].
    rewrite (nrm_ext _ (fun i => (1 - t) * (coord (tri t p m (j + 1)) i - coord (tri t p m j) i)
      + t * (coord (tri t p m (j + 1 + 1)) i - coord (tri t p m (j + 1)) i))).
    - apply nrm_mix; [exact Ht|apply (IH j); lia|apply (IH (j + 1)%nat); lia].
    - intros i Hi. rewrite !lerp_coord by exact Hi. ring.
  Qed.
  Lemma tri_bend t (p : nat -> P) B n : 0 <= t <= 1 -> (forall k, (k + 1 < n)%nat -> bend p k <= B) ->
    forall m j, (m + j + 1 < n)%nat -> bend (tri t p m) j <= B.
  Proof.
    intros Ht H. induction m as [|m IH]; intros j Hj; [apply H; lia|].
    unfold bend. cbn [tri].
    rewrite (nrm_ext _ (fun i =>
        (1 - t) * (coord (tri t p m j) i - 2 * coord (tri t p m (j + 1)) i + coord (tri t p m (j + 2)) i)
      + t * (coord (tri t p m (j + 1)) i - 2 * coord (tri t p m (j + 1 + 1)) i + coord (tri t p m (j + 1 + 2)) i))).
    - apply nrm_mix; [exact Ht|apply (IH j); lia|apply (IH (j + 1)%nat); lia].
    - intros i Hi. rewrite !lerp_coord by exact Hi.
      replace (j + 2 + 1)%nat with (j + 1 + 2)%nat by lia.
      replace (j + 1 + 1)%nat with (j + 2)%nat by lia. ring.
  Qed.

  Lemma leg_left t (p : nat -> P) L n : 0 <= t <= 1 -> (forall k, (k < n)%nat -> leg p k <= L) ->
    forall k, (k < n)%nat -> leg (fun j => tri t p j 0) k <= t * L.
  Proof.
    intros Ht H k Hk. unfold leg. rewrite Nat.add_1_r. cbn [tri].
    rewrite (nrm_ext _ (fun i => t * (coord (tri t p k (0 + 1)) i - coord (tri t p k 0) i))).
    - rewrite nrm_scal, Rabs_pos_eq by lra. apply Rmult_le_compat_l; [lra|].
      apply (tri_leg t p L n Ht H k 0). lia.
    - intros i Hi. rewrite lerp_coord by exact Hi. ring.
  Qed.
  Lemma leg_right t (p : nat -> P) L n : 0 <= t <= 1 -> (forall k, (k < n)%nat -> leg p k <= L) ->
    forall k, (k < n)%nat -> leg (fun j => tri t p (n - j) j) k <= (1 - t) * L.
  Proof.
    intros Ht H k Hk. unfold leg. replace (n - k)%nat with (S (n - (k + 1))) by lia. cbn [tri].
    rewrite (nrm_ext _ (fun i => (1 - t) *
      (coord (tri t p (n - (k + 1)) (k + 1)) i - coord (tri t p (n - (k + 1)) k) i))).
    - rewrite nrm_scal, Rabs_pos_eq by lra. apply Rmult_le_compat_l; [lra|].
      apply (tri_leg t p L n Ht H (n - (k + 1)) k). lia.
    - intros i Hi. rewrite lerp_coord by exact Hi. ring.
  Qed.
  Lemma bend_left t (p : nat -> P) B n : 0 <= t <= 1 -> (forall k, (k + 1 < n)%nat -> bend p k <= B) ->
    forall k, (k + 1 < n)%nat -> bend (fun j => tri t p j 0) k <= t ^ 2 * B.
  Proof.
    intros Ht H k Hk. unfold bend. replace (k + 2)%nat with (S (S k)) by lia.
    rewrite Nat.add_1_r. cbn [tri].
    rewrite (nrm_ext _ (fun i => t ^ 2 *
      (coord (tri t p k 0) i - 2 * coord (tri t p k (0 + 1)) i + coord (tri t p k (0 + 2)) i))).
    - assert (0 <= t ^ 2) by nra. rewrite nrm_scal, Rabs_pos_eq by assumption. apply Rmult_le_compat_l; [assumption|].
      apply (tri_bend t p B n Ht H k 0). lia.
    - intros i Hi. rewrite !lerp_coord by exact Hi. change (0 + 1 + 1)%nat with (0 + 2)%nat. ring.
  Qed.
  Lemma bend_right t (p : nat -> P) B n : 0 <= t <= 1 -> (forall k, (k + 1 < n)%nat -> bend p k <= B) ->
    forall k, (k + 1 < n)%nat -> bend (fun j => tri t p (n - j) j) k <= (1 - t) ^ 2 * B.
  Proof.
    intros Ht H k Hk. unfold bend. replace (n - k)%nat with (S (S (n - (k + 2)))) by lia.
    replace (n - (k + 1))%nat with (S (n - (k + 2))) by lia. cbn [tri].
    rewrite (nrm_ext _ (fun i => (1 - t) ^ 2 *
      (coord (tri t p (n - (k + 2)) k) i - 2 * coord (tri t p (n - (k + 2)) (k + 1)) i
       + coord (tri t p (n - (k + 2)) (k + 2)) i))).
    - assert (0 <= (1 - t) ^ 2) by nra. rewrite nrm_scal, Rabs_pos_eq by assumption. apply Rmult_le_compat_l; [assumption|].
      apply (tri_bend t p B n Ht H (n - (k + 2)) k). lia.
    - intros i Hi. rewrite !lerp_coord by exact Hi.
      replace (k + 1 + 1)%nat with (k + 2)%nat by lia. ring.
  Qed.

  (** the same about lists *)
  Lemma leg_bound_nth (ps : list P) L : leg_bound ps L <->
    0 <= L /\ forall k, (k < length ps - 1)%nat -> leg (fun j => nth j ps dflt) k <= L.
  Proof.
    unfold leg_bound. split; intros [H0 H]; (split; [exact H0|]).
    - intros k Hk. specialize (H k (nth k ps dflt) (nth (S k) ps dflt)).
      rewrite dist_sym, dist_nrm in H. unfold leg. rewrite Nat.add_1_r.
      apply H; apply nth_error_nth'; lia.
    - intros k p q Hp Hq. assert (Hk : (S k < length ps)%nat) by (apply nth_error_Some; congruence).
      specialize (H k ltac:(lia)). unfold leg in H. rewrite Nat.add_1_r in H.
      rewrite (nth_error_nth ps k dflt Hp), (nth_error_nth ps (S k) dflt Hq) in H.
      rewrite dist_sym, dist_nrm. exact H.
  Qed.
  Lemma bend_dist a b c : nrm (fun i => coord a i - 2 * coord b i + coord c i) dim
    = 2 * dist (p_mul (p_add a c) (1 / 2)) b.
  Proof.
    rewrite dist_nrm. transitivity (Rabs 2 * nrm (fun i => coord (p_mul (p_add a c) (1 / 2)) i - coord b i) dim);
      [|rewrite Rabs_pos_eq by lra; reflexivity].
    rewrite <- nrm_scal. apply nrm_ext. intros i Hi. coords. field.
  Qed.
  Lemma bend_bound_nth (ps : list P) S : bend_bound ps S <->
    0 <= S /\ forall k, (k + 1 < length ps - 1)%nat -> bend (fun j => nth j ps dflt) k <= 2 * S.
  Proof.
    unfold bend_bound. split; intros [H0 H]; (split; [exact H0|]).
    - intros k Hk. specialize (H k (nth k ps dflt) (nth (k + 1) ps dflt) (nth (k + 2) ps dflt)).
      unfold bend. rewrite bend_dist.
      assert (dist (p_mul (p_add (nth k ps dflt) (nth (k + 2) ps dflt)) (1 / 2)) (nth (k + 1) ps dflt) <= S);
        [|lra]. apply H; apply nth_error_nth'; lia.
    - intros k a b c Ha Hb Hc. assert (Hk : (k + 2 < length ps)%nat) by (apply nth_error_Some; congruence).
      specialize (H k ltac:(lia)). unfold bend in H. rewrite bend_dist in H.
      rewrite (nth_error_nth ps _ dflt Ha), (nth_error_nth ps _ dflt Hb), (nth_error_nth ps _ dflt Hc) in H. lra.
  Qed.

  Lemma split_shrinks (ps l r : list P) t : 0 <= t <= 1 -> bezier_split (Bezier ps) t = Ret (Bezier l, Bezier r) ->
    (forall L, leg_bound ps L -> leg_bound l (t * L) /\ leg_bound r ((1 - t) * L)) /\
    (forall S, bend_bound ps S -> bend_bound l (t ^ 2 * S) /\ bend_bound r ((1 - t) ^ 2 * S)).
  Proof.
    intros Ht Hs. destruct (bezier_split_closed ps t dflt) as (l' & r' & Hs' & Hl & Hr & Hvl & Hvr).
    assert (l' = l /\ r' = r) as [-> ->] by (rewrite Hs in Hs'; injection Hs'; auto). clear Hs'.
    set (p := fun k => nth k ps dflt) in *.
    split; [intros L HL; apply leg_bound_nth in HL|intros L HL; apply bend_bound_nth in HL]; destruct HL as [H0 HL].
    - split; apply leg_bound_nth; rewrite ?Hl, ?Hr; (split; [nra|]); intros k Hk.
      + unfold leg. rewrite !Hvl by lia. apply (leg_left t p L (length ps - 1) Ht HL k Hk).
      + unfold leg. rewrite !Hvr by lia. apply (leg_right t p L (length ps - 1) Ht HL k Hk).
    - split; apply bend_bound_nth; rewrite ?Hl, ?Hr; (split; [apply Rmult_le_pos; [apply pow2_ge_0|exact H0]|]); intros k Hk.
      + unfold bend. rewrite !Hvl by lia. 
        eapply Rle_trans; [apply (bend_left t p (2 * L) (length ps - 1) Ht HL k Hk)|]. lra.
      + unfold bend. rewrite !Hvr by lia.
        eapply Rle_trans; [apply (bend_right t p (2 * L) (length ps - 1) Ht HL k Hk)|]. lra.
  Qed.
End Split.

(** ** The pieces *)
Lemma halved_pieces {A : Type} (halve : A -> outcome (A * A)) (Q : A -> Prop) (good : nat -> R -> R -> A -> Prop) c :
  (forall a, Q a -> exists l r, halve a = Ret (l, r) /\ Q l /\ Q r) -> Q c ->
  (forall k x w a l r, Q a -> good k x w a -> halve a = Ret (l, r) ->
     good (S k) x (w / 2) l /\ good (S k) (x + w / 2) (w / 2) r) ->
  forall k j x w, Q c -> good j x w c ->
  exists l, halved halve k c = Ret l /\ length l = (2 ^ k)%nat /\
    forall i q, nth_error l i = Some q -> Q q /\ good (j + k)%nat (x + INR i * (w / 2 ^ k)) (w / 2 ^ k) q.
Proof.
  intros HQ _ Hg k. revert c. induction k as [|k IH]; intros c j x w Hc Hgc.
  - exists [c]. split; [reflexivity|]. split; [reflexivity|].
    intros [|[|i]] q Hq; try discriminate. injection Hq as <-. split; [exact Hc|].
    rewrite Nat.add_0_r. simpl. replace (x + 0 * (w / 1)) with x by field. replace (w / 1) with w by field. exact Hgc.
  - destruct (HQ c Hc) as (a & b & Hh & Qa & Qb). destruct (Hg j x w c a b Hc Hgc Hh) as [Ga Gb].
    destruct (IH a (S j) x (w / 2) Qa Ga) as (la & Ea & La & Ha).
    destruct (IH b (S j) (x + w / 2) (w / 2) Qb Gb) as (lb & Eb & Lb & Hb).
    exists (la ++ lb). cbn [halved]. rewrite Hh. cbn [bind fst snd]. rewrite Ea. cbn [bind]. rewrite Eb. cbn [bind].
    split; [reflexivity|]. split; [rewrite app_length, La, Lb; simpl; lia|].
    intros i q Hq. replace (j + S k)%nat with (S j + k)%nat by lia.
    assert (H2 : 2 ^ k <> 0) by (apply pow_nonzero; lra).
    replace (w / 2 ^ S k) with (w / 2 / 2 ^ k) by (simpl; field; exact H2).
    destruct (lt_dec i (length la)) as [Hi|Hi].
    + rewrite nth_error_app1 in Hq by exact Hi. exact (Ha i q Hq).
    + rewrite nth_error_app2 in Hq by lia. destruct (Hb _ _ Hq) as [Q1 G1]. split; [exact Q1|].
      replace (x + INR i * (w / 2 / 2 ^ k)) with (x + w / 2 + INR (i - length la) * (w / 2 / 2 ^ k)); [exact G1|].
      rewrite minus_INR by lia. rewrite La, pow_INR. replace (INR 2) with 2 by reflexivity. field. exact H2.
Qed.

Section Pieces.
  Context {E : Eps} {P : Type} {PT : Point R P} {LP : LawfulPoint P}.

  Definition piece_of {A : Type} (points : A -> list P) (eval : A -> R -> outcome P) (c : A) L S (k : nat) (x w : R) (q : A) : Prop :=
    w = / 2 ^ k /\ (forall u, eval q u = eval c (x + u * w)) /\
    leg_bound (points q) (L / 2 ^ k) /\ bend_bound (points q) (S / 4 ^ k).

  Lemma pieces_of {A : Type} (points : A -> list P) (eval : A -> R -> outcome P) (halve : A -> outcome (A * A))
    (Q : A -> Prop) c L S k :
    (forall a, Q a -> exists l r, halve a = Ret (l, r) /\ Q l /\ Q r /\
       bezier_split (Bezier (points a)) (/ 2) = Ret (Bezier (points l), Bezier (points r)) /\
       forall u, eval l u = eval a (/ 2 * u) /\ eval r u = eval a (/ 2 + u * (1 - / 2))) ->
    Q c -> leg_bound (points c) L -> bend_bound (points c) S ->
    exists l, halved halve k c = Ret l /\ length l = (2 ^ k)%nat /\
      forall i q, nth_error l i = Some q -> Q q /\ (forall u, eval q u = eval c ((INR i + u) / 2 ^ k)) /\
        leg_bound (points q) (L / 2 ^ k) /\ bend_bound (points q) (S / 4 ^ k).
  Proof.
    intros H Hc HL HS.
    destruct (halved_pieces halve Q (piece_of points eval c L S) c) with (k := k) (j := 0%nat) (x := 0) (w := 1)
      as (l & El & Ll & Hl).
    - intros a Ha. destruct (H a Ha) as (l & r & H1 & H2 & H3 & _). exists l, r. auto.
    - exact Hc.
    - intros j x w a l r Qa (Hw & He & Hleg & Hbend) Hh.
      destruct (H a Qa) as (l' & r' & Hh' & Ql & Qr & Hs & Hu). rewrite Hh in Hh'. injection Hh' as <- <-.
      destruct (split_shrinks _ _ _ (/ 2) ltac:(lra) Hs) as [S1 S2].
      destruct (S1 _ Hleg) as [L1 L2]. destruct (S2 _ Hbend) as [B1 B2].
      assert (H2 : 2 ^ j <> 0) by (apply pow_nonzero; lra). assert (H4 : 4 ^ j <> 0) by (apply pow_nonzero; lra).
      replace (/ 2 * (L / 2 ^ j)) with (L / 2 ^ Datatypes.S j) in L1 by (simpl; field; exact H2).
      replace ((1 - / 2) * (L / 2 ^ j)) with (L / 2 ^ Datatypes.S j) in L2 by (simpl; field; exact H2).
      replace ((/ 2) ^ 2 * (S / 4 ^ j)) with (S / 4 ^ Datatypes.S j) in B1 by (simpl; field; exact H4).
      replace ((1 - / 2) ^ 2 * (S / 4 ^ j)) with (S / 4 ^ Datatypes.S j) in B2 by (simpl; field; exact H4).
      split; (split; [rewrite Hw; simpl; field; exact H2|]); (split; [|split; assumption]); intros u.
      + rewrite (proj1 (Hu u)), He. f_equal. field.
      + rewrite (proj2 (Hu u)), He. f_equal. field.
    - exact Hc.
    - split; [simpl; field|]. split; [intros u; f_equal; ring|]. split.
      + replace (L / 2 ^ 0) with L by (simpl; field). exact HL.
      + replace (S / 4 ^ 0) with S by (simpl; field). exact HS.
    - exists l. split; [exact El|]. split; [exact Ll|]. intros i q Hq. destruct (Hl i q Hq) as (Qq & _ & He & Hr).
      split; [exact Qq|]. split; [|exact Hr]. intros u. rewrite He. f_equal.
      field. apply pow_nonzero. lra.
  Qed.

  Theorem bezier_pieces (ps : list P) k L S : ps <> [] -> leg_bound ps L -> bend_bound ps S ->
    exists l, halved (fun c => bezier_split c (/ 2)) k (Bezier ps) = Ret l /\ length l = (2 ^ k)%nat /\
      forall i q, nth_error l i = Some q -> length (bz_points q) = length ps /\
        (forall u, bezier_eval q u = bezier_eval (Bezier ps) ((INR i + u) / 2 ^ k)) /\
        leg_bound (bz_points q) (L / 2 ^ k) /\ bend_bound (bz_points q) (S / 4 ^ k).
  Proof.
    intros Hne HL HS.
    apply (pieces_of bz_points bezier_eval (fun c => bezier_split c (/ 2))
      (fun q => length (bz_points q) = length ps) (Bezier ps) L S k); [|reflexivity|exact HL|exact HS].
    intros [qs] Hq. cbn [bz_points] in Hq.
    assert (Hqs : qs <> []) by (intros ->; destruct ps; [now apply Hne|discriminate]).
    destruct (bezier_split_spec qs (/ 2) Hqs) as (l & r & Hs & Hl & Hr & Hu).
    exists (Bezier l), (Bezier r). cbn [bz_points]. rewrite Hl, Hr. repeat split; auto; apply Hu.
  Qed.

  Theorem quad_pieces (c : quad P) k L S : leg_bound (quad_control_points c) L -> bend_bound (quad_control_points c) S ->
    exists l, halved (fun c => Ret (quad_split c (/ 2))) k c = Ret l /\ length l = (2 ^ k)%nat /\
      forall i q, nth_error l i = Some q ->
        (forall u, quad_eval q u = quad_eval c ((INR i + u) / 2 ^ k)) /\
        leg_bound (quad_control_points q) (L / 2 ^ k) /\ bend_bound (quad_control_points q) (S / 4 ^ k).
  Proof.
    intros HL HS.
    destruct (pieces_of quad_control_points (fun q u => Ret (quad_eval q u)) (fun c => Ret (quad_split c (/ 2)))
      (fun _ => True) c L S k) as (l & El & Ll & Hl); [|exact I|exact HL|exact HS|].
    - intros [a b d] _. exists (fst (quad_split (Quad a b d) (/ 2))), (snd (quad_split (Quad a b d) (/ 2))).
      split; [now rewrite <- surjective_pairing|]. split; [exact I|]. split; [exact I|]. split.
      + pose proof (bezier_split_quad a b d (/ 2)) as H. destruct (quad_split (Quad a b d) (/ 2)). exact H.
      + intros u. destruct (quad_split_spec (Quad a b d) (/ 2) u) as [-> ->]. split; reflexivity.
    - exists l. split; [exact El|]. split; [exact Ll|]. intros i q Hq. destruct (Hl i q Hq) as (_ & He & Hr).
      split; [|exact Hr]. intros u. specialize (He u). injection He as He. exact He.
  Qed.
  Theorem cubic_pieces (c : cubic P) k L S : leg_bound (cubic_control_points c) L -> bend_bound (cubic_control_points c) S ->
    exists l, halved (fun c => Ret (cubic_split c (/ 2))) k c = Ret l /\ length l = (2 ^ k)%nat /\
      forall i q, nth_error l i = Some q ->
        (forall u, cubic_eval q u = cubic_eval c ((INR i + u) / 2 ^ k)) /\
        leg_bound (cubic_control_points q) (L / 2 ^ k) /\ bend_bound (cubic_control_points q) (S / 4 ^ k).
  Proof.
    intros HL HS.
    destruct (pieces_of cubic_control_points (fun q u => Ret (cubic_eval q u)) (fun c => Ret (cubic_split c (/ 2)))
      (fun _ => True) c L S k) as (l & El & Ll & Hl); [|exact I|exact HL|exact HS|].
    - intros [a b d e] _. exists (fst (cubic_split (Cubic a b d e) (/ 2))), (snd (cubic_split (Cubic a b d e) (/ 2))).
      split; [now rewrite <- surjective_pairing|]. split; [exact I|]. split; [exact I|]. split.
      + pose proof (bezier_split_cubic a b d e (/ 2)) as H. destruct (cubic_split (Cubic a b d e) (/ 2)). exact H.
      + intros u. destruct (cubic_split_spec (Cubic a b d e) (/ 2) u) as [-> ->]. split; reflexivity.
    - exists l. split; [exact El|]. split; [exact Ll|]. intros i q Hq. destruct (Hl i q Hq) as (_ & He & Hr).
      split; [|exact Hr]. intros u. specialize (He u). injection He as He. exact He.
  Qed.

  (** ** Flat pieces *)
  Lemma line_distance_start (s : line P) p : exists d, line_distance_to_point s p = Ret d /\ d <= dist p (l_start s).
  Proof.
    destruct (Rlt_dec (sqd s) eps) as [Hs|Hs].
    - destruct (line_distance_short s p Hs) as [H _]. eexists. split; [exact H|lra].
    - destruct (Rlt_dec (proj s p) 1) as [Hp|Hp].
      + destruct (line_distance_min s p) as (d & Hd & _ & Hm); [lra|exact Hp|]. exists d. split; [exact Hd|].
        rewrite <- (line_eval_0 s). apply Hm. lra.
      + destruct (line_distance_beyond s p) as [H _]; [lra|lra|]. eexists. split; [exact H|lra].
  Qed.

  Lemma quad_legs (a b c : P) L : leg_bound [a; b; c] L -> dist a b <= L /\ dist b c <= L.
  Proof. intros [_ H]. split; [apply (H 0%nat)|apply (H 1%nat)]; reflexivity. Qed.
  Lemma cubic_legs (a b c d : P) L : leg_bound [a; b; c; d] L -> dist a b <= L /\ dist b c <= L /\ dist c d <= L.
  Proof. intros [_ H]. repeat split; [apply (H 0%nat)|apply (H 1%nat)|apply (H 2%nat)]; reflexivity. Qed.

  Lemma quad_small_point (c : quad P) L tol : leg_bound (quad_control_points c) L -> 2 * L <= tol ->
    quad_is_a_point c tol = true.
  Proof.
    destruct c as [a b c]. intros HL Ht. pose proof (proj1 HL). destruct (quad_legs a b c _ HL) as [H1 H2].
    apply quad_is_a_point_iff. cbn [q_start q_ctrl q_end]. rewrite Rabs_pos_eq by lra.
    split; [|lra]. eapply Rle_trans; [apply (dist_triangle _ b)|]. lra.
  Qed.
  Lemma cubic_small_point (c : cubic P) L tol : leg_bound (cubic_control_points c) L -> 3 * L <= tol ->
    cubic_is_a_point c tol = true.
  Proof.
    destruct c as [a b c d]. intros HL Ht. pose proof (proj1 HL). destruct (cubic_legs a b c d _ HL) as (H1 & H2 & H3).
    apply cubic_is_a_point_iff. cbn [c_start c_ctrl1 c_ctrl2 c_end]. rewrite Rabs_pos_eq by lra.
    split; [|split; [lra|rewrite dist_sym; lra]]. eapply Rle_trans; [apply (dist_triangle _ b)|].
    pose proof (dist_triangle b c d). lra.
  Qed.
  Lemma quad_small_linear (c : quad P) L tol : leg_bound (quad_control_points c) L -> L <= tol ->
    eps <= dist (q_start c) (q_end c) * dist (q_start c) (q_end c) -> quad_is_linear c tol = Ret true.
  Proof.
    destruct c as [a b c]. intros HL Ht He. destruct (quad_legs a b c _ HL) as [H1 H2]. cbn [q_start q_end] in He.
    unfold quad_is_linear, quad_are_points_colinear, quad_baseline. cbn [q_start q_ctrl q_end]. rs. rewrite sqlen_sub.
    destruct (Rltb_spec (dist a c * dist a c) eps); [lra|].
    destruct (line_distance_start (Line a c) b) as (d & -> & Hd). cbn [bind l_start] in *. rewrite dist_sym in Hd.
    f_equal. destruct (Rleb_spec d tol); [reflexivity|lra].
  Qed.
  Lemma cubic_small_linear (c : cubic P) L tol : leg_bound (cubic_control_points c) L -> 2 * L <= tol ->
    eps <= dist (c_start c) (c_end c) * dist (c_start c) (c_end c) -> cubic_is_linear c tol = Ret true.
  Proof.
    destruct c as [a b c d]. intros HL Ht He. pose proof (proj1 HL). destruct (cubic_legs a b c d _ HL) as (H1 & H2 & H3).
    cbn [c_start c_end] in He. unfold cubic_is_linear, cubic_are_points_colinear, cubic_baseline.
    cbn [c_start c_ctrl1 c_ctrl2 c_end]. rs. rewrite sqlen_sub.
    destruct (Rltb_spec (dist a d * dist a d) eps); [lra|].
    destruct (line_distance_start (Line a d) b) as (d1 & -> & Hd1). cbn [bind l_start] in *. rewrite dist_sym in Hd1.
    destruct (Rleb_spec d1 tol); [|lra].
    destruct (line_distance_start (Line a d) c) as (d2 & -> & Hd2). cbn [bind l_start] in *. rewrite dist_sym in Hd2.
    pose proof (dist_triangle a b c). f_equal. destruct (Rleb_spec d2 tol); [reflexivity|lra].
  Qed.
  (** pieces with a chord below sqrt(EPSILON) are never linear *)
  Lemma quad_tiny (c : quad P) L tol : leg_bound (quad_control_points c) L -> (2 * L) ^ 2 < eps ->
    quad_is_linear c tol = Ret false.
  Proof.
    destruct c as [a b c]. intros HL He. destruct (quad_legs a b c _ HL) as [H1 H2].
    unfold quad_is_linear. cbn [q_start q_end]. rs. rewrite sqlen_sub.
    destruct (Rltb_spec (dist a c * dist a c) eps) as [|Hn]; [reflexivity|].
    pose proof (dist_triangle a b c). pose proof (dist_nonneg a c). nra.
  Qed.
  Lemma cubic_tiny (c : cubic P) L tol : leg_bound (cubic_control_points c) L -> (3 * L) ^ 2 < eps ->
    cubic_is_linear c tol = Ret false.
  Proof.
    destruct c as [a b c d]. intros HL He. destruct (cubic_legs a b c d _ HL) as (H1 & H2 & H3).
    unfold cubic_is_linear. cbn [c_start c_end]. rs. rewrite sqlen_sub.
    destruct (Rltb_spec (dist a d * dist a d) eps) as [|Hn]; [reflexivity|].
    pose proof (dist_triangle a b d). pose proof (dist_triangle b c d). pose proof (dist_nonneg a d). nra.
  Qed.

  (** distance from the chord, parameter by parameter *)
  Lemma quad_chord (c : quad P) S u : bend_bound (quad_control_points c) S -> 0 <= u <= 1 ->
    dist (quad_eval c u) (line_eval (quad_baseline c) u) <= S / 2.
  Proof.
    destruct c as [a b c]. intros [H0 H] Hu.
    specialize (H 0%nat a b c eq_refl eq_refl eq_refl).
    assert (Hb : nrm (fun i => coord a i - 2 * coord b i + coord c i) (p_dim (P := P)) <= 2 * S).
    { rewrite bend_dist. lra. }
    rewrite dist_nrm, (nrm_ext _ (fun i => - (u * (1 - u)) * (coord a i - 2 * coord b i + coord c i))).
    - rewrite nrm_scal, Rabs_Ropp, Rabs_pos_eq by nra.
      apply Rle_trans with (u * (1 - u) * (2 * S)); [apply Rmult_le_compat_l; [nra|exact Hb]|]. 
      assert (Hw : u * (1 - u) <= / 4) by (pose proof (pow2_ge_0 (u - / 2)); nra).
      revert Hw. generalize (u * (1 - u)). intros w Hw. nra.
    - intros i Hi. unfold quad_eval, line_eval, quad_baseline. cbn [q_start q_ctrl q_end l_start l_end].
      coords. rs. ring.
  Qed.
  Lemma cubic_chord (c : cubic P) S u : bend_bound (cubic_control_points c) S -> 0 <= u <= 1 ->
    dist (cubic_eval c u) (line_eval (cubic_baseline c) u) <= 3 * S / 2.
  Proof.
    destruct c as [a b c d]. intros [H0 H] Hu.
    assert (Hb : nrm (fun i => coord a i - 2 * coord b i + coord c i) (p_dim (P := P)) <= 2 * S).
    { rewrite bend_dist. specialize (H 0%nat a b c eq_refl eq_refl eq_refl). lra. }
    assert (Hc : nrm (fun i => coord b i - 2 * coord c i + coord d i) (p_dim (P := P)) <= 2 * S).
    { rewrite bend_dist. specialize (H 1%nat b c d eq_refl eq_refl eq_refl). lra. }
    rewrite dist_nrm, (nrm_ext _ (fun i =>
       - (u * (1 - u) * (2 - u)) * (coord a i - 2 * coord b i + coord c i)
       + - (u * (1 - u) * (1 + u)) * (coord b i - 2 * coord c i + coord d i))).
    - eapply Rle_trans; [apply (minkowski (fun i => - (u * (1 - u) * (2 - u)) * (coord a i - 2 * coord b i + coord c i))
        (fun i => - (u * (1 - u) * (1 + u)) * (coord b i - 2 * coord c i + coord d i)))|].
      assert (Hw : 0 <= u * (1 - u) <= / 4) by (pose proof (pow2_ge_0 (u - / 2)); nra).
      rewrite !nrm_scal, !Rabs_Ropp. rewrite (Rabs_pos_eq (u * (1 - u) * (2 - u))), (Rabs_pos_eq (u * (1 - u) * (1 + u))) by nra.
      apply Rle_trans with (u * (1 - u) * (2 - u) * (2 * S) + u * (1 - u) * (1 + u) * (2 * S)).
      + apply Rplus_le_compat; (apply Rmult_le_compat_l; [nra|assumption]).
      + replace (u * (1 - u) * (2 - u) * (2 * S) + u * (1 - u) * (1 + u) * (2 * S)) with (u * (1 - u) * (6 * S)) by ring.
        revert Hw. generalize (u * (1 - u)). intros w Hw. nra.
    - intros i Hi. unfold cubic_eval, line_eval, cubic_baseline. cbn [c_start c_ctrl1 c_ctrl2 c_end l_start l_end].
      coords. rs. ring.
  Qed.

  (** ** All pieces together *)
  Lemma bend_bound_ex (ps : list P) : exists S, bend_bound ps S.
  Proof.
    destruct (Linearity.finite_choice (fun k B => forall j, (j <= k)%nat -> bend (fun j => nth j ps p_default) j <= B) 0 (length ps))
      as [f Hf].
    { induction k as [|k IH]; intros Hk.
      - exists (bend (fun j => nth j ps p_default) 0). intros j Hj. replace j with 0%nat by lia. lra.
      - destruct IH as [B HB]; [lia|]. exists (Rmax B (bend (fun j => nth j ps p_default) (S k))). intros j Hj.
        destruct (Nat.eq_dec j (S k)) as [->|]; [apply Rmax_r|]. eapply Rle_trans; [apply HB; lia|apply Rmax_l]. }
    exists (Rabs (f (length ps - 1)%nat)). apply bend_bound_nth. split; [apply Rabs_pos|]. intros k Hk.
    specialize (Hf (length ps - 1)%nat ltac:(lia) k ltac:(lia)).
    pose proof (Rle_abs (f (length ps - 1)%nat)). pose proof (Rabs_pos (f (length ps - 1)%nat)). lra.
  Qed.

  Lemma scaled g L k tol : g * L <= 2 ^ k * tol -> g * (L / 2 ^ k) <= tol.
  Proof.
    intros H. assert (0 < 2 ^ k) by (apply pow_lt; lra). unfold Rdiv. rewrite <- Rmult_assoc.
    apply Rmult_le_reg_r with (2 ^ k); [assumption|]. rewrite Rmult_assoc, Rinv_l by lra. lra.
  Qed.
  Lemma scaled_eps g L k : (g * L) ^ 2 < 4 ^ k * eps -> (g * (L / 2 ^ k)) ^ 2 < eps.
  Proof.
    intros H. assert (0 < 4 ^ k) by (apply pow_lt; lra). assert (H2 : 0 < 2 ^ k) by (apply pow_lt; lra).
    assert (E4 : 4 ^ k = 2 ^ k * 2 ^ k). { rewrite <- Rpow_mult_distr. replace (2 * 2) with 4 by ring. reflexivity. }
    replace ((g * (L / 2 ^ k)) ^ 2) with ((g * L) ^ 2 / 4 ^ k) by (rewrite E4; field; lra).
    apply Rmult_lt_reg_r with (4 ^ k); [assumption|]. unfold Rdiv. rewrite Rmult_assoc, Rinv_l by lra. lra.
  Qed.

  Theorem quad_flat (c : quad P) k L tol : leg_bound (quad_control_points c) L ->
    exists l, halved (fun c => Ret (quad_split c (/ 2))) k c = Ret l /\ forall q, In q l ->
      (2 * L <= 2 ^ k * tol -> quad_is_a_point q tol = true) /\
      (L <= 2 ^ k * tol -> eps <= dist (q_start q) (q_end q) * dist (q_start q) (q_end q) -> quad_is_linear q tol = Ret true) /\
      ((2 * L) ^ 2 < 4 ^ k * eps -> quad_is_linear q tol = Ret false).
  Proof.
    intros HL. destruct (bend_bound_ex (quad_control_points c)) as [S HS].
    destruct (quad_pieces c k L S HL HS) as (l & El & _ & Hl). exists l. split; [exact El|]. intros q Hq.
    destruct (In_nth_error l q Hq) as [i Hi]. destruct (Hl i q Hi) as (_ & Hleg & _). split; [|split].
    - intros H. apply (quad_small_point q _ tol Hleg), scaled, H.
    - intros H. apply (quad_small_linear q _ tol Hleg). pose proof (scaled 1 L k tol). lra.
    - intros H. apply (quad_tiny q _ tol Hleg), scaled_eps, H.
  Qed.
  Theorem cubic_flat (c : cubic P) k L tol : leg_bound (cubic_control_points c) L ->
    exists l, halved (fun c => Ret (cubic_split c (/ 2))) k c = Ret l /\ forall q, In q l ->
      (3 * L <= 2 ^ k * tol -> cubic_is_a_point q tol = true) /\
      (2 * L <= 2 ^ k * tol -> eps <= dist (c_start q) (c_end q) * dist (c_start q) (c_end q) -> cubic_is_linear q tol = Ret true) /\
      ((3 * L) ^ 2 < 4 ^ k * eps -> cubic_is_linear q tol = Ret false).
  Proof.
    intros HL. destruct (bend_bound_ex (cubic_control_points c)) as [S HS].
    destruct (cubic_pieces c k L S HL HS) as (l & El & _ & Hl). exists l. split; [exact El|]. intros q Hq.
    destruct (In_nth_error l q Hq) as [i Hi]. destruct (Hl i q Hi) as (_ & Hleg & _). split; [|split].
    - intros H. apply (cubic_small_point q _ tol Hleg), scaled, H.
    - intros H. apply (cubic_small_linear q _ tol Hleg), scaled, H.
    - intros H. apply (cubic_tiny q _ tol Hleg), scaled_eps, H.
  Qed.

  Theorem quad_chords (c : quad P) k S : bend_bound (quad_control_points c) S ->
    exists l, halved (fun c => Ret (quad_split c (/ 2))) k c = Ret l /\ length l = (2 ^ k)%nat /\
      forall i q u, nth_error l i = Some q -> 0 <= u <= 1 ->
        dist (quad_eval c ((INR i + u) / 2 ^ k)) (line_eval (quad_baseline q) u) <= S / 2 / 4 ^ k.
  Proof.
    intros HS. destruct (leg_bound_ex (quad_control_points c)) as [L HL].
    destruct (quad_pieces c k L S HL HS) as (l & El & Ll & Hl). exists l. split; [exact El|]. split; [exact Ll|].
    intros i q u Hi Hu. destruct (Hl i q Hi) as (He & _ & Hb). rewrite <- He.
    replace (S / 2 / 4 ^ k) with (S / 4 ^ k / 2) by (unfold Rdiv; ring). exact (quad_chord q _ u Hb Hu).
  Qed.
  Theorem cubic_chords (c : cubic P) k S : bend_bound (cubic_control_points c) S ->
    exists l, halved (fun c => Ret (cubic_split c (/ 2))) k c = Ret l /\ length l = (2 ^ k)%nat /\
      forall i q u, nth_error l i = Some q -> 0 <= u <= 1 ->
        dist (cubic_eval c ((INR i + u) / 2 ^ k)) (line_eval (cubic_baseline q) u) <= 3 * S / 2 / 4 ^ k.
  Proof.
    intros HS. destruct (leg_bound_ex (cubic_control_points c)) as [L HL].
    destruct (cubic_pieces c k L S HL HS) as (l & El & Ll & Hl). exists l. split; [exact El|]. split; [exact Ll|].
    intros i q u Hi Hu. destruct (Hl i q Hi) as (He & _ & Hb). rewrite <- He.
    replace (3 * S / 2 / 4 ^ k) with (3 * (S / 4 ^ k) / 2) by (unfold Rdiv; ring). exact (cubic_chord q _ u Hb Hu).
  Qed.
End Pieces.
