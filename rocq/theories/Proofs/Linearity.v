(** [is_linear], [is_a_point]: convexity of balls and of tubes around a segment. *)
From Coq Require Import Reals List Arith Lia Lra Psatz Bool.
From Verif Require Import Base.Outcome Base.Scalar Model.Point Model.Line Model.Quadratic
  Model.Cubic Model.Bezier Inst.RealInst Spec.Sums Spec.Lawful Spec.Bernstein Spec.Metric Spec.Hull
  Proofs.OutcomeFacts Proofs.PointFacts Proofs.RealTac Proofs.Metric Proofs.ExactEval
  Proofs.LineFacts Proofs.BezierGeneric Proofs.BezierReal.
Import ListNotations.
Local Open Scope R_scope.

Lemma finite_choice {A} (Q : nat -> A -> Prop) (d : A) n :
  (forall k, (k < n)%nat -> exists u, Q k u) -> exists f, forall k, (k < n)%nat -> Q k (f k).
Proof.
  induction n as [|n IH]; intros H.
  - exists (fun _ => d). intros; lia.
  - destruct IH as [f Hf]; [intros; apply H; lia|]. destruct (H n) as [u Hu]; [lia|].
    exists (fun k => if (k =? n)%nat then u else f k). intros k Hk.
    destruct (Nat.eqb_spec k n) as [->|]; auto. apply Hf. lia.
Qed.

Section Linearity.
  Context {E : Eps} {P : Type} {PT : Point R P} {LP : LawfulPoint P}.

  Lemma hull_ball (ps : list P) x c r :
    in_hull ps x -> (forall p, In p ps -> dist p c <= r) -> dist x c <= r.
  Proof.
    intros (w & Hw & Hs & Hx) Hr.
    apply Rle_trans with (Rsum (fun k => Rabs (w k) * dist (nth k ps x) c) (length ps)).
    - apply (dist_combination w (fun k => nth k ps x) (fun _ => c)); auto.
      intros i Hi. rewrite (Rsum_ext _ (fun k => coord c i * w k)) by (intros; ring).
      rewrite Rsum_scal, Hs. ring.
    - replace r with (Rsum (fun k => r * w k) (length ps)) by (rewrite Rsum_scal, Hs; ring).
      apply Rsum_le. intros k Hk. rewrite Rabs_pos_eq by auto. rewrite (Rmult_comm r).
      apply Rmult_le_compat_l; auto. apply Hr, nth_In, Hk.
  Qed.

  Definition near (s : line P) (r : R) (p : P) : Prop :=
    exists u, 0 <= u <= 1 /\ dist p (line_eval s u) <= r.

  Lemma hull_near (ps : list P) x (s : line P) r :
    in_hull ps x -> (forall p, In p ps -> near s r p) -> near s r x.
  Proof.
    intros (w & Hw & Hs & Hx) Hn.
    destruct (finite_choice (fun k u => 0 <= u <= 1 /\ dist (nth k ps x) (line_eval s u) <= r)
                0 (length ps)) as [u Hu].
    { intros k Hk. apply Hn, nth_In, Hk. }
    set (v := Rsum (fun k => w k * u k) (length ps)).
    exists v. split.
    - split.
      + apply Rsum_nonneg. intros k Hk. apply Rmult_le_pos; [auto|apply Hu, Hk].
      + rewrite <- Hs. apply Rsum_le. intros k Hk. specialize (Hu k Hk). specialize (Hw k Hk). nra.
    - apply Rle_trans with
        (Rsum (fun k => Rabs (w k) * dist (nth k ps x) (line_eval s (u k))) (length ps)).
      + apply (dist_combination w (fun k => nth k ps x) (fun k => line_eval s (u k))); auto.
        intros i Hi. rewrite line_eval_coord by assumption.
        rewrite (Rsum_ext _ (fun k => coord (l_start s) i * w k
                   + (coord (l_end s) i - coord (l_start s) i) * (w k * u k))).
        2:{ intros k Hk. rewrite line_eval_coord by assumption. ring. }
        rewrite Rsum_plus, !Rsum_scal, Hs. unfold v. ring.
      + replace r with (Rsum (fun k => r * w k) (length ps)) by (rewrite Rsum_scal, Hs; ring).
        apply Rsum_le. intros k Hk. rewrite Rabs_pos_eq by auto. rewrite (Rmult_comm r).
        apply Rmult_le_compat_l; auto. apply Hu, Hk.
  Qed.

  Lemma quad_in_hull (c : quad P) t : 0 <= t <= 1 ->
    in_hull [q_start c; q_ctrl c; q_end c] (quad_eval c t).
  Proof. intros Ht. destruct c. apply (bezier_hull _ t); auto. apply bezier_eval_quad. Qed.
  Lemma cubic_in_hull (c : cubic P) t : 0 <= t <= 1 ->
    in_hull [c_start c; c_ctrl1 c; c_ctrl2 c; c_end c] (cubic_eval c t).
  Proof. intros Ht. destruct c. apply (bezier_hull _ t); auto. apply bezier_eval_cubic. Qed.
  Lemma line_in_hull (s : line P) t : 0 <= t <= 1 ->
    in_hull [l_start s; l_end s] (line_eval s t).
  Proof. intros Ht. destruct s. apply (bezier_hull _ t); auto. apply bezier_eval_line. Qed.

  Lemma near_start s r : 0 <= r -> near s r (l_start s).
  Proof. intros. exists 0. split; [lra|]. rewrite line_eval_0, dist_refl. lra. Qed.
  Lemma near_end s r : 0 <= r -> near s r (l_end s).
  Proof. intros. exists 1. split; [lra|]. rewrite line_eval_1, dist_refl. lra. Qed.

  Lemma line_distance_near (s : line P) p d r :
    line_distance_to_point s p = Ret d -> d <= r -> near s r p /\ 0 <= r.
  Proof.
    intros Hd Hr. destruct (line_distance_on_segment s p) as (u & Hu & E0).
    rewrite Hd in E0. injection E0 as ->. split; [now exists u|].
    pose proof (dist_nonneg p (line_eval s u)). lra.
  Qed.

  Theorem quad_is_linear_sound (c : quad P) tol : quad_is_linear c tol = Ret true ->
    forall t, 0 <= t <= 1 -> near (quad_baseline c) tol (quad_eval c t).
  Proof.
    unfold quad_is_linear. rs. destruct (Rltb _ eps); [discriminate|].
    unfold quad_are_points_colinear. intros H t Ht.
    apply bind_ret_inv in H as (d & Hd & H). revert H. rs. destruct (Rleb_spec d tol); [|discriminate].
    intros _. destruct (line_distance_near _ _ _ _ Hd r) as [Hn H0].
    apply (hull_near [q_start c; q_ctrl c; q_end c]); [now apply quad_in_hull|].
    intros p [<-|[<-|[<-|[]]]]; auto.
    - now apply (near_start (quad_baseline c)).
    - now apply (near_end (quad_baseline c)).
  Qed.

  Theorem cubic_is_linear_sound (c : cubic P) tol : cubic_is_linear c tol = Ret true ->
    forall t, 0 <= t <= 1 -> near (cubic_baseline c) tol (cubic_eval c t).
  Proof.
    unfold cubic_is_linear. rs. destruct (Rltb _ eps); [discriminate|].
    unfold cubic_are_points_colinear. intros H t Ht.
    apply bind_ret_inv in H as (d & Hd & H). revert H. rs. destruct (Rleb_spec d tol); [|discriminate].
    intros H. apply bind_ret_inv in H as (d2 & Hd2 & H). revert H. destruct (Rleb_spec d2 tol); [|discriminate].
    intros _. destruct (line_distance_near _ _ _ _ Hd r) as [Hn H0].
    destruct (line_distance_near _ _ _ _ Hd2 r0) as [Hn2 _].
    apply (hull_near [c_start c; c_ctrl1 c; c_ctrl2 c; c_end c]); [now apply cubic_in_hull|].
    intros p [<-|[<-|[<-|[<-|[]]]]]; auto.
    - now apply (near_start (cubic_baseline c)).
    - now apply (near_end (cubic_baseline c)).
  Qed.

  (** completeness, for control points whose projection falls before the end *)
  Lemma line_distance_le (s : line P) p r : eps <= sqd s -> proj s p < 1 -> near s r p ->
    exists d, line_distance_to_point s p = Ret d /\ d <= r.
  Proof.
    intros Hl Hp (u & Hu & Hd). destruct (line_distance_min s p Hl Hp) as (d & E1 & _ & Hmin).
    exists d. split; auto. specialize (Hmin u Hu). lra.
  Qed.

  Lemma sqlen_baseline (p q : P) : p_sqlen (p_sub p q) = sqd (Line p q).
  Proof. rewrite sqlen_sub, dist_sym. reflexivity. Qed.

  Theorem quad_is_linear_complete (c : quad P) tol :
    eps <= sqd (quad_baseline c) ->
    proj (quad_baseline c) (q_ctrl c) < 1 -> near (quad_baseline c) tol (q_ctrl c) ->
    quad_is_linear c tol = Ret true.
  Proof.
    intros Hl Hp Hn. unfold quad_is_linear. rs. rewrite sqlen_baseline.
    fold (quad_baseline c). rewrite Rltb_false by assumption.
    unfold quad_are_points_colinear.
    destruct (line_distance_le _ _ _ Hl Hp Hn) as (d & -> & Hd). cbn [bind]. rs.
    now rewrite Rleb_true.
  Qed.

  Theorem cubic_is_linear_complete (c : cubic P) tol :
    eps <= sqd (cubic_baseline c) ->
    proj (cubic_baseline c) (c_ctrl1 c) < 1 -> near (cubic_baseline c) tol (c_ctrl1 c) ->
    proj (cubic_baseline c) (c_ctrl2 c) < 1 -> near (cubic_baseline c) tol (c_ctrl2 c) ->
    cubic_is_linear c tol = Ret true.
  Proof.
    intros Hl Hp Hn Hp2 Hn2. unfold cubic_is_linear. rs. rewrite sqlen_baseline.
    fold (cubic_baseline c). rewrite Rltb_false by assumption.
    unfold cubic_are_points_colinear.
    destruct (line_distance_le _ _ _ Hl Hp Hn) as (d & -> & Hd). cbn [bind]. rs.
    rewrite Rleb_true by assumption.
    destruct (line_distance_le _ _ _ Hl Hp2 Hn2) as (d2 & -> & Hd2). cbn [bind].
    now rewrite Rleb_true.
  Qed.

  (** [is_a_point] *)
  Lemma sqlen_le_tol (p q : P) tol : Rleb (p_sqlen (p_sub p q)) (tol * tol) = true <->
    dist p q <= Rabs tol.
  Proof.
    rewrite sqlen_sub. destruct (Rleb_spec (dist p q * dist p q) (tol * tol)) as [H|H].
    - split; auto. intros _. apply Rsqr_le_abs_0 in H.
      now rewrite (Rabs_pos_eq (dist p q)) in H by apply dist_nonneg.
    - split; [discriminate|]. intros H'. exfalso. apply H.
      apply Rsqr_le_abs_1. now rewrite (Rabs_pos_eq (dist p q)) by apply dist_nonneg.
  Qed.

  Theorem quad_is_a_point_iff (c : quad P) tol :
    quad_is_a_point c tol = true <->
    dist (q_start c) (q_end c) <= Rabs tol /\ dist (q_start c) (q_ctrl c) <= Rabs tol.
  Proof. unfold quad_is_a_point. rs. rewrite andb_true_iff, !sqlen_le_tol. tauto. Qed.

  Theorem cubic_is_a_point_iff (c : cubic P) tol :
    cubic_is_a_point c tol = true <->
    dist (c_start c) (c_end c) <= Rabs tol /\ dist (c_start c) (c_ctrl1 c) <= Rabs tol /\
    dist (c_end c) (c_ctrl2 c) <= Rabs tol.
  Proof. unfold cubic_is_a_point. rs. rewrite !andb_true_iff, !sqlen_le_tol. tauto. Qed.

  Theorem quad_is_a_point_bound (c : quad P) tol t : quad_is_a_point c tol = true ->
    0 <= t <= 1 -> dist (quad_eval c t) (q_start c) <= Rabs tol.
  Proof.
    rewrite quad_is_a_point_iff. intros [H1 H2] Ht.
    apply (hull_ball [q_start c; q_ctrl c; q_end c]); [now apply quad_in_hull|].
    intros p [<-|[<-|[<-|[]]]].
    - rewrite dist_refl. apply Rabs_pos.
    - now rewrite dist_sym.
    - now rewrite dist_sym.
  Qed.
  Theorem cubic_is_a_point_bound (c : cubic P) tol t : cubic_is_a_point c tol = true ->
    0 <= t <= 1 -> dist (cubic_eval c t) (c_start c) <= 2 * Rabs tol.
  Proof.
    rewrite cubic_is_a_point_iff. intros (H1 & H2 & H3) Ht. pose proof (Rabs_pos tol).
    apply (hull_ball [c_start c; c_ctrl1 c; c_ctrl2 c; c_end c]); [now apply cubic_in_hull|].
    intros p [<-|[<-|[<-|[<-|[]]]]].
    - rewrite dist_refl. lra.
    - rewrite dist_sym. lra.
    - eapply Rle_trans; [apply (dist_triangle _ (c_end c))|].
      rewrite (dist_sym (c_ctrl2 c)), (dist_sym (c_end c) (c_start c)). lra.
    - rewrite dist_sym. lra.
  Qed.
End Linearity.
