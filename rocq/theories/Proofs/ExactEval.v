(** Exact-arithmetic facts about lines, quadratic and cubic curves:
    evaluation, splitting, derivatives, coordinate shortcuts. *)
From Coq Require Import Reals List Arith Lia Lra.
From Verif Require Import Base.Outcome Base.Scalar Model.Point Model.Line Model.Quadratic
  Model.Cubic Model.Segment Inst.RealInst Spec.Sums Spec.Lawful Spec.Bernstein
  Proofs.OutcomeFacts Proofs.PointFacts Proofs.RealTac.
Import ListNotations.
Local Open Scope R_scope.

Lemma poly1 a b t : bezier_poly [a; b] t = (1 - t) * a + t * b.
Proof. unfold bezier_poly, bernstein. simpl. ring. Qed.
Lemma poly2 a b c t : bezier_poly [a; b; c] t = (1-t)*(1-t)*a + 2*t*(1-t)*b + t*t*c.
Proof. unfold bezier_poly, bernstein. simpl. ring. Qed.
Lemma poly3 a b c d t :
  bezier_poly [a; b; c; d] t
  = (1-t)*(1-t)*(1-t)*a + 3*t*(1-t)*(1-t)*b + 3*t*t*(1-t)*c + t*t*t*d.
Proof. unfold bezier_poly, bernstein. simpl. ring. Qed.

Lemma cubic_poly_lim a b c d t :
  derivable_pt_lim (fun t => a + b * t + c * (t * t) + d * (t * (t * t))) t
                   (b + 2 * c * t + 3 * d * (t * t)).
Proof.
  match goal with |- derivable_pt_lim _ _ ?r =>
    replace r
    with (0 + (0 * t + b * 1) + (0 * (t*t) + c * (1 * t + t * 1))
          + (0 * (t * (t * t)) + d * (1 * (t * t) + t * (1 * t + t * 1))))
    by ring end.
  apply derivable_pt_lim_plus; [apply derivable_pt_lim_plus; [apply derivable_pt_lim_plus|]|].
  - apply derivable_pt_lim_const.
  - apply (derivable_pt_lim_mult (fun _ => _) (fun x => x));
      [apply derivable_pt_lim_const|apply derivable_pt_lim_id].
  - apply (derivable_pt_lim_mult (fun _ => _) (fun x => x * x)); [apply derivable_pt_lim_const|].
    apply (derivable_pt_lim_mult (fun x => x) (fun x => x)); apply derivable_pt_lim_id.
  - apply (derivable_pt_lim_mult (fun _ => _) (fun x => x * (x * x)));
      [apply derivable_pt_lim_const|].
    apply (derivable_pt_lim_mult (fun x => x) (fun x => x * x)); [apply derivable_pt_lim_id|].
    apply (derivable_pt_lim_mult (fun x => x) (fun x => x)); apply derivable_pt_lim_id.
Qed.

Lemma derivable_pt_lim_poly f a b c d t l :
  (forall t, f t = a + b * t + c * (t * t) + d * (t * (t * t))) ->
  l = b + 2 * c * t + 3 * d * (t * t) ->
  derivable_pt_lim f t l.
Proof.
  intros Hf ->. apply (derivable_pt_lim_ext (fun t => a + b * t + c * (t * t) + d * (t * (t * t)))).
  - intros z. now rewrite Hf.
  - apply cubic_poly_lim.
Qed.

Section ExactEval.
  Context {E : Eps} {P : Type} {PT : Point R P} {LP : LawfulPoint P}.

  (** *** Coordinates *)
  Lemma line_eval_coord (s : line P) t i : (i < p_dim (P := P))%nat ->
    coord (line_eval s t) i = coord (l_start s) i + (coord (l_end s) i - coord (l_start s) i) * t.
  Proof. intros Hi. unfold line_eval. coords. rs. ring. Qed.

  Lemma line_eval_spec (s : line P) t i : (i < p_dim (P := P))%nat ->
    coord (line_eval s t) i = curve_coord [l_start s; l_end s] t i.
  Proof.
    intros Hi. rewrite line_eval_coord by assumption. unfold curve_coord. simpl map.
    rewrite poly1. ring.
  Qed.

  Lemma line_eval_0 (s : line P) : line_eval s 0 = l_start s.
  Proof. unfold line_eval. pext. ring. Qed.
  Lemma line_eval_1 (s : line P) : line_eval s 1 = l_end s.
  Proof. unfold line_eval. pext. ring. Qed.

  Lemma line_eval_between (s : line P) t i : (i < p_dim (P := P))%nat -> 0 <= t <= 1 ->
    Rmin (coord (l_start s) i) (coord (l_end s) i) <= coord (line_eval s t) i
    <= Rmax (coord (l_start s) i) (coord (l_end s) i).
  Proof.
    intros Hi Ht. rewrite line_eval_coord by assumption.
    set (a := coord _ i). set (b := coord (l_end s) i).
    unfold Rmin, Rmax. destruct (Rle_dec a b).
    - split; nra.
    - split; nra.
  Qed.

  Lemma line_split_behaviour (s : line P) t u :
    line_eval (fst (line_split s t)) u = line_eval s (- (t * u)) /\
    line_eval (snd (line_split s t)) u = line_eval s (- t + u * (1 + t)).
  Proof. split; unfold line_eval, line_split; simpl; pext; ring. Qed.

  Lemma line_split_correct_iff (s : line P) t :
    (forall u, line_eval (fst (line_split s t)) u = line_eval s (t * u) /\
               line_eval (snd (line_split s t)) u = line_eval s (t + u * (1 - t)))
    <-> t = 0 \/ l_start s = l_end s.
  Proof.
    split.
    - intros H. destruct (Req_dec t 0) as [|Hne]; [now left|right].
      destruct (H 1) as [H1 _]. rewrite (proj1 (line_split_behaviour s t 1)) in H1.
      apply lp_ext. intros i Hi.
      apply (f_equal (fun p => coord p i)) in H1.
      rewrite !line_eval_coord in H1 by assumption. 
      assert (Hm : (2 * t) * (coord (l_end s) i - coord (l_start s) i) = 0) by lra.
      apply Rmult_integral in Hm. lra.
    - intros [->|Heq] u; split; unfold line_eval, line_split; simpl; rewrite <- ?Heq; pext; ring.
  Qed.

  Lemma line_derivative_lim (s : line P) t i : (i < p_dim (P := P))%nat ->
    derivable_pt_lim (fun t => coord (line_eval s t) i) t (coord (line_derivative s) i).
  Proof.
    intros Hi. unfold line_derivative. coords.
    apply (derivable_pt_lim_poly _ (coord (l_start s) i)
             (coord (l_end s) i - coord (l_start s) i) 0 0); [|ring].
    intros u. rewrite line_eval_coord by assumption. ring.
  Qed.

  Lemma line_axis_eval (s : line P) t i :
    line_axis s t i = p_axis (line_eval s t) i.
  Proof.
    unfold line_axis. rewrite !lp_axis.
    destruct (Nat.ltb_spec i (p_dim (P := P))) as [Hi|Hi]; simpl; auto.
    rewrite line_eval_coord by assumption. reflexivity.
  Qed.

  (** *** Quadratic *)
  Lemma quad_eval_coord (c : quad P) t i : (i < p_dim (P := P))%nat ->
    coord (quad_eval c t) i
    = (1-t)*(1-t) * coord (q_start c) i + 2*t*(1-t) * coord (q_ctrl c) i + t*t * coord (q_end c) i.
  Proof. intros Hi. unfold quad_eval. coords. rs. ring. Qed.

  Lemma quad_eval_spec (c : quad P) t i : (i < p_dim (P := P))%nat ->
    coord (quad_eval c t) i = curve_coord [q_start c; q_ctrl c; q_end c] t i.
  Proof.
    intros Hi. rewrite quad_eval_coord by assumption. unfold curve_coord. simpl map.
    now rewrite poly2.
  Qed.

  Lemma quad_casteljau_eval (c : quad P) t : quad_eval_casteljau c t = quad_eval c t.
  Proof. unfold quad_eval_casteljau, quad_eval. pext. ring. Qed.

  Lemma quad_eval_0 (c : quad P) : quad_eval c 0 = q_start c.
  Proof. unfold quad_eval. pext. ring. Qed.
  Lemma quad_eval_1 (c : quad P) : quad_eval c 1 = q_end c.
  Proof. unfold quad_eval. pext. ring. Qed.

  Lemma quad_split_spec (c : quad P) t u :
    quad_eval (fst (quad_split c t)) u = quad_eval c (t * u) /\
    quad_eval (snd (quad_split c t)) u = quad_eval c (t + u * (1 - t)).
  Proof. split; unfold quad_eval, quad_split; simpl; pext; ring. Qed.

  Lemma quad_derivative_lim (c : quad P) t i : (i < p_dim (P := P))%nat ->
    derivable_pt_lim (fun t => coord (quad_eval c t) i) t
                     (coord (line_eval (quad_derivative c) t) i).
  Proof.
    intros Hi. rewrite line_eval_coord by assumption. unfold quad_derivative. simpl. coords. rs.
    set (x := coord (q_start c) i). set (y := coord (q_ctrl c) i). set (z := coord (q_end c) i).
    apply (derivable_pt_lim_poly _ x (2*(y-x)) (x - 2*y + z) 0); [|ring].
    intros u. rewrite quad_eval_coord by assumption. fold x y z. ring.
  Qed.

  Lemma quad_dd_eval (c : quad P) t i :
    quad_dd c t i = p_axis (line_eval (quad_derivative c) t) i.
  Proof.
    unfold quad_dd. rewrite !lp_axis.
    destruct (Nat.ltb_spec i (p_dim (P := P))) as [Hi|Hi]; simpl; auto.
    rewrite line_eval_coord by assumption. simpl. coords. rs. f_equal. ring.
  Qed.

  Lemma quad_axis_eval (c : quad P) t i : quad_axis c t i = p_axis (quad_eval c t) i.
  Proof.
    unfold quad_axis. rewrite !lp_axis.
    destruct (Nat.ltb_spec i (p_dim (P := P))) as [Hi|Hi]; simpl; auto.
    rewrite quad_eval_coord by assumption. rs. f_equal. ring.
  Qed.

  (** *** Cubic *)
  Lemma cubic_eval_coord (c : cubic P) t i : (i < p_dim (P := P))%nat ->
    coord (cubic_eval c t) i
    = (1-t)*(1-t)*(1-t) * coord (c_start c) i + 3*t*(1-t)*(1-t) * coord (c_ctrl1 c) i
      + 3*t*t*(1-t) * coord (c_ctrl2 c) i + t*t*t * coord (c_end c) i.
  Proof. intros Hi. unfold cubic_eval. coords. rs. ring. Qed.

  Lemma cubic_eval_spec (c : cubic P) t i : (i < p_dim (P := P))%nat ->
    coord (cubic_eval c t) i = curve_coord [c_start c; c_ctrl1 c; c_ctrl2 c; c_end c] t i.
  Proof.
    intros Hi. rewrite cubic_eval_coord by assumption. unfold curve_coord. simpl map.
    now rewrite poly3.
  Qed.

  Lemma cubic_casteljau_eval (c : cubic P) t : cubic_eval_casteljau c t = cubic_eval c t.
  Proof. unfold cubic_eval_casteljau, cubic_eval. pext. ring. Qed.

  Lemma cubic_eval_0 (c : cubic P) : cubic_eval c 0 = c_start c.
  Proof. unfold cubic_eval. pext. ring. Qed.
  Lemma cubic_eval_1 (c : cubic P) : cubic_eval c 1 = c_end c.
  Proof. unfold cubic_eval. pext. ring. Qed.

  Lemma cubic_split_spec (c : cubic P) t u :
    cubic_eval (fst (cubic_split c t)) u = cubic_eval c (t * u) /\
    cubic_eval (snd (cubic_split c t)) u = cubic_eval c (t + u * (1 - t)).
  Proof. split; unfold cubic_eval, cubic_split; simpl; pext; ring. Qed.

  Lemma cubic_derivative_lim (c : cubic P) t i : (i < p_dim (P := P))%nat ->
    derivable_pt_lim (fun t => coord (cubic_eval c t) i) t
                     (coord (quad_eval (cubic_derivative c) t) i).
  Proof.
    intros Hi. rewrite quad_eval_coord by assumption. unfold cubic_derivative. simpl. coords. rs.
    set (x := coord (c_start c) i). set (y := coord (c_ctrl1 c) i).
    set (z := coord (c_ctrl2 c) i). set (w := coord (c_end c) i).
    apply (derivable_pt_lim_poly _ x (3*(y-x)) (3*(x - 2*y + z)) (w - 3*z + 3*y - x)); [|ring].
    intros u. rewrite cubic_eval_coord by assumption. fold x y z w. ring.
  Qed.

  Lemma cubic_axis_eval (c : cubic P) t i : cubic_axis c t i = p_axis (cubic_eval c t) i.
  Proof.
    unfold cubic_axis. rewrite !lp_axis.
    destruct (Nat.ltb_spec i (p_dim (P := P))) as [Hi|Hi]; simpl; auto.
    rewrite cubic_eval_coord by assumption. rs. f_equal. ring.
  Qed.

  (** what [CubicBezier::dd] computes: off by [start * (3t^2 - 3t)] *)
  Lemma cubic_dd_value (c : cubic P) t i : (i < p_dim (P := P))%nat ->
    cubic_dd c t i
    = Ret (coord (quad_eval (cubic_derivative c) t) i + coord (c_start c) i * (3 * t * t - 3 * t)).
  Proof.
    intros Hi. unfold cubic_dd. rewrite !axis_lt by assumption. simpl.
    rewrite quad_eval_coord by assumption. simpl. coords. rs. f_equal. ring.
  Qed.

  Lemma cubic_dd_panic (c : cubic P) t i : (p_dim (P := P) <= i)%nat -> cubic_dd c t i = Panic.
  Proof. intros Hi. unfold cubic_dd. rewrite !axis_ge by assumption. reflexivity. Qed.

  Lemma cubic_dd_correct_iff (c : cubic P) t i : (i < p_dim (P := P))%nat ->
    cubic_dd c t i = p_axis (quad_eval (cubic_derivative c) t) i
    <-> t = 0 \/ t = 1 \/ coord (c_start c) i = 0.
  Proof.
    intros Hi. rewrite cubic_dd_value, axis_lt by assumption. split.
    - intros [= H].
      assert (H' : coord (c_start c) i * (t * (t - 1)) = 0) by lra.
      apply Rmult_integral in H' as [|H']; auto.
      apply Rmult_integral in H' as [|H']; auto. right; left; lra.
    - intros [-> | [-> | ->]]; f_equal; ring.
  Qed.
End ExactEval.
