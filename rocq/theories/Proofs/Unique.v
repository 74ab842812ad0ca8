(** Undoing [split] and [derivative]. *)
From Coq Require Import Reals List Arith Lia Lra FinFun.
From Verif Require Import Base.Outcome Base.Scalar Model.Point Model.Line Model.Quadratic Model.Cubic Model.Bezier
  Inst.RealInst Spec.Lawful Spec.Sums Spec.Bernstein Proofs.PointFacts Proofs.RealTac Proofs.ExactEval
  Proofs.BezierGeneric Proofs.BezierReal Proofs.FloatSplit Proofs.Elevation Proofs.SplitAgain.
Import ListNotations.
Local Open Scope R_scope.

Lemma scaled_nodup n k c : k <> 0 -> NoDup (map (fun i => c + k * INR i) (seq 0 n)).
Proof.
  intros Hk. apply Injective_map_NoDup; [|apply seq_NoDup]. intros a b H. apply INR_eq.
  apply (Rmult_eq_reg_l k); [lra|exact Hk].
Qed.

(** the coefficients of a polynomial in Bernstein form are determined by its values *)
Lemma poly_unique (a b : list R) ts : length a = length b -> NoDup ts -> (length a <= length ts)%nat ->
  (forall t, In t ts -> bezier_poly a t = bezier_poly b t) -> a = b.
Proof.
  intros L Hd Hl H. destruct a as [|x a]; [destruct b; [reflexivity|discriminate]|].
  apply nth_ext with 0 0; [exact L|]. intros i Hi. cbn [length] in Hi, Hl.
  apply (dc_determined (E := Eps64) (length a) (fun k => nth k (x :: a) 0) (fun k => nth k b 0) ts); auto; try lia.
  intros t Ht. assert (Nb : b <> []) by (intros ->; discriminate).
  assert (A := poly_dc (x :: a) t ltac:(discriminate)). assert (B := poly_dc b t Nb).
  rewrite <- L in B. cbn [length] in A, B. rewrite Nat.sub_succ, Nat.sub_0_r in A, B.
  rewrite <- A, <- B. now apply H.
Qed.

Section Curves.
  Context {E : Eps} {P : Type} {PT : Point R P} {LP : LawfulPoint P}.

  Lemma bezier_everywhere (ps qs : list P) a b : a < b -> length ps = length qs ->
    (forall t, a <= t <= b -> bezier_eval (Bezier ps) t = bezier_eval (Bezier qs) t) -> ps = qs.
  Proof.
    intros Hab Hl H. destruct (le_lt_dec (length ps) 0) as [H0|H0].
    { destruct ps; [|cbn in H0; lia]. destruct qs; [reflexivity|discriminate]. }
    assert (N : 0 < INR (length ps)) by (apply lt_0_INR; lia).
    assert (K : 0 < (b - a) / INR (length ps)) by (apply Rdiv_lt_0_compat; lra).
    apply bezier_determined with (map (fun i => a + (b - a) / INR (length ps) * INR i) (seq 0 (length ps))); auto.
    - apply scaled_nodup. lra.
    - now rewrite map_length, seq_length.
    - intros t Ht. apply H. apply in_map_iff in Ht. destruct Ht as (i & <- & Hi). apply in_seq in Hi.
      pose proof (pos_INR i). assert (INR i <= INR (length ps)) by (apply le_INR; lia).
      assert (0 <= (b - a) / INR (length ps) * INR i) by (apply Rmult_le_pos; lra).
      assert ((b - a) / INR (length ps) * INR i <= (b - a) / INR (length ps) * INR (length ps)) by (apply Rmult_le_compat_l; lra).
      assert ((b - a) / INR (length ps) * INR (length ps) = b - a) by (field; lra). lra.
  Qed.

  (** the parts at 1 and 0 that are the whole curve *)
  Lemma split_1 (ps l r : list P) : ps <> [] -> bezier_split (Bezier ps) 1 = Ret (Bezier l, Bezier r) -> l = ps.
  Proof.
    intros Hp A. destruct (bezier_split_spec ps 1 Hp) as (x & y & Ex & Lx & _ & Vx). rewrite A in Ex. injection Ex as <- <-.
    apply bezier_everywhere with 0 1; [lra|exact Lx|]. intros t _. rewrite (proj1 (Vx t)). now rewrite Rmult_1_l.
  Qed.
  Lemma split_0 (ps l r : list P) : ps <> [] -> bezier_split (Bezier ps) 0 = Ret (Bezier l, Bezier r) -> r = ps.
  Proof.
    intros Hp A. destruct (bezier_split_spec ps 0 Hp) as (x & y & Ex & _ & Ly & Vx). rewrite A in Ex. injection Ex as <- <-.
    apply bezier_everywhere with 0 1; [lra|exact Ly|]. intros t _. rewrite (proj2 (Vx t)). f_equal. ring.
  Qed.

  Lemma bezier_undo_left (ps l r : list P) t : t <> 0 -> ps <> [] -> bezier_split (Bezier ps) t = Ret (Bezier l, Bezier r) ->
    exists x, bezier_split (Bezier l) (1 / t) = Ret (Bezier ps, Bezier x).
  Proof.
    intros Ht Hp A. destruct (bezier_split_spec ps t Hp) as (l' & r' & E' & Ll & _). rewrite A in E'. injection E' as <- <-.
    assert (Hl : l <> []) by (intros ->; destruct ps; [easy|discriminate]).
    destruct (bezier_split_spec l (1 / t) Hl) as (ll & lr & E2 & _).
    destruct (bezier_split_left ps l r ll lr t (1 / t) Hp A E2) as (x & E3 & _).
    replace (t * (1 / t)) with 1 in E3 by (field; exact Ht). apply (split_1 _ _ _ Hp) in E3. subst ll. now exists lr.
  Qed.
  Lemma bezier_undo_right (ps l r : list P) t : t <> 1 -> ps <> [] -> bezier_split (Bezier ps) t = Ret (Bezier l, Bezier r) ->
    exists x, bezier_split (Bezier r) (t / (t - 1)) = Ret (Bezier x, Bezier ps).
  Proof.
    intros Ht Hp A. destruct (bezier_split_spec ps t Hp) as (l' & r' & E' & _ & Lr & _). rewrite A in E'. injection E' as <- <-.
    assert (Hr : r <> []) by (intros ->; destruct ps; [easy|discriminate]).
    destruct (bezier_split_spec r (t / (t - 1)) Hr) as (rl & rr & E2 & _).
    destruct (bezier_split_right ps l r rl rr t (t / (t - 1)) Hp A E2) as (x & E3 & _).
    replace (t + t / (t - 1) * (1 - t)) with 0 in E3 by (field; lra). apply (split_0 _ _ _ Hp) in E3. subst rr. now exists rl.
  Qed.
  Lemma quad_undo (c : quad P) t : (t <> 0 -> fst (quad_split (fst (quad_split c t)) (1 / t)) = c) /\
    (t <> 1 -> snd (quad_split (snd (quad_split c t)) (t / (t - 1))) = c).
  Proof.
    split; intros Ht.
    - rewrite <- (proj1 (quad_split_left c t (1 / t))). replace (t * (1 / t)) with 1 by (field; exact Ht).
      destruct c as [a b c]. unfold quad_split. cbn. f_equal; pext; ring.
    - rewrite <- (proj1 (quad_split_right c t (t / (t - 1)))). replace (t + t / (t - 1) * (1 - t)) with 0 by (field; lra).
      destruct c as [a b c]. unfold quad_split. cbn. f_equal; pext; ring.
  Qed.
  Lemma cubic_undo (c : cubic P) t : (t <> 0 -> fst (cubic_split (fst (cubic_split c t)) (1 / t)) = c) /\
    (t <> 1 -> snd (cubic_split (snd (cubic_split c t)) (t / (t - 1))) = c).
  Proof.
    split; intros Ht.
    - rewrite <- (proj1 (cubic_split_left c t (1 / t))). replace (t * (1 / t)) with 1 by (field; exact Ht).
      destruct c as [a b c d]. unfold cubic_split. cbn. f_equal; pext; ring.
    - rewrite <- (proj1 (cubic_split_right c t (t / (t - 1)))). replace (t + t / (t - 1) * (1 - t)) with 0 by (field; lra).
      destruct c as [a b c d]. unfold cubic_split. cbn. f_equal; pext; ring.
  Qed.

  (** a curve is determined by its derivative and its start *)
  Lemma bezier_from_derivative (ps qs ds : list P) p : (2 <= length ps)%nat -> (2 <= length qs)%nat ->
    bezier_derivative (Bezier ps) = Ret (Bezier ds) -> bezier_derivative (Bezier qs) = Ret (Bezier ds) ->
    hd_error ps = Some p -> hd_error qs = Some p -> ps = qs.
  Proof.
    intros Hp Hq A B Sp Sq. rewrite (bezier_derivative_closed ps p Hp) in A. rewrite (bezier_derivative_closed qs p Hq) in B.
    injection A as A. injection B as B. rewrite <- A in B.
    assert (L : length ps = length qs).
    { apply (f_equal (@length P)) in B. rewrite !map_length, !seq_length in B. lia. }
    assert (N : forall i, (i < length ps)%nat -> nth i ps p = nth i qs p).
    { induction i as [|i IH]; intros Hi.
      - destruct ps as [|a ps], qs as [|b qs]; try discriminate. injection Sp as ->. injection Sq as ->. reflexivity.
      - assert (X : nth i (map (fun i => p_mul (p_sub (nth (i + 1) qs p) (nth i qs p)) (INR (length qs - 1)))
                       (seq 0 (length qs - 1))) p = nth i ds p) by (rewrite B; rewrite A; reflexivity).
        assert (Y : nth i (map (fun i => p_mul (p_sub (nth (i + 1) ps p) (nth i ps p)) (INR (length ps - 1)))
                       (seq 0 (length ps - 1))) p = nth i ds p) by (rewrite A; reflexivity).
        rewrite (nth_map_lt _ _ _ 0%nat) in X by (rewrite seq_length; lia). rewrite seq_nth in X by lia.
        rewrite (nth_map_lt _ _ _ 0%nat) in Y by (rewrite seq_length; lia). rewrite seq_nth in Y by lia.
        cbn [Nat.add] in X, Y. rewrite <- X in Y. rewrite <- L, (IH ltac:(lia)) in Y.
        replace (S i) with (i + 1)%nat by lia. apply lp_ext. intros j Hj.
        apply (f_equal (fun x => coord x j)) in Y. rewrite !lp_mul, !lp_sub in Y by exact Hj.
        apply Rmult_eq_reg_r in Y; [lra|]. cbn. apply not_0_INR. lia. }
    now apply nth_ext with p p.
  Qed.
  Lemma quad_from_derivative (c d : quad P) : quad_derivative c = quad_derivative d -> q_start c = q_start d -> c = d.
  Proof.
    destruct c as [a b c], d as [a' b' c']. unfold quad_derivative. cbn [q_start q_ctrl q_end]. intros H <-. injection H as H1 H2.
    assert (b = b').
    { pext. apply (f_equal (fun x => coord x i)) in H1. rewrite !lp_mul, !lp_sub in H1 by exact Hi. cbn in H1. lra. }
    subst b'. f_equal. pext. apply (f_equal (fun x => coord x i)) in H2. rewrite !lp_mul, !lp_sub in H2 by exact Hi. cbn in H2. lra.
  Qed.
  Lemma cubic_from_derivative (c d : cubic P) : cubic_derivative c = cubic_derivative d -> c_start c = c_start d -> c = d.
  Proof.
    destruct c as [a b c e], d as [a' b' c' e']. unfold cubic_derivative. cbn [c_start c_ctrl1 c_ctrl2 c_end]. intros H <-.
    injection H as H1 H2 H3.
    assert (b = b').
    { pext. apply (f_equal (fun x => coord x i)) in H1. rewrite !lp_mul, !lp_sub in H1 by exact Hi. cbn in H1. lra. }
    subst b'. assert (c = c').
    { pext. apply (f_equal (fun x => coord x i)) in H2. rewrite !lp_mul, !lp_sub in H2 by exact Hi. cbn in H2. lra. }
    subst c'. f_equal. pext. apply (f_equal (fun x => coord x i)) in H3. rewrite !lp_mul, !lp_sub in H3 by exact Hi. cbn in H3. lra.
  Qed.
End Curves.
