(** C114: examples/plotters_cubic_bezier.rs draws what it says, exact arithmetic. *)
From Coq Require Import Reals ZArith List Arith Lia Lra.
From Verif Require Import Base.Outcome Base.Scalar Model.Point Model.Example Inst.RealInst Spec.Bernstein Spec.Chart
  Proofs.OutcomeFacts Proofs.ExampleFacts.
Import ListNotations.
Local Open Scope R_scope.

(** the curve of the picture *)
Definition pic (t : R) : R * R :=
  (bezier_poly [0; 11/10; 43/10; 32/10] t, bezier_poly [177/100; -1; 3; -4] t).

Lemma pic_eq t : pic t = (ex_X t, ex_Y t).
Proof. unfold pic, bezier_poly, bernstein, ex_X, ex_Y. apply f_equal2; simpl; lra. Qed.

Section C114.
  Context {E : Eps}.

  (** The example does not panic.  It draws 1000 points of the curve, all of them in the box
      and inside the hull; the box is the smallest one containing the curve; the corners of
      the hull are the control points, and everything is within the chart. *)
  Theorem C114_main : eps <= 1 -> exists pl xmax ymax,
    ex_main = Ret pl /\
    pl_x pl = (-2, 6) /\ pl_y pl = (-5, ymax + 3) /\
    pl_points pl = [(0, 177/100); (11/10, -1); (43/10, 3); (32/10, -4)] /\
    pl_box pl = [(0, -4); (0, ymax); (xmax, ymax); (xmax, -4); (0, -4)] /\
    (forall p, In p (pl_points pl) <-> In p (pl_hull pl)) /\
    hd_error (pl_hull pl) = hd_error (rev (pl_hull pl)) /\
    length (pl_curve pl) = 1000%nat /\
    (forall i, (i < 1000)%nat -> nth_error (pl_curve pl) i = Some (pic (INR i / 1000))) /\
    (forall t, 0 <= t <= 1 -> in_area (0, xmax) (-4, ymax) (pic t) /\ inside (pl_hull pl) (pic t)) /\
    (exists t, 0 <= t <= 1 /\ fst (pic t) = xmax) /\ (exists t, 0 <= t <= 1 /\ snd (pic t) = ymax) /\
    (forall p, In p (pl_points pl ++ pl_curve pl ++ pl_box pl ++ pl_hull pl) -> in_area (pl_x pl) (pl_y pl) p).
  Proof.
    intros He. destruct (ex_main_spec He) as (xm & ym & cv & M & Hc & X & Y & (tx & TX & VX) & (ty & TY & VY)).
    eexists. exists xm, ym. split; [exact M|]. cbn [pl_x pl_y pl_points pl_box pl_hull pl_curve].
    assert (Hp : @ex_cpoints R _ = [(0, 177/100); (11/10, -1); (43/10, 3); (32/10, -4)]) by reflexivity.
    assert (Hh : @ex_chull R _ = [(0, 177/100); (11/10, -1); (32/10, -4); (43/10, 3); (0, 177/100)]) by reflexivity.
    split; [f_equal; lra|]. split; [f_equal; lra|]. split; [exact Hp|]. split; [reflexivity|].
    split; [intros p; rewrite Hp, Hh; cbn [In]; tauto|]. split; [reflexivity|].
    split; [rewrite Hc, map_length, seq_length; reflexivity|].
    assert (Hn : forall i, (i < 1000)%nat -> nth_error cv i = Some (pic (INR i / 1000))).
    { intros i Hi. rewrite Hc, pic_eq. rewrite nth_error_map.
      rewrite (nth_error_nth' _ 0%nat) by (rewrite seq_length; exact Hi). rewrite seq_nth by exact Hi. reflexivity. }
    split; [exact Hn|].
    assert (Ha : forall t, 0 <= t <= 1 -> in_area (0, xm) (-4, ym) (pic t)).
    { intros t Ht. rewrite pic_eq. unfold in_area, between. cbn [fst snd]. pose proof (ex_ranges t Ht).
      specialize (X t Ht). specialize (Y t Ht). lra. }
    split; [intros t Ht; split; [now apply Ha|rewrite pic_eq; now apply ex_hull]|].
    split; [exists tx; rewrite pic_eq; auto|]. split; [exists ty; rewrite pic_eq; auto|].
    pose proof (ex_ranges tx TX). pose proof (ex_ranges ty TY). rewrite VX in H. rewrite VY in H0.
    pose proof (Y 0 ltac:(lra)) as Y0. unfold ex_Y in Y0.
    assert (77/100 <= ym) by lra.
    intros p Hin. rewrite !in_app_iff in Hin.
    assert (Hcp : forall x y, 0 <= x <= 6 -> -5 <= y <= 3 -> in_area (0 - 2, 0 + 6) (-4 - 1, ym + 3) (x, y)).
    { intros x y H2 H3. unfold in_area, between. cbn [fst snd]. lra. }
    destruct Hin as [Hin|[Hin|[Hin|Hin]]].
    - rewrite Hp in Hin. cbn [In] in Hin. destruct Hin as [<-|[<-|[<-|[<-|[]]]]]; apply Hcp; lra.
    - apply In_nth_error in Hin. destruct Hin as [i Hi].
      assert (Hl : (i < 1000)%nat).
      { assert (length cv = 1000%nat) by (rewrite Hc, map_length, seq_length; reflexivity).
        rewrite <- H2. apply nth_error_Some. rewrite Hi. discriminate. }
      rewrite (Hn i Hl) in Hi. injection Hi as <-.
      assert (0 <= INR i / 1000 <= 1).
      { pose proof (pos_INR i). assert (INR i <= 1000).
        { replace 1000 with (INR 1000) by (rewrite INR_IZR_INZ; f_equal). apply le_INR. lia. }
        lra. }
      specialize (Ha _ H2). unfold in_area, between in *. cbn [fst snd] in *. lra.
    - cbn [In] in Hin. destruct Hin as [<-|[<-|[<-|[<-|[<-|[]]]]]]; apply Hcp; lra.
    - rewrite Hh in Hin. cbn [In] in Hin. destruct Hin as [<-|[<-|[<-|[<-|[<-|[]]]]]]; apply Hcp; lra.
  Qed.
End C114.

(** the hypothesis for f64 and f32 *)
Example C114_ex : @eps Eps64 <= 1 /\ @eps Eps32 <= 1.
Proof.
  split; [change (@eps Eps64) with (/ 2 ^ 52)|change (@eps Eps32) with (/ 2 ^ 23)];
    rewrite <- Rinv_1; apply Rinv_le_contravar; try lra; apply pow_R1_Rle; lra.
Qed.

Print Assumptions C114_main.
