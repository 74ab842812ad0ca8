(** Mirrored control points: every computed point is mirrored, every length is the same. *)
From Coq Require Import Reals ZArith List Arith Lia Lra Bool.
From Flocq Require Import Core.Core IEEE754.BinarySingleNaN.
From Verif Require Import Base.Outcome Base.Scalar Model.Point Model.Line Model.Quadratic Model.Cubic Model.Bezier
  Model.BSpline Inst.FloatInst Spec.Rounding Spec.Componentwise Spec.Mirror Spec.Related Proofs.OutcomeFacts
  Proofs.FloatFacts Proofs.FloatSpline Proofs.FloatNeg Proofs.Relational Proofs.BoxGeneric Proofs.FloatBox.
Import ListNotations.

Section Scalars.
  Context {F : Format}.
  Implicit Types x y z : @float F.
  Notation flips m x x' := (feq x' (flip m x)).

  Lemma flip_feq m x y : feq x y -> feq (flip m x) (flip m y).
  Proof. destruct m; cbn; [apply feq_neg|auto]. Qed.
  Lemma flip_add m x x' y y' : flips m x x' -> flips m y y' -> flips m (s_add x y) (s_add x' y').
  Proof.
    intros Hx Hy. eapply feq_trans; [apply feq_add; eassumption|]. destruct m; cbn [flip]; [apply add_neg|apply feq_refl].
  Qed.
  Lemma flip_sub m x x' y y' : flips m x x' -> flips m y y' -> flips m (s_sub x y) (s_sub x' y').
  Proof.
    intros Hx Hy. eapply feq_trans; [apply feq_sub; eassumption|]. destruct m; cbn [flip]; [apply sub_neg|apply feq_refl].
  Qed.
  Lemma flip_mul m x x' y y' : flips m x x' -> feq y y' -> flips m (s_mul x y) (s_mul x' y').
  Proof.
    intros Hx Hy. eapply feq_trans; [apply feq_mul; [eassumption|apply feq_sym; eassumption]|].
    destruct m; cbn [flip]; [apply mul_neg_l|apply feq_refl].
  Qed.
  Lemma flip_mul_r m x x' y y' : feq x x' -> flips m y y' -> flips m (s_mul x y) (s_mul x' y').
  Proof.
    intros Hx Hy. eapply feq_trans; [apply feq_mul; [apply feq_sym|]; eassumption|].
    destruct m; cbn [flip]; [apply mul_neg_r|apply feq_refl].
  Qed.
  Lemma flip_mul_mul m x x' y y' : flips m x x' -> flips m y y' -> feq (s_mul x y) (s_mul x' y').
  Proof.
    intros Hx Hy. apply feq_sym. eapply feq_trans; [apply feq_mul; eassumption|].
    destruct m; cbn [flip]; [apply mul_neg_neg|apply feq_refl].
  Qed.
  Lemma flip_neg m x x' : flips m x x' -> flips m (s_neg x) (s_neg x').
  Proof. intros H. eapply feq_trans; [apply feq_neg, H|]. destruct m; apply feq_refl. Qed.
  Lemma flip_abs m x x' : flips m x x' -> feq (s_abs x) (s_abs x').
  Proof.
    intros H. apply feq_sym. eapply feq_trans; [apply feq_abs, H|]. destruct m; cbn [flip]; rewrite ?abs_neg; apply feq_refl.
  Qed.
  Lemma flip_nan m x x' : flips m x x' -> s_is_nan x' = s_is_nan x.
  Proof. intros H. rewrite (feq_nan _ _ H). destruct m; cbn [flip]; [apply nan_neg|reflexivity]. Qed.
  Lemma lit_zero : exists a, s_lit (T := float) 0 = B754_zero a.
  Proof. destruct (lit_small 0) as [A B]; [cbn; lia|]. now apply fin_zero. Qed.
  Lemma flip_zero m : flips m (s_lit 0) (s_lit 0).
  Proof. destruct lit_zero as [a ->]. destruct m; cbn; [right; eauto|now left]. Qed.

  Lemma eps_zero a : s_ltb (B754_zero a : float) s_eps = true.
  Proof.
    destruct eps_ok as [A B]. rewrite ltb_val by (reflexivity || assumption). rewrite B. apply Rlt_bool_true.
    unfold val. cbn. pose proof uro_pos. lra.
  Qed.
  Lemma ge_eps_nonzero x : s_ltb x s_eps = false -> nonzero x.
  Proof. intros H a ->. rewrite eps_zero in H. discriminate. Qed.
  Lemma abs_ge_nonzero x : s_ltb (s_abs x) s_eps = false -> nonzero x.
  Proof. intros H a ->. cbn [s_abs FScalar Babs] in H. pose proof (eps_zero false) as K. cbn in *. congruence. Qed.
  Lemma twice_nonzero x : s_ltb (s_abs x) s_eps = false -> nonzero (s_mul x (s_lit 2)).
  Proof.
    intros H a E. destruct (lit_small 2) as [A B]; [cbn; lia|].
    remember (s_lit (T := float) 2) as t eqn:Et. clear Et. destruct (is_finite x) eqn:Fx.
    - assert (K : (2 * uro <= Rabs (val x))%R).
      { destruct eps_ok as [E1 E2]. rewrite (ltb_val (s_abs x) s_eps (proj2 (abs_fin x) Fx) E1) in H. rewrite abs_val, E2 in H.
        destruct (Rlt_bool_spec (Rabs (val x)) (2 * uro)); [discriminate|assumption]. }
      pose proof (Bmult_correct fprec femax _ _ mode_NE x t) as M.
      change (round_mode mode_NE) with ZnearestE in M. fold fx in M.
      fold (rnd (B2R x * B2R t)) in M. change (Bmult mode_NE x t) with (s_mul (x : float) t) in M. rewrite E in M.
      destruct (Rlt_bool _ _).
      + destruct M as (M & _). cbn in M. fold (val x) in M. fold (val t) in M. rewrite B in M.
        destruct eps_ok as [E1 E2]. pose proof (val_float s_eps) as Fe. rewrite E2 in Fe. pose proof uro_pos.
        destruct (Rcase_abs (val x)) as [N|N].
        * rewrite Rabs_left in K by exact N. pose proof (rnd_le_float (val x * 2) (- (2 * uro)) (float_opp _ Fe)). lra.
        * rewrite Rabs_right in K by exact N. pose proof (rnd_ge_float (val x * 2) (2 * uro) Fe). lra.
      + cbn in M. discriminate.
    - destruct x as [s|s| |s m e Bx]; try discriminate; destruct t as [u|u| |u n f Bu]; try discriminate.
  Qed.
End Scalars.

Section Points.
  Context {F : Format} {P : Type} {PT : Point float P} {CP : CwPoint float P}.
  Variable axes : nat -> bool.
  Notation RP := (mirrored (P := P) axes).

  Lemma sqlen_mirror (p q : P) : RP p q -> feq (p_sqlen p) (p_sqlen q).
  Proof.
    intros H. rewrite !cw_sqlen.
    assert (K : forall is x y, (forall i, In i is -> i < p_dim (P := P)) -> feq x y ->
      feq (fold_left (fun acc i => s_add acc (s_mul (cw p i) (cw p i))) is x)
          (fold_left (fun acc i => s_add acc (s_mul (cw q i) (cw q i))) is y)).
    { induction is as [|i is IH]; intros x y Hi Hxy; cbn [fold_left]; [exact Hxy|].
      apply IH; [intros; apply Hi; now right|]. apply feq_add; [exact Hxy|].
      apply flip_mul_mul with (axes i); apply H, Hi; now left. }
    apply K; [|apply feq_refl]. intros i Hi. apply in_seq in Hi. lia.
  Qed.
  Lemma dot_mirror (p p' q q' : P) : RP p p' -> RP q q' -> related feq (dot_loop p q) (dot_loop p' q').
  Proof.
    intros Hp Hq. unfold dot_loop. apply rel_for; [apply feq_refl|]. intros i a b Hi Hab.
    apply in_seq in Hi. rewrite !axis_in by lia. cbn [bind related]. apply feq_add; [exact Hab|].
    apply flip_mul_mul with (axes i); [apply Hp|apply Hq]; lia.
  Qed.
  Lemma mirror_lin : lin feq RP.
  Proof.
    constructor.
    - apply feq_refl.
    - apply feq_add.
    - apply feq_sub.
    - apply feq_mul.
    - apply feq_neg.
    - intros p p' q q' Hp Hq i Hi. rewrite !cw_add by exact Hi. apply flip_add; auto.
    - intros p p' q q' Hp Hq i Hi. rewrite !cw_sub by exact Hi. apply flip_sub; auto.
    - intros p p' x x' Hp Hx i Hi. rewrite !cw_mul by exact Hi. apply flip_mul; auto.
    - intros i Hi. rewrite !cw_default by exact Hi. apply flip_zero.
  Qed.
  Lemma mirror_sim : sim feq RP.
  Proof.
    constructor.
    - exact mirror_lin.
    - apply feq_sqrt.
    - intros x x' y y' Hx Hy H. apply feq_div; [exact Hx|exact Hy|now apply ge_eps_nonzero].
    - apply feq_ltb.
    - apply feq_leb.
    - apply sqlen_mirror.
    - apply dot_mirror.
  Qed.

  (** one coordinate *)
  Lemma axis_mirror (p q : P) i : RP p q -> related (fun x y => feq y (flip (axes i) x)) (p_axis p i) (p_axis q i).
  Proof.
    intros H. rewrite !cw_axis. destruct (Nat.ltb_spec i (p_dim (P := P))); cbn; [|exact I]. now apply H.
  Qed.
  Ltac fl := repeat first [ assumption | apply feq_refl | apply flip_add | apply flip_sub | apply flip_mul | apply flip_neg ].
  Ltac get H := eapply rel_bind; [apply axis_mirror; apply H|cbv beta].

  Lemma line_axis_mirror l m t i : related_lines RP l m ->
    related (fun x y => feq y (flip (axes i) x)) (line_axis l t i) (line_axis m t i).
  Proof.
    intros (A & B). unfold line_axis. get A. intros a a' Ha. get B. intros b b' Hb. get A. intros c c' Hc. cbn. fl.
  Qed.
  Lemma quad_axis_mirror l m t i : related_quads RP l m ->
    related (fun x y => feq y (flip (axes i) x)) (quad_axis l t i) (quad_axis m t i).
  Proof.
    intros (A & B & C). unfold quad_axis. cbv zeta. get A. intros a a' Ha. get B. intros b b' Hb. get C. intros c c' Hc. cbn. fl.
  Qed.
  Lemma quad_dd_mirror l m t i : related_quads RP l m ->
    related (fun x y => feq y (flip (axes i) x)) (quad_dd l t i) (quad_dd m t i).
  Proof.
    intros (A & B & C). unfold quad_dd. cbv zeta. get A. intros a a' Ha. get B. intros b b' Hb. get C. intros c c' Hc. cbn. fl.
  Qed.
  Lemma cubic_axis_mirror l m t i : related_cubics RP l m ->
    related (fun x y => feq y (flip (axes i) x)) (cubic_axis l t i) (cubic_axis m t i).
  Proof.
    intros (A & B & C & D). unfold cubic_axis. cbv zeta. get A. intros a a' Ha. get B. intros b b' Hb.
    get C. intros c c' Hc. get D. intros d d' Hd. cbn [related].
    repeat first [ assumption | apply flip_add | apply flip_mul_r; [apply feq_refl|] | apply flip_mul; [|apply feq_refl] ].
  Qed.
  Lemma cubic_dd_mirror l m t i : related_cubics RP l m ->
    related (fun x y => feq y (flip (axes i) x)) (cubic_dd l t i) (cubic_dd m t i).
  Proof.
    intros (A & B & C & D). unfold cubic_dd. cbv zeta. get A. intros a a' Ha. get B. intros b b' Hb.
    get C. intros c c' Hc. get D. intros d d' Hd. cbn. fl.
  Qed.
End Points.

(** Boxes *)
Section Boxes.
  Context {F : Format}.
  Implicit Types x y z t : @float F.
  Notation flips m x x' := (feq x' (flip m x)).

  Definition alike (R : float -> float -> Prop) (l l' : list float) : Prop :=
    (forall x, In x l -> exists x', In x' l' /\ R x x') /\ (forall x', In x' l' -> exists x, In x l /\ R x x').

  Lemma box_of_flip m (vs vs' : list float) : 2 <= length vs -> 2 <= length vs' ->
    alike (fun x x' => flips m x x') vs vs' -> related (bounds_mirrored m) (box_of vs) (box_of vs').
  Proof.
    intros L L' [A B]. destruct (existsb s_is_nan vs) eqn:N.
    - rewrite box_of_nan by assumption. rewrite box_of_nan; [exact I|exact L'|].
      apply existsb_exists in N as (x & Hx & Nx). destruct (A x Hx) as (x' & Hx' & E).
      apply existsb_exists. exists x'. split; [exact Hx'|]. now rewrite (flip_nan _ _ _ E).
    - assert (N' : existsb s_is_nan vs' = false).
      { destruct (existsb s_is_nan vs') eqn:K; [|reflexivity]. exfalso.
        apply existsb_exists in K as (x' & Hx' & Nx). destruct (B x' Hx') as (x & Hx & E).
        rewrite (flip_nan _ _ _ E) in Nx. assert (existsb s_is_nan vs = true) by (apply existsb_exists; eauto). congruence. }
      destruct (box_of_ok vs L N) as (lo & hi & E & _). destruct (box_of_ok vs' L' N') as (lo' & hi' & E' & _).
      destruct (box_of_spec vs _ L E) as (I1 & I2 & I3). destruct (box_of_spec vs' _ L' E') as (J1 & J2 & J3).
      rewrite E, E'. cbn [related]. cbn [fst snd] in *.
      destruct (A lo I1) as (a & Ha & Ea). destruct (A hi I2) as (b & Hb & Eb).
      destruct (B lo' J1) as (c & Hc & Ec). destruct (B hi' J2) as (d & Hd & Ed).
      destruct (J3 a Ha) as (_ & A1 & A2). destruct (J3 b Hb) as (_ & B1 & B2).
      destruct (I3 c Hc) as (_ & C1 & C2). destruct (I3 d Hd) as (_ & D1 & D2).
      unfold bounds_mirrored. cbn [fst snd]. destruct m; cbn [flip] in *.
      + split; apply leb_antisym.
        * rewrite <- (feq_leb _ _ _ _ (feq_refl lo') Eb). exact B1.
        * rewrite (feq_leb _ _ _ _ (feq_refl _) Ec), leb_neg. exact C2.
        * rewrite (feq_leb _ _ _ _ Ed (feq_refl _)), leb_neg. exact D1.
        * rewrite <- (feq_leb _ _ _ _ Ea (feq_refl hi')). exact A2.
      + split; apply leb_antisym.
        * rewrite <- (feq_leb _ _ _ _ (feq_refl lo') Ea). exact A1.
        * rewrite (feq_leb _ _ _ _ (feq_refl _) Ec). exact C1.
        * rewrite (feq_leb _ _ _ _ Ed (feq_refl _)). exact D2.
        * rewrite <- (feq_leb _ _ _ _ Eb (feq_refl hi')). exact B2.
  Qed.

  Lemma in_unit_feq x x' : feq x x' -> in_unit x = in_unit x'.
  Proof. intros H. unfold in_unit. f_equal; apply feq_ltb; auto using feq_refl. Qed.
  Lemma alike_values m (f g : float -> float) l l' s s' e e' :
    alike feq l l' -> (forall x x', feq x x' -> flips m (f x) (g x')) -> flips m s s' -> flips m e e' ->
    alike (fun x x' => flips m x x') (map f (filter in_unit l) ++ [s; e]) (map g (filter in_unit l') ++ [s'; e']).
  Proof.
    intros [A B] Hf Hs He. split.
    - intros x Hx. apply in_app_or in Hx as [Hx|[<-|[<-|[]]]].
      + apply in_map_iff in Hx as (r & <- & Hr). apply filter_In in Hr as [Hr U].
        destruct (A r Hr) as (r' & Hr' & E). exists (g r'). split; [|now apply Hf].
        apply in_or_app. left. apply in_map. apply filter_In. split; [exact Hr'|]. now rewrite <- (in_unit_feq _ _ E).
      + exists s'. split; [apply in_or_app; right; now left|exact Hs].
      + exists e'. split; [apply in_or_app; right; right; now left|exact He].
    - intros x Hx. apply in_app_or in Hx as [Hx|[<-|[<-|[]]]].
      + apply in_map_iff in Hx as (r & <- & Hr). apply filter_In in Hr as [Hr U].
        destruct (B r Hr) as (r' & Hr' & E). exists (f r'). split; [|now apply Hf].
        apply in_or_app. left. apply in_map. apply filter_In. split; [exact Hr'|]. now rewrite (in_unit_feq _ _ E).
      + exists s. split; [apply in_or_app; right; now left|exact Hs].
      + exists e. split; [apply in_or_app; right; right; now left|exact He].
  Qed.

  Lemma alike_nil : alike (@feq F) [] [].
  Proof. split; intros x []. Qed.
  Lemma alike_one x x' : feq x x' -> alike feq [x] [x'].
  Proof. intros H. split; intros y [<-|[]]; eexists; (split; [now left|exact H]). Qed.
  Lemma alike_two x x' y y' : feq x x' -> feq y y' -> alike feq [x; y] [x'; y'].
  Proof.
    intros H K. split; intros z [<-|[<-|[]]]; eexists; (split; [|eassumption]); cbn; auto.
  Qed.
  Lemma alike_swap x x' y y' : feq x x' -> feq y y' -> alike feq [x; y] [y'; x'].
  Proof.
    intros H K. split; intros z [<-|[<-|[]]]; eexists; (split; [|eassumption]); cbn; auto.
  Qed.

  (** a quotient of two flipped numbers *)
  Lemma flip_div m x x' y y' : flips m x x' -> flips m y y' -> nonzero y -> feq (s_div x y) (s_div x' y').
  Proof.
    intros Hx Hy N. apply feq_sym. destruct m; cbn [flip] in *.
    - eapply feq_trans; [apply feq_div; [exact Hx|exact Hy|]|apply div_neg_neg].
      intros a ->. destruct Hy as [E|(u & v & _ & E)].
      + destruct y as [u|u| |u ? ? ?]; try discriminate. now destruct (N u).
      + destruct y as [w|w| |w ? ? ?]; try discriminate. now destruct (N w).
    - apply feq_sym. apply feq_div; [apply feq_sym; exact Hx|apply feq_sym; exact Hy|exact N].
  Qed.

  Lemma line_root_flip m a a' b b' : flips m a a' -> flips m b b' ->
    exists l l', line_root a b = Ret l /\ line_root a' b' = Ret l' /\ alike feq l l'.
  Proof.
    intros Ha Hb. unfold line_root. rewrite <- (feq_ltb _ _ _ _ (flip_abs _ _ _ Ha) (feq_refl s_eps)).
    destruct (s_ltb (s_abs a) s_eps) eqn:E.
    - eexists _, _. split; [reflexivity|]. split; [reflexivity|]. apply alike_nil.
    - rewrite !av_push_lt by (cbn; lia). eexists _, _. split; [reflexivity|]. split; [reflexivity|]. apply alike_one.
      apply flip_div with m; [now apply flip_neg|exact Ha|now apply abs_ge_nonzero].
  Qed.

  Lemma quad_roots_flip m a a' b b' c c' : flips m a a' -> flips m b b' -> flips m c c' ->
    exists l l', quad_real_roots a b c = Ret l /\ quad_real_roots a' b' c' = Ret l' /\ alike feq l l'.
  Proof.
    intros Ha Hb Hc. unfold quad_real_roots. cbv zeta.
    rewrite <- (feq_ltb _ _ _ _ (flip_abs _ _ _ Ha) (feq_refl s_eps)).
    rewrite <- (feq_ltb _ _ _ _ (flip_abs _ _ _ Hb) (feq_refl s_eps)).
    destruct (s_ltb (s_abs a) s_eps) eqn:E.
    - destruct (s_ltb (s_abs b) s_eps) eqn:E'.
      + eexists _, _. split; [reflexivity|]. split; [reflexivity|]. apply alike_nil.
      + rewrite !av_push_lt by (cbn; lia). eexists _, _. split; [reflexivity|]. split; [reflexivity|]. apply alike_one.
        apply flip_div with m; [now apply flip_neg|exact Hb|now apply abs_ge_nonzero].
    - set (delta := s_sub (s_mul b b) (s_mul (s_mul a c) (s_lit 4))).
      set (delta' := s_sub (s_mul b' b') (s_mul (s_mul a' c') (s_lit 4))).
      assert (D : feq delta delta').
      { apply feq_sub; [now apply flip_mul_mul with m|]. apply feq_mul; [now apply flip_mul_mul with m|apply feq_refl]. }
      pose proof (twice_nonzero a E) as N.
      assert (Ha2 : flips m (s_mul a (s_lit 2)) (s_mul a' (s_lit 2))) by (apply flip_mul; [exact Ha|apply feq_refl]).
      rewrite <- (feq_ltb _ _ _ _ (feq_refl (s_lit 0)) D). destruct (s_ltb (s_lit 0) delta).
      + repeat (rewrite !av_push_lt by (cbn; lia); cbn [bind app]).
        eexists _, _. split; [reflexivity|]. split; [reflexivity|].
        pose proof (feq_sqrt _ _ D) as Q. destruct m.
        * (* the roots come in the other order *)
          apply alike_swap.
          -- apply flip_div with true; [|exact Ha2|exact N]. cbn [flip].
             eapply feq_trans; [|apply sub_neg]. rewrite sub_add, (neg_neg (s_sqrt delta)). apply feq_add; [|apply feq_sym, Q].
             apply (flip_neg true), Hb.
          -- apply flip_div with true; [|exact Ha2|exact N]. cbn [flip].
             eapply feq_trans; [|apply add_neg]. rewrite <- sub_add. apply feq_sub; [|apply feq_sym, Q].
             apply (flip_neg true), Hb.
        * apply alike_two; apply flip_div with false; try exact Ha2; try exact N; cbn [flip] in *.
          -- apply feq_sub; [apply feq_neg, Hb|apply feq_sym, Q].
          -- apply feq_add; [apply feq_neg, Hb|apply feq_sym, Q].
      + rewrite <- (feq_ltb _ _ _ _ (feq_abs _ _ D) (feq_refl s_eps)). destruct (s_ltb (s_abs delta) s_eps).
        * rewrite !av_push_lt by (cbn; lia). eexists _, _. split; [reflexivity|]. split; [reflexivity|]. apply alike_one.
          apply flip_div with m; [now apply flip_neg|exact Ha2|exact N].
        * eexists _, _. split; [reflexivity|]. split; [reflexivity|]. apply alike_nil.
  Qed.

  Lemma mixg_flip m t t' a a' b b' : feq t t' -> flips m a a' -> flips m b b' -> flips m (mixg t a b) (mixg t' a' b').
  Proof. intros Ht Ha Hb. unfold mixg. apply flip_add; [exact Ha|]. apply flip_mul; [now apply flip_sub|exact Ht]. Qed.
End Boxes.

Section BoxPoints.
  Context {F : Format} {P : Type} {PT : Point float P} {CP : CwPoint float P}.
  Variable axes : nat -> bool.
  Notation RP := (mirrored (P := P) axes).

  Lemma quad_bbox_axis_mirror l m i : i < p_dim (P := P) -> related_quads RP l m ->
    related (bounds_mirrored (axes i)) (quad_bbox_axis l i) (quad_bbox_axis m i).
  Proof.
    intros Hi (A & B & C). pose proof (A i Hi) as Ai. pose proof (B i Hi) as Bi. pose proof (C i Hi) as Ci.
    destruct (quad_bbox_axis_roots l i Hi) as (r & Er & ->). destruct (quad_bbox_axis_roots m i Hi) as (r' & Er' & ->).
    apply box_of_flip; [apply tail_len|apply tail_len|]. apply alike_values; [| |exact Ai|exact Ci].
    - edestruct line_root_flip as (u & u' & E & E' & K).
      3: { rewrite Er in E. rewrite Er' in E'. injection E as <-. injection E' as <-. exact K. }
      + repeat first [eassumption | apply flip_add | apply flip_mul | apply flip_sub | apply feq_refl].
      + repeat first [eassumption | apply flip_add | apply flip_mul | apply flip_sub | apply feq_refl].
    - intros x x' Hx. unfold quad_at. repeat (apply mixg_flip; try assumption).
  Qed.
  Lemma cubic_bbox_axis_mirror l m i : i < p_dim (P := P) -> related_cubics RP l m ->
    related (bounds_mirrored (axes i)) (cubic_bbox_axis l i) (cubic_bbox_axis m i).
  Proof.
    intros Hi (A & B & C & D). pose proof (A i Hi) as Ai. pose proof (B i Hi) as Bi. pose proof (C i Hi) as Ci.
    pose proof (D i Hi) as Di.
    destruct (cubic_bbox_axis_roots l i Hi) as (r & Er & ->). destruct (cubic_bbox_axis_roots m i Hi) as (r' & Er' & ->).
    apply box_of_flip; [apply tail_len|apply tail_len|]. apply alike_values; [| |exact Ai|exact Di].
    - edestruct quad_roots_flip as (u & u' & E & E' & K).
      4: { rewrite Er in E. rewrite Er' in E'. injection E as <-. injection E' as <-. exact K. }
      + repeat first [eassumption | apply flip_add | apply flip_mul | apply flip_sub | apply feq_refl].
      + repeat first [eassumption | apply flip_add | apply flip_mul | apply flip_sub | apply feq_refl].
      + repeat first [eassumption | apply flip_add | apply flip_mul | apply flip_sub | apply feq_refl].
    - intros x x' Hx. unfold cubic_at. repeat (apply mixg_flip; try assumption).
  Qed.

  Lemma box_default n : box_mirrored (F := F) axes (repeat (s_lit 0, s_lit 0) n) (repeat (s_lit 0, s_lit 0) n).
  Proof.
    split; [reflexivity|]. intros i b b' E E'. apply nth_error_In, repeat_spec in E. apply nth_error_In, repeat_spec in E'.
    subst. unfold bounds_mirrored. pose proof (flip_zero (axes i)) as Z. destruct (axes i); cbn [fst snd]; split; exact Z || apply feq_refl.
  Qed.
  Lemma box_set i bs bs' (b b' : float * float) : box_mirrored axes bs bs' -> bounds_mirrored (axes i) b b' ->
    related (box_mirrored axes) (set_idx bs i b) (set_idx bs' i b').
  Proof.
    intros [L H] Hb. unfold set_idx. rewrite L. destruct (Nat.ltb_spec i (length bs')) as [K|K]; [|exact I].
    cbn. split; [now rewrite !length_replace_nth|]. intros j u v Eu Ev.
    assert (J : j < length bs') by (rewrite <- (length_replace_nth bs' i b'); apply nth_error_Some; congruence).
    rewrite (nth_error_nth' _ b) in Eu by (rewrite length_replace_nth; lia).
    rewrite (nth_error_nth' _ b') in Ev by (rewrite length_replace_nth; lia).
    rewrite nth_replace_nth in Eu by lia. rewrite nth_replace_nth in Ev by lia.
    destruct (Nat.eqb_spec j i) as [->|].
    - injection Eu as <-. injection Ev as <-. exact Hb.
    - apply (H j); [rewrite <- Eu|rewrite <- Ev]; apply nth_error_nth'; lia.
  Qed.

  Lemma quad_box_mirror l m : related_quads RP l m ->
    related (box_mirrored axes) (quad_bounding_box l) (quad_bounding_box m).
  Proof.
    intros H. unfold quad_bounding_box. apply rel_for; [apply box_default|]. intros i a b Hi Hab.
    apply in_seq in Hi. eapply rel_bind; [apply quad_bbox_axis_mirror; [lia|exact H]|]. intros u v Huv. now apply box_set.
  Qed.
  Lemma cubic_box_mirror l m : related_cubics RP l m ->
    related (box_mirrored axes) (cubic_bounding_box l) (cubic_bounding_box m).
  Proof.
    intros H. unfold cubic_bounding_box. apply rel_for; [apply box_default|]. intros i a b Hi Hab.
    apply in_seq in Hi. eapply rel_bind; [apply cubic_bbox_axis_mirror; [lia|exact H]|]. intros u v Huv. now apply box_set.
  Qed.
  Lemma line_box_mirror l m : related_lines RP l m -> no_nan (l_start l) -> no_nan (l_end l) ->
    related (box_mirrored axes) (line_bounding_box l) (line_bounding_box m).
  Proof.
    intros (A & B) Ns Ne. unfold line_bounding_box. apply rel_for; [apply box_default|]. intros i a b Hi Hab.
    apply in_seq in Hi. rewrite !axis_in by lia. cbn [bind].
    pose proof (A i ltac:(lia)) as Ai. pose proof (B i ltac:(lia)) as Bi.
    pose proof (Ns i ltac:(lia)) as Nsi. pose proof (Ne i ltac:(lia)) as Nei.
    set (s := cw (l_start l) i) in *. set (e := cw (l_end l) i) in *.
    set (s' := cw (l_start m) i) in *. set (e' := cw (l_end m) i) in *.
    assert (Ks : ~ nan s) by (unfold nan; cbn in *; congruence). assert (Ke : ~ nan e) by (unfold nan; cbn in *; congruence).
    rewrite (feq_ltb _ _ _ _ Ai Bi). destruct (axes i) eqn:M; cbn [flip] in *.
    - rewrite ltb_neg. destruct (s_ltb s e) eqn:E1, (s_ltb e s) eqn:E2.
      + exfalso. rewrite !ltb_key in E1, E2 by assumption.
        destruct (Rlt_bool_spec (key s) (key e)), (Rlt_bool_spec (key e) (key s)); try discriminate. lra.
      + apply box_set; [exact Hab|]. rewrite M. split; assumption.
      + apply box_set; [exact Hab|]. rewrite M. split; assumption.
      + assert (Q : feq s e).
        { apply leb_antisym; rewrite leb_key by assumption; rewrite !ltb_key in E1, E2 by assumption.
          - destruct (Rlt_bool_spec (key e) (key s)); [discriminate|]. now apply Rle_bool_true.
          - destruct (Rlt_bool_spec (key s) (key e)); [discriminate|]. now apply Rle_bool_true. }
        apply box_set; [exact Hab|]. rewrite M. split; cbn [fst snd].
        * eapply feq_trans; [exact Bi|]. apply feq_neg, feq_sym, Q.
        * eapply feq_trans; [exact Ai|]. apply feq_neg, Q.
    - destruct (s_ltb s e); apply box_set; try exact Hab; rewrite M; split; assumption.
  Qed.
End BoxPoints.
