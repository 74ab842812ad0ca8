(** C124: the root finders, end points and knot tests with the named lines changed. *)
From Coq Require Import Reals ZArith List Arith Lia Lra Psatz Bool.
From Flocq Require Import Core.Core IEEE754.BinarySingleNaN.
From Verif Require Import Base.Outcome Base.Scalar Model.Point Model.Line Model.Quadratic Model.Cubic
  Model.BSpline Model.Roots Model.RepairsRoots Inst.RealInst Inst.FloatInst Spec.Sums Spec.Lawful Spec.Points Spec.CubicRoots
  Spec.Rounding Spec.Componentwise Spec.FloatPoints
  Proofs.OutcomeFacts Proofs.PointFacts Proofs.RealTac Proofs.ExactEval Proofs.Cardano
  Proofs.FloatFacts Proofs.FloatPoint Proofs.FloatEnds Proofs.FloatSpline.
Import ListNotations.
Local Open Scope R_scope.

Section Quadratic.
  Lemma quadratic_roots (a b c : R) : a <> 0 ->
    let D := b * b - a * c * 4 in
    (D < 0 -> forall t, a * t ^ 2 + b * t + c <> 0) /\
    (D = 0 -> forall t, a * t ^ 2 + b * t + c = 0 <-> t = - b / (a * 2)) /\
    (0 < D -> (- b - sqrt D) / (a * 2) <> (- b + sqrt D) / (a * 2) /\
       forall t, a * t ^ 2 + b * t + c = 0 <-> t = (- b - sqrt D) / (a * 2) \/ t = (- b + sqrt D) / (a * 2)).
  Proof.
    intros Ha D.
    assert (K : forall t, 4 * a * (a * t ^ 2 + b * t + c) = (2 * a * t + b) * (2 * a * t + b) - D) by (intros; unfold D; ring).
    assert (Z : forall t, a * t ^ 2 + b * t + c = 0 <-> (2 * a * t + b) * (2 * a * t + b) - D = 0).
    { intros t. rewrite <- K. split; [intros ->; ring|]. intros H. apply Rmult_integral in H as [H|H]; [lra|exact H]. }
    clear K. clearbody D. split; [|split].
    - intros HD t H. apply Z in H. pose proof (Rle_0_sqr (2 * a * t + b)) as S. unfold Rsqr in S. lra.
    - intros HD t. rewrite Z, HD, Rminus_0_r. split.
      + intros H. assert (2 * a * t + b = 0) by (apply Rsqr_0_uniq; exact H). apply Rmult_eq_reg_l with (a * 2); [|lra].
        replace (a * 2 * (- b / (a * 2))) with (- b) by (field; exact Ha). lra.
      + intros ->. replace (2 * a * (- b / (a * 2)) + b) with 0 by (field; exact Ha). ring.
    - intros HD. pose proof (sqrt_lt_R0 D HD) as S. pose proof (sqrt_sqrt D (Rlt_le _ _ HD)) as SS. split.
      + intros H. assert (a * 2 * ((- b - sqrt D) / (a * 2)) = a * 2 * ((- b + sqrt D) / (a * 2))) by now rewrite H.
        replace (a * 2 * ((- b - sqrt D) / (a * 2))) with (- b - sqrt D) in H0 by (field; exact Ha).
        replace (a * 2 * ((- b + sqrt D) / (a * 2))) with (- b + sqrt D) in H0 by (field; exact Ha). lra.
      + intros t. rewrite Z. rewrite <- SS at 1.
        replace ((2 * a * t + b) * (2 * a * t + b) - sqrt D * sqrt D)
          with ((2 * a * t + b - sqrt D) * (2 * a * t + b + sqrt D)) by ring.
        assert (M : forall y, t = y / (a * 2) <-> 2 * a * t = y).
        { intros y. split; [intros ->; field; exact Ha|]. intros <-. field. exact Ha. }
        rewrite !M. split.
        * intros H. apply Rmult_integral in H as [H|H]; [right|left]; lra.
        * intros [H|H]; rewrite H; ring.
  Qed.

  Context {E : Eps}.
  Theorem fixed_square_roots a b c : a <> 0 \/ b <> 0 -> exists l, fixed_roots_square a b c = Ret l /\ NoDup l /\
    (length l <= 2)%nat /\ forall t, In t l <-> a * t ^ 2 + b * t + c = 0.
  Proof.
    intros H. unfold fixed_roots_square. rs. unfold Reqb. destruct (Req_EM_T a 0) as [->|Ha].
    - destruct (Req_EM_T b 0) as [->|Hb]; [tauto|]. rewrite av_push_lt by (cbn; lia).
      eexists. split; [reflexivity|]. split; [repeat constructor; intros []|]. split; [cbn; lia|]. intros t. cbn [app In]. split.
      + intros [<-|[]]. field. exact Hb.
      + intros K. left. apply Rmult_eq_reg_l with b; [|exact Hb]. replace (b * (- c / b)) with (- c) by (field; exact Hb). lra.
    - destruct (quadratic_roots a b c Ha) as (Q1 & Q2 & Q3). set (D := b * b - a * c * 4) in *.
      destruct (Rltb_spec 0 D) as [L|L].
      + destruct (Q3 L) as [N I]. rewrite av_push_lt by (cbn; lia). cbn [bind app]. rewrite av_push_lt by (cbn; lia).
        eexists. split; [reflexivity|]. cbn [app]. split; [|split; [cbn; lia|]].
        * constructor; [intros [K|[]]; now apply N|repeat constructor; intros []].
        * intros t. rewrite I. cbn [In]. intuition.
      + destruct (Req_EM_T D 0) as [E0|N0].
        * rewrite av_push_lt by (cbn; lia). eexists. split; [reflexivity|]. split; [repeat constructor; intros []|].
          split; [cbn; lia|]. intros t. rewrite (Q2 E0). cbn [app In]. intuition.
        * eexists. split; [reflexivity|]. split; [constructor|]. split; [cbn; lia|]. intros t. split; [intros []|].
          intros K. exfalso. revert K. apply Q1. lra.
  Qed.
End Quadratic.

Section Cubic.
  Context {E : Eps}.

  Lemma fixed_degenerate pi b c d : fixed_roots_cubic pi 0 b c d = fixed_roots_square b c d.
  Proof.
    unfold fixed_roots_cubic, fixed_roots_square. rs. rewrite (Reqb_true 0 0) by reflexivity. unfold av_push.
    cbn [length Nat.ltb Nat.leb bind app]. repeat match goal with |- context [if ?d then _ else _] => destruct d end; reflexivity.
  Qed.

  Section Leading.
    Variables a b c d : R.
    Hypothesis Na : a <> 0.
    Let E' : Eps := {| eps := Rabs a; eps_pos := Rabs_pos_lt a Na |}.
    Let Ha : @eps E' <= Rabs a := Rle_refl _.

    Lemma fixed_real : 0 <= cD a b c d -> fixed_roots_cubic PI a b c d =
      Ret ([- (b / a) * (1 / 3) + (cS a b c d + cT a b c d)] ++
           if Reqb (cS a b c d - cT a b c d) 0 && negb (Reqb (cS a b c d + cT a b c d) 0)
           then [- (b / a) * (1 / 3) - (cS a b c d + cT a b c d) / 2] else []).
    Proof.
      intros HD. unfold fixed_roots_cubic. rs. rewrite (Reqb_false a 0) by exact Na. cbv zeta.
      change ((c / a * 3 - b / a * (b / a)) / 9) with (cQ a b c).
      change ((b / a * (c / a) * 9 - d / a * 27 - b / a * (b / a) * (b / a) * 2) / 54) with (cR a b c d).
      change (cQ a b c * cQ a b c * cQ a b c + cR a b c d * cR a b c d) with (cD a b c d).
      destruct (Rleb_spec 0 (cD a b c d)) as [_|L]; [|lra].
      cbn [s_signum s_powf RScalarTrans].
      change ((if Rlt_dec (cR a b c d + sqrt (cD a b c d)) 0 then -1 else 1) *
        (if Rlt_dec 0 (Rabs (cR a b c d + sqrt (cD a b c d))) then Rpower (Rabs (cR a b c d + sqrt (cD a b c d))) (1 / 3) else 0)) with (cS a b c d).
      change ((if Rlt_dec (cR a b c d - sqrt (cD a b c d)) 0 then -1 else 1) *
        (if Rlt_dec 0 (Rabs (cR a b c d - sqrt (cD a b c d))) then Rpower (Rabs (cR a b c d - sqrt (cD a b c d))) (1 / 3) else 0)) with (cT a b c d).
      rewrite av_push_lt by (cbn; lia). cbn [bind app]. destruct (Reqb _ _ && _)%bool; [|reflexivity].
      rewrite av_push_lt by (cbn; lia). reflexivity.
    Qed.
    Lemma fixed_trig : cD a b c d < 0 -> fixed_roots_cubic PI a b c d =
      Ret [two_sq a b c * cos (theta a b c d * (1 / 3)) - b / a * (1 / 3);
           two_sq a b c * cos ((theta a b c d + 2 * PI) * (1 / 3)) - b / a * (1 / 3);
           two_sq a b c * cos ((theta a b c d + 4 * PI) * (1 / 3)) - b / a * (1 / 3)].
    Proof.
      intros HD. unfold fixed_roots_cubic. rs. rewrite (Reqb_false a 0) by exact Na. cbv zeta.
      change ((c / a * 3 - b / a * (b / a)) / 9) with (cQ a b c).
      change ((b / a * (c / a) * 9 - d / a * 27 - b / a * (b / a) * (b / a) * 2) / 54) with (cR a b c d).
      change (cQ a b c * cQ a b c * cQ a b c + cR a b c d * cR a b c d) with (cD a b c d).
      destruct (Rleb_spec 0 (cD a b c d)) as [L|_]; [lra|].
      cbn [s_acos s_cos RScalarTrans].
      rewrite av_push_lt by (cbn; lia). cbn [bind app].
      rewrite av_push_lt by (cbn; lia). cbn [bind app].
      rewrite av_push_lt by (cbn; lia). reflexivity.
    Qed.

    Lemma fixed_leading : exists l, fixed_roots_cubic PI a b c d = Ret l /\ NoDup l /\ (length l <= 3)%nat /\
      forall t, In t l <-> cubic_value a b c d t = 0.
    Proof.
      assert (V : forall t, cubic_value a b c d t = 0 <-> reduced a b c d (t + b / a * (1 / 3)) = 0).
      { intros t. rewrite value_poly. replace t with (- (b / a) * (1 / 3) + (t + b / a * (1 / 3))) at 1 by ring.
        apply (root_iff (E := E') a b c d Ha). }
      destruct (Rle_lt_dec 0 (cD a b c d)) as [HD|HD].
      - rewrite fixed_real by exact HD. eexists. split; [reflexivity|].
        pose proof (fun y => factored a b c d y HD) as Fc.
        set (S := cS a b c d) in *. set (T := cT a b c d) in *. unfold Reqb.
        destruct (Req_EM_T (S - T) 0) as [E1|N1]; [destruct (Req_EM_T (S + T) 0) as [E2|N2]|]; cbn [andb negb app].
        + split; [repeat constructor; intros []|]. split; [cbn; lia|]. intros t. rewrite V, Fc, E1, E2. cbn [In]. split.
          * intros [<-|[]]. field. exact Na.
          * intros H. left. apply Rmult_integral in H as [H|H]; [lra|]. nra.
        + split; [|split; [cbn; lia|]].
          * constructor; [intros [K|[]]; apply N2; lra|repeat constructor; intros []].
          * intros t. rewrite V, Fc, E1. cbn [In]. split.
            -- intros [<-|[<-|[]]]; field; exact Na.
            -- intros H. apply Rmult_integral in H as [H|H]; [left; lra|right; left]. nra.
        + split; [repeat constructor; intros []|]. split; [cbn; lia|]. intros t. rewrite V, Fc. cbn [In]. split.
          * intros [<-|[]]. field. exact Na.
          * intros H. left. apply Rmult_integral in H as [H|H]; [lra|exfalso].
            pose proof (Rsqr_pos_lt _ N1) as S2. pose proof (Rle_0_sqr (t + b / a * (1 / 3) + (S + T) / 2)) as S3.
            unfold Rsqr in S2, S3. lra.
      - assert (Hd : 0 < discriminant a b c d).
        { destruct (Rtotal_order (discriminant a b c d) 0) as [K|[K|K]]; [| |exact K].
          - pose proof (disc_neg (E := E') a b c d Ha K). lra.
          - rewrite disc_D in HD by exact Na. rewrite K in HD. unfold Rdiv in HD. rewrite Ropp_0, Rmult_0_l in HD. lra. }
        rewrite fixed_trig by exact HD.
        pose proof (three_factors (E := E') a b c d Ha Hd) as TF.
        set (w := two_sq a b c) in *. set (al := theta a b c d * (1 / 3)) in *.
        replace ((theta a b c d + 2 * PI) * (1 / 3)) with (al + 2 * PI / 3) by (unfold al; field).
        replace ((theta a b c d + 4 * PI) * (1 / 3)) with (al + 2 * PI / 3 + 2 * PI / 3) by (unfold al; field).
        set (y1 := w * cos al) in *. set (y2 := w * cos (al + 2 * PI / 3)) in *.
        set (y3 := w * cos (al + 2 * PI / 3 + 2 * PI / 3)) in *.
        pose proof (TF 0) as T0. pose proof (TF 1) as T1. pose proof (TF (-1)) as T2.
        unfold reduced in T0, T1, T2. unfold cD in HD. set (Q := cQ a b c) in *. set (R0 := cR a b c d) in *.
        assert (S0 : y1 + y2 + y3 = 0) by lra.
        assert (QQ : 3 * Q = y1 * y2 + y1 * y3 + y2 * y3) by lra.
        assert (RR : 2 * R0 = y1 * y2 * y3) by lra.
        assert (Dist : forall x y z, x + y + z = 0 -> 3 * Q = x * y + x * z + y * z -> 2 * R0 = x * y * z -> x <> y).
        { intros x y z H0 H1 H2 ->. assert (z = - (2 * y)) by lra. subst z.
          assert (Q = - (y * y)) by lra. assert (R0 = - (y * y * y)) by lra. rewrite H, H3 in HD. nra. }
        eexists. split; [reflexivity|]. split; [|split; [cbn; lia|]].
        + assert (y1 <> y2) by (apply (Dist y1 y2 y3); lra). assert (y1 <> y3) by (apply (Dist y1 y3 y2); lra).
          assert (y2 <> y3) by (apply (Dist y2 y3 y1); lra).
          constructor; [intros [K|[K|[]]]; lra|]. constructor; [intros [K|[]]; lra|]. repeat constructor; intros [].
        + intros t. rewrite V, TF. cbn [In]. split.
          * intros [<-|[<-|[<-|[]]]]; field; exact Na.
          * intros H. apply Rmult_integral in H as [H|H]; [apply Rmult_integral in H as [H|H]|].
            -- left. lra.
            -- right; left. lra.
            -- right; right; left. lra.
    Qed.
  End Leading.

  Theorem fixed_cubic_roots a b c d : a <> 0 \/ b <> 0 \/ c <> 0 -> exists l, fixed_roots_cubic PI a b c d = Ret l /\
    NoDup l /\ (length l <= 3)%nat /\ forall t, In t l <-> cubic_value a b c d t = 0.
  Proof.
    intros H. destruct (Req_EM_T a 0) as [->|Na]; [|now apply fixed_leading].
    destruct (fixed_square_roots b c d) as (l & El & N & L & I); [tauto|]. exists l. rewrite fixed_degenerate, El.
    split; [reflexivity|]. split; [exact N|]. split; [lia|]. intros t. rewrite I. unfold cubic_value.
    replace (0 * t ^ 3 + b * t ^ 2 + c * t + d) with (b * t ^ 2 + c * t + d) by ring. reflexivity.
  Qed.
End Cubic.

Section Solve.
  Context {E : Eps} {P : Type} {PT : Point R P} {LP : LawfulPoint P}.

  Lemma closed_unit (t : R) : in_closed_unit t = true <-> 0 <= t <= 1.
  Proof.
    unfold in_closed_unit. rs. destruct (Rleb_spec 0 t), (Rleb_spec t 1); cbn [andb]; split; try discriminate; intros; try lra; reflexivity.
  Qed.
  Lemma filter_short {A : Type} (f : A -> bool) l n : (length l <= n)%nat -> (length (filter f l) <= n)%nat.
  Proof. revert n. induction l as [|x l IH]; cbn; intros n H; [lia|]. destruct (f x); cbn; [|apply IH; lia]. destruct n; [lia|]. specialize (IH n). lia. Qed.
  Lemma filter_NoDup {A : Type} (f : A -> bool) l : NoDup l -> NoDup (filter f l).
  Proof. apply NoDup_filter. Qed.

  Theorem fixed_quad_solutions (c : quad P) v i (s := coord (q_start c) i) (k := coord (q_ctrl c) i) (e := coord (q_end c) i) :
    (i < p_dim (P := P))%nat -> s <> k \/ k <> e ->
    exists l, fixed_quad_solve c v i = Ret l /\ NoDup l /\ forall t, In t l <-> 0 <= t <= 1 /\ coord (quad_eval c t) i = v.
  Proof.
    intros Hi Hne. unfold fixed_quad_solve. rewrite !lp_axis. destruct (Nat.ltb_spec i (p_dim (P := P))); [|lia]. cbn [bind].
    rs. fold s k e. destruct (fixed_square_roots (s + k * -2 + e) (s * -2 + k * 2) (s - v)) as (l & El & N & L & I).
    { destruct (Req_EM_T s k) as [->|]; [left|right]; [|lra]. destruct Hne as [|Hne]; [congruence|]. intros X. apply Hne. lra. }
    rewrite El. cbn [bind]. rewrite av_extend_le by (cbn; pose proof (filter_short in_closed_unit l 2 L); lia).
    eexists. split; [reflexivity|]. cbn [app]. split; [now apply filter_NoDup|]. intros t. rewrite filter_In, closed_unit, I.
    rewrite quad_eval_coord by exact Hi. fold s k e. split; intros [A B]; split; auto; lra.
  Qed.

  Theorem fixed_cubic_solutions (c : cubic P) v i
    (s := coord (c_start c) i) (k1 := coord (c_ctrl1 c) i) (k2 := coord (c_ctrl2 c) i) (e := coord (c_end c) i) :
    (i < p_dim (P := P))%nat -> s <> k1 \/ k1 <> k2 \/ k2 <> e ->
    exists l, fixed_cubic_solve PI c v i = Ret l /\ NoDup l /\ forall t, In t l <-> 0 <= t <= 1 /\ coord (cubic_eval c t) i = v.
  Proof.
    intros Hi Hne. unfold fixed_cubic_solve. rewrite !lp_axis. destruct (Nat.ltb_spec i (p_dim (P := P))); [|lia]. cbn [bind].
    rs. fold s k1 k2 e.
    destruct (fixed_cubic_roots (- s + k1 * 3 - k2 * 3 + e) (s * 3 - k1 * 6 + k2 * 3) (- s * 3 + k1 * 3) (s - v)) as (l & El & N & L & I).
    { destruct (Req_EM_T s k1) as [E1|]; [|right; right; lra]. destruct (Req_EM_T k1 k2) as [E2|]; [|right; left; lra].
      left. destruct Hne as [Hne|[Hne|Hne]]; [congruence|congruence|]. intros X. apply Hne. lra. }
    rewrite El. cbn [bind]. rewrite av_extend_le by (cbn; pose proof (filter_short in_closed_unit l 3 L); lia).
    eexists. split; [reflexivity|]. cbn [app]. split; [now apply filter_NoDup|]. intros t. rewrite filter_In, closed_unit, I.
    rewrite cubic_eval_coord by exact Hi. fold s k1 k2 e. unfold cubic_value. split; intros [A B]; split; auto; lra.
  Qed.
End Solve.

(** ** End points in floating point *)
Section Ends.
  Context {F : Format} {P : Type} {PT : Point float P} {CP : CwPoint float P}.
  Implicit Types t : float.

  Lemma one_sub_0 t : is t 0 -> is (s_sub (s_lit 1) t) 1.
  Proof.
    intros [A B]. destruct (lit_small 1 ltac:(cbn; lia)) as [L1 L2]. pose proof (@fmax_ge F) as G.
    destruct (sub_ok (s_lit 1) t L1 A) as [S1 S2]; [rewrite L2, B, Rabs_pos_eq; lra|]. split; [exact S1|].
    rewrite S2, B, Rminus_0_r, L2. rewrite rnd_float; [reflexivity|]. rewrite <- L2. apply val_float.
  Qed.
  Lemma one_sub_1 t : is t 1 -> is (s_sub (s_lit 1) t) 0.
  Proof.
    intros [A B]. destruct (lit_small 1 ltac:(cbn; lia)) as [L1 L2]. pose proof (@fmax_ge F) as G.
    destruct (sub_ok (s_lit 1) t L1 A) as [S1 S2]; [rewrite L2, B, Rabs_pos_eq; lra|]. split; [exact S1|].
    rewrite S2, B, L2. replace (1 - 1) with 0 by ring. apply round_0. apply valid_rnd_N.
  Qed.

  Theorem fixed_line_ends (l : line P) t0 t1 : fin_point (l_start l) -> fin_point (l_end l) -> is t0 0 -> is t1 1 ->
    same_point (fixed_line_eval l t0) (l_start l) /\ same_point (fixed_line_eval l t1) (l_end l).
  Proof.
    intros A B H0 H1. split; intros i Hi; unfold fixed_line_eval; rewrite !cw_add, !cw_mul by exact Hi.
    - apply is_add_0.
      + apply is_mul_1; [apply is_val, A, Hi|now apply one_sub_0].
      + eapply is_mul_0; [apply is_val, B, Hi|exact H0].
    - apply is_add_0l.
      + eapply is_mul_0; [apply is_val, A, Hi|now apply one_sub_1].
      + apply is_mul_1; [apply is_val, B, Hi|exact H1].
  Qed.
  Theorem fixed_quad_ends (q : quad P) t0 t1 : fin_point (q_start q) -> fin_point (q_ctrl q) -> fin_point (q_end q) ->
    is t0 0 -> is t1 1 ->
    same_point (fixed_quad_eval q t0) (q_start q) /\ same_point (fixed_quad_eval q t1) (q_end q).
  Proof.
    intros A B C H0 H1. destruct (lit_small 2 ltac:(cbn; lia)) as [L1 L2].
    split; intros i Hi; unfold fixed_quad_eval; rewrite !cw_add, !cw_mul by exact Hi.
    - pose proof (is_one_minus_0 t0 H0) as O. apply is_add_0; [apply is_add_0|].
      + apply is_mul_1; [apply is_val, A, Hi|]. now apply is_mul_1.
      + eapply is_mul_0l; [|split; [exact L1|exact L2]]. eapply is_mul_0; [|exact H0]. apply is_mul_1; [apply is_val, B, Hi|exact O].
      + eapply is_mul_0; [apply is_val, C, Hi|]. eapply is_mul_0l; exact H0.
    - pose proof (is_one_minus_1 t1 H1) as O. apply is_add_0l; [apply is_add_0|].
      + eapply is_mul_0; [apply is_val, A, Hi|]. eapply is_mul_0l; exact O.
      + eapply is_mul_0l; [|split; [exact L1|exact L2]]. eapply is_mul_0l; [|exact H1]. eapply is_mul_0; [apply is_val, B, Hi|exact O].
      + apply is_mul_1; [apply is_val, C, Hi|]. now apply is_mul_1.
  Qed.
End Ends.

(** ** Knots *)
Section Knots.
  Context {F : Format} {P : Type} {PT : Point float P}.

  Lemma unordered_step (ks : list float) : any_unordered ks = false ->
    forall i, (i + 1 < length ks)%nat -> s_leb (nth i ks (s_lit 0)) (nth (i + 1) ks (s_lit 0)) = true.
  Proof.
    induction ks as [|a [|b ks] IH]; cbn [length]; intros H i Hi; [lia|lia|].
    cbn [any_unordered] in H. apply orb_false_iff in H as [H1 H2]. destruct i as [|i].
    - cbn. now apply negb_false_iff in H1.
    - cbn [Nat.add nth]. apply (IH H2 i). cbn [length]. lia.
  Qed.
  Theorem fixed_new_sorted D ks (ps : list P) s : fixed_new D ks ps = Ret (Ok s) ->
    forall i j, (i <= j < length ks)%nat -> s_leb (nth i ks (s_lit 0)) (nth j ks (s_lit 0)) = true.
  Proof.
    unfold fixed_new. destruct (Nat.leb_spec (length ps) D); [discriminate|].
    destruct (Nat.ltb_spec (length ks) (length ps + 1 + D)); [discriminate|].
    destruct (Nat.ltb_spec (length ps + 1 + D) (length ks)); [discriminate|].
    destruct (any_unordered ks) eqn:U; [discriminate|]. intros _ i j [Hij Hj].
    pose proof (unordered_step ks U) as St.
    assert (NN : forall k, (k < length ks)%nat -> ~ nan (nth k ks (s_lit 0))).
    { intros k Hk N. destruct (Nat.eq_dec (k + 1) (length ks)) as [Ek|Nk].
      - specialize (St (k - 1)%nat ltac:(lia)). replace (k - 1 + 1)%nat with k in St by lia. rewrite leb_nan_r in St by exact N. discriminate.
      - specialize (St k ltac:(lia)). rewrite leb_nan_l in St by exact N. discriminate. }
    induction Hij as [|j Hij IH].
    - rewrite leb_key by (apply NN; lia). apply Rle_bool_true. lra.
    - apply leb_trans with (nth j ks (s_lit 0)); [apply IH; lia|]. replace (S j) with (j + 1)%nat by lia. apply St. lia.
  Qed.
  (** knots without NaN are treated as before *)
  Theorem fixed_new_same D ks (ps : list P) : (forall x, In x ks -> ~ nan x) -> fixed_new D ks ps = bspline_new D ks ps.
  Proof.
    intros Hn. assert (E : any_unordered ks = any_decreasing ks).
    { clear ps. induction ks as [|a [|b ks] IH]; [reflexivity|reflexivity|]. 
      change (negb (s_leb a b) || any_unordered (b :: ks) = s_ltb b a || any_decreasing (b :: ks))%bool.
      rewrite IH by (intros x Hx; apply Hn; now right). f_equal.
      assert (~ nan a) by (apply Hn; now left). assert (~ nan b) by (apply Hn; right; now left).
      rewrite leb_key, ltb_key by assumption.
      destruct (Rle_bool_spec (key a) (key b)), (Rlt_bool_spec (key b) (key a)); try reflexivity; exfalso; lra. }
    unfold fixed_new, bspline_new. now rewrite E.
  Qed.
End Knots.
