(** Completeness of [solve_t_for_axis] for quadratics in IEEE arithmetic: a
    crossing that is neither nearly tangential nor at the very ends is found. *)
From Coq Require Import Reals List Arith ZArith Bool Lia Lra.
From Flocq Require Import Core.Core IEEE754.BinarySingleNaN.
From Verif Require Import Base.Outcome Base.Scalar Model.Point Model.Line Model.Quadratic
  Inst.FloatInst Spec.Bernstein Spec.Points Spec.Rounding Spec.Componentwise Spec.FloatPoints
  Proofs.OutcomeFacts Proofs.FloatFacts Proofs.FloatPoint Proofs.ExactEval Proofs.FloatBoxCubic Proofs.FloatRoots.
Import ListNotations.
Local Open Scope R_scope.


Section Solve.
  Context {F : Format} {P : Type} {PT : Point float P} {CP : CwPoint float P}.
  Variables (q : quad P) (v : float) (M : R) (k : nat).
  Hypotheses (HM : 1 <= M) (H8 : 200 * (M * M) <= fmax) (Hq : 10 * M <= uro * fmax).
  Hypotheses (Bs : bounded M (q_start q)) (Bc : bounded M (q_ctrl q)) (Be : bounded M (q_end q)).
  Hypotheses (Fv : fin v) (Bv : Rabs (val v) <= M) (Hk : (k < p_dim (P := P))%nat).
  Local Notation s := (cw (q_start q) k).
  Local Notation c := (cw (q_ctrl q) k).
  Local Notation e := (cw (q_end q) k).
  Local Notation fA := (s_add (s_add s (s_mul c (s_lit (-2)))) e).
  Local Notation fB := (s_add (s_mul s (s_lit (-2))) (s_mul c (s_lit 2))).
  Local Notation fC := (s_sub s v).
  Local Notation A := (val s - 2 * val c + val e).
  Local Notation B := (2 * (val c - val s)).

  (** the curve is not taken for a point *)
  Hypothesis Hp : quad_is_a_point q s_eps = false.
  Hypothesis Hl : s_ltb (p_sqlen (p_sub (q_start q) (q_end q))) s_eps = false \/ quad_are_points_colinear q (s_lit 0) = Ret false.

  Lemma dot_total (x y : P) : exists d, dot_loop x y = Ret d.
  Proof.
    unfold dot_loop. destruct (for_in_range_inv (fun _ _ => True) 0 (p_dim (P := P)) (s_lit 0)
      (fun i dot => let! a := p_axis x i in let! b := p_axis y i in Ret (s_add dot (s_mul a b)))) as (d & H & _); try lia; auto.
    - intros i d Hi _. rewrite !cw_axis. destruct (Nat.ltb_spec i (p_dim (P := P))); [|lia]. cbn [bind]. eauto.
    - exists d. exact H.
  Qed.
  Lemma colinear_total tol : exists b, quad_are_points_colinear q tol = Ret b.
  Proof.
    unfold quad_are_points_colinear, line_distance_to_point. cbv zeta.
    clear Hl Hp. match goal with |- context [if ?x then Ret _ else _] => destruct x end; cbn [bind]; [eexists; reflexivity|].
    match goal with |- context [dot_loop ?x ?y] => destruct (dot_total x y) as (d & ->) end. cbn [bind]. eexists. reflexivity.
  Qed.

  Lemma solve_filter r : quad_real_roots fA fB fC = Ret r ->
    quad_solve_t_for_axis q v k = Ret (filter in_unit r).
  Proof.
    intros Hr. unfold quad_solve_t_for_axis. rewrite Hp.
    destruct (colinear_total (s_lit 0)) as (b & Hb). rewrite Hb. cbn [bind].
    assert (E : b && s_ltb (p_sqlen (p_sub (q_start q) (q_end q))) s_eps = false).
    { destruct Hl as [->| X]; [apply andb_false_r|]. rewrite X in Hb. assert (b = false) as -> by congruence. reflexivity. }
    rewrite E. rewrite !cw_axis. apply Nat.ltb_lt in Hk. rewrite Hk. cbn [bind]. cbv zeta. rewrite Hr. cbn [bind].
    pose proof (roots_length _ _ _ _ Hr) as L. pose proof (filter_length_le in_unit r) as L'.
    now rewrite av_extend_le by (cbn [length]; lia).
  Qed.

  Section At.
    Variable r : R.
    Hypotheses (Hr : 0 <= r <= 1) (Hroot : bezier_poly [val s; val c; val e] r = val v).
    (** the slope of the coordinate there *)
    Local Notation w := (Rabs (2 * A * r + B)).

    Lemma exact_root : A * r * r + B * r + (val s - val v) = 0.
    Proof. rewrite <- Hroot, poly2. ring. Qed.

    Lemma uM_facts : uro * 1 <= uro * M <= M / 2048.
    Proof.
      pose proof uro_pos. pose proof uro_small. split; [apply Rmult_le_compat_l; lra|].
      unfold Rdiv. rewrite (Rmult_comm M). apply Rmult_le_compat_r; lra.
    Qed.

    Lemma residual_at : Rabs (val fA * r * r + val fB * r + val fC) <= 131 / 10 * (uro * M).
    Proof.
      destruct (coef_ok q v M k HM H8 Bs Bc Be Fv Bv Hk) as (_ & _ & _ & EA & EB & EC & _).
      pose proof exact_root as Z.
      set (rA := val fA - A) in *. set (rB := val fB - B) in *. set (rC := val fC - (val s - val v)) in *.
      replace (val fA * r * r + val fB * r + val fC) with (rA * (r * r) + rB * r + rC + (A * r * r + B * r + (val s - val v)))
        by (unfold rA, rB, rC; ring).
      rewrite Z, Rplus_0_r. assert (tt : 0 <= r * r <= 1) by nra. pose proof uM_facts. pose proof uro_pos.
      eapply Rle_trans; [apply Rabs_triang|]. eapply Rle_trans; [apply Rplus_le_compat_r, Rabs_triang|].
      rewrite !(Rabs_mult _ _), !(Rabs_pos_eq r) by lra. 
      assert (Rabs rA * (r * r) <= 71 / 10 * (uro * M) * 1) by (apply Rmult_le_compat; try lra; apply Rabs_pos).
      assert (Rabs rB * r <= 4 * (uro * M) * 1) by (apply Rmult_le_compat; try lra; apply Rabs_pos). lra.
    Qed.

    Lemma slope_at : Rabs (2 * val fA * r + val fB) >= w - 182 / 10 * (uro * M).
    Proof.
      destruct (coef_ok q v M k HM H8 Bs Bc Be Fv Bv Hk) as (_ & _ & _ & EA & EB & _).
      set (rA := val fA - A) in *. set (rB := val fB - B) in *.
      replace (2 * val fA * r + val fB) with ((2 * A * r + B) - - (2 * (rA * r) + rB)) by (unfold rA, rB; ring).
      pose proof (Rabs_triang_inv (2 * A * r + B) (- (2 * (rA * r) + rB))) as T. rewrite Rabs_Ropp in T.
      assert (Rabs (2 * (rA * r) + rB) <= 182 / 10 * (uro * M)); [|lra].
      eapply Rle_trans; [apply Rabs_triang|]. rewrite !Rabs_mult, (Rabs_pos_eq 2), (Rabs_pos_eq r) by lra.
      pose proof uM_facts. pose proof uro_pos.
      assert (Rabs rA * r <= 71 / 10 * (uro * M) * 1) by (apply Rmult_le_compat; try lra; apply Rabs_pos). lra.
    Qed.

    Lemma in_unit_of (t : float) E : fin t -> Rabs (val t - r) <= E -> E < r < 1 - E -> in_unit t = true.
    Proof.
      intros Ft Ht He. apply Rabs_le_inv in Ht. unfold in_unit.
      destruct (lit_small 0 ltac:(lia)) as [F0 V0]. destruct (lit_small 1 ltac:(lia)) as [F1 V1].
      rewrite !ltb_val by assumption. rewrite V0, V1. apply andb_true_intro. split; apply Rlt_bool_true; lra.
    Qed.

    Theorem solve_complete : 16 * (uro * M) <= Rabs A -> 400 * (uro * (M * M)) <= w * w ->
      let E := 800 * (uro * (M * M)) / (Rabs A * w) in
      E < r < 1 - E ->
      exists l t, quad_solve_t_for_axis q v k = Ret l /\ In t l /\ fin t /\ Rabs (val t - r) <= E.
    Proof.
      intros HA Hw E HE. pose proof uro_pos as U. pose proof uro_small as U'. pose proof uM_facts as uM.
      destruct (coef_ok q v M k HM H8 Bs Bc Be Fv Bv Hk) as (FA & FB & FC & EA & EB & EC & EZ).
      destruct (coef_size q v M k HM H8 Bs Bc Be Fv Bv Hk) as (SA & SB & SC & SW).
      pose proof residual_at as R. pose proof slope_at as Sl.
      set (a := val fA) in *. set (b := val fB) in *. set (cc := val fC) in *.
      assert (MM : 1 <= M * M) by nra.
      assert (U1 : 0 < uro * (M * M)) by (apply Rmult_lt_0_compat; lra).
      assert (Pw : 0 < w).
      { destruct (Rle_lt_or_eq_dec 0 w (Rabs_pos _)) as [H|H]; [exact H|]. rewrite <- H in Hw. lra. }
      assert (A0 : 0 < Rabs A) by lra.
      assert (B1 : Rabs A / 2 <= Rabs a).
      { pose proof (Rabs_triang_inv A (A - a)) as TI. replace (A - (A - a)) with a in TI by ring.
        rewrite (Rabs_minus_sym A) in TI. lra. }
      assert (Na : a <> 0) by (intros Z; rewrite Z, Rabs_R0 in B1; lra).
      (* u M is small against w *)
      assert (uMw : 40 * (uro * M) <= w).
      { apply Rsqr_incr_0; [|lra|lra]. unfold Rsqr.
        apply Rle_trans with (400 * (uro * (M * M))); [|exact Hw].
        replace (40 * (uro * M) * (40 * (uro * M))) with (1600 * uro * (uro * (M * M))) by ring.
        apply Rmult_le_compat_r; lra. }
      assert (uMw2 : 880 * (uro * M) <= w).
      { apply Rsqr_incr_0; [|lra|lra]. unfold Rsqr.
        apply Rle_trans with (400 * (uro * (M * M))); [|exact Hw].
        replace (880 * (uro * M) * (880 * (uro * M))) with (774400 * uro * (uro * (M * M))) by ring.
        apply Rmult_le_compat_r; lra. }
      set (wh := Rabs (2 * a * r + b)) in *.
      assert (W1 : 97 / 100 * w <= wh) by lra.
      assert (W2 : 94 / 100 * (w * w) <= wh * wh).
      { assert (97 / 100 * w * (97 / 100 * w) <= wh * wh) by (apply Rmult_le_compat; lra). nra. }
      assert (Dq : b * b - 4 * (a * cc) = wh * wh - 4 * (a * (a * r * r + b * r + cc))).
      { unfold wh. rewrite <- Rabs_mult, (Rabs_pos_eq ((2 * a * r + b) * _)) by apply Rle_0_sqr. ring. }
      assert (Ba4 : Rabs a <= 4004 / 1000 * M).
      { destruct (Bs k Hk) as [_ Vs]. destruct (Bc k Hk) as [_ Vc]. destruct (Be k Hk) as [_ Ve].
        apply Rabs_le_inv in Vs, Vc, Ve, EA. apply Rabs_le. unfold a in *. lra. }
      assert (Dl : Rabs (4 * (a * (a * r * r + b * r + cc))) <= 210 * (uro * (M * M))).
      { rewrite !Rabs_mult, (Rabs_pos_eq 4) by lra.
        assert (Rabs a * Rabs (a * r * r + b * r + cc) <= 4004 / 1000 * M * (131 / 10 * (uro * M)))
          by (apply Rmult_le_compat; try apply Rabs_pos; assumption).
        replace (4004 / 1000 * M * (131 / 10 * (uro * M))) with (4004 / 1000 * (131 / 10) * (uro * (M * M))) in H by ring. lra. }
      apply Rabs_le_inv in Dl.
      assert (D1 : 41 / 100 * (w * w) <= b * b - 4 * (a * cc)) by (rewrite Dq; lra).
      assert (SWu : uro * spread a b cc (5 * M) <= uro * (51 * (M * M))) by (apply Rmult_le_compat_l; lra).
      assert (D2 : 11 / 5 * uro * spread a b cc (5 * M) < b * b - 4 * (a * cc)) by lra.
      assert (Sq : 64 / 100 * w <= sqrt (b * b - 4 * (a * cc))).
      { apply Rsqr_incr_0; [|lra|apply sqrt_pos]. rewrite Rsqr_sqrt by lra. unfold Rsqr. nra. }
      assert (La : 2 * uro <= Rabs a) by lra.
      destruct (two_roots' fA fB fC (5 * M)) as (t1 & t2 & Hl2 & T1 & T2); auto; try lra.
      pose proof (solve_filter _ Hl2) as Hs.
      fold a b cc in T1, T2.
      assert (TB : 9 / 2 * uro * spread a b cc (5 * M) / (Rabs a * sqrt (b * b - 4 * (a * cc)))
                   <= 718 * (uro * (M * M)) / (Rabs A * w)).
      { apply Rle_trans with (2295 / 10 * (uro * (M * M)) / (Rabs A / 2 * (64 / 100 * w))).
        - assert (X1 : 9 / 2 * uro * spread a b cc (5 * M) <= 2295 / 10 * (uro * (M * M))) by lra.
          assert (Hden : 0 < Rabs A / 2 * (64 / 100 * w)) by (apply Rmult_lt_0_compat; lra).
          assert (Hden2 : Rabs A / 2 * (64 / 100 * w) <= Rabs a * sqrt (b * b - 4 * (a * cc))) by (apply Rmult_le_compat; lra).
          apply Rle_trans with (2295 / 10 * (uro * (M * M)) / (Rabs a * sqrt (b * b - 4 * (a * cc)))).
          + apply Rmult_le_compat_r; [left; apply Rinv_0_lt_compat; lra|exact X1].
          + apply Rmult_le_compat_l; [lra|]. apply Rinv_le_contravar; assumption.
        - replace (2295 / 10 * (uro * (M * M)) / (Rabs A / 2 * (64 / 100 * w)))
            with (2295 / 10 * 2 * 100 / 64 * (uro * (M * M)) / (Rabs A * w)) by (field; lra).
          apply Rmult_le_compat_r; [left; apply Rinv_0_lt_compat, Rmult_lt_0_compat; lra|]. lra. }
      assert (RB : 2 * (131 / 10 * (uro * M)) / (97 / 100 * w + 64 / 100 * w) <= 82 * (uro * (M * M)) / (Rabs A * w)).
      { assert (A4 : Rabs A <= 4 * M).
        { destruct (Bs k Hk) as [_ Vs]. destruct (Bc k Hk) as [_ Vc]. destruct (Be k Hk) as [_ Ve].
          apply Rabs_le_inv in Vs, Vc, Ve. apply Rabs_le. lra. }
        apply Rmult_le_reg_r with (Rabs A * w); [apply Rmult_lt_0_compat; lra|].
        replace (2 * (131 / 10 * (uro * M)) / (97 / 100 * w + 64 / 100 * w) * (Rabs A * w))
          with (262 / 10 * 100 / 161 * (uro * M) * Rabs A) by (field; lra).
        replace (82 * (uro * (M * M)) / (Rabs A * w) * (Rabs A * w)) with (82 * (uro * M) * M) by (field; lra).
        assert (262 / 10 * 100 / 161 * (uro * M) * Rabs A <= 262 / 10 * 100 / 161 * (uro * M) * (4 * M)) by (apply Rmult_le_compat_l; lra).
        assert (0 <= uro * M * M) by (apply Rmult_le_pos; lra). lra. }
      assert (EE : E = 82 * (uro * (M * M)) / (Rabs A * w) + 718 * (uro * (M * M)) / (Rabs A * w)) by (unfold E; field; lra).
      (* which of the two *)
      assert (N : Rabs ((- b - sqrt (b * b - 4 * (a * cc))) / (2 * a) - r) <= 82 * (uro * (M * M)) / (Rabs A * w) \/
                  Rabs ((- b + sqrt (b * b - 4 * (a * cc))) / (2 * a) - r) <= 82 * (uro * (M * M)) / (Rabs A * w)).
      { assert (Pd : 0 <= b * b - 4 * (a * cc)) by (pose proof (Rmult_lt_0_compat _ _ Pw Pw); lra).
        set (d := sqrt (b * b - 4 * (a * cc))) in *. pose proof (sqrt_sqrt _ Pd) as Sd. fold d in Sd.
        set (y := 2 * a * r + b) in *. set (p := a * r * r + b * r + cc) in *.
        assert (Ey : (y - d) * (y + d) = 4 * a * p) by (replace ((y - d) * (y + d)) with (y * y - d * d) by ring; rewrite Sd; unfold y, p; ring).
        assert (G : forall z z', z * z' = 4 * a * p -> 97 / 100 * w + 64 / 100 * w <= Rabs z' ->
                    Rabs (- z / (2 * a)) <= 2 * (131 / 10 * (uro * M)) / (97 / 100 * w + 64 / 100 * w)).
        { intros z z' Hz Hz'. assert (Pa : 0 < Rabs a) by now apply Rabs_pos_lt.
          unfold Rdiv. rewrite Rabs_mult, Rabs_Ropp, Rabs_inv, Rabs_mult, (Rabs_pos_eq 2) by lra.
          set (ww := 97 * / 100 * w + 64 * / 100 * w). assert (Pww : 0 < ww) by (unfold ww; lra).
          assert (Bz : Rabs z * ww <= 4 * Rabs a * (131 / 10 * (uro * M))).
          { apply Rle_trans with (Rabs z * Rabs z'); [apply Rmult_le_compat_l; [apply Rabs_pos|exact Hz']|].
            rewrite <- Rabs_mult, Hz, !Rabs_mult, (Rabs_pos_eq 4) by lra. apply Rmult_le_compat_l; [lra|exact R]. }
          apply Rmult_le_reg_r with (2 * Rabs a * ww); [apply Rmult_lt_0_compat; lra|].
          replace (Rabs z * / (2 * Rabs a) * (2 * Rabs a * ww)) with (Rabs z * ww) by (field; lra).
          replace (2 * (131 * / 10 * (uro * M)) * / ww * (2 * Rabs a * ww)) with (4 * Rabs a * (131 / 10 * (uro * M))) by (field; lra).
          exact Bz. }
        destruct (Rle_lt_dec 0 y) as [Y|Y].
        - right. replace ((- b + d) / (2 * a) - r) with (- (y - d) / (2 * a)) by (unfold y; field; exact Na).
          eapply Rle_trans; [|exact RB]. apply G with (y + d); [exact Ey|].
          unfold wh in W1. rewrite (Rabs_pos_eq y) in W1 by exact Y. rewrite (Rabs_pos_eq (y + d)); lra.
        - left. replace ((- b - d) / (2 * a) - r) with (- (y + d) / (2 * a)) by (unfold y; field; exact Na).
          eapply Rle_trans; [|exact RB]. apply G with (y - d); [rewrite <- Ey; ring|].
          unfold wh in W1. rewrite (Rabs_left y) in W1 by exact Y. rewrite (Rabs_left (y - d)); lra. }
      assert (Fin : forall t, In t [t1; t2] -> fin t).
      { intros t Ht. exact (proj1 (root_residual fA fB fC (5 * M) ltac:(lra) ltac:(lra) ltac:(lra) FA FB FC SA SB SC _ t La Hl2 Ht)). }
      assert (Fnd : forall t x, In t [t1; t2] -> Rabs (val t - x) <= 718 * (uro * (M * M)) / (Rabs A * w) ->
                    Rabs (x - r) <= 82 * (uro * (M * M)) / (Rabs A * w) ->
                    exists l t, quad_solve_t_for_axis q v k = Ret l /\ In t l /\ fin t /\ Rabs (val t - r) <= E).
      { intros t x Ht Hx Hxr. exists (filter in_unit [t1; t2]), t. split; [exact Hs|].
        assert (Hc : Rabs (val t - r) <= E).
        { replace (val t - r) with ((val t - x) + (x - r)) by ring. eapply Rle_trans; [apply Rabs_triang|]. lra. }
        split; [|split; [now apply Fin|exact Hc]]. apply filter_In. split; [exact Ht|].
        apply in_unit_of with E; auto. }
      destruct N as [N|N]; [apply Fnd with (2 := Rle_trans _ _ _ T1 TB) (3 := N)|apply Fnd with (2 := Rle_trans _ _ _ T2 TB) (3 := N)]; cbn; auto.
    Qed.

    Theorem solve_complete_linear : A = 0 -> 8 * (uro * M) <= Rabs B ->
      let E := 31 * (uro * M) / Rabs B in
      E < r < 1 - E ->
      exists l t, quad_solve_t_for_axis q v k = Ret l /\ In t l /\ fin t /\ Rabs (val t - r) <= E.
    Proof.
      intros HA HB E HE. pose proof uro_pos as U. pose proof uro_small as U'. pose proof uM_facts as uM.
      destruct (coef_ok q v M k HM H8 Bs Bc Be Fv Bv Hk) as (FA & FB & FC & EA & EB & EC & EZ).
      destruct (coef_size q v M k HM H8 Bs Bc Be Fv Bv Hk) as (SA & SB & SC & SW).
      pose proof residual_at as R. specialize (EZ HA). rewrite EZ in R.
      assert (B1 : Rabs B / 2 <= Rabs (val fB)).
      { pose proof (Rabs_triang_inv B (B - val fB)) as TI. replace (B - (B - val fB)) with (val fB) in TI by ring.
        rewrite (Rabs_minus_sym B) in TI. lra. }
      destruct (linear_roots' fA fB fC (5 * M)) as (t & Ht & Ft & T); auto; try lra.
      { rewrite EZ, Rabs_R0. lra. }
      exists (filter in_unit [t]), t. split; [now apply solve_filter|].
      assert (Hc : Rabs (val fC) <= 2001 / 1000 * M).
      { destruct (Bs k Hk) as [_ Vs]. apply Rabs_le_inv in Vs, EC. pose proof Bv as Bv'. apply Rabs_le_inv in Bv'. apply Rabs_le; lra. }
      assert (uC : uro * Rabs (val fC) <= 2001 / 1000 * (uro * M)).
      { replace (2001 / 1000 * (uro * M)) with (uro * (2001 / 1000 * M)) by ring. apply Rmult_le_compat_l; lra. }
      assert (et : 5 * M * eta <= 5 / 1024 * (uro * M)).
      { destruct theta as [_ T']. replace eta with (eta / uro * uro) by (field; lra).
        replace (5 * M * (eta / uro * uro)) with (5 * (eta / uro * (uro * M))) by ring.
        assert (eta / uro * (uro * M) <= / 1024 * (uro * M)) by (apply Rmult_le_compat_r; lra). lra. }
      assert (D : Rabs (val fB) * Rabs (val t - r) <= 152 / 10 * (uro * M)).
      { rewrite <- Rabs_mult.
        replace (val fB * (val t - r)) with ((val fB * val t + val fC) - (0 * r * r + val fB * r + val fC)) by ring.
        eapply Rle_trans; [apply Rabs_triang|]. rewrite Rabs_Ropp. lra. }
      assert (Hd : Rabs (val t - r) <= E).
      { unfold E. apply Rmult_le_reg_r with (Rabs B); [lra|].
        replace (31 * (uro * M) / Rabs B * Rabs B) with (31 * (uro * M)) by (field; lra).
        assert (Rabs (val t - r) * (Rabs B / 2) <= Rabs (val t - r) * Rabs (val fB)) by (apply Rmult_le_compat_l; [apply Rabs_pos|exact B1]).
        lra. }
      split; [|split; [exact Ft|exact Hd]]. apply filter_In. split; [now left|]. now apply in_unit_of with E.
    Qed.
  End At.
End Solve.
