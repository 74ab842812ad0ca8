(** C67-C70: split, derivative, arclen and distance_to_point in IEEE-754 arithmetic,
    for every binary format with at least 11 bits. *)
From Coq Require Import Reals List Arith ZArith Lia Lra.
From Flocq Require Import Core.Core IEEE754.BinarySingleNaN.
From Verif Require Import Base.Outcome Base.Scalar Model.Point Model.Line Model.Quadratic Model.Cubic
  Model.Bezier Inst.RealInst Inst.FloatInst Spec.Sums Spec.Lawful Spec.Bernstein Spec.Length Spec.Rounding Spec.Componentwise
  Spec.FloatPoints Spec.FloatCurves Spec.Points
  Proofs.FloatFacts Proofs.FloatPoint Proofs.FloatNear Proofs.FloatSplit Proofs.FloatLength Proofs.FloatCurve
  Proofs.PointFacts Proofs.FloatTrueLength.
Import ListNotations.
Local Open Scope R_scope.

Section Floats.
  Context {F : Format} {P : Type} {PT : Point float P} {CP : CwPoint float P}.
  Notation D := (p_dim (P := P)).
  (** R^dim needs a value of EPSILON; lengths do not depend on it *)
  #[local] Existing Instance Eps64.

  (** C67: the two halves follow the curve on [0, t] and on [t, 1] *)
  Theorem C67_quad (q l r : quad P) t M : quad_split q t = (l, r) -> 0 <= M -> 4 * M <= fmax ->
    fin t -> 0 <= val t <= 1 -> (forall p, In p (quad_control_points q) -> bounded M p) ->
    q_start l = q_start q /\ q_end l = q_start r /\ q_end r = q_end q /\
    forall i, (i < D)%nat ->
      (forall p, In p (quad_control_points l ++ quad_control_points r) -> fin (cw p i)) /\
      forall s, 0 <= s <= 1 ->
        Rabs (exact_at (quad_control_points l) s i - exact_at (quad_control_points q) (val t * s) i)
          <= 11 * uro * M + 3 * eta /\
        Rabs (exact_at (quad_control_points r) s i - exact_at (quad_control_points q) (val t + s * (1 - val t)) i)
          <= 11 * uro * M + 3 * eta.
  Proof.
    intros Hs HM H4 Ht Hr B. split; [|split; [|split]]; try (injection Hs as <- <-; reflexivity).
    intros i Hi. refine (quad_split_err M HM H4 q t i Hi Ht Hr _ _ _ l r Hs); apply B; cbn; auto.
  Qed.

  Theorem C67_cubic (c l r : cubic P) t M : cubic_split c t = (l, r) -> 0 <= M -> 4 * M <= fmax ->
    fin t -> 0 <= val t <= 1 -> (forall p, In p (cubic_control_points c) -> bounded M p) ->
    c_start l = c_start c /\ c_end l = c_start r /\ c_end r = c_end c /\
    forall i, (i < D)%nat ->
      (forall p, In p (cubic_control_points l ++ cubic_control_points r) -> fin (cw p i)) /\
      forall s, 0 <= s <= 1 ->
        Rabs (exact_at (cubic_control_points l) s i - exact_at (cubic_control_points c) (val t * s) i)
          <= 16 * uro * M + 4 * eta /\
        Rabs (exact_at (cubic_control_points r) s i - exact_at (cubic_control_points c) (val t + s * (1 - val t)) i)
          <= 16 * uro * M + 4 * eta.
  Proof.
    intros Hs HM H4 Ht Hr B. split; [|split; [|split]]; try (injection Hs as <- <-; reflexivity).
    intros i Hi. refine (cubic_split_err M HM H4 c t i Hi Ht Hr _ _ _ _ l r Hs); apply B; cbn; auto.
  Qed.

  Theorem C67_bezier (ps : list P) t M d : ps <> [] ->
    6 * INR (length ps - 1) * uro <= 1 -> 0 <= M -> 4 * M <= fmax -> fin t -> 0 <= val t <= 1 ->
    (forall p, In p ps -> bounded M p) ->
    exists l r, bezier_split (Bezier ps) t = Ret (Bezier l, Bezier r) /\
      length l = length ps /\ length r = length ps /\
      hd d l = hd d ps /\ last l d = hd d r /\ last r d = last ps d /\
      forall i, (i < D)%nat ->
        (forall p, In p l \/ In p r -> fin (cw p i)) /\
        forall s, 0 <= s <= 1 ->
          Rabs (exact_at l s i - exact_at ps (val t * s) i)
            <= 6 * INR (length ps - 1) * uro * M + 5 * INR (length ps - 1) * eta /\
          Rabs (exact_at r s i - exact_at ps (val t + s * (1 - val t)) i)
            <= 6 * INR (length ps - 1) * uro * M + 5 * INR (length ps - 1) * eta.
  Proof.
    intros A B C E G H K. exact (bezier_split_err ps t M d A B C E G H (fun p i Hp Hi => K p Hp i Hi)).
  Qed.

  (** C68: the derivative curve follows the derivative of the exact curve *)
  Theorem C68_line (l : line P) M i : (i < D)%nat -> 0 <= M -> 2 * M <= fmax ->
    bounded M (l_start l) -> bounded M (l_end l) ->
    fin (cw (line_derivative l) i) /\
    Rabs (val (cw (line_derivative l) i) - (val (cw (l_end l) i) - val (cw (l_start l) i))) <= 2 * uro * M.
  Proof. intros Hi HM H2 A B. exact (line_derivative_err M l i Hi H2 (A i Hi) (B i Hi)). Qed.

  Theorem C68_quad (q : quad P) M i s : (i < D)%nat -> 0 <= s <= 1 -> 0 <= M -> 6 * M <= fmax ->
    (forall p, In p (quad_control_points q) -> bounded M p) ->
    let l := quad_derivative q in
    fin (cw (l_start l) i) /\ fin (cw (l_end l) i) /\
    exists dv, derivable_pt_lim (fun s => exact_at (quad_control_points q) s i) s dv /\
      Rabs (exact_at [l_start l; l_end l] s i - dv) <= 10 * uro * M + eta.
  Proof.
    intros Hi Hs HM H6 B. refine (quad_derivative_err M q i s Hi Hs H6 _ _ _); apply B; cbn; auto.
  Qed.

  Theorem C68_cubic (c : cubic P) M i s : (i < D)%nat -> 0 <= s <= 1 -> 0 <= M -> 9 * M <= fmax ->
    (forall p, In p (cubic_control_points c) -> bounded M p) ->
    let q := cubic_derivative c in
    fin (cw (q_start q) i) /\ fin (cw (q_ctrl q) i) /\ fin (cw (q_end q) i) /\
    exists dv, derivable_pt_lim (fun s => exact_at (cubic_control_points c) s i) s dv /\
      Rabs (exact_at (quad_control_points q) s i - dv) <= 15 * uro * M + eta.
  Proof.
    intros Hi Hs HM H9 B. refine (cubic_derivative_err M c i s Hi Hs H9 _ _ _ _); apply B; cbn; auto.
  Qed.

  Theorem C68_bezier (ps : list P) M i s : (2 <= length ps)%nat ->
    (Z.of_nat (length ps - 1) <= 2 ^ fprec)%Z -> 3 * INR (length ps - 1) * M <= fmax ->
    (i < D)%nat -> 0 <= s <= 1 -> (forall p, In p ps -> bounded M p) ->
    exists qs dv, bezier_derivative (Bezier ps) = Ret (Bezier qs) /\ length qs = (length ps - 1)%nat /\
      (forall q, In q qs -> fin (cw q i)) /\
      derivable_pt_lim (fun s => exact_at ps s i) s dv /\
      Rabs (exact_at qs s i - dv) <= 5 * INR (length ps - 1) * uro * M + eta.
  Proof.
    intros A B C Hi Hs H. exact (bezier_derivative_err ps M i s A B C Hi Hs (fun p Hp => H p Hp i Hi)).
  Qed.

  (** C69: arclen is the length of the polyline through the exact curve points at
      1/n, 2/n, ..., 1, up to rounding.  (The piece from 0 to 1/n is missing: C34.) *)
  Section Lengths.
    Variable M : R.
    Hypotheses (HM : 0 <= M) (HD0 : (0 < D)%nat) (HD : 64 * INR (D + 1) * uro <= 1).

    Theorem C69_quad (q : quad P) n : (forall p, In p (quad_control_points q) -> bounded M p) ->
      (12 * (INR D + 2) * (M + 1)) * (12 * (INR D + 2) * (M + 1)) <= fmax ->
      (0 < n)%nat -> 4 * INR n * uro <= 1 ->
      exists a, quad_arclen q n = Ret a /\ fin a /\ 0 <= val a /\
        Rabs (val a - tail_length (quad_control_points q) n)
          <= 2 * INR n * (sqrt (INR D) * ((6 * INR D + 102) * uro * M + 6 * sqrt eta)).
    Proof. intros B NO. exact (quad_arclen_err M HM HD0 HD q B NO n). Qed.

    Theorem C69_cubic (c : cubic P) n : (forall p, In p (cubic_control_points c) -> bounded M p) ->
      (12 * (INR D + 3) * (M + 1)) * (12 * (INR D + 3) * (M + 1)) <= fmax ->
      (0 < n)%nat -> 4 * INR n * uro <= 1 ->
      exists a, cubic_arclen c n = Ret a /\ fin a /\ 0 <= val a /\
        Rabs (val a - tail_length (cubic_control_points c) n)
          <= 2 * INR n * (sqrt (INR D) * ((6 * INR D + 146) * uro * M + 6 * sqrt eta)).
    Proof. intros B NO. exact (cubic_arclen_err M HM HD0 HD c B NO n). Qed.

    Theorem C69_bezier (ps : list P) n : (2 <= length ps)%nat -> (forall p, In p ps -> bounded M p) ->
      6 * INR (length ps - 1) * uro <= 1 ->
      (12 * (INR D + INR (length ps - 1)) * (M + 1)) * (12 * (INR D + INR (length ps - 1)) * (M + 1)) <= fmax ->
      (0 < n)%nat -> 4 * INR n * uro <= 1 ->
      exists a, bezier_arclen (Bezier ps) n = Ret a /\ fin a /\ 0 <= val a /\
        Rabs (val a - tail_length ps n)
          <= 2 * INR n * (sqrt (INR D) * ((6 * INR D + 44 * INR (length ps - 1) + 14) * uro * M + 6 * sqrt eta)).
    Proof. intros L B G NO. exact (bezier_arclen_err M HM HD0 HD ps L B G NO n). Qed.

    (** C69: against the integral of the speed of the exact curve *)
    Theorem C69_quad_length (q : quad P) n L : (forall p, In p (quad_control_points q) -> bounded M p) ->
      (12 * (INR D + 2) * (M + 1)) * (12 * (INR D + 2) * (M + 1)) <= fmax ->
      (0 < n)%nat -> 4 * INR n * uro <= 1 -> leg_bound (map exact_point (quad_control_points q)) L ->
      exists a, quad_arclen q n = Ret a /\ fin a /\
        let A := arc_length (map exact_point (quad_control_points q)) in
        let e := 2 * INR n * (sqrt (INR D) * ((6 * INR D + 102) * uro * M + 6 * sqrt eta)) in
        val a <= A + e /\ A - 4 * L / INR n - e <= val a.
    Proof. intros B NO Hn Hu. exact (quad_float_length M HM HD0 HD n Hn Hu L q B NO). Qed.
    Theorem C69_cubic_length (c : cubic P) n L : (forall p, In p (cubic_control_points c) -> bounded M p) ->
      (12 * (INR D + 3) * (M + 1)) * (12 * (INR D + 3) * (M + 1)) <= fmax ->
      (0 < n)%nat -> 4 * INR n * uro <= 1 -> leg_bound (map exact_point (cubic_control_points c)) L ->
      exists a, cubic_arclen c n = Ret a /\ fin a /\
        let A := arc_length (map exact_point (cubic_control_points c)) in
        let e := 2 * INR n * (sqrt (INR D) * ((6 * INR D + 146) * uro * M + 6 * sqrt eta)) in
        val a <= A + e /\ A - 9 * L / INR n - e <= val a.
    Proof. intros B NO Hn Hu. exact (cubic_float_length M HM HD0 HD n Hn Hu L c B NO). Qed.
    Theorem C69_bezier_length (ps : list P) n L : (2 <= length ps)%nat -> (forall p, In p ps -> bounded M p) ->
      6 * INR (length ps - 1) * uro <= 1 ->
      (12 * (INR D + INR (length ps - 1)) * (M + 1)) * (12 * (INR D + INR (length ps - 1)) * (M + 1)) <= fmax ->
      (0 < n)%nat -> 4 * INR n * uro <= 1 -> leg_bound (map exact_point ps) L ->
      exists a, bezier_arclen (Bezier ps) n = Ret a /\ fin a /\
        let A := arc_length (map exact_point ps) in
        let e := 2 * INR n * (sqrt (INR D) * ((6 * INR D + 44 * INR (length ps - 1) + 14) * uro * M + 6 * sqrt eta)) in
        val a <= A + e /\ A - INR (length ps - 1) ^ 2 * L / INR n - e <= val a.
    Proof. intros L2 B G NO Hn Hu. exact (bezier_float_length M HM HD0 HD n Hn Hu L ps L2 B G NO). Qed.

    (** C70: distance_to_point is finite, not negative, and never exceeds the distance to
        any point of the exact curve by more than the move along one 64th of the curve and rounding *)
    Theorem C70_quad (q : quad P) p : (forall p, In p (quad_control_points q) -> bounded M p) ->
      (12 * (INR D + 2) * (M + 1)) * (12 * (INR D + 2) * (M + 1)) <= fmax -> bounded M p ->
      exists d, quad_distance_to_point q p = Ret d /\ fin d /\ 0 <= val d /\
        forall x, 0 <= x <= 1 ->
          val d <= gap (P := P) (exact_at (quad_control_points q) x) (fun i => val (cw p i))
                   + sqrt (INR D) * (M / 16 + (6 * INR D + 102) * uro * M + 6 * sqrt eta).
    Proof. intros B NO. exact (quad_distance_err M HM HD0 HD q B NO p). Qed.

    Theorem C70_cubic (c : cubic P) p : (forall p, In p (cubic_control_points c) -> bounded M p) ->
      (12 * (INR D + 3) * (M + 1)) * (12 * (INR D + 3) * (M + 1)) <= fmax -> bounded M p ->
      exists d, cubic_distance_to_point c p = Ret d /\ fin d /\ 0 <= val d /\
        forall x, 0 <= x <= 1 ->
          val d <= gap (P := P) (exact_at (cubic_control_points c) x) (fun i => val (cw p i))
                   + sqrt (INR D) * (3 * M / 32 + (6 * INR D + 146) * uro * M + 6 * sqrt eta).
    Proof. intros B NO. exact (cubic_distance_err M HM HD0 HD c B NO p). Qed.

    Theorem C70_bezier (ps : list P) p : (2 <= length ps)%nat -> (forall p, In p ps -> bounded M p) ->
      6 * INR (length ps - 1) * uro <= 1 ->
      (12 * (INR D + INR (length ps - 1)) * (M + 1)) * (12 * (INR D + INR (length ps - 1)) * (M + 1)) <= fmax ->
      bounded M p ->
      exists d, bezier_distance_to_point (Bezier ps) p = Ret d /\ fin d /\ 0 <= val d /\
        forall x, 0 <= x <= 1 ->
          val d <= gap (P := P) (exact_at ps x) (fun i => val (cw p i))
                   + sqrt (INR D) * (INR (length ps - 1) * M / 32
                                     + (6 * INR D + 44 * INR (length ps - 1) + 14) * uro * M + 6 * sqrt eta).
    Proof. intros L B G NO. exact (bezier_distance_err M HM HD0 HD ps L B G NO p). Qed.
  End Lengths.
End Floats.

(** The hypotheses hold for f64 curves through (0,0), (1,3), (4,1), (-2,2) with 1000 steps. *)
Section Concrete.
  #[local] Existing Instance Binary64.
  #[local] Existing Instance Eps64.
  Definition a0 : PointN float 2 := fpt2 (flt 0 0) (flt 0 0).
  Definition a1 : PointN float 2 := fpt2 (flt 1 0) (flt 3 0).
  Definition a2 : PointN float 2 := fpt2 (flt 4 0) (flt 1 0).
  Definition a3 : PointN float 2 := fpt2 (flt (-2) 0) (flt 2 0).

  Example a_bounded p : In p [a0; a1; a2; a3] -> bounded 4 p.
  Proof.
    intros [<-|[<-|[<-|[<-|[]]]]]; apply bounded_int2; try lia;
      (rewrite Rabs_right by lra; lra) || (rewrite Rabs_left by lra; lra).
  Qed.
  Example half_ok : fin (flt 1 (-1)) /\ 0 <= val (flt 1 (-1)) <= 1.
  Proof.
    split; [vm_compute; reflexivity|].
    assert (A : s_leb (flt 0 0) (flt 1 (-1)) = true) by (vm_compute; reflexivity).
    assert (B : s_leb (flt 1 (-1)) (flt 1 0) = true) by (vm_compute; reflexivity).
    rewrite leb_val in A by (vm_compute; reflexivity). rewrite leb_val in B by (vm_compute; reflexivity).
    rewrite (proj2 (lit_small 1 ltac:(lia)) : val (flt 1 0) = 1) in B. change (val (flt 0 0)) with 0 in A.
    destruct (Raux.Rle_bool_spec 0 (val (flt 1 (-1)))); [|discriminate].
    destruct (Raux.Rle_bool_spec (val (flt 1 (-1))) 1); [|discriminate]. split; assumption.
  Qed.

  Example C67_case : forall l r, cubic_split (Cubic a0 a1 a2 a3) (flt 1 (-1)) = (l, r) ->
    Rabs (exact_at (cubic_control_points l) (1 / 3) 1
          - exact_at (cubic_control_points (Cubic a0 a1 a2 a3)) (val (flt 1 (-1)) * (1 / 3)) 1)
      <= 16 * uro * 4 + 4 * eta.
  Proof.
    intros l r H. destruct half_ok as [H1 H2]. pose proof fmax_64 as FM.
    destruct (C67_cubic (Cubic a0 a1 a2 a3) l r (flt 1 (-1)) 4 H ltac:(lra) ltac:(lra) H1 H2 a_bounded)
      as (_ & _ & _ & G).
    destruct (G 1%nat ltac:(cbn; lia)) as [_ G1]. exact (proj1 (G1 (1 / 3) ltac:(lra))).
  Qed.

  Example C68_case : exists dv,
    derivable_pt_lim (fun s => exact_at [a0; a1; a2; a3] s 0) (1 / 3) dv /\
    Rabs (exact_at (quad_control_points (cubic_derivative (Cubic a0 a1 a2 a3))) (1 / 3) 0 - dv)
      <= 15 * uro * 4 + eta.
  Proof.
    pose proof fmax_64.
    apply (C68_cubic (Cubic a0 a1 a2 a3) 4 0 (1 / 3)); try exact a_bounded; try lra. cbn. lia.
  Qed.

  Lemma dim2 : INR (p_dim (P := PointN float 2)) = 2.
  Proof. simpl. ring. Qed.
  Lemma dim_pos : (0 < p_dim (P := PointN float 2))%nat.
  Proof. cbn. lia. Qed.
  Lemma dims_ok : 64 * INR (p_dim (P := PointN float 2) + 1) * uro <= 1.
  Proof. pose proof uro_64. simpl. lra. Qed.

  (** the bound is below 10^-9 here *)
  Example C69_case : exists a, cubic_arclen (Cubic a0 a1 a2 a3) 1000 = Ret a /\ fin a /\ 0 <= val a /\
    Rabs (val a - tail_length [a0; a1; a2; a3] 1000) <= / 1000000000.
  Proof.
    pose proof uro_64 as U. pose proof uro_pos as U0. pose proof fmax_64 as FM.
    assert (N : INR 1000 = 1000) by (rewrite INR_IZR_INZ; reflexivity).
    destruct (C69_cubic 4 ltac:(lra) dim_pos dims_ok (Cubic a0 a1 a2 a3) 1000)
      as (a & Ea & A1 & A2 & A3).
    - exact a_bounded.
    - rewrite !dim2. lra.
    - lia.
    - rewrite N. lra.
    - exists a. split; [exact Ea|]. split; [exact A1|]. split; [exact A2|].
      eapply Rle_trans; [exact A3|]. rewrite N. rewrite !dim2.
      pose proof (@sqrt_eta Binary64) as [S0 S1].
      assert (sqrt 2 <= 2).
      { rewrite <- (sqrt_square 2) at 2 by lra. apply sqrt_le_1_alt. lra. }
      pose proof (sqrt_pos (1 + 1)).
      apply Rle_trans with (2 * 1000 * (2 * ((6 * 2 + 146) * uro * 4 + 6 * sqrt eta))).
      + apply Rmult_le_compat_l; [lra|]. apply Rmult_le_compat_r; lra.
      + lra.
  Qed.

  (** legs of points with coordinates in [-4, 4] *)
  Lemma legs_12 (ps : list (PointN float 2)) : (forall p, In p ps -> bounded 4 p) -> leg_bound (map exact_point ps) 12.
  Proof.
    intros B. split; [lra|]. intros k p q Hp Hq.
    apply nth_error_In, in_map_iff in Hp as (x & <- & Hx). apply nth_error_In, in_map_iff in Hq as (y & <- & Hy).
    unfold dist. change (p_dim (P := PointN R (p_dim (P := PointN float 2)))) with 2%nat. cbn [Rsum].
    rewrite !coord_exact by (cbn; lia).
    rewrite <- (sqrt_square 12) by lra. apply sqrt_le_1_alt.
    assert (K : forall i, (i < 2)%nat -> (val (cw x i) - val (cw y i)) * (val (cw x i) - val (cw y i)) <= 64).
    { intros i Hi. destruct (B x Hx i Hi) as [_ Bx]. destruct (B y Hy i Hi) as [_ By].
      apply Rabs_le_inv in Bx. apply Rabs_le_inv in By. nra. }
    pose proof (K 0%nat ltac:(lia)). pose proof (K 1%nat ltac:(lia)). lra.
  Qed.
  Example C69_length_case : exists a, cubic_arclen (Cubic a0 a1 a2 a3) 1000 = Ret a /\ fin a /\
    let A := arc_length (map exact_point [a0; a1; a2; a3]) in
    let e := 2 * INR 1000 * (sqrt (INR 2) * ((6 * INR 2 + 146) * uro * 4 + 6 * sqrt eta)) in
    val a <= A + e /\ A - 9 * 12 / INR 1000 - e <= val a.
  Proof.
    pose proof uro_64 as U. pose proof fmax_64 as FM.
    assert (N : INR 1000 = 1000) by (rewrite INR_IZR_INZ; reflexivity).
    destruct (C69_cubic_length 4 ltac:(lra) dim_pos dims_ok (Cubic a0 a1 a2 a3) 1000 12)
      as (a & Ea & A1 & A2).
    - exact a_bounded.
    - rewrite !dim2. lra.
    - lia.
    - rewrite N. lra.
    - exact (legs_12 [a0; a1; a2; a3] a_bounded).
    - exists a. split; [exact Ea|]. split; [exact A1|exact A2].
  Qed.

  Example C70_case : exists d, cubic_distance_to_point (Cubic a0 a1 a2 a3) a3 = Ret d /\ fin d /\ 0 <= val d /\
    forall x, 0 <= x <= 1 -> val d <= gap (P := PointN float 2) (exact_at [a0; a1; a2; a3] x) (fun i => val (cw a3 i))
      + sqrt 2 * (3 * 4 / 32 + (6 * 2 + 146) * uro * 4 + 6 * sqrt eta).
  Proof.
    pose proof fmax_64 as FM.
    destruct (C70_cubic 4 ltac:(lra) dim_pos dims_ok (Cubic a0 a1 a2 a3) a3 a_bounded)
      as (d & Ed & D1 & D2 & D3).
    - rewrite !dim2. lra.
    - apply a_bounded. cbn. auto.
    - exists d. split; [exact Ed|]. split; [exact D1|]. split; [exact D2|]. rewrite dim2 in D3. exact D3.
  Qed.
End Concrete.

Print Assumptions C67_quad.
Print Assumptions C67_cubic.
Print Assumptions C67_bezier.
Print Assumptions C68_line.
Print Assumptions C68_quad.
Print Assumptions C68_cubic.
Print Assumptions C68_bezier.
Print Assumptions C69_quad.
Print Assumptions C69_cubic.
Print Assumptions C69_bezier.
Print Assumptions C69_quad_length.
Print Assumptions C69_cubic_length.
Print Assumptions C69_bezier_length.
Print Assumptions C70_quad.
Print Assumptions C70_cubic.
Print Assumptions C70_bezier.
