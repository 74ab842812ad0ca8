(** C92-C93: what [derivative] commutes with, repeated differentiation, and the arc
    length as the integral of the norm of [derivative]. *)
From Coq Require Import Reals List ZArith Arith Lia Lra.
From Coquelicot Require Import Coquelicot.
From Verif Require Import Base.Outcome Base.Scalar Model.Point Model.Line Model.Quadratic Model.Cubic
  Model.Bezier Inst.RealInst Spec.Sums Spec.Lawful Spec.Bernstein Spec.Points Spec.Length Spec.Maps Spec.Derivatives
  Proofs.PointFacts Proofs.RealTac Proofs.BezierGeneric Proofs.BezierReal Proofs.BoxSpec Proofs.DerivLaws.
Import ListNotations.
Local Open Scope R_scope.

Section Laws.
  Context {E : Eps} {P : Type} {PT : Point R P} {LP : LawfulPoint P}.

  (** C92: [derivative] is the only curve with one control point fewer that runs along
      the derivative of the curve *)
  Theorem C92_unique (ps qs : list P) : (2 <= length ps)%nat -> length qs = (length ps - 1)%nat ->
    (forall t x i, bezier_eval (Bezier qs) t = Ret x -> (i < p_dim (P := P))%nat ->
      derivable_pt_lim (fun t => curve_coord ps t i) t (coord x i)) ->
    bezier_derivative (Bezier ps) = Ret (Bezier qs).
  Proof. exact (derivative_unique ps qs). Qed.

  (** the derivative of a piece is the piece of the derivative, times the length of the
      parameter interval *)
  Theorem C92_split (ps : list P) t : (2 <= length ps)%nat -> exists l r ds dl dr,
    bezier_split (Bezier ps) t = Ret (Bezier l, Bezier r) /\
    bezier_derivative (Bezier ps) = Ret (Bezier ds) /\
    bezier_split (Bezier ds) t = Ret (Bezier dl, Bezier dr) /\
    bezier_derivative (Bezier l) = Ret (Bezier (map (fun p => p_mul p t) dl)) /\
    bezier_derivative (Bezier r) = Ret (Bezier (map (fun p => p_mul p (1 - t)) dr)).
  Proof. exact (derivative_split ps t). Qed.
  Theorem C92_split_cubic (c : cubic P) t :
    let scaled (q : quad P) s := Quad (p_mul (q_start q) s) (p_mul (q_ctrl q) s) (p_mul (q_end q) s) in
    cubic_derivative (fst (cubic_split c t)) = scaled (fst (quad_split (cubic_derivative c) t)) t /\
    cubic_derivative (snd (cubic_split c t)) = scaled (snd (quad_split (cubic_derivative c) t)) (1 - t).
  Proof. exact (cubic_derivative_split c t). Qed.
  Theorem C92_split_quad (q : quad P) t u :
    line_eval (quad_derivative (fst (quad_split q t))) u = p_mul (line_eval (quad_derivative q) (t * u)) t /\
    line_eval (quad_derivative (snd (quad_split q t))) u
    = p_mul (line_eval (quad_derivative q) (t + (1 - t) * u)) (1 - t).
  Proof. exact (quad_derivative_split q t u). Qed.
  (** so the two pieces leave the cut in the direction of the curve *)
  Theorem C92_velocity (ps : list P) t v l r ds dl dr : bezier_derivative (Bezier ps) = Ret (Bezier ds) ->
    bezier_eval (Bezier ds) t = Ret v ->
    bezier_split (Bezier ps) t = Ret (Bezier l, Bezier r) ->
    bezier_derivative (Bezier l) = Ret (Bezier dl) -> bezier_derivative (Bezier r) = Ret (Bezier dr) ->
    bezier_eval (Bezier dl) 1 = Ret (p_mul v t) /\ bezier_eval (Bezier dr) 0 = Ret (p_mul v (1 - t)).
  Proof. exact (split_velocity ps t v l r ds dl dr). Qed.

  Theorem C92_reverse (ps : list P) : (2 <= length ps)%nat -> exists ds,
    bezier_derivative (Bezier ps) = Ret (Bezier ds) /\
    bezier_derivative (Bezier (rev ps)) = Ret (Bezier (map (fun p => p_mul p (-1)) (rev ds))).
  Proof. exact (derivative_reverse ps). Qed.

  (** the derivative vanishes exactly for a curve of one point *)
  Theorem C92_zero_iff (ps ds : list P) : bezier_derivative (Bezier ps) = Ret (Bezier ds) -> ps <> [] ->
    ((forall t x i, bezier_eval (Bezier ds) t = Ret x -> (i < p_dim (P := P))%nat -> coord x i = 0) <->
     (forall p q, In p ps -> In q ps -> p = q)).
  Proof. exact (derivative_zero_iff ps ds). Qed.

  (** called k times, [derivative] gives the k-th derivative; N times is once too often *)
  Theorem C92_kth k (ps : list P) : (k < length ps)%nat -> exists ds (f : R -> P),
    derivative_times k (Bezier ps) = Ret (Bezier ds) /\ length ds = (length ps - k)%nat /\
    (forall t, bezier_eval (Bezier ds) t = Ret (f t)) /\
    forall i, (i < p_dim (P := P))%nat -> nth_derivative k (fun t => curve_coord ps t i) (fun t => coord (f t) i).
  Proof. exact (derivative_kth_eval k ps). Qed.
  Theorem C92_too_often (ps : list P) : ps <> [] -> derivative_times (length ps) (Bezier ps) = Panic.
  Proof. exact (derivative_too_often ps). Qed.

  (** the whole curve from the values at [t] of its derivatives *)
  Theorem C92_taylor (ps : list P) t : ps <> [] -> exists xs, length xs = length ps /\
    (forall k x, nth_error xs k = Some x ->
      exists c, derivative_times k (Bezier ps) = Ret c /\ bezier_eval c t = Ret x) /\
    forall h y i, bezier_eval (Bezier ps) (t + h) = Ret y -> (i < p_dim (P := P))%nat ->
      coord y i = Rsum (fun k => h ^ k / INR (fact k) * coord (nth k xs p_default) i) (length ps).
  Proof. exact (bezier_taylor ps t). Qed.

  (** C93: the arc length is the integral of the norm of the derivative evaluated *)
  Theorem C93_arc_length (ps ds : list P) (v : R -> P) : bezier_derivative (Bezier ps) = Ret (Bezier ds) ->
    (forall t, 0 < t < 1 -> bezier_eval (Bezier ds) t = Ret (v t)) ->
    arc_length ps = RInt (fun t => sqrt (Rsum (fun i => coord (v t) i * coord (v t) i) (p_dim (P := P)))) 0 1.
  Proof. exact (arc_length_derivative ps ds v). Qed.
  Theorem C93_quad (q : quad P) : arc_length (quad_control_points q)
    = RInt (fun t => sqrt (Rsum (fun i => coord (line_eval (quad_derivative q) t) i
                                        * coord (line_eval (quad_derivative q) t) i) (p_dim (P := P)))) 0 1.
  Proof. exact (quad_arc_length q). Qed.
  Theorem C93_cubic (c : cubic P) : arc_length (cubic_control_points c)
    = RInt (fun t => sqrt (Rsum (fun i => coord (quad_eval (cubic_derivative c) t) i
                                        * coord (quad_eval (cubic_derivative c) t) i) (p_dim (P := P)))) 0 1.
  Proof. exact (cubic_arc_length c). Qed.
End Laws.

Section Maps.
  Context {E : Eps} {P Q : Type} {PT : Point R P} {QT : Point R Q} {LP : LawfulPoint P} {LQ : LawfulPoint Q}.

  (** an affine map moves the derivative by its linear part *)
  Theorem C92_affine (F L : P -> Q) (ps : list P) : linear_map L ->
    (forall p q j, (j < p_dim (P := Q))%nat -> coord (F p) j - coord (F q) j = coord (L p) j - coord (L q) j) ->
    (2 <= length ps)%nat ->
    exists ds, bezier_derivative (Bezier ps) = Ret (Bezier ds) /\
      bezier_derivative (Bezier (map F ps)) = Ret (Bezier (map L ds)).
  Proof. exact (derivative_affine F L ps). Qed.
End Maps.

(** ** Concrete cases *)
(** t^3 has the derivatives 3t^2, 6t, 6; and 2^3 = 1 + 3 + 6/2 + 6/6 *)
Example C92_ex {E : Eps} :
  derivative_times 1 (Bezier [pt1 0; pt1 0; pt1 0; pt1 1]) = Ret (Bezier [pt1 0; pt1 0; pt1 3]) /\
  derivative_times 2 (Bezier [pt1 0; pt1 0; pt1 0; pt1 1]) = Ret (Bezier [pt1 0; pt1 6]) /\
  derivative_times 3 (Bezier [pt1 0; pt1 0; pt1 0; pt1 1]) = Ret (Bezier [pt1 6]) /\
  Rsum (fun k => 1 ^ k / INR (fact k) * nth k [1; 3; 6; 6] 0) 4 = 8.
Proof.
  assert (D1 : bezier_derivative (Bezier [pt1 0; pt1 0; pt1 0; pt1 1]) = Ret (Bezier [pt1 0; pt1 0; pt1 3])).
  { rewrite (bezier_derivative_closed _ (pt1 0)) by (simpl; lia). cbn [length Nat.sub seq map nth Nat.add].
    repeat f_equal; pext; change (p_dim (P := P1)) with 1%nat in Hi; replace i with 0%nat by lia;
      rewrite !coord_pt1, INR_IZR_INZ; cbn; lra. }
  assert (D2 : bezier_derivative (Bezier [pt1 0; pt1 0; pt1 3]) = Ret (Bezier [pt1 0; pt1 6])).
  { rewrite (bezier_derivative_closed _ (pt1 0)) by (simpl; lia). cbn [length Nat.sub seq map nth Nat.add].
    repeat f_equal; pext; change (p_dim (P := P1)) with 1%nat in Hi; replace i with 0%nat by lia;
      rewrite !coord_pt1, INR_IZR_INZ; cbn; lra. }
  assert (D3 : bezier_derivative (Bezier [pt1 0; pt1 6]) = Ret (Bezier [pt1 6])).
  { rewrite (bezier_derivative_closed _ (pt1 0)) by (simpl; lia). cbn [length Nat.sub seq map nth Nat.add].
    repeat f_equal; pext; change (p_dim (P := P1)) with 1%nat in Hi; replace i with 0%nat by lia;
      rewrite !coord_pt1, INR_IZR_INZ; cbn; lra. }
  cbn [derivative_times]. rewrite D1. cbn [bind]. rewrite D2. cbn [bind]. rewrite D3. cbn [bind].
  repeat (split; [reflexivity|]). cbn [Rsum nth pow fact]. rewrite !INR_IZR_INZ. cbn. lra.
Qed.
(** the segment from 0 to 3 has speed 3 *)
Example C93_ex {E : Eps} : arc_length [pt1 0; pt1 3] = 3.
Proof.
  assert (D : bezier_derivative (Bezier [pt1 0; pt1 3]) = Ret (Bezier [pt1 3])).
  { rewrite (bezier_derivative_closed _ (pt1 0)) by (simpl; lia). cbn [length Nat.sub seq map nth Nat.add].
    repeat f_equal; pext; change (p_dim (P := P1)) with 1%nat in Hi; replace i with 0%nat by lia;
      rewrite !coord_pt1, INR_IZR_INZ; cbn; lra. }
  rewrite (C93_arc_length _ _ (fun _ => pt1 3) D) by reflexivity.
  rewrite (RInt_ext _ (fun _ => 3)).
  - rewrite RInt_const. unfold scal; simpl; unfold mult; simpl. ring.
  - intros t _. change (p_dim (P := P1)) with 1%nat. cbn [Rsum]. rewrite coord_pt1.
    replace (0 + 3 * 3) with (3 * 3) by ring. apply sqrt_square. lra.
Qed.

Print Assumptions C92_unique.
Print Assumptions C92_split.
Print Assumptions C92_split_cubic.
Print Assumptions C92_split_quad.
Print Assumptions C92_velocity.
Print Assumptions C92_reverse.
Print Assumptions C92_zero_iff.
Print Assumptions C92_kth.
Print Assumptions C92_too_often.
Print Assumptions C92_taylor.
Print Assumptions C93_arc_length.
Print Assumptions C93_quad.
Print Assumptions C93_cubic.
Print Assumptions C92_affine.
