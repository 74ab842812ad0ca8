(** C127, continued: derivatives, arc lengths and solutions with a scalar wider than
    [NativeFloat].  Full statement: under [widening] every function of the crate returns what it
    returns for one scalar type.  [value.into()] (quadratic_bezier.rs:282), the factor of the
    derivative (bspline.rs:475) and the parameters of arclen are rounded to [NativeFloat]; the
    theorems say that nothing else is. *)
From Coq Require Import Reals ZArith List Arith Bool Lia Lra.
From Flocq Require Import Core.Core.
From Verif Require Import Base.Outcome Base.Scalar Model.Point Model.Line Model.Quadratic Model.Cubic Model.Bezier
  Model.BSpline Model.Segment Model.TwoScalars Inst.RealInst Inst.FloatInst Inst.ExactOver Spec.Sums Spec.Lawful Spec.Metric
  Spec.Points Spec.Rounding Spec.Widening Proofs.FloatFacts Proofs.FloatRoots Proofs.TwoScalars Proofs.Narrowing Proofs.NarrowMore
  Proofs.BSplineGeneric Proofs.BSplineEval Proofs.RealTac Props.TwoScalarsProps.
Import ListNotations.

(** the equation solved is that of the value converted there and back *)
Theorem C127_solve_partial {T S P : Type} {NT : Scalar T} {SS : Scalar S} {MX : Mixed T S} {PT : Point S P} {PS : Scaled T P}
  (c : quad P) v i : widening T S P ->
  quad_solve_t_for_axis2 (T := T) c v i =
  quad_solve_t_for_axis (ST := with_eps SS (m_from (s_eps : T))) c (m_from (m_into v : T)) i.
Proof. exact (fun W => w_quad_solve W c v i). Qed.
(** ... and the derivative of a Bezier curve loses nothing while its degree is a float *)
Theorem C126_wider_bezier_derivative {T S P : Type} {NT : Scalar T} {SS : Scalar S} {MX : Mixed T S} {PT : Point S P}
  {PS : Scaled T P} (b : bezier P) : widening T S P ->
  m_from (s_of_usize (length (bz_points b) - 1) : T) = s_of_usize (length (bz_points b) - 1) :> S ->
  bezier_derivative2 (T := T) b = bezier_derivative b.
Proof. exact (fun W => w_bezier_derivative W b). Qed.

Section Lost.
  Context {F : Format} {E : Eps} {P : Type} {PT : Point R P} {LP : LawfulPoint P}.
  Local Open Scope R_scope.

  (** the factor [D / (k(j+D+1) - k(j+1))] is rounded twice *)
  Theorem C127_derivative_partial D ks (ps : list P) s : bspline_new D ks ps = Ret (Ok s) -> (1 <= D)%nat ->
    (Z.of_nat D <= 2 ^ fprec)%Z ->
    exists s2, bspline_derivative2 (T := float) s = Ret s2 /\ bs_degree s2 = (D - 1)%nat /\ bs_knots s2 = ks /\
      length (bs_points s2) = (length ps - 1)%nat /\
      forall j i, (j + 1 < length ps)%nat -> (i < p_dim (P := P))%nat ->
        let g := nth (j + D + 1) ks 0 - nth (j + 1) ks 0 in
        let d := coord (nth (j + 1) ps p_default) i - coord (nth j ps p_default) i in
        0 < g <= fmax -> eta <= uro * g -> 2 * INR D <= fmax * g ->
        Rabs (coord (nth j (bs_points s2) p_default) i - INR D * d / g) <= (8 * uro * (INR D / g) + eta) * Rabs d.
  Proof. exact (spline_derivative_narrow D ks ps s). Qed.

  (** the chords are exact, only their ends are at rounded parameters; for cubics the first end is
      not rounded either *)
  Theorem C127_arclen_partial (q : quad P) (c : cubic P) (ps : list P) n :
    (13 <= femax)%Z -> ps <> [] -> (0 < n)%nat -> (Z.of_nat n <= 2 ^ fprec)%Z ->
    let chords (f : R -> P) (t : nat -> R) h := Rsum (fun i => dist (f (t (i + 1)%nat)) (f (t (i + 1)%nat + h))) (n - 1) in
    exists t h f, (forall i, (i <= n)%nat -> Rabs (t i - INR i / INR n) <= uro * (INR i / INR n) + eta) /\
      Rabs (h - 1 / INR n) <= uro * (1 / INR n) + eta /\
      (forall x, bezier_eval (Bezier ps) x = Ret (f x)) /\
      quad_arclen2 (T := float) q n = Ret (chords (quad_eval q) t h) /\
      cubic_arclen2 (T := float) c n = Ret (chords (cubic_eval c) (fun i => INR i / INR n) h) /\
      bezier_arclen2 (T := float) (Bezier ps) n = Ret (chords f t h).
  Proof. exact (fun H => arclen_narrow H q c ps n). Qed.

  Theorem C127_spline_arclen_partial D ks (ps : list P) s n : bspline_new D ks ps = Ret (Ok s) -> bs_kind s = Clamped ->
    (0 < n)%nat -> (Z.of_nat n <= 2 ^ fprec)%Z ->
    let lo := nth D ks 0 in let hi := nth (length ps) ks 0 in
    let x i := lo + INR i / INR n * (hi - lo) in
    exists e h, Rabs (h - 1 / INR n) <= uro * (1 / INR n) + eta /\
      (forall t, lo <= t <= hi -> bspline_eval2 (T := float) s t = Ret (Ok (e t))) /\
      (forall t, ~ (lo <= t <= hi) -> bspline_eval2 (T := float) s t = Ret (Err KnotDomainViolation) /\ e t = p_default) /\
      bspline_arclen2 (T := float) s n = Ret (Rsum (fun i => dist (e (x i)) (e (x i + h))) (n + 1)).
  Proof. exact (spline_arclen_narrow D ks ps s n). Qed.
End Lost.

(** a straight line over a span of length 3, in every format *)
Theorem C127_derivative_refuted {F : Format} {E : Eps} : exists s s1 s2 : bspline R P1,
  bspline_new 1 [0; 0; 3; 3]%R [pt1 0; pt1 1] = Ret (Ok s) /\
  bspline_derivative s = Ret s1 /\ bs_points s1 = [pt1 (1 / 3)] /\
  bspline_derivative2 (T := float) s = Ret s2 /\ bs_points s2 <> bs_points s1.
Proof. exact derivative_misses. Qed.

Local Open Scope R_scope.
Local Existing Instances Binary64 Eps64.
Example C127_solve_ex : quad_solve_t_for_axis2 (T := float) (Quad (pt1 0) (pt1 1) (pt1 3)) (1 / 3) 0 =
  quad_solve_t_for_axis (ST := with_eps RScalar (val s_eps)) (Quad (pt1 0) (pt1 1) (pt1 3)) (val (narrow (1 / 3))) 0.
Proof. refine (C127_solve_partial _ _ _ (C126_exact _)). cbn. lia. Qed.
Example C126_bezier_derivative_ex : bezier_derivative2 (T := float) (Bezier [pt1 0; pt1 1; pt1 3; pt1 (1 / 3)])
  = bezier_derivative (Bezier [pt1 0; pt1 1; pt1 3; pt1 (1 / 3)]).
Proof.
  apply C126_wider_bezier_derivative; [apply C126_exact; cbn; lia|].
  refine (eq_trans (proj2 (usize_ok 3 _)) _); [cbn; lia|reflexivity].
Qed.
Example C127_derivative_ex : exists s s2 : bspline R P1,
  bspline_new 1 [0; 0; 3; 3] [pt1 0; pt1 1] = Ret (Ok s) /\ bspline_derivative2 (T := float) s = Ret s2 /\
  Rabs (coord (nth 0 (bs_points s2) p_default) 0 - 1 / 3) <= 3 * uro + eta.
Proof.
  destruct (proj2 (new_ok_iff 1 [0; 0; 3; 3] [pt1 0; pt1 1])) as (s & Hn).
  { split; [cbn; lia|]. split; [reflexivity|]. intros i Hi. cbn in Hi.
    destruct i as [|[|[|i]]]; [| | |lia]; cbn; rs; apply Rltb_false; lra. }
  destruct (C127_derivative_partial 1 [0; 0; 3; 3] [pt1 0; pt1 1] s Hn) as (s2 & E2 & _ & _ & _ & H); [lia|cbn; lia|].
  exists s, s2. split; [exact Hn|]. split; [exact E2|].
  pose proof (@uro_pos Binary64) as U0. pose proof (@eta_pos Binary64) as E0. pose proof (@fmax_ge Binary64) as Fx.
  pose proof (@eta_le_uro Binary64) as EU.
  specialize (H 0%nat 0%nat (le_n 2) (le_n 1)). cbv zeta in H. cbn [nth Nat.add] in H.
  change (coord (pt1 1) 0) with 1 in H. change (coord (pt1 0) 0) with 0 in H. change (INR 1) with 1 in H.
  replace (3 - 0) with 3 in H by ring. replace (1 - 0) with 1 in H by ring.
  specialize (H ltac:(lra) ltac:(lra) ltac:(lra)). rewrite Rabs_R1 in H.
  replace (1 * 1 / 3) with (1 / 3) in H by field. eapply Rle_trans; [exact H|]. lra.
Qed.
Example C127_arclen_ex : exists t h f, Rabs (t 1%nat - INR 1 / INR 3) <= uro * (INR 1 / INR 3) + eta /\
  Rabs (h - 1 / INR 3) <= uro * (1 / INR 3) + eta /\
  (forall x, bezier_eval (Bezier [pt1 0; pt1 2]) x = Ret (f x)) /\
  bezier_arclen2 (T := float) (Bezier [pt1 0; pt1 2]) 3 =
    Ret (0 + dist (f (t 1%nat)) (f (t 1%nat + h)) + dist (f (t 2%nat)) (f (t 2%nat + h))).
Proof.
  destruct (C127_arclen_partial (Quad (pt1 0) (pt1 1) (pt1 2)) (Cubic (pt1 0) (pt1 1) (pt1 2) (pt1 3)) [pt1 0; pt1 2] 3)
    as (t & h & f & A & B & C & _ & _ & D); [cbn; lia|discriminate|lia|cbn; lia|].
  exists t, h, f. split; [exact (A 1%nat ltac:(lia))|]. split; [exact B|]. split; [exact C|]. exact D.
Qed.
Example C127_spline_arclen_ex : exists (s : bspline R P1) (e : R -> P1) (h : R),
  bspline_new 1 [0; 0; 1; 1] [pt1 1; pt1 2] = Ret (Ok s) /\ Rabs (h - 1 / INR 1) <= uro * (1 / INR 1) + eta /\
  bspline_arclen2 (T := float) s 1 = Ret (Rsum (fun i => dist (e (0 + INR i / INR 1 * (1 - 0))) (e (0 + INR i / INR 1 * (1 - 0) + h))) 2).
Proof.
  destruct (proj2 (new_ok_iff 1 [0; 0; 1; 1] [pt1 1; pt1 2])) as (s & Hn).
  { split; [cbn; lia|]. split; [reflexivity|]. intros i Hi. cbn in Hi.
    destruct i as [|[|[|i]]]; [| | |lia]; cbn; rs; apply Rltb_false; lra. }
  destruct (C127_spline_arclen_partial 1 [0; 0; 1; 1] [pt1 1; pt1 2] s 1 Hn) as (e & h & B & _ & _ & D).
  - pose proof eps_pos as He. destruct (kind_spec 1 _ _ s Hn) as [[_ A] [_ B]]. cbn [nth length Nat.add] in A, B.
    destruct A as [A|A]; [lra|exact A|]. destruct B as [B|B]; [lra|exact B|]. rewrite A in B. discriminate.
  - lia.
  - cbn. lia.
  - exists s, e, h. split; [exact Hn|]. split; [exact B|]. exact D.
Qed.

Print Assumptions C127_solve_partial.
Print Assumptions C126_wider_bezier_derivative.
Print Assumptions C127_derivative_partial.
Print Assumptions C127_arclen_partial.
Print Assumptions C127_spline_arclen_partial.
Print Assumptions C127_derivative_refuted.
