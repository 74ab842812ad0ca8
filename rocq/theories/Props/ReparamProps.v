(** C94: the parametrisation of a B-spline.  The knots x become s x + c with s > 0. *)
From Coq Require Import Reals List Arith Lia Lra.
From Verif Require Import Base.Outcome Base.Scalar Model.Point Model.BSpline Inst.RealInst
  Spec.Sums Spec.Lawful Spec.Points Spec.Maps Proofs.RealTac Proofs.Reparam Proofs.ReparamCE.
Import ListNotations.
Local Open Scope R_scope.

Section Reparam.
  Context {E : Eps} {P : Type} {PT : Point R P} {LP : LawfulPoint P}.

  (** no two knots are so close that EPSILON separates the two vectors; always true for s = 1 *)
  Theorem C94_new s c D ks (ps : list P) : 0 < s ->
    (forall x y, In x ks -> In y ks -> (s * (x - y) < eps <-> x - y < eps)) ->
    bspline_new D (map (fun x => s * x + c) ks) ps
    = omap (rmap (fun b => BSpline (bs_degree b) (map (fun x => s * x + c) (bs_knots b)) (bs_kind b) (bs_points b)))
        (bspline_new D ks ps).
  Proof. exact (fun Hs H => new_moved s c Hs D ks ps H). Qed.
  Theorem C94_domain s c D ks k (ps : list P) :
    knot_domain (BSpline D (map (fun x => s * x + c) ks) k ps)
    = omap (fun d => (s * fst d + c, s * snd d + c)) (knot_domain (BSpline D ks k ps)).
  Proof. exact (domain_moved s c (BSpline D ks k ps)). Qed.
  Theorem C94_eval s c D ks k (ps : list P) t : 0 < s ->
    (forall x y, In x (t :: ks) -> In y (t :: ks) -> (s * (x - y) < eps <-> x - y < eps)) ->
    bspline_eval (BSpline D (map (fun x => s * x + c) ks) k ps) (s * t + c) = bspline_eval (BSpline D ks k ps) t.
  Proof. exact (fun Hs H => eval_moved s c Hs (BSpline D ks k ps) t H). Qed.
  (** the derivative shrinks by s *)
  Theorem C94_derivative s c D ks (ps : list P) b : 0 < s -> bspline_new D ks ps = Ret (Ok b) -> (1 <= D)%nat ->
    (forall i, (i + 1 < length ps)%nat -> nth (i + 1) ks 0 <> nth (i + D + 1) ks 0) ->
    exists d, bspline_derivative b = Ret d /\
      bspline_derivative (BSpline (bs_degree b) (map (fun x => s * x + c) (bs_knots b)) (bs_kind b) (bs_points b)) =
      Ret (BSpline (bs_degree d) (map (fun x => s * x + c) (bs_knots d)) (bs_kind d)
             (map (fun p => p_mul p (/ s)) (bs_points d))).
  Proof. exact (fun Hs => derivative_moved s c Hs D ks ps b). Qed.

  (** shifts alone need no hypothesis *)
  Theorem C94_eval_shift c D ks k (ps : list P) t :
    bspline_eval (BSpline D (map (fun x => x + c) ks) k ps) (t + c) = bspline_eval (BSpline D ks k ps) t.
  Proof.
    pose proof (eval_moved 1 c Rlt_0_1 (BSpline D ks k ps) t (blind_one _)) as H. cbv zeta beta in H. rewrite Rmult_1_l in H.
    rewrite <- H. unfold moved. cbn [bs_degree bs_knots bs_kind bs_points].
    now rewrite (map_ext (fun x => x + c) (fun x => 1 * x + c)) by (intros; ring).
  Qed.
  Theorem C94_arclen_shift c D ks k (ps : list P) n :
    bspline_arclen (BSpline D (map (fun x => x + c) ks) k ps) n = bspline_arclen (BSpline D ks k ps) n.
  Proof.
    rewrite <- (arclen_shifted c (BSpline D ks k ps) n). unfold moved. cbn [bs_degree bs_knots bs_kind bs_points].
    now rewrite (map_ext (fun x => x + c) (fun x => 1 * x + c)) by (intros; ring).
  Qed.
End Reparam.

(** [arclen] steps by 1/n whatever the length of the domain: the same curve over
    [0,2] has another length than over [0,1] *)
Local Existing Instance Eps64.
Theorem C94_arclen_stretch_refuted : exists s s' : bspline R P1,
  bspline_new 1 [0;0;1;1] [pt1 1; pt1 1] = Ret (Ok s) /\
  bspline_new 1 [0;0;2;2] [pt1 1; pt1 1] = Ret (Ok s') /\
  bspline_arclen s 1 = Ret 1 /\ bspline_arclen s' 1 = Ret (3 / 2).
Proof. exact stretch_ce. Qed.
(** the same control points in reverse order do not give the same curve run backwards *)
Theorem C94_reverse_refuted : exists s s' : bspline R P1,
  bspline_new 1 [0;0;1;1] [pt1 1; pt1 3] = Ret (Ok s) /\ bspline_new 1 [0;0;1;1] [pt1 3; pt1 1] = Ret (Ok s') /\
  bspline_eval s (1 / 2) = Ret (Ok (pt1 (1 / 2))) /\ bspline_eval s' (1 - 1 / 2) = Ret (Ok (pt1 (3 / 2))).
Proof. exact reverse_ce. Qed.
(** without the hypothesis on EPSILON, a stretch changes the kind of the knot vector *)
Theorem C94_kind_refuted {E : Eps} : exists s s' : bspline R P1,
  bspline_new 1 [0; eps; 2 * eps; 3 * eps] [pt1 1; pt1 1] = Ret (Ok s) /\ bs_kind s = Unclamped /\
  bspline_new 1 [1 / 4 * 0; 1 / 4 * eps; 1 / 4 * (2 * eps); 1 / 4 * (3 * eps)] [pt1 1; pt1 1] = Ret (Ok s') /\
  bs_kind s' = Clamped.
Proof. exact shrink_ce. Qed.

(** the hypothesis of C94_eval, for knots 0,0,1,1, parameter 1/2 and s = 2 *)
Example C94_ex : forall x y, In x [1 / 2; 0; 0; 1; 1] -> In y [1 / 2; 0; 0; 1; 1] ->
  (2 * (x - y) < eps (Eps := Eps64) <-> x - y < eps (Eps := Eps64)).
Proof.
  assert (He : 0 < eps (Eps := Eps64) < 1 / 2).
  { unfold eps, Eps64. split; [apply eps64_pos|]. apply Rmult_lt_reg_l with (2 ^ 52); [lra|]. rewrite Rinv_r by lra. lra. }
  intros x y Hx Hy. simpl in Hx, Hy.
  repeat destruct Hx as [<-|Hx]; try destruct Hx; repeat destruct Hy as [<-|Hy]; try destruct Hy; split; intros; lra.
Qed.

Print Assumptions C94_new.
Print Assumptions C94_domain.
Print Assumptions C94_eval.
Print Assumptions C94_derivative.
Print Assumptions C94_eval_shift.
Print Assumptions C94_arclen_shift.
Print Assumptions C94_arclen_stretch_refuted.
Print Assumptions C94_reverse_refuted.
Print Assumptions C94_kind_refuted.
