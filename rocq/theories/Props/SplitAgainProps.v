(** C110: cutting a curve twice gives the same three pieces in whichever order the
    two cuts are made, and splitting commutes with reversing the curve. *)
From Coq Require Import Reals List ZArith Arith Lia Lra.
From Verif Require Import Base.Outcome Base.Scalar Model.Point Model.Line Model.Quadratic Model.Cubic
  Model.Bezier Inst.RealInst Spec.Lawful Spec.Points Spec.BoxOps Proofs.PointFacts Proofs.RealTac Proofs.BoxSpec
  Proofs.SplitAgain.
Import ListNotations.
Local Open Scope R_scope.

Section Again.
  Context {E : Eps} {P : Type} {PT : Point R P} {LP : LawfulPoint P}.

  (** the first cut at [t], the second one inside the left piece *)
  Theorem C110_quad_left (c : quad P) t s :
    fst (quad_split c (t * s)) = fst (quad_split (fst (quad_split c t)) s) /\
    (t * s <> 1 -> quad_split (snd (quad_split c (t * s))) ((t - t * s) / (1 - t * s))
                   = (snd (quad_split (fst (quad_split c t)) s), snd (quad_split c t))).
  Proof. exact (quad_split_left c t s). Qed.
  Theorem C110_cubic_left (c : cubic P) t s :
    fst (cubic_split c (t * s)) = fst (cubic_split (fst (cubic_split c t)) s) /\
    (t * s <> 1 -> cubic_split (snd (cubic_split c (t * s))) ((t - t * s) / (1 - t * s))
                   = (snd (cubic_split (fst (cubic_split c t)) s), snd (cubic_split c t))).
  Proof. exact (cubic_split_left c t s). Qed.
  Theorem C110_bezier_left (ps l r ll lr : list P) t s : ps <> [] ->
    bezier_split (Bezier ps) t = Ret (Bezier l, Bezier r) -> bezier_split (Bezier l) s = Ret (Bezier ll, Bezier lr) ->
    exists x, bezier_split (Bezier ps) (t * s) = Ret (Bezier ll, Bezier x) /\
      (t * s <> 1 -> bezier_split (Bezier x) ((t - t * s) / (1 - t * s)) = Ret (Bezier lr, Bezier r)).
  Proof. exact (bezier_split_left ps l r ll lr t s). Qed.

  (** the second one inside the right piece *)
  Theorem C110_quad_right (c : quad P) t s :
    snd (quad_split c (t + s * (1 - t))) = snd (quad_split (snd (quad_split c t)) s) /\
    (t + s * (1 - t) <> 0 -> quad_split (fst (quad_split c (t + s * (1 - t)))) (t / (t + s * (1 - t)))
                   = (fst (quad_split c t), fst (quad_split (snd (quad_split c t)) s))).
  Proof. exact (quad_split_right c t s). Qed.
  Theorem C110_cubic_right (c : cubic P) t s :
    snd (cubic_split c (t + s * (1 - t))) = snd (cubic_split (snd (cubic_split c t)) s) /\
    (t + s * (1 - t) <> 0 -> cubic_split (fst (cubic_split c (t + s * (1 - t)))) (t / (t + s * (1 - t)))
                   = (fst (cubic_split c t), fst (cubic_split (snd (cubic_split c t)) s))).
  Proof. exact (cubic_split_right c t s). Qed.
  Theorem C110_bezier_right (ps l r rl rr : list P) t s : ps <> [] ->
    bezier_split (Bezier ps) t = Ret (Bezier l, Bezier r) -> bezier_split (Bezier r) s = Ret (Bezier rl, Bezier rr) ->
    exists x, bezier_split (Bezier ps) (t + s * (1 - t)) = Ret (Bezier x, Bezier rr) /\
      (t + s * (1 - t) <> 0 -> bezier_split (Bezier x) (t / (t + s * (1 - t))) = Ret (Bezier l, Bezier rl)).
  Proof. exact (bezier_split_right ps l r rl rr t s). Qed.

  (** the curve walked backwards *)
  Theorem C110_quad_reverse (c : quad P) t :
    quad_split (quad_reverse c) (1 - t) = (quad_reverse (snd (quad_split c t)), quad_reverse (fst (quad_split c t))).
  Proof. exact (quad_split_rev c t). Qed.
  Theorem C110_cubic_reverse (c : cubic P) t :
    cubic_split (cubic_reverse c) (1 - t) = (cubic_reverse (snd (cubic_split c t)), cubic_reverse (fst (cubic_split c t))).
  Proof. exact (cubic_split_rev c t). Qed.
  Theorem C110_bezier_reverse (ps l r : list P) t : ps <> [] ->
    bezier_split (Bezier ps) t = Ret (Bezier l, Bezier r) ->
    bezier_split (Bezier (rev ps)) (1 - t) = Ret (Bezier (rev r), Bezier (rev l)).
  Proof. exact (bezier_split_rev ps l r t). Qed.
End Again.

(** an arch of height 4, cut at 1/2 and the left half again at 1/2: the left quarter *)
Example C110_quarter {E : Eps} :
  let c := Quad (pt1 0) (pt1 8) (pt1 0) in
  quad_split c (1/2) = (Quad (pt1 0) (pt1 4) (pt1 4), Quad (pt1 4) (pt1 4) (pt1 0)) /\
  quad_split (fst (quad_split c (1/2))) (1/2) = (Quad (pt1 0) (pt1 2) (pt1 3), Quad (pt1 3) (pt1 4) (pt1 4)) /\
  quad_split c (1/4) = (Quad (pt1 0) (pt1 2) (pt1 3), Quad (pt1 3) (pt1 6) (pt1 0)) /\
  quad_split (Quad (pt1 3) (pt1 6) (pt1 0)) (1/3) = (Quad (pt1 3) (pt1 4) (pt1 4), Quad (pt1 4) (pt1 4) (pt1 0)).
Proof.
  cbn zeta.
  assert (S : forall a b d t a' b' d' e' f' : R,
    a = a' -> a + (b - a) * t = b' -> a + (b - a) * t + ((b + (d - b) * t) - (a + (b - a) * t)) * t = d' ->
    b + (d - b) * t = e' -> d = f' ->
    quad_split (Quad (pt1 a) (pt1 b) (pt1 d)) t = (Quad (pt1 a') (pt1 b') (pt1 d'), Quad (pt1 d') (pt1 e') (pt1 f'))).
  { intros. subst. unfold quad_split, pt1. cbn. do 2 f_equal; apply pn_eq; reflexivity. }
  rewrite !(S 0 8 0 (1/2) 0 4 4 4 0) by lra. cbn [fst].
  split; [reflexivity|]. split; [|split]; apply S; lra.
Qed.

Print Assumptions C110_quad_left.
Print Assumptions C110_cubic_left.
Print Assumptions C110_bezier_left.
Print Assumptions C110_quad_right.
Print Assumptions C110_cubic_right.
Print Assumptions C110_bezier_right.
Print Assumptions C110_quad_reverse.
Print Assumptions C110_cubic_reverse.
Print Assumptions C110_bezier_reverse.
