(** Accessors, [BezierSegment], and totality of the generic curve. *)
From Coq Require Import Reals List Arith Lia Lra Bool.
From Verif Require Import Base.Outcome Base.Scalar Model.Point Model.Line Model.Quadratic
  Model.Cubic Model.Bezier Model.Segment Inst.RealInst Spec.Sums Spec.Lawful Spec.Bernstein
  Spec.Metric Spec.Hull Spec.Points Spec.Segments
  Proofs.OutcomeFacts Proofs.PointFacts Proofs.RealTac Proofs.Metric Proofs.ExactEval
  Proofs.LineFacts Proofs.BezierGeneric Proofs.BezierReal Proofs.Linearity Proofs.BoxSpec.
Import ListNotations.
Local Open Scope R_scope.

Section Generic.
  Context {T P : Type} {ST : Scalar T} {PT : Point T P}.

  Lemma quad_rebuild (c : quad P) : exists a b d, quad_control_points c = [a; b; d] /\ c = Quad a b d.
  Proof. destruct c; do 3 eexists; split; reflexivity. Qed.
  Lemma cubic_rebuild (c : cubic P) :
    exists a b d e, cubic_control_points c = [a; b; d; e] /\ c = Cubic a b d e.
  Proof. destruct c; do 4 eexists; split; reflexivity. Qed.
  Lemma bezier_rebuild (c : bezier P) : Bezier (bezier_control_points c) = c.
  Proof. now destruct c. Qed.

  Lemma bezier_total (ps : list P) t : (2 <= length ps)%nat ->
    (exists x, bezier_eval (Bezier ps) t = Ret x) /\
    (exists l r, bezier_split (Bezier ps) t = Ret (Bezier l, Bezier r)) /\
    (exists qs, bezier_derivative (Bezier ps) = Ret (Bezier qs)).
  Proof.
    intros H. destruct ps as [|p ps]; [simpl in H; lia|].
    split; [|split].
    - eexists. apply (bezier_eval_closed (p :: ps) t p). discriminate.
    - destruct (bezier_split_closed (p :: ps) t p) as (l & r & E0 & _). eauto.
    - eexists. apply (bezier_derivative_closed (p :: ps) p H).
  Qed.

  Lemma bezier_one (p : P) t :
    bezier_eval (Bezier [p]) t = Ret p /\
    bezier_split (Bezier [p]) t = Ret (Bezier [p], Bezier [p]).
  Proof. split; reflexivity. Qed.

  Lemma segment_split_kind (s : segment P) t :
    same_kind s (fst (segment_split s t)) /\ same_kind s (snd (segment_split s t)).
  Proof. destruct s as [[] | [] | []]; simpl; auto. Qed.
End Generic.

Section Misc.
  Context {E : Eps} {P : Type} {PT : Point R P} {LP : LawfulPoint P}.

  Lemma quad_baseline_ends (c : quad P) :
    quad_baseline c = Line (quad_eval c 0) (quad_eval c 1).
  Proof. now rewrite quad_eval_0, quad_eval_1. Qed.
  Lemma cubic_baseline_ends (c : cubic P) :
    cubic_baseline c = Line (cubic_eval c 0) (cubic_eval c 1).
  Proof. now rewrite cubic_eval_0, cubic_eval_1. Qed.

  Lemma segment_ends (s : segment P) :
    segment_start s = segment_eval s 0 /\ segment_end s = segment_eval s 1 /\
    segment_baseline s = Line (segment_start s) (segment_end s).
  Proof.
    destruct s as [s|s|s]; simpl.
    - rewrite line_eval_0, line_eval_1. destruct s; auto.
    - rewrite quad_eval_0, quad_eval_1. auto.
    - rewrite cubic_eval_0, cubic_eval_1. auto.
  Qed.

  Lemma segment_linear_sound (s : segment P) tol : 0 <= tol -> segment_is_linear s tol = Ret true ->
    forall t, 0 <= t <= 1 -> exists u, 0 <= u <= 1 /\
      dist (segment_eval s t) (line_eval (segment_baseline s) u) <= tol.
  Proof.
    intros H0 H t Ht. destruct s as [s|s|s]; simpl in *.
    - exists t. split; auto. now rewrite dist_refl.
    - now apply quad_is_linear_sound.
    - now apply cubic_is_linear_sound.
  Qed.

  Lemma segment_linear_complete (s : segment P) tol :
    let b := Line (segment_start s) (segment_end s) in
    let n := dist (l_end b) (l_start b) * dist (l_end b) (l_start b) in
    (forall p, In p (removelast (tl (segment_points s))) ->
       eps <= n /\ inner (l_start b) p (l_end b) / n < 1 /\
       exists u, 0 <= u <= 1 /\ dist p (line_eval b u) <= tol) ->
    segment_is_linear s tol = Ret true.
  Proof.
    intros b n H. destruct s as [s|s|s]; simpl in *.
    - reflexivity.
    - destruct (H (q_ctrl s)) as (A & B & C); [now left|]. now apply quad_is_linear_complete.
    - destruct (H (c_ctrl1 s)) as (A & B & C); [now left|].
      destruct (H (c_ctrl2 s)) as (A' & B' & C'); [now (right; left)|]. now apply cubic_is_linear_complete.
  Qed.

  Lemma segment_split_curved (s : segment P) t u : (forall l, s <> Linear l) ->
    segment_eval (fst (segment_split s t)) u = segment_eval s (t * u) /\
    segment_eval (snd (segment_split s t)) u = segment_eval s (t + u * (1 - t)).
  Proof.
    intros H. destruct s as [s|s|s].
    - exfalso. now apply (H s).
    - exact (quad_split_spec s t u).
    - exact (cubic_split_spec s t u).
  Qed.

  Lemma segment_split_linear (s : line P) t u :
    segment_eval (fst (segment_split (Linear s) t)) u = line_eval s (- (t * u)) /\
    segment_eval (snd (segment_split (Linear s) t)) u = line_eval s (- t + u * (1 + t)).
  Proof.
    exact (line_split_behaviour s t u).
  Qed.

  (** every curve stays in the hull, as one statement over segments *)
  Lemma segment_hull (s : segment P) t : 0 <= t <= 1 -> in_hull (segment_points s) (segment_eval s t).
  Proof.
    intros Ht. destruct s; simpl; [apply line_in_hull|apply quad_in_hull|apply cubic_in_hull]; auto.
  Qed.
  Lemma segment_spec (s : segment P) t i : (i < p_dim (P := P))%nat ->
    coord (segment_eval s t) i = curve_coord (segment_points s) t i.
  Proof.
    intros Hi. destruct s; simpl; [apply line_eval_spec|apply quad_eval_spec|apply cubic_eval_spec]; auto.
  Qed.
End Misc.

Lemma segment_split_ce {E : Eps} : exists (s : segment P1) t u, 0 < t < 1 /\ 0 <= u <= 1 /\
  segment_eval (fst (segment_split s t)) u <> segment_eval s (t * u).
Proof.
  destruct line_split_ce as (s & t & u & Ht & Hu & H & _).
  exists (Linear s), t, u. split; auto.
Qed.
