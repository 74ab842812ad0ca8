(** Adaptive flattening on [is_linear] alone in binary32 and binary64. *)
From Coq Require Import List Arith ZArith Lia.
From Flocq Require Import Core.Core IEEE754.BinarySingleNaN.
From Verif Require Import Base.Outcome Base.Scalar Model.Point Model.Line Model.Quadratic
  Inst.FloatInst Spec.Rounding Spec.FloatPoints Spec.Adaptive.
Import ListNotations.

(** a curve with a half that is refused again and again *)
Lemma flattened_not {A : Type} (stop : A -> outcome bool) (halve : A -> A * A) (bad : A -> Prop) :
  (forall c, bad c -> stop c = Ret false /\ bad (snd (halve c))) ->
  forall d c l, bad c -> flattened stop halve d c <> Ret (Some l).
Proof.
  intros Hbad. induction d as [|d IH]; intros c l Hc; destruct (Hbad c Hc) as [H1 H2]; cbn [flattened]; rewrite H1; cbn [bind];
    [discriminate|].
  destruct (flattened stop halve d (fst (halve c))) as [[x|]| |]; cbn [bind]; try discriminate;
    destruct (flattened stop halve d (snd (halve c))) as [[y|]| |] eqn:E; cbn [bind]; try discriminate.
  exfalso. apply (IH _ y H2 E).
Qed.

Section Format.
  Context {F : Format}.
  Definition sf (q : quad (PointN float 1)) :=
    [map B2SF (pn_arr (q_start q)); map B2SF (pn_arr (q_ctrl q)); map B2SF (pn_arr (q_end q))].
  Lemma map_B2SF_inj (l m : list float) : map B2SF l = map B2SF m -> l = m.
  Proof.
    revert m. induction l as [|x l IH]; intros [|y m] H; try discriminate; [reflexivity|].
    cbn [map] in H. injection H as H1 H2. f_equal; [apply B2SF_inj, H1|apply IH, H2].
  Qed.
  Lemma pn_same (p q : PointN float 1) : pn_arr p = pn_arr q -> p = q.
  Proof. destruct p as [a Ha], q as [b Hb]. cbn. intros ->. f_equal. apply Eqdep_dec.UIP_dec, Bool.bool_dec. Qed.
  Lemma sf_inj q r : sf q = sf r -> q = r.
  Proof.
    destruct q as [a b c], r as [a' b' c']. unfold sf. cbn [q_start q_ctrl q_end]. intros H.
    injection H as H1 H2 H3. f_equal; apply pn_same, map_B2SF_inj; assumption.
  Qed.
  Definition right_half (q : quad (PointN float 1)) := snd (quad_split q (flt 1 (-1))).
  Lemma never_ends (c : quad (PointN float 1)) tol N :
    forallb (fun n => match quad_is_linear (Nat.iter n right_half c) tol with Ret false => true | _ => false end) (seq 0 (S N)) = true ->
    sf (Nat.iter (S N) right_half c) = sf (Nat.iter N right_half c) ->
    forall d l, flattened (fun q => quad_is_linear q tol) (fun q => quad_split q (flt 1 (-1))) d c <> Ret (Some l).
  Proof.
    intros H1 H2 d l.
    apply (flattened_not (fun q => quad_is_linear q tol) (fun q => quad_split q (flt 1 (-1)))
      (fun q => exists n, n <= N /\ q = Nat.iter n right_half c)).
    - intros q (n & Hn & ->). split.
      + rewrite forallb_forall in H1. specialize (H1 n ltac:(apply in_seq; lia)).
        destruct (quad_is_linear (Nat.iter n right_half c) tol) as [[]| |]; try discriminate. reflexivity.
      + destruct (Nat.eq_dec n N) as [->|Hne].
        * exists N. split; [lia|]. apply sf_inj. exact H2.
        * exists (S n). split; [lia|reflexivity].
    - exists 0. split; [lia|reflexivity].
  Qed.
End Format.

Lemma f32_never : let F := Binary32 in forall d l,
  flattened (fun q => quad_is_linear q (flt 1 (-12))) (fun q => quad_split q (flt 1 (-1))) d
    (Quad (fpt1 (flt 0 0)) (fpt1 (flt 1 0)) (fpt1 (flt 1 0))) <> Ret (Some l).
Proof. intros F. subst F. apply (never_ends _ _ 14); vm_compute; reflexivity. Qed.
Lemma f64_never : let F := Binary64 in forall d l,
  flattened (fun q => quad_is_linear q (flt 1 (-27))) (fun q => quad_split q (flt 1 (-1))) d
    (Quad (fpt1 (flt 0 0)) (fpt1 (flt 1 0)) (fpt1 (flt 1 0))) <> Ret (Some l).
Proof. intros F. subst F. apply (never_ends _ _ 28); vm_compute; reflexivity. Qed.
