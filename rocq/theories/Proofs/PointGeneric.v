(** [PointN] over any scalar type: no arithmetic law is used. *)
From Coq Require Import ZArith List Arith Lia Bool Eqdep_dec.
From Verif Require Import Base.Outcome Base.Scalar Model.Point Proofs.OutcomeFacts Proofs.PointFacts.
Import ListNotations.

Section PointGeneric.
  Context {T : Type} {ST : Scalar T} {N : nat}.
  Implicit Types p q : PointN T N.

  Lemma axis_nth p i : p_axis p i = match nth_error (pn_arr p) i with Some x => Ret x | None => Panic end.
  Proof.
    cbn. unfold pn_axis, idx. destruct (Nat.leb_spec i N) as [H|H]; auto.
    destruct (nth_error (pn_arr p) i) eqn:E0; auto.
    assert (i < length (pn_arr p)) by (apply nth_error_Some; congruence).
    rewrite pn_length in *. lia.
  Qed.

  Lemma axis_ret p i x : p_axis p i = Ret x <-> nth_error (pn_arr p) i = Some x.
  Proof.
    rewrite axis_nth. destruct (nth_error _ _); split; intros [= ->]; auto.
  Qed.

  Lemma axis_total p i : i < N -> exists x, p_axis p i = Ret x.
  Proof.
    intros H. rewrite axis_nth. destruct (nth_error (pn_arr p) i) eqn:E0; eauto.
    apply nth_error_None in E0. rewrite pn_length in E0. lia.
  Qed.

  Lemma axis_panic_iff p i : p_axis p i = Panic <-> N <= i.
  Proof.
    rewrite axis_nth. rewrite <- (pn_length p) at 2. rewrite <- nth_error_None.
    destruct (nth_error _ _); split; congruence.
  Qed.

  Lemma axis_new (a : list T) (H : (length a =? N)%nat = true) i x :
    p_axis (mkPointN a H) i = Ret x <-> nth_error a i = Some x.
  Proof. rewrite axis_ret. reflexivity. Qed.

  Lemma nth_error_map2 (f : T -> T -> T) a b i x y :
    nth_error a i = Some x -> nth_error b i = Some y -> nth_error (map2 f a b) i = Some (f x y).
  Proof.
    revert b i. induction a as [|u a IH]; intros [|v b] [|i]; simpl; try discriminate; auto.
    now intros [= ->] [= ->].
  Qed.

  Lemma nth_error_map' (f : T -> T) a i x :
    nth_error a i = Some x -> nth_error (map f a) i = Some (f x).
  Proof. intros H. now apply map_nth_error. Qed.

  Lemma add_axis p q i x y : p_axis p i = Ret x -> p_axis q i = Ret y ->
    p_axis (p_add p q) i = Ret (s_add x y).
  Proof. rewrite !axis_ret. apply nth_error_map2. Qed.
  Lemma sub_axis p q i x y : p_axis p i = Ret x -> p_axis q i = Ret y ->
    p_axis (p_sub p q) i = Ret (s_sub x y).
  Proof. rewrite !axis_ret. apply nth_error_map2. Qed.
  Lemma mul_axis p s i x : p_axis p i = Ret x -> p_axis (p_mul p s) i = Ret (s_mul x s).
  Proof. rewrite !axis_ret. apply (nth_error_map' (fun x => s_mul x s)). Qed.
  Lemma add_scalar_axis p s i x : p_axis p i = Ret x -> p_axis (pn_add_scalar p s) i = Ret (s_add x s).
  Proof. rewrite !axis_ret. apply (nth_error_map' (fun x => s_add x s)). Qed.
  Lemma sub_scalar_axis p s i x : p_axis p i = Ret x -> p_axis (pn_sub_scalar p s) i = Ret (s_sub x s).
  Proof. rewrite !axis_ret. apply (nth_error_map' (fun x => s_sub x s)). Qed.
  Lemma default_axis i : i < N -> p_axis (p_default : PointN T N) i = Ret (s_lit 0).
  Proof. intros H. rewrite axis_ret. cbn. now apply nth_error_repeat. Qed.

  Lemma point_ext p q : (forall i, p_axis p i = p_axis q i) -> p = q.
  Proof.
    intros H. apply pn_eq.
    assert (L : length (pn_arr p) = length (pn_arr q)) by now rewrite !pn_length.
    destruct (pn_arr p) as [|d l] eqn:Ep.
    - destruct (pn_arr q); [auto|discriminate].
    - rewrite <- Ep in *. apply nth_ext_iff with (d := d); auto. intros i Hi.
      specialize (H i). rewrite !axis_nth in H.
      rewrite (nth_error_nth' (pn_arr p) d Hi) in H.
      rewrite (nth_error_nth' (pn_arr q) d) in H by now rewrite <- L.
      now injection H.
  Qed.

  Lemma arr_eqb_iff (a b : list T) : length a = length b ->
    arr_eqb a b = true <->
    (forall i x y, nth_error a i = Some x -> nth_error b i = Some y -> s_eqb x y = true).
  Proof.
    revert b. induction a as [|u a IH]; intros [|v b] L; simpl in *; try discriminate.
    - split; auto. intros _ [|i]; discriminate.
    - injection L as L. destruct (s_eqb u v) eqn:E0; simpl.
      + rewrite (IH b L). split; intros H.
        * intros [|i] x y; simpl; [now intros [= <-] [= <-]|apply H].
        * intros i. apply (H (S i)).
      + split; [discriminate|]. intros H. rewrite (H 0 u v eq_refl eq_refl) in E0. discriminate.
  Qed.

  Lemma eqb_iff p q : p_eqb p q = true <->
    (forall i x y, p_axis p i = Ret x -> p_axis q i = Ret y -> s_eqb x y = true).
  Proof.
    change (p_eqb p q) with (arr_eqb (pn_arr p) (pn_arr q)).
    rewrite arr_eqb_iff by now rewrite !pn_length.
    split; intros H i x y; specialize (H i x y); rewrite !axis_ret in *; auto.
  Qed.
End PointGeneric.
