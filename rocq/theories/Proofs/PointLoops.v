(** The index loops of point_generic.rs return the closed forms used by the model. *)
From Coq Require Import List Arith Bool Lia.
From Verif Require Import Base.Outcome Base.Scalar Model.Point Model.PointLoops.
Import ListNotations.
Local Open Scope scalar_scope.

Lemma idx_mid {A} (pre l : list A) x : idx (pre ++ x :: l) (length pre) = Ret x.
Proof. unfold idx. rewrite nth_error_app2, Nat.sub_diag by lia. reflexivity. Qed.
Lemma set_mid {A} (pre l : list A) x v : set_idx (pre ++ x :: l) (length pre) v = Ret (pre ++ v :: l).
Proof.
  unfold set_idx. rewrite app_length. cbn [length]. replace (length pre <? _)%nat with true by (symmetry; apply Nat.ltb_lt; lia).
  f_equal. induction pre as [|y pre IH]; cbn; [reflexivity|now rewrite IH].
Qed.

Section Loops.
  Context {T : Type} {ST : Scalar T} {N : nat}.

  Lemma arr_length (p : PointN T N) : length (pn_arr p) = N.
  Proof. apply Nat.eqb_eq, pn_len. Qed.

  (** two arrays of one length, read at one index *)
  Lemma loop2 (f : T -> T -> T) : forall (a b pa pb res : list T),
    length a = length b -> length pa = length pb -> length pa = length res ->
    for_in (seq (length pa) (length a)) (res ++ a) (fun i r =>
      let! x := idx (pa ++ a) i in let! y := idx (pb ++ b) i in set_idx r i (f x y))
    = Ret (res ++ map2 f a b).
  Proof.
    induction a as [|x a IH]; intros [|y b] pa pb res H1 H2 H3; try discriminate.
    - reflexivity.
    - cbn [length seq for_in map2]. rewrite idx_mid. cbn [bind]. rewrite H2, idx_mid. cbn [bind]. rewrite <- H2, H3, set_mid.
      cbn [bind]. specialize (IH b (pa ++ [x]) (pb ++ [y]) (res ++ [f x y])).
      rewrite !app_length in IH. cbn [length] in IH. rewrite Nat.add_1_r, H3, <- !app_assoc in IH. cbn [app] in IH.
      rewrite <- H3 in *. apply IH; cbn [length] in H1; lia.
  Qed.
  Lemma loop1 (f : T -> T) : forall (a pa res : list T), length pa = length res ->
    for_in (seq (length pa) (length a)) (res ++ a) (fun i r =>
      let! x := idx (pa ++ a) i in set_idx r i (f x))
    = Ret (res ++ map f a).
  Proof.
    induction a as [|x a IH]; intros pa res H3; [reflexivity|].
    cbn [length seq for_in map]. rewrite idx_mid. cbn [bind]. rewrite H3, set_mid. cbn [bind].
    specialize (IH (pa ++ [x]) (res ++ [f x])).
    rewrite !app_length in IH. cbn [length] in IH. rewrite Nat.add_1_r, H3, <- !app_assoc in IH. cbn [app] in IH.
    apply IH. lia.
  Qed.

  Lemma add_loop_eq (p q : PointN T N) : add_loop p q = Ret (pn_arr (pn_add p q)).
  Proof.
    unfold add_loop, range. rewrite Nat.sub_0_r, <- (arr_length p) at 1.
    apply (loop2 s_add (pn_arr p) (pn_arr q) [] [] []); now rewrite ?arr_length.
  Qed.
  Lemma sub_loop_eq (p q : PointN T N) : sub_loop p q = Ret (pn_arr (pn_sub p q)).
  Proof.
    unfold sub_loop, range. rewrite Nat.sub_0_r, <- (arr_length p) at 1.
    apply (loop2 s_sub (pn_arr p) (pn_arr q) [] [] []); now rewrite ?arr_length.
  Qed.
  Lemma add_scalar_loop_eq (p : PointN T N) s : add_scalar_loop p s = Ret (pn_arr (pn_add_scalar p s)).
  Proof.
    unfold add_scalar_loop, range. rewrite Nat.sub_0_r, <- (arr_length p) at 1.
    apply (loop1 (fun x => x + s) (pn_arr p) [] []); reflexivity.
  Qed.
  Lemma sub_scalar_loop_eq (p : PointN T N) s : sub_scalar_loop p s = Ret (pn_arr (pn_sub_scalar p s)).
  Proof.
    unfold sub_scalar_loop, range. rewrite Nat.sub_0_r, <- (arr_length p) at 1.
    apply (loop1 (fun x => x - s) (pn_arr p) [] []); reflexivity.
  Qed.

  Lemma mul_loop_eq (p : PointN T N) s : mul_loop p s = Ret (pn_arr (pn_mul p s)).
  Proof.
    unfold mul_loop, range. rewrite Nat.sub_0_r. cbn [pn_arr pn_mul].
    enough (G : forall a res, for_in (seq (length res) (length a)) (res ++ a) (fun i r =>
      let! x := idx r i in set_idx r i (x * s)) = Ret (res ++ map (fun x => x * s) a)) by exact (G (pn_arr p) []).
    induction a as [|x a IH]; intros res; [reflexivity|].
    cbn [length seq for_in map]. rewrite idx_mid. cbn [bind]. rewrite set_mid. cbn [bind].
    specialize (IH (res ++ [x * s])). rewrite app_length in IH. cbn [length] in IH.
    rewrite Nat.add_1_r, <- !app_assoc in IH. exact IH.
  Qed.

  Lemma eq_loop_eq (p q : PointN T N) : eq_loop p q = Ret (pn_eqb p q).
  Proof.
    unfold eq_loop, range, pn_eqb. rewrite Nat.sub_0_r, <- (arr_length p) at 1.
    enough (G : forall a b pa pb, length a = length b -> length pa = length pb ->
      (let! r := for_result (seq (length pa) (length a)) tt (fun i _ =>
        let! x := idx (pa ++ a) i in let! y := idx (pb ++ b) i in
        Ret (if negb (x =? y) then Err false else Ok tt)) in
       match r with Err early => Ret early | Ok _ => Ret true end) = Ret (arr_eqb a b)).
    { apply (G (pn_arr p) (pn_arr q) [] []); now rewrite ?arr_length. }
    induction a as [|x a IH]; intros [|y b] pa pb H1 H2; try discriminate; [reflexivity|].
    cbn [length seq for_result arr_eqb]. rewrite idx_mid. cbn [bind]. rewrite H2, idx_mid. cbn [bind].
    destruct (negb (x =? y)); [reflexivity|]. specialize (IH b (pa ++ [x]) (pb ++ [y])).
    rewrite !app_length in IH. cbn [length] in IH. rewrite !Nat.add_1_r, H2, <- !app_assoc in IH. cbn [app] in IH.
    apply IH; cbn in H1; lia.
  Qed.

  Lemma squared_length_loop_eq (p : PointN T N) : squared_length_loop p = Ret (pn_sqlen p).
  Proof.
    unfold squared_length_loop, range, pn_sqlen. rewrite Nat.sub_0_r, <- (arr_length p) at 1.
    enough (G : forall a pa acc, for_in (seq (length pa) (length a)) acc (fun i d =>
      let! x := idx (pa ++ a) i in let! y := idx (pa ++ a) i in Ret (d + x * y))
      = Ret (fold_left (fun d x => d + x * x) a acc)) by exact (G (pn_arr p) [] _).
    induction a as [|x a IH]; intros pa acc; [reflexivity|].
    cbn [length seq for_in fold_left]. rewrite idx_mid. cbn [bind].
    specialize (IH (pa ++ [x]) (acc + x * x)). rewrite app_length in IH. cbn [length] in IH.
    rewrite Nat.add_1_r, <- !app_assoc in IH. exact IH.
  Qed.
End Loops.
