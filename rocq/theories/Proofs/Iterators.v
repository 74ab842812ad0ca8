(** Loops over the items of a point, and over the control points in place. *)
From Coq Require Import Reals ZArith List Arith Lia Lra Bool.
From Verif Require Import Base.Outcome Base.Scalar Model.Point Model.Line Model.Quadratic Model.Cubic Model.Bezier
  Model.Iterators Inst.RealInst Spec.Sums Spec.Lawful Spec.Maps
  Proofs.OutcomeFacts Proofs.PointFacts Proofs.RealTac Proofs.Metric Proofs.ExactEval Proofs.LineFacts Proofs.BoxGeneric.
Import ListNotations.

Section Fill.
  Context {B : Type}.
  Variable f : nat -> outcome B.
  Variable init : list B.
  Local Notation fill := (fill f init).

  Lemma fill_S n : fill (S n) = bind (fill n) (fun bs => let! x := f n in set_idx bs n x).
  Proof.
    unfold BoxGeneric.fill. rewrite range_S by lia. rewrite for_in_app. destruct (for_in _ _ _); try reflexivity.
    cbn [bind for_in]. destruct (f n); try reflexivity. cbn [bind]. now destruct (set_idx _ _ _).
  Qed.
  Lemma fill_nth d : forall n bs, n <= length init -> fill n = Ret bs -> length bs = length init /\
    forall i, i < length init -> if i <? n then f i = Ret (nth i bs d) else nth i bs d = nth i init d.
  Proof.
    induction n as [|n IH]; intros bs Hn Hf.
    - injection Hf as <-. split; [reflexivity|]. intros i _. reflexivity.
    - rewrite fill_S in Hf. destruct (fill n) as [b0| |] eqn:E0; try discriminate. cbn [bind] in Hf.
      destruct (IH b0 ltac:(lia) eq_refl) as (L0 & H0).
      destruct (f n) as [x| |] eqn:Ex; try discriminate. cbn [bind] in Hf.
      rewrite set_idx_lt in Hf by lia. injection Hf as <-. rewrite length_replace_nth. split; [exact L0|].
      intros i Hi. rewrite nth_replace_nth by lia. specialize (H0 i Hi).
      destruct (Nat.eqb_spec i n) as [->|Hne].
      + rewrite (proj2 (Nat.ltb_lt n (S n))) by lia. exact Ex.
      + destruct (Nat.ltb_spec i n) as [H1|H1], (Nat.ltb_spec i (S n)) as [H2|H2]; try lia; exact H0.
  Qed.
  Lemma fill_less n m bs : n <= m -> fill m = Ret bs -> exists b0, fill n = Ret b0.
  Proof.
    intros H. revert bs. induction H as [|m H IH]; intros bs Hf; [eauto|].
    rewrite fill_S in Hf. destruct (fill m) as [b| |]; try discriminate. now apply (IH b).
  Qed.
  Lemma fill_short (d : B) n m bs : n <= m -> m <= length init -> fill m = Ret bs ->
    fill n = Ret (firstn n bs ++ skipn n init).
  Proof.
    intros Hnm Hm Hf. destruct (fill_less n m bs Hnm Hf) as (b0 & E0). rewrite E0. f_equal.
    destruct (fill_nth d m bs Hm Hf) as (Lm & Vm). destruct (fill_nth d n b0 ltac:(lia) E0) as (L0 & V0).
    apply nth_ext_iff with (d := d).
    - rewrite app_length, firstn_length, skipn_length. lia.
    - intros i Hi. rewrite L0 in Hi. specialize (Vm i Hi). specialize (V0 i Hi).
      destruct (Nat.ltb_spec i n) as [H1|H1].
      + rewrite (proj2 (Nat.ltb_lt i m)) in Vm by lia. rewrite Vm in V0. injection V0 as <-.
        rewrite app_nth1 by (rewrite firstn_length; lia).
        rewrite <- (firstn_skipn n bs) at 1. now rewrite app_nth1 by (rewrite firstn_length; lia).
      + rewrite V0. rewrite app_nth2 by (rewrite firstn_length; lia). rewrite firstn_length, Nat.min_l by lia.
        rewrite <- (firstn_skipn n init) at 1. rewrite app_nth2 by (rewrite firstn_length; lia).
        rewrite firstn_length, Nat.min_l by lia. reflexivity.
  Qed.
  Lemma fill_long n bs : length init < n -> fill n <> Ret bs.
  Proof.
    intros Hn Hf. destruct (fill_less (S (length init)) n bs Hn Hf) as (b0 & E0).
    rewrite fill_S in E0. destruct (fill (length init)) as [b| |] eqn:Eb; try discriminate. cbn [bind] in E0.
    destruct (f (length init)) as [x| |]; try discriminate. cbn [bind] in E0.
    assert (Lb : length b = length init).
    { apply (fill_nth x (length init)); [lia|exact Eb]. }
    unfold set_idx in E0. rewrite Lb, Nat.ltb_irrefl in E0. discriminate.
  Qed.
End Fill.

Lemma skipn_repeat {A} (x : A) n m : skipn n (repeat x m) = repeat x (m - n).
Proof. revert n. induction m as [|m IH]; intros [|n]; simpl; auto. Qed.

Section Boxes.
  Context {T P : Type} {ST : Scalar T} {PT : Point T P} (items : P -> nat).
  Local Notation zero := (s_lit (T := T) 0, s_lit (T := T) 0).

  Definition line_axis_box (l : line P) (i : nat) : outcome (T * T) :=
    let! s := p_axis (l_start l) i in let! e := p_axis (l_end l) i in Ret (if s_ltb s e then (s, e) else (e, s)).
  Lemma line_box_loop (l : line P) n init :
    for_in (Outcome.range 0 n) init (fun i bounds =>
      let! s := p_axis (l_start l) i in let! e := p_axis (l_end l) i in
      if s_ltb s e then set_idx bounds i (s, e) else set_idx bounds i (e, s)) = fill (line_axis_box l) init n.
  Proof.
    apply for_in_ext. intros i b _. unfold line_axis_box. destruct (p_axis (l_start l) i); try reflexivity. cbn [bind].
    destruct (p_axis (l_end l) i); try reflexivity. cbn [bind]. now destruct (s_ltb _ _).
  Qed.

  Lemma short_box f n bs : n <= p_dim (P := P) -> fill f (repeat zero (p_dim (P := P))) (p_dim (P := P)) = Ret bs ->
    fill f (repeat zero (p_dim (P := P))) n = Ret (firstn n bs ++ repeat zero (p_dim (P := P) - n)).
  Proof.
    intros Hn Hf. rewrite (fill_short f _ zero n (p_dim (P := P)) bs) by (rewrite ?repeat_length; auto).
    now rewrite skipn_repeat.
  Qed.
  Lemma long_box f n bs : p_dim (P := P) < n -> fill f (repeat zero (p_dim (P := P))) n <> Ret bs.
  Proof. intros Hn. apply fill_long. now rewrite repeat_length. Qed.

  Theorem line_box_short (l : line P) bs : items (l_start l) <= p_dim (P := P) -> line_bounding_box l = Ret bs ->
    it_line_bounding_box items l = Ret (firstn (items (l_start l)) bs ++ repeat zero (p_dim (P := P) - items (l_start l))).
  Proof. unfold it_line_bounding_box, line_bounding_box. rewrite !line_box_loop. apply short_box. Qed.
  Theorem line_box_long (l : line P) bs : p_dim (P := P) < items (l_start l) -> it_line_bounding_box items l <> Ret bs.
  Proof. unfold it_line_bounding_box. rewrite line_box_loop. apply long_box. Qed.

  Theorem quad_box_short (c : quad P) a bs :
    a = p_add (p_mul (l_start (quad_derivative c)) (s_lit (-1))) (l_end (quad_derivative c)) ->
    items a <= p_dim (P := P) -> quad_bounding_box c = Ret bs ->
    it_quad_bounding_box items c = Ret (firstn (items a) bs ++ repeat zero (p_dim (P := P) - items a)).
  Proof. intros ->. apply (short_box (quad_bbox_axis c)). Qed.
  Theorem quad_box_long (c : quad P) a bs :
    a = p_add (p_mul (l_start (quad_derivative c)) (s_lit (-1))) (l_end (quad_derivative c)) ->
    p_dim (P := P) < items a -> it_quad_bounding_box items c <> Ret bs.
  Proof. intros ->. apply (long_box (quad_bbox_axis c)). Qed.
  Theorem cubic_box_short (c : cubic P) a bs :
    a = p_add (p_add (q_start (cubic_derivative c)) (p_mul (q_ctrl (cubic_derivative c)) (s_lit (-2)))) (q_end (cubic_derivative c)) ->
    items a <= p_dim (P := P) -> cubic_bounding_box c = Ret bs ->
    it_cubic_bounding_box items c = Ret (firstn (items a) bs ++ repeat zero (p_dim (P := P) - items a)).
  Proof. intros ->. apply (short_box (cubic_bbox_axis c)). Qed.
  Theorem cubic_box_long (c : cubic P) a bs :
    a = p_add (p_add (q_start (cubic_derivative c)) (p_mul (q_ctrl (cubic_derivative c)) (s_lit (-2)))) (q_end (cubic_derivative c)) ->
    p_dim (P := P) < items a -> it_cubic_bounding_box items c <> Ret bs.
  Proof. intros ->. apply (long_box (cubic_bbox_axis c)). Qed.

  Theorem items_dim (l : line P) (c : quad P) (k : cubic P) (p : P) : (forall q, items q = p_dim (P := P)) ->
    it_line_bounding_box items l = line_bounding_box l /\ it_quad_bounding_box items c = quad_bounding_box c /\
    it_cubic_bounding_box items k = cubic_bounding_box k /\
    it_line_distance_to_point items l p = line_distance_to_point l p.
  Proof.
    intros H. unfold it_line_bounding_box, it_quad_bounding_box, it_cubic_bounding_box, it_line_distance_to_point, it_dot_loop.
    rewrite !H. repeat split.
  Qed.
End Boxes.

(** in-place loops *)
Lemma iter_mut_spec {A} (f : nat -> A -> A) (a : list A) : exists l, iter_mut f a = Ret l /\ length l = length a /\
  forall i x, nth_error a i = Some x -> nth_error l i = Some (f i x).
Proof.
  destruct (for_in_range_inv (fun k l => length l = length a /\
      forall i x, nth_error a i = Some x -> nth_error l i = Some (if i <? k then f i x else x)) 0 (length a) a
      (fun i l => let! x := idx l i in set_idx l i (f i x))) as (l & E & L & H).
  - lia.
  - split; [reflexivity|]. intros i x Hx. exact Hx.
  - intros k l Hk (L & H). destruct (nth_error a k) as [x|] eqn:Ex.
    2:{ apply nth_error_None in Ex. lia. }
    assert (Hlk : nth_error l k = Some x).
    { rewrite (H k x Ex). now rewrite Nat.ltb_irrefl. }
    unfold idx. rewrite Hlk. cbn [bind]. rewrite set_idx_lt by lia. eexists. split; [reflexivity|].
    rewrite length_replace_nth. split; [exact L|]. intros i y Hy.
    assert (Hi : i < length a) by (apply nth_error_Some; rewrite Hy; discriminate).
    rewrite (nth_error_nth' _ x) by (rewrite length_replace_nth; lia). rewrite nth_replace_nth by lia.
    destruct (Nat.eqb_spec i k) as [->|Hne].
    + rewrite Ex in Hy. injection Hy as ->. destruct (Nat.ltb_spec k (k + 1)); [reflexivity|lia].
    + specialize (H i y Hy). rewrite (nth_error_nth' l x) in H by lia. rewrite H.
      destruct (Nat.ltb_spec i k), (Nat.ltb_spec i (k + 1)); try lia; reflexivity.
  - exists l. split; [exact E|]. split; [exact L|]. intros i x Hx. rewrite (H i x Hx).
    assert (Hi : i < length a) by (apply nth_error_Some; rewrite Hx; discriminate).
    rewrite (proj2 (Nat.ltb_lt i (length a)) Hi). reflexivity.
Qed.
Lemma iter_mut_map {A} (g : A -> A) (a : list A) : iter_mut (fun _ => g) a = Ret (map g a).
Proof.
  destruct (iter_mut_spec (fun _ => g) a) as (l & E & L & H). rewrite E. f_equal.
  clear E. revert a L H. induction l as [|x l IH]; intros [|y a] L H; try discriminate; [reflexivity|].
  pose proof (H 0 y eq_refl) as H0. injection H0 as ->. cbn [map]. f_equal.
  apply IH; [simpl in L; lia|]. intros i z Hz. exact (H (S i) z Hz).
Qed.

Section Mut.
  Context {T : Type} {ST : Scalar T} {N : nat}.
  Theorem pn_mut_mul (p : PointN T N) s : pn_iter_mut (fun _ x => s_mul x s) p = Ret (pn_arr (pn_mul p s)).
  Proof. exact (iter_mut_map (fun x => s_mul x s) (pn_arr p)). Qed.
  Theorem pn_mut_add (p q : PointN T N) : pn_iter_mut (fun i x => s_add x (nth i (pn_into_iter q) (s_lit 0))) p = Ret (pn_arr (pn_add p q)).
  Proof.
    unfold pn_iter_mut, pn_into_iter. destruct (iter_mut_spec (fun i x => s_add x (nth i (pn_arr q) (s_lit 0))) (pn_arr p)) as (l & E & L & H).
    rewrite E. f_equal. pose proof (pn_length p) as Lp. pose proof (pn_length q) as Lq. unfold pn_add. cbn [pn_arr].
    clear E. revert l L H Lp Lq. generalize (pn_arr p), (pn_arr q). generalize N. intros n a. revert n.
    induction a as [|x a IH]; intros n b l L H La Lb.
    - destruct l; [reflexivity|discriminate].
    - destruct b as [|y b]; [simpl in La, Lb; lia|]. destruct l as [|z l]; [discriminate|].
      pose proof (H 0 x eq_refl) as H0. injection H0 as ->. cbn [map2]. f_equal. cbn [nth].
      destruct n as [|n]; [discriminate|].
      apply (IH n b l); [simpl in L; lia| |simpl in La; lia|simpl in Lb; lia]. intros i w Hw. exact (H (S i) w Hw).
  Qed.
  Theorem pn_sum_sqlen (p : PointN T N) : pn_sum_squares p = pn_sqlen p.
  Proof.
    unfold pn_sum_squares, pn_sqlen, pn_into_iter. generalize (s_lit (T := T) 0). induction (pn_arr p) as [|x l IH]; intros a; [reflexivity|].
    cbn [map fold_left]. apply IH.
  Qed.
  Theorem pn_items (p : PointN T N) i : length (pn_into_iter p) = N /\ pn_axis p i = idx (pn_into_iter p) i.
  Proof.
    pose proof (pn_length p) as L. split; [exact L|]. unfold pn_axis, pn_into_iter.
    destruct (Nat.leb_spec i N) as [H|H]; [reflexivity|]. symmetry. apply idx_ge. lia.
  Qed.
End Mut.

Theorem bezier_mut {P} (g : P -> P) ps : bezier_iter_mut (fun _ => g) (Bezier ps) = Ret (Bezier (map g ps)).
Proof. unfold bezier_iter_mut. cbn [bz_points]. rewrite iter_mut_map. reflexivity. Qed.

Local Open Scope R_scope.
Section Distance.
  Context {E : Eps} {P : Type} {PT : Point R P} {LP : LawfulPoint P} (items : P -> nat).

  Lemma it_dot_short (v w : P) : (items v <= p_dim (P := P))%nat ->
    it_dot_loop items v w = Ret (Rsum (fun i => coord v i * coord w i) (items v)).
  Proof.
    intros Hn. unfold it_dot_loop.
    destruct (for_in_range_inv
      (fun i d => d = Rsum (fun i => coord v i * coord w i) i) 0 (items v) (s_lit 0)
      (fun i dot => let! a := p_axis v i in let! b := p_axis w i in Ret (s_add dot (s_mul a b))))
      as (d & Hd & ->).
    - lia.
    - reflexivity.
    - intros i s Hi ->. rewrite !axis_lt by lia. simpl. eexists. split; [reflexivity|].
      rewrite Nat.add_1_r. reflexivity.
    - exact Hd.
  Qed.
  Lemma it_dot_long (v w : P) : (p_dim (P := P) < items v)%nat -> it_dot_loop items v w = Panic.
  Proof.
    intros Hn. unfold it_dot_loop.
    assert (A : forall k x, (p_dim (P := P) - k < items v - k)%nat -> (k <= p_dim (P := P))%nat ->
      for_in (Outcome.range k (items v)) x (fun i dot => let! a := p_axis v i in let! b := p_axis w i in Ret (s_add dot (s_mul a b))) = Panic).
    2:{ apply A; lia. }
    intros k. remember (p_dim (P := P) - k)%nat as m eqn:Em. revert k Em. induction m as [|m IH]; intros k Em x Hx Hk.
    - rewrite range_cons by lia. cbn [for_in]. rewrite lp_axis.
      rewrite (proj2 (Nat.ltb_ge k (p_dim (P := P)))) by lia. reflexivity.
    - rewrite range_cons by lia. cbn [for_in]. rewrite !axis_lt by lia. cbn [bind]. apply IH; lia.
  Qed.

  Theorem it_distance_short (s : line P) p : (forall q, (items q <= p_dim (P := P))%nat) ->
    exists u, 0 <= u <= 1 /\ it_line_distance_to_point items s p = Ret (dist p (line_eval s u)).
  Proof.
    intros Hn. unfold it_line_distance_to_point. rs. rewrite sqlen_sub. fold (sqd s).
    unfold Rltb at 1. destruct (Rlt_dec (sqd s) eps) as [Hl|Hl].
    - exists 0. split; [lra|]. rewrite sqrt_sqlen_sub, dist_sym, line_eval_0. reflexivity.
    - rewrite it_dot_short by apply Hn. cbn [bind]. rs. rewrite sqrt_sqlen_sub. eexists. split; [|reflexivity].
      unfold Rltb. set (d := Rsum _ _ / sqd s).
      destruct (Rlt_dec d 1) as [H1|H1]; match goal with |- context [Rlt_dec ?x 0] => destruct (Rlt_dec x 0) end; lra.
  Qed.
  Theorem it_distance_long (s : line P) p : (forall q, (p_dim (P := P) < items q)%nat) ->
    eps <= p_sqlen (p_sub (l_end s) (l_start s)) -> it_line_distance_to_point items s p = Panic.
  Proof.
    intros Hn Hl. unfold it_line_distance_to_point. rs. unfold Rltb at 1.
    destruct (Rlt_dec _ eps) as [H|H]; [lra|]. now rewrite it_dot_long by apply Hn.
  Qed.
End Distance.
