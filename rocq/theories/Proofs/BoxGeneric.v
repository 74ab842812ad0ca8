(** Bounding boxes over an arbitrary scalar type: what is computed per axis, and
    when the sort panics. *)
From Coq Require Import ZArith List Arith Lia Bool.
From Verif Require Import Base.Outcome Base.Scalar Model.Point Model.Line Model.Quadratic
  Model.Cubic Spec.Componentwise Proofs.OutcomeFacts.
Import ListNotations.

(** ** Loops that fill an array *)
Section Fill.
  Context {B : Type}.
  Variable f : nat -> outcome B.
  Variable init : list B.

  Definition fill (n : nat) : outcome (list B) :=
    for_in (range 0 n) init (fun i b => let! x := f i in set_idx b i x).

  Lemma fill_ret n : n <= length init -> (forall i, i < n -> exists b, f i = Ret b) ->
    exists bs, fill n = Ret bs /\ length bs = length init /\
      forall i, i < n -> exists b, f i = Ret b /\ nth_error bs i = Some b.
  Proof.
    intros Hn Hf.
    destruct (for_in_range_inv (fun k bs => length bs = length init /\
      forall i, i < k -> exists b, f i = Ret b /\ nth_error bs i = Some b) 0 n init
      (fun i b => let! x := f i in set_idx b i x)) as (bs & E & A & C).
    - lia.
    - split; [reflexivity|]. intros i Hi. lia.
    - intros i bs Hi (A & C). destruct (Hf i) as [b Eb]; [lia|]. rewrite Eb. cbn [bind].
      rewrite set_idx_lt by lia. eexists. split; [reflexivity|]. rewrite length_replace_nth.
      split; [exact A|]. intros j Hj.
      destruct (Nat.eq_dec j i) as [->|Hji].
      + exists b. split; [exact Eb|]. rewrite (nth_error_nth' _ b) by (rewrite length_replace_nth; lia).
        rewrite nth_replace_nth by lia. now rewrite Nat.eqb_refl.
      + destruct (C j) as (b' & E' & E''); [lia|]. exists b'. split; [exact E'|].
        rewrite (nth_error_nth' _ b) by (rewrite length_replace_nth; lia).
        rewrite nth_replace_nth by lia. rewrite (proj2 (Nat.eqb_neq j i) Hji).
        rewrite (nth_error_nth' bs b) in E'' by lia. exact E''.
    - exists bs. auto.
  Qed.

  Lemma fill_panic n : n <= length init -> (forall i, i < n -> f i = Panic \/ exists b, f i = Ret b) ->
    (exists i, i < n /\ f i = Panic) -> fill n = Panic.
  Proof.
    intros Hn Hf. induction n as [|n IH]; intros (i & Hi & Ep); [lia|].
    unfold fill. rewrite range_S by lia. rewrite for_in_app. fold (fill n).
    assert (C : fill n = Panic \/ forall i, i < n -> exists b, f i = Ret b).
    { clear - Hf IH Hn.
      assert (D : (exists i, i < n /\ f i = Panic) \/ forall i, i < n -> exists b, f i = Ret b).
      { clear IH Hn. assert (Hf' : forall i, i < n -> f i = Panic \/ exists b, f i = Ret b) by (intros; apply Hf; lia).
        clear Hf. induction n as [|n IH]; [right; lia|].
        destruct IH as [(i & Hi & E)|A]; [intros; apply Hf'; lia|left; exists i; split; [lia|exact E]|].
        destruct (Hf' n) as [E|E]; [lia|left; exists n; split; [lia|exact E]|].
        right. intros i Hi. destruct (Nat.eq_dec i n) as [->|]; [exact E|]. apply A. lia. }
      destruct D as [D|D]; [left; apply IH; [lia| |exact D]; intros; apply Hf; lia|now right]. }
    destruct C as [->|C]; [reflexivity|].
    destruct (fill_ret n ltac:(lia) C) as (bs & -> & _). cbn [bind for_in].
    destruct (Nat.eq_dec i n) as [->|Hin].
    - rewrite Ep. reflexivity.
    - destruct (C i) as [b Eb]; [lia|]. congruence.
  Qed.
End Fill.

Section Generic.
  Context {T P : Type} {ST : Scalar T} {PT : Point T P} {CP : CwPoint T P}.

  Lemma insert_length_gen (x : T) l : length (s_insert x l) = S (length l).
  Proof. induction l as [|z l IH]; simpl; auto. destruct (s_leb x z); simpl; auto. Qed.
  Lemma isort_length_gen (l : list T) : length (s_isort l) = length l.
  Proof. induction l as [|z l IH]; simpl; auto. now rewrite insert_length_gen, IH. Qed.
  Lemma insert_in_gen (x y : T) l : In y (s_insert x l) <-> y = x \/ In y l.
  Proof.
    induction l as [|z l IH]; simpl.
    - intuition.
    - destruct (s_leb x z); simpl; [intuition|]. rewrite IH. intuition.
  Qed.
  Lemma isort_in_gen (y : T) l : In y (s_isort l) <-> In y l.
  Proof.
    induction l as [|z l IH]; simpl; [tauto|]. rewrite insert_in_gen, IH. intuition.
  Qed.

  (** smallest and largest of the sorted values *)
  Definition box_of (vs : list T) : outcome (T * T) :=
    let! l := sort_by_partial_cmp vs in
    let! lo := idx l 0 in
    let! hi := idx l (length l - 1) in
    Ret (lo, hi).

  Lemma box_of_ok vs : 2 <= length vs -> existsb s_is_nan vs = false ->
    exists lo hi, box_of vs = Ret (lo, hi) /\
      nth_error (s_isort vs) 0 = Some lo /\ nth_error (s_isort vs) (length vs - 1) = Some hi.
  Proof.
    intros H N. unfold box_of, sort_by_partial_cmp.
    destruct vs as [|x [|y vs]]; [cbn in H; lia|cbn in H; lia|]. rewrite N. cbn [bind].
    set (l := s_isort (x :: y :: vs)). pose proof (isort_length_gen (x :: y :: vs)) as L. fold l in L.
    cbn [length] in H, L. rewrite L.
    rewrite (idx_lt l 0 x) by lia. rewrite (idx_lt l _ x) by lia. cbn [bind].
    eexists _, _. split; [reflexivity|]. split; apply nth_error_nth'; cbn [length]; lia.
  Qed.

  Lemma box_of_nan vs : 2 <= length vs -> existsb s_is_nan vs = true -> box_of vs = Panic.
  Proof.
    intros H N. unfold box_of, sort_by_partial_cmp.
    destruct vs as [|x [|y vs]]; [cbn in H; lia|cbn in H; lia|]. now rewrite N.
  Qed.

  Lemma box_of_cases vs : 2 <= length vs ->
    box_of vs = Panic \/ exists b, box_of vs = Ret b.
  Proof.
    intros H. destruct (existsb s_is_nan vs) eqn:N; [left; now apply box_of_nan|right].
    destruct (box_of_ok vs H N) as (lo & hi & E & _). eauto.
  Qed.

  Lemma filter_length_gen {A} (f : A -> bool) l : length (filter f l) <= length l.
  Proof. induction l as [|x l IH]; simpl; [lia|]. destruct (f x); simpl; lia. Qed.

  Lemma axis_in (p : P) i : i < p_dim (P := P) -> p_axis p i = Ret (cw p i).
  Proof. intros H. rewrite cw_axis. now rewrite (proj2 (Nat.ltb_lt _ _) H). Qed.

  (** ** Quadratic *)
  Definition mixg (t a b : T) : T := s_add a (s_mul (s_sub b a) t).
  Definition quad_at (s c e t : T) : T := mixg t (mixg t s c) (mixg t c e).
  Definition cubic_at (s c1 c2 e t : T) : T :=
    mixg t (mixg t (mixg t s c1) (mixg t c1 c2)) (mixg t (mixg t c1 c2) (mixg t c2 e)).

  Lemma cw_mixg t (a b : P) i : i < p_dim (P := P) ->
    cw (p_add a (p_mul (p_sub b a) t)) i = mixg t (cw a i) (cw b i).
  Proof. intros H. unfold mixg. now rewrite cw_add, cw_mul, cw_sub by exact H. Qed.

  Lemma quad_eval_roots_value (q : quad P) i l : i < p_dim (P := P) ->
    quad_eval_roots q i l
    = Ret (map (quad_at (cw (q_start q) i) (cw (q_ctrl q) i) (cw (q_end q) i)) l).
  Proof.
    intros Hi. induction l as [|t l IH]; [reflexivity|]. cbn [quad_eval_roots map].
    rewrite axis_in by exact Hi. rewrite IH. cbn [bind]. unfold quad_at, quad_eval_casteljau.
    now rewrite !cw_mixg by exact Hi.
  Qed.
  Lemma cubic_eval_roots_value (c : cubic P) i l : i < p_dim (P := P) ->
    cubic_eval_roots c i l
    = Ret (map (cubic_at (cw (c_start c) i) (cw (c_ctrl1 c) i) (cw (c_ctrl2 c) i) (cw (c_end c) i)) l).
  Proof.
    intros Hi. induction l as [|t l IH]; [reflexivity|]. cbn [cubic_eval_roots map].
    rewrite axis_in by exact Hi. rewrite IH. cbn [bind]. unfold cubic_at, cubic_eval_casteljau.
    now rewrite !cw_mixg by exact Hi.
  Qed.

  Lemma line_root_len a b : exists l, line_root a b = Ret l /\ length l <= 1 /\
    forall r, In r l -> r = s_div (s_neg b) a.
  Proof.
    unfold line_root. destruct (s_ltb (s_abs a) s_eps).
    - exists []. split; [reflexivity|]. split; [cbn; lia|]. intros r [].
    - rewrite av_push_lt by (cbn; lia). eexists. split; [reflexivity|]. split; [cbn; lia|].
      intros r [<-|[]]. reflexivity.
  Qed.

  (** the values compared by the bounding box of a quadratic, per axis *)
  Lemma quad_bbox_axis_roots (q : quad P) i : i < p_dim (P := P) ->
    let s := cw (q_start q) i in let c := cw (q_ctrl q) i in let e := cw (q_end q) i in
    let d0 := s_mul (s_sub c s) (s_lit 2) in let d1 := s_mul (s_sub e c) (s_lit 2) in
    exists l, line_root (s_add (s_mul d0 (s_lit (-1))) d1) d0 = Ret l /\
      quad_bbox_axis q i = box_of (map (quad_at s c e) (filter in_unit l) ++ [s; e]).
  Proof.
    intros Hi s c e d0 d1. unfold quad_bbox_axis. cbv zeta. rewrite !axis_in by exact Hi. cbn [bind].
    unfold quad_derivative. cbn [l_start l_end]. rewrite !cw_add, !cw_mul, !cw_sub by exact Hi.
    fold s c e d0 d1.
    destruct (line_root_len (s_add (s_mul d0 (s_lit (-1))) d1) d0) as (l & -> & L & Hl). cbn [bind].
    exists l. split; [reflexivity|].
    rewrite av_extend_le by (cbn [length]; lia). cbn [bind app].
    rewrite quad_eval_roots_value by exact Hi. cbn [bind]. fold s c e.
    pose proof (filter_length_gen in_unit l) as FL.
    rewrite av_push_lt by (rewrite map_length; lia). cbn [bind].
    rewrite av_push_lt by (rewrite app_length, map_length; cbn [length]; lia). cbn [bind].
    unfold box_of. rewrite <- app_assoc. reflexivity.
  Qed.
  Lemma quad_bbox_axis_box (q : quad P) i : i < p_dim (P := P) ->
    let s := cw (q_start q) i in let c := cw (q_ctrl q) i in let e := cw (q_end q) i in
    let d0 := s_mul (s_sub c s) (s_lit 2) in let d1 := s_mul (s_sub e c) (s_lit 2) in
    exists l, length l <= 1 /\
      (forall r, In r l -> in_unit r = true /\
         r = s_div (s_neg d0) (s_add (s_mul d0 (s_lit (-1))) d1)) /\
      quad_bbox_axis q i = box_of (map (quad_at s c e) l ++ [s; e]).
  Proof.
    intros Hi s c e d0 d1. destruct (quad_bbox_axis_roots q i Hi) as (l & El & Eb).
    destruct (line_root_len (s_add (s_mul d0 (s_lit (-1))) d1) d0) as (l' & El' & L & Hl).
    fold s c e d0 d1 in El, Eb. rewrite El in El'. injection El' as <-.
    pose proof (filter_length_gen in_unit l) as FL. exists (filter in_unit l). split; [lia|]. split; [|exact Eb].
    intros r Hr. apply filter_In in Hr as [H1 H2]. auto.
  Qed.

  Lemma quad_roots_len a b c : exists l, quad_real_roots a b c = Ret l /\ length l <= 2 /\
    forall r, In r l ->
      (s_ltb (s_abs a) s_eps = true /\ r = s_div (s_neg c) b) \/
      (exists x, r = s_div x (s_mul a (s_lit 2))).
  Proof.
    unfold quad_real_roots. destruct (s_ltb (s_abs a) s_eps) eqn:Ea.
    - destruct (s_ltb (s_abs b) s_eps).
      + exists []. split; [reflexivity|]. split; [cbn; lia|]. intros r [].
      + rewrite av_push_lt by (cbn; lia). eexists. split; [reflexivity|]. split; [cbn; lia|].
        intros r [<-|[]]. auto.
    - cbv zeta. destruct (s_ltb (s_lit 0) _).
      + rewrite av_push_lt by (cbn; lia). cbn [bind app]. rewrite av_push_lt by (cbn; lia).
        eexists. split; [reflexivity|]. split; [cbn; lia|].
        intros r [<-|[<-|[]]]; right; eexists; reflexivity.
      + match goal with |- context [if ?d then _ else _] => destruct d end.
        * rewrite av_push_lt by (cbn; lia). eexists. split; [reflexivity|]. split; [cbn; lia|].
          intros r [<-|[]]. right. eexists. reflexivity.
        * exists []. split; [reflexivity|]. split; [cbn; lia|]. intros r [].
  Qed.

  Lemma cubic_bbox_axis_roots (k : cubic P) i : i < p_dim (P := P) ->
    let s := cw (c_start k) i in let c1 := cw (c_ctrl1 k) i in
    let c2 := cw (c_ctrl2 k) i in let e := cw (c_end k) i in
    let d0 := s_mul (s_sub c1 s) (s_lit 3) in let d1 := s_mul (s_sub c2 c1) (s_lit 3) in
    let d2 := s_mul (s_sub e c2) (s_lit 3) in
    let a := s_add (s_add d0 (s_mul d1 (s_lit (-2)))) d2 in
    let b := s_add (s_mul d0 (s_lit (-2))) (s_mul d1 (s_lit 2)) in
    exists l, quad_real_roots a b d0 = Ret l /\
      cubic_bbox_axis k i = box_of (map (cubic_at s c1 c2 e) (filter in_unit l) ++ [s; e]).
  Proof.
    intros Hi s c1 c2 e d0 d1 d2 a b. unfold cubic_bbox_axis. cbv zeta. rewrite !axis_in by exact Hi. cbn [bind].
    unfold cubic_derivative. cbn [q_start q_ctrl q_end]. rewrite !cw_add, !cw_mul, !cw_sub by exact Hi.
    fold s c1 c2 e d0 d1 d2. fold a b.
    destruct (quad_roots_len a b d0) as (l & -> & L & Hl). cbn [bind].
    exists l. split; [reflexivity|].
    rewrite av_extend_le by (cbn [length]; lia). cbn [bind app].
    rewrite cubic_eval_roots_value by exact Hi. cbn [bind]. fold s c1 c2 e.
    pose proof (filter_length_gen in_unit l) as FL.
    rewrite av_push_lt by (rewrite map_length; lia). cbn [bind].
    rewrite av_push_lt by (rewrite app_length, map_length; cbn [length]; lia). cbn [bind].
    unfold box_of. rewrite <- app_assoc. reflexivity.
  Qed.
  Lemma cubic_bbox_axis_box (k : cubic P) i : i < p_dim (P := P) ->
    let s := cw (c_start k) i in let c1 := cw (c_ctrl1 k) i in
    let c2 := cw (c_ctrl2 k) i in let e := cw (c_end k) i in
    let d0 := s_mul (s_sub c1 s) (s_lit 3) in let d1 := s_mul (s_sub c2 c1) (s_lit 3) in
    let d2 := s_mul (s_sub e c2) (s_lit 3) in
    let a := s_add (s_add d0 (s_mul d1 (s_lit (-2)))) d2 in
    let b := s_add (s_mul d0 (s_lit (-2))) (s_mul d1 (s_lit 2)) in
    exists l, length l <= 2 /\
      (forall r, In r l -> in_unit r = true /\
         ((s_ltb (s_abs a) s_eps = true /\ r = s_div (s_neg d0) b) \/
          (exists x, r = s_div x (s_mul a (s_lit 2))))) /\
      cubic_bbox_axis k i = box_of (map (cubic_at s c1 c2 e) l ++ [s; e]).
  Proof.
    intros Hi s c1 c2 e d0 d1 d2 a b. destruct (cubic_bbox_axis_roots k i Hi) as (l & El & Eb).
    destruct (quad_roots_len a b d0) as (l' & El' & L & Hl).
    fold s c1 c2 e d0 d1 d2 in El, Eb. fold a b in El, Eb. rewrite El in El'. injection El' as <-.
    pose proof (filter_length_gen in_unit l) as FL. exists (filter in_unit l). split; [lia|]. split; [|exact Eb].
    intros r Hr. apply filter_In in Hr as [H1 H2]. auto.
  Qed.

  (** ** Whole boxes *)
  Lemma quad_box_fill (q : quad P) : quad_bounding_box q
    = fill (quad_bbox_axis q) (repeat (s_lit 0, s_lit 0) (p_dim (P := P))) (p_dim (P := P)).
  Proof. reflexivity. Qed.
  Lemma cubic_box_fill (c : cubic P) : cubic_bounding_box c
    = fill (cubic_bbox_axis c) (repeat (s_lit 0, s_lit 0) (p_dim (P := P))) (p_dim (P := P)).
  Proof. reflexivity. Qed.

  Lemma tail_len {A B} (f : A -> B) l (x y : B) : 2 <= length (map f l ++ [x; y]).
  Proof. rewrite app_length. cbn [length]. lia. Qed.

  Lemma quad_axis_cases (q : quad P) i : i < p_dim (P := P) ->
    quad_bbox_axis q i = Panic \/ exists b, quad_bbox_axis q i = Ret b.
  Proof.
    intros Hi. destruct (quad_bbox_axis_box q i Hi) as (l & _ & _ & ->). apply box_of_cases, tail_len.
  Qed.
  Lemma cubic_axis_cases (c : cubic P) i : i < p_dim (P := P) ->
    cubic_bbox_axis c i = Panic \/ exists b, cubic_bbox_axis c i = Ret b.
  Proof.
    intros Hi. destruct (cubic_bbox_axis_box c i Hi) as (l & _ & _ & ->). apply box_of_cases, tail_len.
  Qed.

  Lemma existsb_tail {A} (f : A -> T) l x y :
    s_is_nan x = true \/ s_is_nan y = true -> existsb s_is_nan (map f l ++ [x; y]) = true.
  Proof.
    intros H. rewrite existsb_app. apply orb_true_iff. right. cbn [existsb].
    destruct H as [-> | ->]; cbn; auto using orb_true_r.
  Qed.

  (** C57, any scalar type *)
  Theorem quad_box_nan (q : quad P) i : i < p_dim (P := P) ->
    s_is_nan (cw (q_start q) i) = true \/ s_is_nan (cw (q_end q) i) = true ->
    quad_bounding_box q = Panic.
  Proof.
    intros Hi H. rewrite quad_box_fill. apply fill_panic.
    - rewrite repeat_length. lia.
    - intros j Hj. now apply quad_axis_cases.
    - exists i. split; [exact Hi|]. destruct (quad_bbox_axis_box q i Hi) as (l & _ & _ & ->).
      apply box_of_nan; [apply tail_len|]. now apply existsb_tail.
  Qed.
  Theorem cubic_box_nan (c : cubic P) i : i < p_dim (P := P) ->
    s_is_nan (cw (c_start c) i) = true \/ s_is_nan (cw (c_end c) i) = true ->
    cubic_bounding_box c = Panic.
  Proof.
    intros Hi H. rewrite cubic_box_fill. apply fill_panic.
    - rewrite repeat_length. lia.
    - intros j Hj. now apply cubic_axis_cases.
    - exists i. split; [exact Hi|]. destruct (cubic_bbox_axis_box c i Hi) as (l & _ & _ & ->).
      apply box_of_nan; [apply tail_len|]. now apply existsb_tail.
  Qed.

  (** the box of a line never panics *)
  Theorem line_box_total (l : line P) : exists bounds, line_bounding_box l = Ret bounds /\
    length bounds = p_dim (P := P).
  Proof.
    unfold line_bounding_box.
    destruct (for_in_range_inv (fun _ (bs : list (T * T)) => length bs = p_dim (P := P)) 0 (p_dim (P := P))
      (repeat (s_lit 0, s_lit 0) (p_dim (P := P)))
      (fun i bounds =>
        let! s := p_axis (l_start l) i in
        let! e := p_axis (l_end l) i in
        if s_ltb s e then set_idx bounds i (s, e) else set_idx bounds i (e, s))) as (bs & E & L).
    - lia.
    - apply repeat_length.
    - intros i bs Hi L. rewrite !axis_in by lia. cbn [bind].
      destruct (s_ltb _ _); rewrite set_idx_lt by lia;
        (eexists; split; [reflexivity|rewrite length_replace_nth; exact L]).
    - exists bs. auto.
  Qed.
End Generic.
