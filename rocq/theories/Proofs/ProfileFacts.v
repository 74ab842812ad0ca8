(** Both build profiles compute what the model computes. *)
From Coq Require Import ZArith List Arith Bool Lia.
From Verif Require Import Base.Outcome Base.Scalar Model.Point Model.Bezier Model.BSpline Model.Profiles
  Proofs.OutcomeFacts.
Import ListNotations.

Record fits (M : nat) (pr : profile) : Prop := {
  add_ok : forall a b, (a + b < M)%nat -> u_add pr a b = Ret (a + b)%nat;
  sub_ok : forall a b, (b <= a < M)%nat -> u_sub pr a b = Ret (a - b)%nat;
  sub_under : forall a b, (a < b < M)%nat -> u_sub pr a b = Panic \/ u_sub pr a b = Ret (a + M - b)%nat
}.

Lemma fits_debug M : fits M (debug M).
Proof.
  split; intros a b H; cbn [u_add u_sub debug].
  - destruct (Nat.ltb_spec (a + b) M); [reflexivity|lia].
  - destruct (Nat.leb_spec b a); [reflexivity|lia].
  - destruct (Nat.leb_spec b a); [lia|now left].
Qed.
Lemma fits_release M : fits M (release M).
Proof.
  split; intros a b H; cbn [u_add u_sub release].
  - now rewrite Nat.mod_small.
  - rewrite (Nat.mod_small b) by lia. replace (a + (M - b))%nat with (a - b + 1 * M)%nat by lia.
    rewrite Nat.mod_add by lia. now rewrite Nat.mod_small by lia.
  - right. rewrite (Nat.mod_small b), Nat.mod_small by lia. f_equal. lia.
Qed.

Lemma for_in_same {S : Type} (I : S -> Prop) is : forall (s : S) f g, I s ->
  (forall i s, In i is -> I s -> f i s = g i s) ->
  (forall i s s', In i is -> I s -> g i s = Ret s' -> I s') ->
  for_in is s f = for_in is s g.
Proof.
  induction is as [|i is IH]; intros s f g Hs He Hk; [reflexivity|]. cbn [for_in].
  rewrite (He i s) by (try left; auto). destruct (g i s) as [s'| |] eqn:E; cbn [bind]; auto.
  apply IH; [apply (Hk i s s'); [now left|exact Hs|exact E]| |]; intros; [apply He|eapply Hk]; eauto; now right.
Qed.
Lemma for_in_same0 {S : Type} is (s : S) f g : (forall i s, In i is -> f i s = g i s) -> for_in is s f = for_in is s g.
Proof. intros H. apply (for_in_same (fun _ => True)); auto. Qed.
Lemma for_break_same {S : Type} is : forall (s : S) f g, (forall i s, In i is -> f i s = g i s) ->
  for_break is s f = for_break is s g.
Proof.
  induction is as [|i is IH]; intros s f g H; [reflexivity|]. cbn [for_break].
  rewrite H by now left. destruct (g i s) as [[s' b]| |]; cbn [bind]; auto. destruct b; cbn; auto.
  apply IH. intros; apply H; now right.
Qed.
Lemma for_result_same {S E : Type} is : forall (s : S) (f g : nat -> S -> outcome (result S E)),
  (forall i s, In i is -> f i s = g i s) -> for_result is s f = for_result is s g.
Proof.
  induction is as [|i is IH]; intros s f g H; [reflexivity|]. cbn [for_result].
  rewrite H by now left. destruct (g i s) as [[s'|e]| |]; cbn [bind]; auto.
  apply IH. intros; apply H; now right.
Qed.

Lemma in_range a b i : In i (range a b) -> (a <= i < b)%nat.
Proof. unfold range. rewrite in_seq. lia. Qed.
Lemma in_range_incl a b i : In i (range_incl a b) -> (a <= i <= b)%nat.
Proof. unfold range_incl. rewrite in_seq. lia. Qed.

Lemma idx_some {A} (l : list A) i x : idx l i = Ret x -> (i < length l)%nat.
Proof. unfold idx. destruct (nth_error l i) eqn:E; [|discriminate]. intros _. apply nth_error_Some. congruence. Qed.
Lemma idx_out {A} (l : list A) i : (length l <= i)%nat -> idx l i = Panic.
Proof. intros H. unfold idx. apply nth_error_None in H. now rewrite H. Qed.
Lemma idx_not_stuck {A} (l : list A) i : idx l i <> Stuck.
Proof. unfold idx. destruct (nth_error l i); discriminate. Qed.
Lemma set_idx_length {A} (l l' : list A) i v : set_idx l i v = Ret l' -> length l' = length l.
Proof.
  unfold set_idx. destruct (i <? length l)%nat; [|discriminate]. intros H. injection H as <-.
  revert i. induction l as [|x l IH]; intros [|i]; cbn; auto.
Qed.
Lemma for_in_length {A} is (f : nat -> list A -> outcome (list A)) : forall s s',
  (forall i s s', In i is -> f i s = Ret s' -> length s' = length s) -> for_in is s f = Ret s' -> length s' = length s.
Proof.
  induction is as [|i is IH]; intros s s' Hf H; cbn [for_in] in H.
  - injection H as <-. reflexivity.
  - destruct (f i s) as [s1| |] eqn:E1; cbn [bind] in H; try discriminate.
    rewrite (IH s1 s'); auto.
    + apply (Hf i); [now left|exact E1].
    + intros; apply (Hf i0); auto; now right.
Qed.

Lemma for_break_length {A} is (f : nat -> list A -> outcome (list A * bool)) : forall s s',
  (forall i s s' b, In i is -> f i s = Ret (s', b) -> length s' = length s) -> for_break is s f = Ret s' -> length s' = length s.
Proof.
  induction is as [|i is IH]; intros s s' Hf H; cbn [for_break] in H.
  - injection H as <-. reflexivity.
  - destruct (f i s) as [[s1 b]| |] eqn:E1; cbn [bind fst snd] in H; try discriminate.
    pose proof (Hf i s s1 b (or_introl eq_refl) E1) as L1. destruct b; [injection H as <-; exact L1|].
    rewrite (IH s1 s'); auto. intros; eapply (Hf i0); eauto; now right.
Qed.

Section Profiles.
  Context {T P : Type} {ST : Scalar T} {PT : Point T P} (M : nat) (pr : profile) (F : fits M pr).

  (** an index that underflowed is out of bounds *)
  Lemma under_idx {A B} (l : list A) a b (k : A -> outcome B) : (b < M)%nat -> (a < M)%nat -> (length l + b <= M)%nat ->
    (let! i := u_sub pr a b in let! x := idx l i in k x) = (let! i := usub a b in let! x := idx l i in k x).
  Proof.
    intros Hb Ha Hl. unfold usub. destruct (Nat.leb_spec b a) as [H|H].
    - now rewrite (sub_ok M pr F) by lia.
    - destruct (sub_under M pr F a b ltac:(lia)) as [-> | ->]; [reflexivity|]. cbn [bind].
      now rewrite (idx_out l) by lia.
  Qed.

  Lemma level_same (t : T) i (p : list P) : (i <= length p)%nat -> (length p + 1 < M)%nat ->
    pr_casteljau_level pr t i p = casteljau_level t i p.
  Proof.
    intros Hi HM. unfold pr_casteljau_level, casteljau_level, usub.
    rewrite (sub_ok M pr F) by lia. destruct (Nat.leb_spec i (length p)); [|lia]. cbn [bind].
    apply for_in_same0. intros j s Hj. apply in_range in Hj. rewrite (add_ok M pr F) by lia. reflexivity.
  Qed.
  Lemma level_length (t : T) i (p q : list P) : casteljau_level t i p = Ret q -> length q = length p.
  Proof.
    unfold casteljau_level. destruct (usub _ _); cbn [bind]; try discriminate.
    apply for_in_length. intros j s s' _ H. destruct (idx s j); cbn [bind] in H; try discriminate.
    destruct (idx s (j + 1)); cbn [bind] in H; try discriminate. now apply set_idx_length in H.
  Qed.

  Lemma bezier_eval_same (c : bezier P) (t : T) : (length (bz_points c) + 1 < M)%nat ->
    pr_bezier_eval pr c t = bezier_eval c t.
  Proof.
    intros HM. unfold pr_bezier_eval, bezier_eval.
    rewrite (for_in_same (fun p => length p = length (bz_points c)) _ _ _ (fun i p => casteljau_level t i p)); auto.
    - intros i s Hi Hs. apply in_range_incl in Hi. apply level_same; lia.
    - intros i s s' _ Hs H. apply level_length in H. lia.
  Qed.

  Lemma bezier_split_same (c : bezier P) (t : T) : (length (bz_points c) + 1 < M)%nat ->
    pr_bezier_split pr c t = bezier_split c t.
  Proof.
    intros HM. unfold pr_bezier_split, bezier_split. set (n := length (bz_points c)) in *.
    rewrite (for_in_same (fun st : list P * list P * list P => length (snd (fst st)) = n /\ length (snd st) = n) _ _ _ (split_body t)); auto.
    - intros i [[l r] cp] Hi [H1 H2]. cbn [fst snd] in *. apply in_range_incl in Hi. unfold pr_split_body, split_body, usub.
      rewrite !(sub_ok M pr F) by lia.
      destruct (Nat.leb_spec 1 i); [|lia]. destruct (Nat.leb_spec i (length r)); [|lia]. cbn [bind].
      destruct (idx cp 0); cbn [bind]; auto. destruct (set_idx l _ _); cbn [bind]; auto.
      destruct (idx cp (length r - i)); cbn [bind]; auto. destruct (set_idx r _ _); cbn [bind]; auto.
      rewrite level_same by lia. reflexivity.
    - intros i [[l r] cp] [[l' r'] cp'] _ [H1 H2] H. cbn [fst snd] in *. unfold split_body in H.
      destruct (usub i 1); cbn [bind] in H; try discriminate. destruct (idx cp 0); cbn [bind] in H; try discriminate.
      destruct (set_idx l _ _); cbn [bind] in H; try discriminate. destruct (usub (length r) i); cbn [bind] in H; try discriminate.
      destruct (idx cp _); cbn [bind] in H; try discriminate.
      destruct (set_idx r _ _) eqn:E; cbn [bind] in H; try discriminate.
      destruct (casteljau_level t i cp) eqn:E2; cbn [bind] in H; try discriminate. injection H as <- <- <-.
      apply set_idx_length in E. apply level_length in E2. lia.
  Qed.

  Lemma bezier_derivative_same (c : bezier P) : (length (bz_points c) + 1 < M)%nat ->
    pr_bezier_derivative pr c = bezier_derivative (ST := ST) c.
  Proof.
    intros HM. unfold pr_bezier_derivative, bezier_derivative, usub. destruct (Nat.leb_spec 1 (length (bz_points c))); cbn [bind]; [|reflexivity].
    erewrite for_break_same; [reflexivity|]. intros i s Hi. apply in_range in Hi.
    rewrite (add_ok M pr F) by lia. cbn [bind]. rewrite (sub_ok M pr F _ 1) by lia.
    destruct (idx (bz_points c) (i + 1)) eqn:E; cbn [bind]; auto. apply idx_some in E.
    destruct (idx (bz_points c) i); cbn [bind]; auto. destruct (set_idx _ _ _); cbn [bind]; auto.
    rewrite (sub_ok M pr F _ 2) by lia. destruct (Nat.leb_spec 2 (length (bz_points c))); [reflexivity|lia].
  Qed.

  Lemma bezier_arclen_same (c : bezier P) m : (length (bz_points c) + 1 < M)%nat ->
    pr_bezier_arclen pr c m = bezier_arclen c m.
  Proof.
    intros HM. unfold pr_bezier_arclen, bezier_arclen. apply for_in_same0. intros i s _.
    now rewrite !bezier_eval_same by exact HM.
  Qed.

  (** ** B-splines *)
  Lemma new_same D (ks : list T) (ps : list P) : (2 * length ps < M)%nat -> (length ks < M)%nat ->
    pr_bspline_new pr D ks ps = bspline_new D ks ps.
  Proof.
    intros HM HK. unfold pr_bspline_new, bspline_new, usub. destruct (Nat.leb_spec (length ps) D); [reflexivity|].
    rewrite (add_ok M pr F _ 1) by lia. cbn [bind]. rewrite (add_ok M pr F) by lia. cbn [bind].
    destruct (Nat.ltb_spec (length ks) (length ps + 1 + D)); [reflexivity|].
    destruct (Nat.ltb_spec (length ps + 1 + D) (length ks)); [reflexivity|].
    destruct (any_decreasing ks); [reflexivity|]. destruct (idx ks 0); cbn [bind]; auto.
    rewrite (sub_ok M pr F _ D), (sub_ok M pr F _ 1) by lia. cbn [bind]. rewrite (sub_ok M pr F _ 1) by lia. cbn [bind].
    destruct (Nat.leb_spec D (length ks)); [|lia]. cbn [bind]. destruct (Nat.leb_spec 1 (length ks - D)); [|lia]. cbn [bind].
    destruct (Nat.leb_spec 1 (length ks)); [|lia]. reflexivity.
  Qed.

  (** what [new] and [derivative] guarantee, and room for the indices *)
  Definition shape (s : bspline T P) : Prop :=
    (bs_degree s < length (bs_points s))%nat /\ (length (bs_points s) + bs_degree s + 1 <= length (bs_knots s))%nat /\
    (4 * length (bs_knots s) <= M)%nat.

  Section Shape.
    Variable s : bspline T P.
    Hypothesis H : shape s.
    Let D := bs_degree s.
    Let C := length (bs_points s).
    Let K := length (bs_knots s).
    Let HD : (D < C)%nat. Proof. exact (proj1 H). Qed.
    Let HK : (C + D + 1 <= K)%nat. Proof. exact (proj1 (proj2 H)). Qed.
    Let HM : (4 * K <= M)%nat. Proof. exact (proj2 (proj2 H)). Qed.

    
    Lemma domain_same : pr_knot_domain pr s = knot_domain s.
    Proof.
      unfold pr_knot_domain, knot_domain, knot_domain_clamped, knot_domain_clamped_start, knot_domain_clamped_end.
      fold D C K.
      assert (S1 : u_sub pr K 1 = usub K 1).
      { rewrite (sub_ok M pr F) by lia. unfold usub. destruct (Nat.leb_spec 1 K); [reflexivity|lia]. }
      assert (S2 : u_sub pr (K - 1) D = usub (K - 1) D).
      { rewrite (sub_ok M pr F) by lia. unfold usub. destruct (Nat.leb_spec D (K - 1)); [reflexivity|lia]. }
      assert (S3 : usub K 1 = Ret (K - 1)%nat) by (unfold usub; destruct (Nat.leb_spec 1 K); [reflexivity|lia]).
      destruct (bs_kind s); try reflexivity; rewrite S1, S3; cbn [bind]; rewrite ?S2; reflexivity.
    Qed.

    Lemma search_same t : forall fuel low high, (high < K)%nat -> (low <= K)%nat -> (high + 2 - low <= fuel)%nat ->
      pr_search_loop pr fuel (bs_knots s) t low high = search_loop fuel (bs_knots s) t low high.
    Proof.
      induction fuel as [|fuel IH]; intros low high Hh Hl Hf; cbn [pr_search_loop search_loop];
        (destruct (Nat.leb_spec low high) as [Hlh|]; [|reflexivity]); [reflexivity|].
      rewrite (add_ok M pr F) by lia. cbn [bind]. set (mid := ((low + high) / 2)%nat).
      assert (Hm : (low <= mid <= high)%nat).
      { unfold mid. split; [apply Nat.div_le_lower_bound; lia|apply Nat.div_le_upper_bound; lia]. }
      rewrite (add_ok M pr F mid 1) by lia. cbn [bind].
      destruct (idx (bs_knots s) mid) as [km| |]; cbn [bind]; auto.
      match goal with |- (let! _ := ?X in _) = _ => destruct X as [[|]| |] end; cbn [bind]; auto.
      destruct (s_ltb t km); [|apply IH; lia].
      unfold usub. destruct (Nat.leb_spec 1 mid) as [H1|H1].
      - rewrite (sub_ok M pr F) by lia. cbn [bind]. apply IH; lia.
      - destruct (sub_under M pr F mid 1 ltac:(lia)) as [-> | ->]; [reflexivity|]. cbn [bind].
        destruct fuel as [|fuel]; [lia|]. assert (low = 0)%nat as -> by lia. cbn [pr_search_loop].
        destruct (Nat.leb_spec 0 (mid + M - 1)); [|lia]. rewrite (add_ok M pr F) by lia. cbn [bind].
        rewrite idx_out; [reflexivity|]. apply Nat.div_le_lower_bound; lia.
    Qed.

    Lemma unclamped_same t : forall fuel first count, (first + count <= K)%nat ->
      pr_search_unclamped_loop pr fuel (bs_knots s) t first count = search_unclamped_loop fuel (bs_knots s) t first count.
    Proof.
      induction fuel as [|fuel IH]; intros first count Hf; cbn [pr_search_unclamped_loop search_unclamped_loop];
        (destruct (Nat.ltb_spec 0 count) as [Hc|]; [|reflexivity]); [reflexivity|].
      set (step := (count / 2)%nat).
      assert (Hst : (step < count)%nat) by (apply Nat.div_lt; lia).
      rewrite (add_ok M pr F first step) by lia. cbn [bind]. rewrite (add_ok M pr F) by lia. cbn [bind].
      destruct (idx (bs_knots s) (first + step + 1)) as [k1| |]; cbn [bind]; auto.
      assert (S2 : u_sub pr (length (bs_knots s)) 2 = usub (length (bs_knots s)) 2).
      { fold K. rewrite (sub_ok M pr F) by lia. unfold usub. destruct (Nat.leb_spec 2 K); [reflexivity|lia]. }
      rewrite S2.
      match goal with |- (let! _ := ?X in _) = _ => destruct X as [[|]| |] end; cbn [bind]; auto.
      destruct (idx (bs_knots s) (first + step)) as [k0| |]; cbn [bind]; auto.
      match goal with |- (if ?b then _ else _) = _ => destruct b end; cbn [bind]; apply IH; lia.
    Qed.

    Lemma span_same t : pr_knot_span_start_for_t pr s t = knot_span_start_for_t s t.
    Proof.
      unfold pr_knot_span_start_for_t, knot_span_start_for_t.
      assert (S1 : u_sub pr C 1 = Ret (C - 1)%nat) by (apply (sub_ok M pr F); lia).
      assert (S2 : usub C 1 = Ret (C - 1)%nat) by (unfold usub; destruct (Nat.leb_spec 1 C); [reflexivity|lia]).
      assert (A1 : u_add pr (C - 1) 1 = Ret (C - 1 + 1)%nat) by (apply (add_ok M pr F); lia).
      destruct (bs_kind s).
      - unfold pr_span_unclamped, knot_span_start_for_t_unclamped. apply unclamped_same. fold K. lia.
      - unfold pr_span_clamped_start, knot_span_start_for_t_clamped_start. fold C K D. rewrite S1, S2. cbn [bind].
        rewrite (sub_ok M pr F K 1) by lia. unfold usub. destruct (Nat.leb_spec 1 K); [|lia]. cbn [bind].
        destruct (idx (bs_knots s) (K - 1)); cbn [bind]; auto. destruct (s_eqb t a); auto.
        destruct (idx (bs_knots s) D); cbn [bind]; auto. destruct (_ || _)%bool; auto.
        rewrite (sub_ok M pr F) by lia. destruct (Nat.leb_spec 1 (K - 1)); [|lia]. cbn [bind]. apply search_same; lia.
      - unfold pr_span_clamped_end, knot_span_start_for_t_clamped_end. fold C K D. rewrite S1, S2. cbn [bind]. rewrite A1. cbn [bind].
        destruct (idx (bs_knots s) (C - 1 + 1)); cbn [bind]; auto. destruct (s_eqb t a); auto.
        destruct (idx (bs_knots s) 0); cbn [bind]; auto. destruct (_ || _)%bool; auto. apply search_same; lia.
      - unfold pr_span_clamped, knot_span_start_for_t_clamped. fold C K D. rewrite S1, S2. cbn [bind]. rewrite A1. cbn [bind].
        destruct (idx (bs_knots s) (C - 1 + 1)); cbn [bind]; auto. destruct (s_eqb t a); auto. apply search_same; lia.
    Qed.

    Lemma search_bound t k : forall fuel low high, search_loop fuel (bs_knots s) t low high = Ret (Some k) -> (k < K)%nat.
    Proof.
      induction fuel as [|fuel IH]; intros low high E; cbn [search_loop] in E;
        (destruct (low <=? high)%nat; [|discriminate]); [discriminate|].
      set (mid := ((low + high) / 2)%nat) in *.
      destruct (idx (bs_knots s) mid) as [km| |] eqn:Em; cbn [bind] in E; try discriminate.
      match type of E with (let! _ := ?X in _) = _ => destruct X as [[|]| |] end; cbn [bind] in E; try discriminate.
      - injection E as <-. now apply idx_some in Em.
      - destruct (s_ltb t km).
        + destruct (usub mid 1); cbn [bind] in E; try discriminate. now apply IH in E.
        + now apply IH in E.
    Qed.
    Lemma unclamped_bound t k : forall fuel first count,
      search_unclamped_loop fuel (bs_knots s) t first count = Ret (Some k) -> (k < K)%nat.
    Proof.
      induction fuel as [|fuel IH]; intros first count E; cbn [search_unclamped_loop] in E;
        (destruct (0 <? count)%nat; [|discriminate]); [discriminate|].
      set (it := (first + count / 2)%nat) in *.
      destruct (idx (bs_knots s) (it + 1)) as [k1| |] eqn:Em; cbn [bind] in E; try discriminate.
      match type of E with (let! _ := ?X in _) = _ => destruct X as [[|]| |] end; cbn [bind] in E; try discriminate.
      - injection E as <-. apply idx_some in Em. fold K in Em. lia.
      - destruct (idx (bs_knots s) it); cbn [bind] in E; try discriminate. match type of E with (if ?b then _ else _) = _ => destruct b end; now apply IH in E.
    Qed.
    Lemma span_bound t k : knot_span_start_for_t s t = Ret (Some k) -> (k < K)%nat.
    Proof.
      unfold knot_span_start_for_t. 
      assert (S2 : usub C 1 = Ret (C - 1)%nat) by (unfold usub; destruct (Nat.leb_spec 1 C); [reflexivity|lia]).
      destruct (bs_kind s).
      - apply unclamped_bound.
      - unfold knot_span_start_for_t_clamped_start. fold C. rewrite S2. cbn [bind]. destruct (usub (length (bs_knots s)) 1) as [m| |]; cbn [bind]; try discriminate.
        destruct (idx (bs_knots s) m); cbn [bind]; try discriminate. destruct (s_eqb t a); [intros E; inversion E; lia|].
        destruct (idx _ _); cbn [bind]; try discriminate. destruct (_ || _)%bool; try discriminate.
        destruct (usub m 1); cbn [bind]; try discriminate. apply search_bound.
      - unfold knot_span_start_for_t_clamped_end. fold C. rewrite S2. cbn [bind].
        destruct (idx (bs_knots s) (C - 1 + 1)); cbn [bind]; try discriminate. destruct (s_eqb t a); [intros E; inversion E; lia|].
        destruct (idx _ _); cbn [bind]; try discriminate. destruct (_ || _)%bool; try discriminate. apply search_bound.
      - unfold knot_span_start_for_t_clamped. fold C. rewrite S2. cbn [bind].
        destruct (idx (bs_knots s) (C - 1 + 1)); cbn [bind]; try discriminate. destruct (s_eqb t a); [intros E; inversion E; lia|].
        apply search_bound.
    Qed.

    Lemma load_same k : (k < K)%nat -> pr_de_boor_load pr s k = de_boor_load s k.
    Proof.
      intros Hk. unfold pr_de_boor_load, de_boor_load. fold D. apply for_in_same0. intros j d Hj. apply in_range in Hj.
      rewrite (add_ok M pr F) by lia. cbn [bind]. apply under_idx; fold C; lia.
    Qed.
    Lemma alpha_same t k r j : (k < K)%nat -> (1 <= r <= j)%nat -> (j <= D)%nat ->
      pr_alpha_of pr (bs_knots s) D t k r j = alpha_of (bs_knots s) D t k r j.
    Proof.
      intros Hk Hr Hj. unfold pr_alpha_of, alpha_of. rewrite (add_ok M pr F j k) by lia. cbn [bind].
      unfold usub at 1. destruct (Nat.leb_spec D (j + k)) as [H1|H1].
      - rewrite (sub_ok M pr F _ D) by lia. cbn [bind]. destruct (idx (bs_knots s) (j + k - D)); cbn [bind]; auto.
        rewrite (add_ok M pr F j 1) by lia. cbn [bind]. rewrite (add_ok M pr F) by lia. cbn [bind].
        unfold usub. rewrite (sub_ok M pr F _ r) by lia. destruct (Nat.leb_spec r (j + 1 + k)); [|lia]. cbn [bind].
        destruct (idx (bs_knots s) (j + 1 + k - r)); cbn [bind]; auto.
      - destruct (sub_under M pr F (j + k) D ltac:(lia)) as [-> | ->]; [reflexivity|]. cbn [bind].
        now rewrite idx_out by (fold K; lia).
    Qed.
    Lemma deboor_same t : pr_de_boor_iterative pr s t = de_boor_iterative s t.
    Proof.
      unfold pr_de_boor_iterative, de_boor_iterative. fold C D. destruct (idx (bs_knots s) C); cbn [bind]; auto.
      destruct (s_eqb t a).
      { rewrite (sub_ok M pr F) by lia. unfold usub. destruct (Nat.leb_spec 1 C); [reflexivity|lia]. }
      rewrite span_same. destruct (knot_span_start_for_t s t) as [[k|]| |] eqn:Ek; cbn [bind]; auto.
      apply span_bound in Ek. rewrite (load_same k Ek). destruct (de_boor_load s k) as [d| |]; cbn [bind]; auto.
      erewrite for_result_same; [reflexivity|]. intros r d' Hr. apply in_range_incl in Hr.
      apply for_result_same. intros j d'' Hj. rewrite <- in_rev in Hj. apply in_range_incl in Hj.
      unfold pr_de_boor_body, de_boor_body. rewrite alpha_same by lia.
      destruct (alpha_of _ _ _ _ _ _); cbn [bind]; auto. destruct (s_is_nan a0); auto.
      rewrite (sub_ok M pr F) by lia. unfold usub. destruct (Nat.leb_spec 1 j); [reflexivity|lia].
    Qed.
    Lemma eval_same t : pr_bspline_eval pr s t = bspline_eval s t.
    Proof.
      unfold pr_bspline_eval, bspline_eval. rewrite domain_same. destruct (knot_domain s); cbn [bind]; auto.
      destruct (_ || _)%bool; auto. apply deboor_same.
    Qed.
    Lemma arclen_same m : pr_bspline_arclen pr s m = bspline_arclen s m.
    Proof.
      unfold pr_bspline_arclen, bspline_arclen. rewrite domain_same. destruct (knot_domain s); cbn [bind]; auto.
      apply for_in_same0. intros i x _. unfold eval_or_default. now rewrite !eval_same.
    Qed.
    Lemma derivative_same : pr_bspline_derivative pr s = bspline_derivative s.
    Proof.
      unfold pr_bspline_derivative, bspline_derivative. fold C D. destruct (usub C 1) as [cm| |]; cbn [bind]; auto.
      destruct (usub D 1) as [dm| |]; cbn [bind]; auto.
      erewrite for_break_same; [reflexivity|]. intros i x Hi. apply in_range in Hi.
      rewrite (add_ok M pr F i 1), (add_ok M pr F i D) by lia. cbn [bind]. rewrite (add_ok M pr F (i + D) 1) by lia. cbn [bind].
      destruct (idx (bs_points s) (i + 1)) eqn:E; cbn [bind]; auto. apply idx_some in E. fold C in E.
      destruct (idx (bs_points s) i); cbn [bind]; auto. destruct (idx (bs_knots s) (i + D + 1)); cbn [bind]; auto.
      destruct (idx (bs_knots s) (i + 1)); cbn [bind]; auto. destruct (set_idx _ _ _); cbn [bind]; auto.
      rewrite (sub_ok M pr F) by lia. unfold usub. destruct (Nat.leb_spec 2 C); [reflexivity|lia].
    Qed.
  End Shape.

  Lemma new_shape D (ks : list T) (ps : list P) s : (4 * length ks <= M)%nat -> bspline_new D ks ps = Ret (Ok s) -> shape s.
  Proof.
    intros HM. unfold bspline_new. destruct (Nat.leb_spec (length ps) D) as [|H1]; [discriminate|].
    destruct (Nat.ltb_spec (length ks) (length ps + 1 + D)) as [|H2]; [discriminate|].
    destruct (Nat.ltb_spec (length ps + 1 + D) (length ks)) as [|H3]; [discriminate|].
    destruct (any_decreasing ks); [discriminate|]. destruct (idx ks 0); cbn [bind]; try discriminate.
    destruct (usub (length ks) D); cbn [bind]; try discriminate. destruct (usub _ 1); cbn [bind]; try discriminate.
    destruct (usub _ 1); cbn [bind]; try discriminate. destruct (idx _ _); cbn [bind]; try discriminate.
    intros E. injection E as <-. unfold shape. cbn [bs_degree bs_points bs_knots]. lia.
  Qed.
  Lemma derivative_shape s s' : shape s -> bspline_derivative s = Ret s' -> shape s'.
  Proof.
    intros (H1 & H2 & H3). unfold bspline_derivative, usub.
    destruct (Nat.leb_spec 1 (length (bs_points s))) as [H4|]; cbn [bind]; [|discriminate].
    destruct (Nat.leb_spec 1 (bs_degree s)) as [H5|]; cbn [bind]; [|discriminate].
    match goal with |- (let! _ := ?X in _) = _ -> _ => destruct X as [np| |] eqn:E end; cbn [bind]; try discriminate.
    intros Es. injection Es as <-. unfold shape. cbn [bs_degree bs_points bs_knots].
    assert (L : length np = (length (bs_points s) - 1)%nat).
    { apply for_break_length in E; [rewrite E; apply repeat_length|]. clear E. intros i x y b _ E1.
      destruct (idx (bs_points s) (i + 1)); cbn [bind] in E1; try discriminate.
      destruct (idx (bs_points s) i); cbn [bind] in E1; try discriminate.
      destruct (idx (bs_knots s) (i + bs_degree s + 1)); cbn [bind] in E1; try discriminate.
      destruct (idx (bs_knots s) (i + 1)); cbn [bind] in E1; try discriminate.
      destruct (set_idx _ _ _) eqn:E2; cbn [bind] in E1; try discriminate.
      destruct (2 <=? length (bs_points s))%nat; cbn [bind] in E1; try discriminate.
      injection E1 as <- _. now apply set_idx_length in E2. }
    lia.
  Qed.
End Profiles.
