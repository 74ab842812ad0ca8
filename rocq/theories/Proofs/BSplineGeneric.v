(** B-splines over an arbitrary scalar type: index ranges, termination, and the
    triangular scheme computed by [de_boor_iterative]. *)
From Coq Require Import ZArith List Arith Bool Lia.
From Verif Require Import Base.Outcome Base.Scalar Model.Point Model.BSpline Proofs.OutcomeFacts.
Import ListNotations.

(** Loop rule: [Inv] speaks of the indices still to be visited. *)
Lemma for_result_rule {S E : Type} (Inv : list nat -> S -> Prop) (Bad : E -> Prop)
  (body : nat -> S -> outcome (result S E)) l s :
  Inv l s ->
  (forall i l s, Inv (i :: l) s -> exists r, body i s = Ret r /\
     match r with Ok s' => Inv l s' | Err e => Bad e end) ->
  exists r, for_result l s body = Ret r /\ match r with Ok s' => Inv [] s' | Err e => Bad e end.
Proof.
  revert s. induction l as [|i l IH]; intros s Hs H; simpl.
  - exists (Ok s). auto.
  - destruct (H i l s Hs) as (r & Er & Hr). rewrite Er. simpl. destruct r as [s'|e].
    + now apply IH.
    + exists (Err e). auto.
Qed.

Section Generic.
  Context {T P : Type} {ST : Scalar T} {PT : Point T P}.

  (** What [new] guarantees about the sizes. *)
  Definition well_formed (s : bspline T P) : Prop :=
    bs_degree s < length (bs_points s) /\
    length (bs_knots s) = length (bs_points s) + 1 + bs_degree s.

  (** all that the evaluation scheme needs; the derivative has two knots too many *)
  Definition roomy (s : bspline T P) : Prop :=
    bs_degree s < length (bs_points s) /\
    length (bs_points s) + 1 + bs_degree s <= length (bs_knots s).
  Lemma wf_roomy s : well_formed s -> roomy s.
  Proof. intros [H1 H2]. split; lia. Qed.

  Definition knot (s : bspline T P) (i : nat) : T := nth i (bs_knots s) (s_lit 0).
  Definition cpoint (s : bspline T P) (i : nat) : P := nth i (bs_points s) p_default.

  (** ** Construction *)
  Definition kind_of (front back : bool) : KnotVectorKind :=
    match front, back with
    | false, false => Unclamped
    | true, false => ClampedStart
    | false, true => ClampedEnd
    | true, true => Clamped
    end.

  Lemma new_cases D ks (ps : list P) :
    (length ps <= D /\ bspline_new D ks ps = Ret (Err TooFewControlPoints)) \/
    (D < length ps /\ length ks < length ps + 1 + D /\ bspline_new D ks ps = Ret (Err TooFewKnots)) \/
    (D < length ps /\ length ps + 1 + D < length ks /\ bspline_new D ks ps = Ret (Err TooManyKnots)) \/
    (D < length ps /\ length ks = length ps + 1 + D /\ any_decreasing ks = true /\
       bspline_new D ks ps = Ret (Err DecreasingKnots)) \/
    (D < length ps /\ length ks = length ps + 1 + D /\ any_decreasing ks = false /\
       bspline_new D ks ps = Ret (Ok (BSpline D ks
         (kind_of (all_close (nth 0 ks (s_lit 0)) (firstn (D + 1) ks))
                  (all_close (nth (length ks - 1) ks (s_lit 0)) (skipn (length ks - D - 1) ks))) ps))).
  Proof.
    unfold bspline_new.
    destruct (Nat.leb_spec (length ps) D) as [H1|H1]; [left; auto|right].
    destruct (Nat.ltb_spec (length ks) (length ps + 1 + D)) as [H2|H2]; [left; auto|right].
    destruct (Nat.ltb_spec (length ps + 1 + D) (length ks)) as [H3|H3]; [left; auto|right].
    assert (H4 : length ks = length ps + 1 + D) by lia.
    destruct (any_decreasing ks) eqn:Ed; [left; auto|right].
    repeat split; auto. rewrite (idx_lt ks 0 (s_lit 0)) by lia. cbn [bind].
    rewrite usub_le by lia. cbn [bind]. rewrite usub_le by lia. cbn [bind].
    rewrite usub_le by lia. cbn [bind]. rewrite (idx_lt ks _ (s_lit 0)) by lia. cbn [bind].
    reflexivity.
  Qed.

  Lemma any_decreasing_false ks : any_decreasing ks = false <->
    forall i, i + 1 < length ks -> s_ltb (nth (i + 1) ks (s_lit 0)) (nth i ks (s_lit 0)) = false.
  Proof.
    induction ks as [|a [|b ks] IH].
    - split; [intros _ i Hi; simpl in Hi; lia|auto].
    - split; [intros _ i Hi; simpl in Hi; lia|auto].
    - change (any_decreasing (a :: b :: ks)) with (s_ltb b a || any_decreasing (b :: ks)).
      rewrite orb_false_iff, IH. split.
      + intros [H1 H2] [|i] Hi; [exact H1|]. apply H2. simpl in *. lia.
      + intros H. split; [apply (H 0); simpl; lia|]. intros i Hi. apply (H (S i)). simpl in *. lia.
  Qed.

  (** [new] never panics; it succeeds exactly on valid input; sizes, knots and
      control points are kept. *)
  Lemma new_ok_iff D ks (ps : list P) :
    (exists s, bspline_new D ks ps = Ret (Ok s)) <->
    D < length ps /\ length ks = length ps + D + 1 /\
    forall i, i + 1 < length ks -> s_ltb (nth (i + 1) ks (s_lit 0)) (nth i ks (s_lit 0)) = false.
  Proof.
    rewrite <- any_decreasing_false.
    destruct (new_cases D ks ps) as [(H1 & E)|[(H1 & H2 & E)|[(H1 & H2 & E)|[(H1 & H2 & H3 & E)|(H1 & H2 & H3 & E)]]]];
      rewrite E; split; try (intros (s & [=]); fail); try (intros (Ha & Hb & Hc); exfalso; try lia; congruence).
    - intros _. repeat split; auto. lia.
    - intros _. eexists. reflexivity.
  Qed.

  Lemma new_fields D ks (ps : list P) s : bspline_new D ks ps = Ret (Ok s) ->
    bs_degree s = D /\ bs_knots s = ks /\ bs_points s = ps.
  Proof.
    destruct (new_cases D ks ps) as [(H1 & E)|[(H1 & H2 & E)|[(H1 & H2 & E)|[(H1 & H2 & H3 & E)|(H1 & H2 & H3 & E)]]]];
      rewrite E; intros [=]; subst; auto.
  Qed.

  Lemma new_wf D ks (ps : list P) s : bspline_new D ks ps = Ret (Ok s) -> well_formed s.
  Proof.
    intros H. destruct (new_fields D ks ps s H) as (E1 & E2 & E3).
    destruct (proj1 (new_ok_iff D ks ps)) as (H1 & H2 & _); [eauto|].
    unfold well_formed. rewrite E1, E2, E3. lia.
  Qed.

  Lemma new_errors D ks (ps : list P) :
    (length ps <= D -> bspline_new D ks ps = Ret (Err TooFewControlPoints)) /\
    (D < length ps -> length ks < length ps + D + 1 -> bspline_new D ks ps = Ret (Err TooFewKnots)) /\
    (D < length ps -> length ps + D + 1 < length ks -> bspline_new D ks ps = Ret (Err TooManyKnots)) /\
    (D < length ps -> length ks = length ps + D + 1 ->
     (exists i, i + 1 < length ks /\ s_ltb (nth (i + 1) ks (s_lit 0)) (nth i ks (s_lit 0)) = true) ->
     bspline_new D ks ps = Ret (Err DecreasingKnots)).
  Proof.
    destruct (new_cases D ks ps) as [(H1 & E)|[(H1 & H2 & E)|[(H1 & H2 & E)|[(H1 & H2 & H3 & E)|(H1 & H2 & H3 & E)]]]];
      rewrite E; repeat split; intros; try reflexivity; try lia.
    destruct H4 as (i & Hi & Hd). rewrite any_decreasing_false in H3. rewrite H3 in Hd by assumption. discriminate.
  Qed.

  (** ** Domain *)
  Lemma knot_idx s i : i < length (bs_knots s) -> idx (bs_knots s) i = Ret (knot s i).
  Proof. intros H. apply idx_lt. exact H. Qed.

  Lemma domain_value s : well_formed s -> knot_domain s =
    Ret (match bs_kind s with
         | Clamped | Unclamped => (knot s (bs_degree s), knot s (length (bs_points s)))
         | ClampedStart => (knot s (bs_degree s), knot s (length (bs_knots s) - 1))
         | ClampedEnd => (knot s 0, knot s (length (bs_points s)))
         end).
  Proof.
    intros [H1 H2]. unfold knot_domain, knot_domain_clamped, knot_domain_clamped_start,
      knot_domain_clamped_end, knot_domain_unclamped.
    destruct (bs_kind s); repeat (first [rewrite usub_le by lia | rewrite knot_idx by lia]; cbn [bind]);
      repeat f_equal; lia.
  Qed.

  (** ** Searches: termination and index ranges, no law needed *)
  Lemma search_loop_ok fuel ks t low high :
    high + 1 < length ks -> (low = 0 -> s_ltb t (nth 0 ks (s_lit 0)) = false) ->
    high + 1 - low < fuel ->
    exists r, search_loop fuel ks t low high = Ret r /\
      forall k, r = Some k -> low <= k <= high /\
        s_leb (nth k ks (s_lit 0)) t = true /\ s_ltb t (nth (k + 1) ks (s_lit 0)) = true.
  Proof.
    revert low high. induction fuel as [|n IH]; intros low high Hh H0 Hf; [lia|].
    cbn [search_loop]. destruct (Nat.leb_spec low high) as [Hle|Hle].
    2:{ exists None. split; [reflexivity|]. discriminate. }
    cbn zeta. set (mid := (low + high) / 2).
    assert (Hm : low <= mid <= high).
    { unfold mid. split; [apply Nat.div_le_lower_bound; lia|].
      apply Nat.lt_succ_r, Nat.div_lt_upper_bound; lia. }
    rewrite (idx_lt ks mid (s_lit 0)) by lia. cbn [bind].
    rewrite (idx_lt ks (mid + 1) (s_lit 0)) by lia. cbn [bind].
    destruct (s_leb (nth mid ks (s_lit 0)) t) eqn:E1; cbn [bind].
    - destruct (s_ltb t (nth (mid + 1) ks (s_lit 0))) eqn:E2.
      + exists (Some mid). split; [reflexivity|]. intros k [= <-]. auto.
      + destruct (s_ltb t (nth mid ks (s_lit 0))) eqn:E3.
        * destruct (Nat.eq_dec mid 0) as [Em|Em]; [rewrite Em in E3; rewrite H0 in E3 by lia; discriminate|].
          rewrite usub_le by lia. cbn [bind].
          destruct (IH low (mid - 1)) as (r & Er & Hr); [lia|auto|lia|].
          exists r. split; [exact Er|]. intros k Hk. destruct (Hr k Hk) as (A & B & C). repeat split; auto; lia.
        * destruct (IH (mid + 1) high) as (r & Er & Hr); [lia|lia|lia|].
          exists r. split; [exact Er|]. intros k Hk. destruct (Hr k Hk) as (A & B & C). repeat split; auto; lia.
    - destruct (s_ltb t (nth mid ks (s_lit 0))) eqn:E3.
      + destruct (Nat.eq_dec mid 0) as [Em|Em]; [rewrite Em in E3; rewrite H0 in E3 by lia; discriminate|].
        rewrite usub_le by lia. cbn [bind].
        destruct (IH low (mid - 1)) as (r & Er & Hr); [lia|auto|lia|].
        exists r. split; [exact Er|]. intros k Hk. destruct (Hr k Hk) as (A & B & C). repeat split; auto; lia.
      + destruct (IH (mid + 1) high) as (r & Er & Hr); [lia|lia|lia|].
        exists r. split; [exact Er|]. intros k Hk. destruct (Hr k Hk) as (A & B & C). repeat split; auto; lia.
  Qed.

  (** termination alone holds for every knot vector and every bounds *)
  Lemma search_loop_terminates fuel ks t low high : high + 1 - low < fuel ->
    search_loop fuel ks t low high <> Stuck.
  Proof.
    revert low high. induction fuel as [|n IH]; intros low high Hf; [lia|].
    cbn [search_loop]. destruct (Nat.leb_spec low high) as [Hle|Hle]; [|discriminate].
    cbn zeta. set (mid := (low + high) / 2).
    assert (Hm : low <= mid <= high).
    { unfold mid. split; [apply Nat.div_le_lower_bound; lia|].
      apply Nat.lt_succ_r, Nat.div_lt_upper_bound; lia. }
    destruct (idx_cases ks mid) as [(_ & km & E1)|(_ & E1)]; rewrite E1; cbn [bind]; [|discriminate].
    assert (G : forall b : bool, (if b then Ret (Some mid)
        else if s_ltb t km then let! high0 := usub mid 1 in search_loop n ks t low high0
        else search_loop n ks t (mid + 1) high) <> Stuck).
    { intros [|]; [discriminate|]. destruct (s_ltb t km).
      - unfold usub. destruct (1 <=? mid) eqn:E2; cbn [bind]; [|discriminate]. apply Nat.leb_le in E2. apply IH. lia.
      - apply IH. lia. }
    destruct (s_leb km t); cbn [bind].
    - destruct (idx_cases ks (mid + 1)) as [(_ & k1 & E3)|(_ & E3)]; rewrite E3; cbn [bind]; [|discriminate].
      apply G.
    - apply (G false).
  Qed.

  Lemma search_unclamped_terminates fuel ks t first count : count < fuel ->
    search_unclamped_loop fuel ks t first count <> Stuck.
  Proof.
    revert first count. induction fuel as [|n IH]; intros first count Hf; [lia|].
    cbn [search_unclamped_loop]. destruct (Nat.ltb_spec 0 count) as [Hc|Hc]; [|discriminate].
    cbn zeta. set (step := count / 2). assert (Hs : step < count) by (apply Nat.div_lt; lia).
    destruct (idx_cases ks (first + step + 1)) as [(_ & k1 & E1)|(_ & E1)]; rewrite E1; cbn [bind]; [|discriminate].
    assert (G : forall b : bool, (if b then Ret (Some (first + step))
        else let! k0 := idx ks (first + step) in
          if s_leb k0 t then search_unclamped_loop n ks t (first + step + 1) (count - (step + 1))
          else search_unclamped_loop n ks t first step) <> Stuck).
    { intros [|]; [discriminate|].
      destruct (idx_cases ks (first + step)) as [(_ & k0 & E2)|(_ & E2)]; rewrite E2; cbn [bind]; [|discriminate].
      destruct (s_leb k0 t); apply IH; lia. }
    destruct (s_ltb t k1); cbn [bind]; [discriminate|].
    unfold usub. destruct (2 <=? length ks); cbn [bind]; [|discriminate].
    destruct (_ =? _); cbn [bind]; [apply G|apply (G false)].
  Qed.

  Lemma span_terminates s t : well_formed s -> knot_span_start_for_t s t <> Stuck.
  Proof.
    intros [H1 H2]. unfold knot_span_start_for_t, knot_span_start_for_t_unclamped, knot_span_start_for_t_clamped,
      knot_span_start_for_t_clamped_start, knot_span_start_for_t_clamped_end.
    destruct (bs_kind s).
    - apply search_unclamped_terminates. lia.
    - repeat (first [rewrite usub_le by lia | rewrite knot_idx by lia]; cbn [bind]).
      destruct (s_eqb t _); [discriminate|]. destruct (_ || _); [discriminate|].
      apply search_loop_terminates. lia.
    - repeat (first [rewrite usub_le by lia | rewrite knot_idx by lia]; cbn [bind]).
      destruct (s_eqb t _); [discriminate|]. destruct (_ || _); [discriminate|].
      apply search_loop_terminates. lia.
    - repeat (first [rewrite usub_le by lia | rewrite knot_idx by lia]; cbn [bind]).
      destruct (s_eqb t _); [discriminate|]. apply search_loop_terminates. lia.
  Qed.

  (** the three kinds that are clamped somewhere: no panic, and a bracketing span *)
  Definition brackets s (t : T) (k : nat) : Prop :=
    s_leb (knot s k) t = true /\ s_ltb t (knot s (k + 1)) = true.

  Lemma span_clamped s t : well_formed s -> bs_kind s = Clamped ->
    s_ltb t (knot s (bs_degree s)) = false ->
    exists r, knot_span_start_for_t s t = Ret r /\
      forall k, r = Some k -> bs_degree s <= k < length (bs_points s) /\
        (brackets s t k \/ (k = length (bs_points s) - 1 /\ s_eqb t (knot s (length (bs_points s))) = true)).
  Proof.
    intros [H1 H2] Hk Ht. unfold knot_span_start_for_t. rewrite Hk. unfold knot_span_start_for_t_clamped.
    rewrite usub_le by lia. cbn [bind]. rewrite knot_idx by lia. cbn [bind].
    replace (length (bs_points s) - 1 + 1) with (length (bs_points s)) by lia.
    destruct (s_eqb t (knot s (length (bs_points s)))) eqn:Ee.
    - eexists. split; [reflexivity|]. intros k [= <-]. split; [lia|auto].
    - destruct (search_loop_ok (S (length (bs_knots s))) (bs_knots s) t (bs_degree s) (length (bs_points s) - 1))
        as (r & Er & Hr); [lia| |lia|].
      + intros E0. rewrite E0 in Ht. exact Ht.
      + exists r. split; [exact Er|]. intros k Hk'. destruct (Hr k Hk') as (A & B & C). split; [lia|]. left. split; auto.
  Qed.



  (** ** The triangular scheme *)
  Section Scheme.
    Variables (s : bspline T P) (t : T) (k : nat).
    Hypothesis Hwf : roomy s.
    Hypothesis Hk : bs_degree s <= k <= length (bs_points s).
    Local Notation D := (bs_degree s).

    (** the weight used for entry [j] in pass [r] *)
    Definition weight (r j : nat) : T :=
      if s_ltb (s_sub t (knot s (j + k - D))) s_eps then s_lit 0
      else if s_ltb (s_abs (s_sub (knot s (j + 1 + k - r)) (knot s (j + k - D)))) s_eps then s_lit 1
      else s_div (s_sub t (knot s (j + k - D))) (s_sub (knot s (j + 1 + k - r)) (knot s (j + k - D))).

    (** entry [j] after pass [r] *)
    Fixpoint entry (r j : nat) : P :=
      match r with
      | 0 => if j <? D then cpoint s (j + k - D) else p_default
      | S r' => p_add (p_mul (entry r' (j - 1)) (s_sub (s_lit 1) (weight r j)))
                      (p_mul (entry r' j) (weight r j))
      end.

    Lemma load_ok : exists d, de_boor_load s k = Ret d /\ length d = D + 1 /\
      forall j, j <= D -> nth j d p_default = entry 0 j.
    Proof.
      destruct Hwf as [H1 H2]. unfold de_boor_load.
      destruct (for_in_range_inv (fun m d => length d = D + 1 /\
          forall j, j <= D -> nth j d p_default = if j <? m then cpoint s (j + k - D) else p_default)
        0 D (repeat p_default (D + 1)) (fun j d =>
          let! i := usub (j + k) D in let! c := idx (bs_points s) i in set_idx d j c)) as (d & Ed & Hl & Hd).
      - lia.
      - split; [apply repeat_length|]. intros j Hj. simpl. apply nth_repeat.
      - intros i d Hi (Hl & Hd). rewrite usub_le by lia. cbn [bind].
        rewrite (idx_lt _ _ p_default) by lia. cbn [bind]. rewrite set_idx_lt by lia.
        eexists. split; [reflexivity|]. split; [now rewrite length_replace_nth|].
        intros j Hj. rewrite nth_replace_nth by lia. destruct (Nat.eqb_spec j i) as [->|Hne].
        + destruct (Nat.ltb_spec i (i + 1)); [reflexivity|lia].
        + rewrite Hd by lia. destruct (Nat.ltb_spec j i), (Nat.ltb_spec j (i + 1)); auto; lia.
      - exists d. auto.
    Qed.

    Lemma alpha_ok r j : 1 <= r <= j -> j <= D -> alpha_of (bs_knots s) D t k r j = Ret (weight r j).
    Proof.
      destruct Hwf as [H1 H2]. intros Hr Hj. unfold alpha_of.
      rewrite usub_le by lia. cbn [bind]. rewrite knot_idx by lia. cbn [bind].
      rewrite usub_le by lia. cbn [bind]. rewrite knot_idx by lia. cbn [bind]. reflexivity.
    Qed.

    Definition some_nan (e : BSplineError) : Prop :=
      e = EvaluationAlphaIsNaN /\ exists r j, 1 <= r <= j /\ j <= D /\ s_is_nan (weight r j) = true.

    Lemma inner_ok r d : 1 <= r <= D -> length d = D + 1 ->
      (forall j, r - 1 <= j <= D -> nth j d p_default = entry (r - 1) j) ->
      exists res, for_result (rev (range_incl r D)) d (fun j d => de_boor_body (bs_knots s) D t k r j d) = Ret res /\
        match res with
        | Ok d' => length d' = D + 1 /\ forall j, r <= j <= D -> nth j d' p_default = entry r j
        | Err e => some_nan e
        end.
    Proof.
      intros Hr Hl Hd.
      destruct (for_result_rule (fun l d => exists n, l = rev (seq r n) /\ r + n <= D + 1 /\ length d = D + 1 /\
          (forall j, r - 1 <= j < r + n -> nth j d p_default = entry (r - 1) j) /\
          (forall j, r + n <= j <= D -> nth j d p_default = entry r j))
        some_nan (fun j d => de_boor_body (bs_knots s) D t k r j d) (rev (range_incl r D)) d) as (res & Er & Hres).
      - exists (S D - r). unfold range_incl. repeat split; auto; try lia.
        + intros j Hj. apply Hd. lia.
      - clear d Hl Hd. intros i l d (n & En & Hn & Hl & Hd1 & Hd2).
        destruct n as [|n]; [discriminate|]. rewrite seq_S, rev_unit in En. injection En as -> ->.
        unfold de_boor_body. rewrite alpha_ok by lia. cbn [bind].
        destruct (s_is_nan (weight r (r + n))) eqn:Enan.
        { eexists. split; [reflexivity|]. split; [reflexivity|]. exists r, (r + n). repeat split; auto; lia. }
        rewrite usub_le by lia. cbn [bind]. rewrite !(idx_lt d _ p_default) by lia. cbn [bind].
        rewrite set_idx_lt by lia. cbn [bind]. eexists. split; [reflexivity|].
        exists n. repeat split; try lia.
        + now rewrite length_replace_nth.
        + intros j Hj. rewrite nth_replace_nth by lia. destruct (Nat.eqb_spec j (r + n)); [lia|]. apply Hd1. lia.
        + intros j Hj. rewrite nth_replace_nth by lia. destruct (Nat.eqb_spec j (r + n)) as [->|Hne].
          * rewrite !Hd1 by lia. destruct r as [|r']; [lia|]. replace (S r' - 1) with r' by lia. reflexivity.
          * apply Hd2. lia.
      - exists res. split; [exact Er|]. destruct res as [d'|e]; [|exact Hres].
        destruct Hres as (n & En & Hn & Hl' & Hd1 & Hd2). destruct n as [|n].
        2:{ rewrite seq_S, rev_unit in En. discriminate. }
        split; auto. intros j Hj. apply Hd2. lia.
    Qed.

    Lemma scheme_ok d : length d = D + 1 -> (forall j, j <= D -> nth j d p_default = entry 0 j) ->
      exists res, for_result (range_incl 1 D) d (fun r d =>
          for_result (rev (range_incl r D)) d (fun j d => de_boor_body (bs_knots s) D t k r j d)) = Ret res /\
        match res with
        | Ok d' => length d' = D + 1 /\ nth D d' p_default = entry D D
        | Err e => some_nan e
        end.
    Proof.
      intros Hl Hd.
      destruct (for_result_rule (fun l d => exists m, l = seq (m + 1) (D - m) /\ m <= D /\ length d = D + 1 /\
          (forall j, m <= j <= D -> nth j d p_default = entry m j))
        some_nan (fun r d => for_result (rev (range_incl r D)) d (fun j d => de_boor_body (bs_knots s) D t k r j d))
        (range_incl 1 D) d) as (res & Er & Hres).
      - exists 0. unfold range_incl. repeat split; auto; try lia. intros j Hj. apply Hd. lia.
      - clear d Hl Hd. intros i l d (m & Em & Hm & Hl & Hd).
        destruct (D - m) as [|n] eqn:En; [discriminate|]. simpl in Em. injection Em as -> ->.
        destruct (inner_ok (m + 1) d) as (res & Er & Hr); [lia|exact Hl| |].
        + intros j Hj. replace (m + 1 - 1) with m in * by lia. apply Hd. lia.
        + exists res. split; [exact Er|]. destruct res as [d'|e]; [|exact Hr].
          destruct Hr as [Hl' Hd']. exists (m + 1). repeat split; auto; try lia.
          replace (D - (m + 1)) with n by lia. f_equal. lia.
      - exists res. split; [exact Er|]. destruct res as [d'|e]; [|exact Hres].
        destruct Hres as (m & Em & Hm & Hl' & Hd').
        destruct (D - m) as [|n] eqn:En; [|discriminate]. replace m with D in * by lia.
        split; [exact Hl'|]. apply Hd'. lia.
    Qed.
  End Scheme.

  (** ** eval *)
  Lemma de_boor_cases s t r : roomy s -> knot_span_start_for_t s t = Ret r ->
    (forall k, r = Some k -> bs_degree s <= k <= length (bs_points s)) ->
    (s_eqb t (knot s (length (bs_points s))) = true /\
       de_boor_iterative s t = Ret (Ok (cpoint s (length (bs_points s) - 1)))) \/
    (s_eqb t (knot s (length (bs_points s))) = false /\
       match r with
       | None => de_boor_iterative s t = Ret (Err KnotDomainViolation)
       | Some k => de_boor_iterative s t = Ret (Ok (entry s t k (bs_degree s) (bs_degree s))) \/
           (de_boor_iterative s t = Ret (Err EvaluationAlphaIsNaN) /\ some_nan s t k EvaluationAlphaIsNaN)
       end).
  Proof.
    intros [H1 H2] Hr Hk. unfold de_boor_iterative. rewrite knot_idx by lia. cbn [bind].
    destruct (s_eqb t (knot s (length (bs_points s)))) eqn:Ee; [left|right]; split; auto.
    - rewrite usub_le by lia. cbn [bind]. rewrite (idx_lt _ _ p_default) by lia. reflexivity.
    - rewrite Hr. cbn [bind]. destruct r as [k|]; [|reflexivity].
      specialize (Hk k eq_refl).
      destruct (load_ok s t k) as (d & Ed & Hl & Hd); [split; auto|auto|]. rewrite Ed. cbn [bind].
      destruct (scheme_ok s t k (conj H1 H2) Hk d Hl Hd) as (res & Er & Hres). rewrite Er. cbn [bind].
      destruct res as [d'|e].
      + destruct Hres as [Hl' Hd']. rewrite (idx_lt _ _ p_default) by lia. cbn [bind]. rewrite Hd'. auto.
      + right. destruct Hres as [-> Hn]. split; auto. split; auto.
  Qed.

  (** C42 *)
  Theorem clamped_eval_total s t : well_formed s -> bs_kind s = Clamped ->
    exists r, bspline_eval s t = Ret r.
  Proof.
    intros Hwf Hk. unfold bspline_eval. rewrite domain_value by assumption. rewrite Hk. cbn [bind fst snd].
    destruct (s_ltb t (knot s (bs_degree s))) eqn:E1; cbn [orb]; [eauto|].
    destruct (s_ltb (knot s (length (bs_points s))) t) eqn:E2; [eauto|].
    destruct (span_clamped s t Hwf Hk E1) as (r & Er & Hr).
    destruct (de_boor_cases s t r (wf_roomy s Hwf) Er) as [(_ & E)|(_ & E)].
    - intros k Hk'. destruct (Hr k Hk') as (A & _). lia.
    - eauto.
    - destruct r as [k|]; [|eauto]. destruct E as [E|(E & _)]; eauto.
  Qed.

  (** a parameter that compares false with everything, like NaN *)
  Definition incomparable (t : T) : Prop := forall x,
    s_ltb t x = false /\ s_ltb x t = false /\ s_leb t x = false /\ s_leb x t = false /\ s_eqb t x = false.

  Lemma search_loop_incomparable fuel ks t low high : incomparable t -> high + 1 < length ks ->
    high + 1 - low < fuel -> search_loop fuel ks t low high = Ret None.
  Proof.
    intros Ht. revert low high. induction fuel as [|n IH]; intros low high Hh Hf; [lia|].
    cbn [search_loop]. destruct (Nat.leb_spec low high) as [Hle|Hle]; [|reflexivity].
    cbn zeta. set (mid := (low + high) / 2).
    assert (Hm : low <= mid <= high).
    { unfold mid. split; [apply Nat.div_le_lower_bound; lia|].
      apply Nat.lt_succ_r, Nat.div_lt_upper_bound; lia. }
    rewrite (idx_lt ks mid (s_lit 0)) by lia. cbn [bind].
    destruct (Ht (nth mid ks (s_lit 0))) as (A & B & C & D & F). rewrite D. cbn [bind]. rewrite A.
    apply IH; lia.
  Qed.

  Lemma search_unclamped_incomparable fuel ks t first count : incomparable t -> 2 <= length ks ->
    first + count / 2 + 1 < length ks -> count < fuel -> search_unclamped_loop fuel ks t first count = Ret None.
  Proof.
    intros Ht Hks. revert first count. induction fuel as [|n IH]; intros first count Hc Hf; [lia|].
    cbn [search_unclamped_loop]. destruct (Nat.ltb_spec 0 count) as [Hp|Hp]; [|reflexivity].
    cbn zeta. set (step := count / 2) in *. assert (Hs : step < count) by (apply Nat.div_lt; lia).
    rewrite (idx_lt ks _ (s_lit 0)) by lia. cbn [bind].
    destruct (Ht (nth (first + step + 1) ks (s_lit 0))) as (A & B & C & D & F). rewrite A.
    rewrite usub_le by lia. cbn [bind].
    assert (R : (let! k0 := idx ks (first + step) in
         if s_leb k0 t then search_unclamped_loop n ks t (first + step + 1) (count - (step + 1))
         else search_unclamped_loop n ks t first step) = Ret None).
    { rewrite (idx_lt ks _ (s_lit 0)) by lia. cbn [bind].
      destruct (Ht (nth (first + step) ks (s_lit 0))) as (A' & B' & C' & D' & F'). rewrite D'. apply IH; [|lia].
      assert (step / 2 <= step) by (apply Nat.div_le_upper_bound; lia). lia. }
    destruct (_ =? _); cbn [bind]; [rewrite F|]; exact R.
  Qed.

  (** C46, any scalar type, every kind of knot vector; [Unclamped] needs at least
      three knots, which holds whenever [new] chose that kind (degree >= 1) *)
  Theorem eval_incomparable s t : well_formed s -> incomparable t ->
    (bs_kind s = Unclamped -> 3 <= length (bs_knots s)) ->
    bspline_eval s t = Ret (Err KnotDomainViolation).
  Proof.
    intros [H1 H2] Ht H3. unfold bspline_eval. rewrite domain_value by (split; assumption). cbn [bind].
    destruct (Ht (fst (match bs_kind s with
         | Clamped | Unclamped => (knot s (bs_degree s), knot s (length (bs_points s)))
         | ClampedStart => (knot s (bs_degree s), knot s (length (bs_knots s) - 1))
         | ClampedEnd => (knot s 0, knot s (length (bs_points s)))
         end))) as (A & _). rewrite A.
    destruct (Ht (snd (match bs_kind s with
         | Clamped | Unclamped => (knot s (bs_degree s), knot s (length (bs_points s)))
         | ClampedStart => (knot s (bs_degree s), knot s (length (bs_knots s) - 1))
         | ClampedEnd => (knot s 0, knot s (length (bs_points s)))
         end))) as (_ & B & _). rewrite B. cbn [orb].
    assert (N : knot_span_start_for_t s t = Ret None).
    { unfold knot_span_start_for_t, knot_span_start_for_t_unclamped, knot_span_start_for_t_clamped,
        knot_span_start_for_t_clamped_start, knot_span_start_for_t_clamped_end.
      destruct (bs_kind s).
      - apply search_unclamped_incomparable; auto; try lia.
        assert (length (bs_knots s) / 2 < length (bs_knots s) - 1); [|lia].
        specialize (H3 eq_refl). apply Nat.div_lt_upper_bound; lia.
      - repeat (first [rewrite usub_le by lia | rewrite knot_idx by lia]; cbn [bind]).
        destruct (Ht (knot s (length (bs_knots s) - 1))) as (a & b & c & d & e). rewrite e, b.
        destruct (Ht (knot s (bs_degree s))) as (a' & _). rewrite a'. cbn [orb].
        apply search_loop_incomparable; auto; lia.
      - repeat (first [rewrite usub_le by lia | rewrite knot_idx by lia]; cbn [bind]).
        replace (length (bs_points s) - 1 + 1) with (length (bs_points s)) by lia.
        destruct (Ht (knot s (length (bs_points s)))) as (a & b & c & d & e). rewrite e, b.
        destruct (Ht (knot s 0)) as (a' & _). rewrite a'. cbn [orb].
        apply search_loop_incomparable; auto; lia.
      - repeat (first [rewrite usub_le by lia | rewrite knot_idx by lia]; cbn [bind]).
        replace (length (bs_points s) - 1 + 1) with (length (bs_points s)) by lia.
        destruct (Ht (knot s (length (bs_points s)))) as (a & b & c & d & e). rewrite e.
        apply search_loop_incomparable; auto; lia. }
    destruct (de_boor_cases s t None (wf_roomy s (conj H1 H2)) N) as [(E & _)|(_ & E)].
    - discriminate.
    - destruct (Ht (knot s (length (bs_points s)))) as (_ & _ & _ & _ & e). congruence.
    - exact E.
  Qed.

  (** ** derivative *)
  Lemma derivative_ok s : well_formed s -> 1 <= bs_degree s ->
    exists q, bspline_derivative s = Ret (BSpline (bs_degree s - 1) (bs_knots s) (bs_kind s) q) /\
      length q = length (bs_points s) - 1 /\
      forall i, i + 1 < length (bs_points s) ->
        nth i q p_default = p_mul (p_sub (cpoint s (i + 1)) (cpoint s i))
          (s_div (s_of_usize (bs_degree s)) (s_sub (knot s (i + bs_degree s + 1)) (knot s (i + 1)))).
  Proof.
    intros [H1 H2] Hd. set (C := length (bs_points s)) in *.
    unfold bspline_derivative. fold C. rewrite !usub_le by lia. cbn [bind].
    set (val := fun i => p_mul (p_sub (cpoint s (i + 1)) (cpoint s i))
          (s_div (s_of_usize (bs_degree s)) (s_sub (knot s (i + bs_degree s + 1)) (knot s (i + 1))))).
    set (body := fun i new_points => _).
    assert (G : forall n i (q : list P), i + S n = C - 1 -> length q = C - 1 ->
      (forall j, j < i -> nth j q p_default = val j) ->
      exists q', for_break (seq i (S (S n))) q body = Ret q' /\ length q' = C - 1 /\
        forall j, j < C - 1 -> nth j q' p_default = val j).
    { induction n as [|n IH]; intros i q Hi Hq Hv;
        cbn [seq for_break]; unfold body at 1;
        rewrite !(idx_lt (bs_points s) _ p_default) by lia; cbn [bind];
        rewrite !knot_idx by lia; cbn [bind]; rewrite set_idx_lt by lia; cbn [bind fst snd].
      - destruct (Nat.eqb_spec i (C - 2)) as [_|Hne]; [|lia].
        eexists. split; [reflexivity|]. split; [now rewrite length_replace_nth|].
        intros j Hj. rewrite nth_replace_nth by lia. destruct (Nat.eqb_spec j i) as [->|]; [reflexivity|].
        apply Hv. lia.
      - destruct (Nat.eqb_spec i (C - 2)) as [He|Hne]; [lia|].
        apply (IH (S i)); [lia|now rewrite length_replace_nth|].
        intros j Hj. rewrite nth_replace_nth by lia. destruct (Nat.eqb_spec j i) as [->|]; [reflexivity|].
        apply Hv. lia. }
    destruct (G (C - 2) 0 (repeat p_default (C - 1))) as (q & Eq & Hl & Hq).
    - lia.
    - apply repeat_length.
    - intros j Hj. lia.
    - exists q. split; [|split; auto].
      + unfold range. replace (C - 0) with (S (S (C - 2))) by lia. rewrite Eq. reflexivity.
      + intros i Hi. apply Hq. lia.
  Qed.
End Generic.
