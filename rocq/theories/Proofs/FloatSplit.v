(** Splitting and differentiating Bezier curves in IEEE arithmetic: the resulting
    control polygons describe the right curve up to rounding. *)
From Coq Require Import Reals ZArith List Arith Lia Lra Bool.
From Flocq Require Import Core.Core IEEE754.BinarySingleNaN.
From Verif Require Import Base.Outcome Base.Scalar Model.Point Model.Line Model.Quadratic
  Model.Cubic Model.Bezier Inst.RealInst Inst.FloatInst Spec.Sums Spec.Lawful Spec.Bernstein
  Spec.Rounding Spec.Componentwise Spec.FloatPoints
  Proofs.OutcomeFacts Proofs.PointFacts Proofs.RealTac Proofs.FloatFacts Proofs.BezierGeneric
  Proofs.BezierReal Proofs.FloatEval Proofs.FloatBound Proofs.FloatNear.
Import ListNotations.
Local Open Scope R_scope.

(** nearby control values give nearby curves *)
Lemma dc_close s n (f g : nat -> R) j E : 0 <= s <= 1 ->
  (forall k, (j <= k <= j + n)%nat -> Rabs (f k - g k) <= E) -> Rabs (dc s n f j - dc s n g j) <= E.
Proof.
  intros Hs H.
  replace (dc s n f j - dc s n g j) with (dc s n (fun k => f k - g k) j).
  - apply Rabs_le. apply dc_between; [exact Hs|]. intros k Hk. apply Rabs_le_inv. now apply H.
  - rewrite (dc_ext s n _ (fun i => 1 * f i + (-1) * g i)) by (intros; ring).
    rewrite dc_lin. ring.
Qed.

Lemma poly_dc (l : list R) s : l <> [] -> bezier_poly l s = dc s (length l - 1) (fun k => nth k l 0) 0.
Proof.
  intros Hl. assert (0 < length l)%nat by (destruct l; [contradiction|simpl; lia]).
  rewrite dc_bernstein. unfold bezier_poly. replace (S (length l - 1)) with (length l) by lia.
  reflexivity.
Qed.

Lemma poly_close (l m : list R) s E : 0 <= s <= 1 -> length l = length m -> l <> [] ->
  (forall k, (k < length l)%nat -> Rabs (nth k l 0 - nth k m 0) <= E) ->
  Rabs (bezier_poly l s - bezier_poly m s) <= E.
Proof.
  intros Hs L Hl H. assert (Hm : m <> []) by (destruct l, m; try discriminate; contradiction).
  assert (0 < length l)%nat by (destruct l; [contradiction|simpl; lia]).
  rewrite !poly_dc, <- L by assumption. apply dc_close; [exact Hs|].
  intros k Hk. apply H. lia.
Qed.

Lemma map_seq_ne {A} (f : nat -> A) n : (0 < n)%nat -> map f (seq 0 n) <> [].
Proof. destruct n; [lia|discriminate]. Qed.

Section Bezier.
  Context {F : Format} {P : Type} {PT : Point float P} {CP : CwPoint float P}.

  Lemma coords_dc (ps : list P) d i s : ps <> [] ->
    bezier_poly (map (fun q => val (cw q i)) ps) s
    = dc s (length ps - 1) (fun k => val (cw (nth k ps d) i)) 0.
  Proof.
    intros Hne. rewrite poly_dc, map_length by (destruct ps; [contradiction|discriminate]).
    assert (0 < length ps)%nat by (destruct ps; [contradiction|simpl; lia]).
    apply dc_ext. intros k Hk.
    rewrite (nth_indep _ 0 (val (cw d i))) by (rewrite map_length; lia).
    now rewrite (map_nth (fun q => val (cw q i))).
  Qed.

  Theorem bezier_split_err (ps : list P) t M d : ps <> [] ->
    6 * INR (length ps - 1) * uro <= 1 -> 0 <= M -> 4 * M <= fmax -> fin t -> 0 <= val t <= 1 ->
    (forall p i, In p ps -> (i < p_dim (P := P))%nat -> fin (cw p i) /\ Rabs (val (cw p i)) <= M) ->
    exists l r, bezier_split (Bezier ps) t = Ret (Bezier l, Bezier r) /\
      length l = length ps /\ length r = length ps /\
      hd d l = hd d ps /\ last l d = hd d r /\ last r d = last ps d /\
      forall i, (i < p_dim (P := P))%nat ->
        (forall p, In p l \/ In p r -> fin (cw p i)) /\
        forall s, 0 <= s <= 1 ->
          Rabs (bezier_poly (map (fun q => val (cw q i)) l) s
                - bezier_poly (map (fun q => val (cw q i)) ps) (val t * s))
            <= 6 * INR (length ps - 1) * uro * M + 5 * INR (length ps - 1) * eta /\
          Rabs (bezier_poly (map (fun q => val (cw q i)) r) s
                - bezier_poly (map (fun q => val (cw q i)) ps) (val t + s * (1 - val t)))
            <= 6 * INR (length ps - 1) * uro * M + 5 * INR (length ps - 1) * eta.
  Proof.
    intros Hne Hn HM H4 Ht Hr HB.
    assert (L : (0 < length ps)%nat) by (destruct ps; [contradiction|simpl; lia]).
    destruct (bezier_split_closed ps t d) as (l & r & Hs & Ll & Lr & Vl & Vr).
    assert (El : forall q : list P, q <> [] -> last q d = nth (length q - 1) q d).
    { induction q as [|a q IH]; [contradiction|]. intros _. destruct q as [|b q]; [reflexivity|].
      change (last (a :: b :: q) d) with (last (b :: q) d). rewrite IH by discriminate.
      cbn [length]. replace (S (S (length q)) - 1)%nat with (S (length q)) by lia.
      replace (S (length q) - 1)%nat with (length q) by lia. reflexivity. }
    assert (Eh : forall q : list P, hd d q = nth 0 q d) by (now intros []).
    assert (Nl : l <> []) by (destruct l; [simpl in Ll; lia|discriminate]).
    assert (Nr : r <> []) by (destruct r; [simpl in Lr; lia|discriminate]).
    exists l, r. split; [exact Hs|]. split; [exact Ll|]. split; [exact Lr|].
    split; [rewrite !Eh, Vl by lia; reflexivity|].
    split.
    { rewrite El, Eh, Ll, Vl, Vr by (assumption || lia). f_equal. lia. }
    split.
    { rewrite !El, Lr, Vr by (assumption || lia).
      replace (length ps - 1 - (length ps - 1))%nat with 0%nat by lia. reflexivity. }
    intros i Hi.
    set (n := (length ps - 1)%nat) in *.
    assert (TE : forall m j, (j + m <= n)%nat ->
      fin (cw (tri t (fun k => nth k ps d) m j) i) /\
      Rabs (val (cw (tri t (fun k => nth k ps d) m j) i)
            - dc (val t) m (fun k => val (cw (nth k ps d) i)) j)
      <= 6 * INR n * uro * M + 5 * INR n * eta).
    { intros m j Hj.
      destruct (tri_err t (fun k => nth k ps d) m j i M n Ht Hr Hi) as [A B]; auto; try lia.
      - intros k Hk. apply HB; [|exact Hi]. apply nth_In. lia.
      - now apply no_overflow_cond.
      - split; [exact A|]. eapply Rle_trans; [exact B|].
        eapply Rle_trans; [apply casteljau_err_mono with (k := n); [exact HM|lia]|].
        now apply casteljau_err_lin. }
    split.
    - intros p [Hp|Hp]; apply (In_nth _ _ d) in Hp; destruct Hp as (k & Hk & <-).
      + rewrite Vl by lia. apply TE. lia.
      + rewrite Vr by lia. apply TE. lia.
    - intros s Hs01. rewrite !(coords_dc _ d) by assumption. rewrite Ll, Lr. fold n. split.
      + rewrite <- (dc_0 n (dc (val t * s) n (fun k => val (cw (nth k ps d) i))) 0).
        replace (dc 0 n (dc (val t * s) n (fun k => val (cw (nth k ps d) i))) 0)
          with (dc s n (fun k => dc (val t) k (fun k => val (cw (nth k ps d) i)) 0) 0)
          by (rewrite dc_left, dc_0; reflexivity).
        apply dc_close; [exact Hs01|]. intros k Hk. rewrite Vl by lia. apply TE. lia.
      + replace (dc (val t + s * (1 - val t)) n (fun k => val (cw (nth k ps d) i)) 0)
          with (dc s n (fun j => dc (val t) (n - j) (fun k => val (cw (nth k ps d) i)) j) 0).
        2:{ rewrite dc_right by lia. replace (n - n - 0)%nat with 0%nat by lia. reflexivity. }
        apply dc_close; [exact Hs01|]. intros k Hk. rewrite Vr by lia. apply TE. lia.
  Qed.

  (** [(b - a) * n] *)
  Lemma fdiff_err (a b k : float) (M K : R) : fin a -> fin b -> fin k -> val k = K -> 1 <= K ->
    Rabs (val a) <= M -> Rabs (val b) <= M -> 3 * K * M <= fmax ->
    fin (s_mul (s_sub b a) k) /\
    Rabs (val (s_mul (s_sub b a) k) - (val b - val a) * K) <= 5 * K * uro * M + eta.
  Proof.
    intros Ha Hb Hk EK HK Ba Bb Ov.
    pose proof uro_pos. pose proof uro_small. pose proof eta_pos.
    assert (HM : 0 <= M) by (pose proof (Rabs_pos (val a)); lra).
    assert (D0 : Rabs (val b - val a) <= 2 * M).
    { unfold Rminus. eapply Rle_trans; [apply Rabs_triang|]. rewrite Rabs_Ropp. lra. }
    assert (KM : 1 * M <= K * M) by (apply Rmult_le_compat_r; lra).
    assert (uM : uro * M <= / 2048 * M) by (apply Rmult_le_compat_r; lra).
    assert (uM0 : 0 <= uro * M) by (apply Rmult_le_pos; lra).
    destruct (sub_ok b a Hb Ha) as [D1 D2]; [lra|].
    set (D := val (s_sub b a)) in *.
    assert (D3 : Rabs (D - (val b - val a)) <= 2 * (uro * M)).
    { rewrite D2. eapply Rle_trans; [apply (rnd_sum_err (val b) (- val a)); [apply val_float|apply float_opp, val_float]|].
      fold (val b - val a). replace (2 * (uro * M)) with (uro * (2 * M)) by ring.
      apply Rmult_le_compat_l; lra. }
    assert (D4 : Rabs D <= 2 * M + 2 * (uro * M)).
    { replace D with ((D - (val b - val a)) + (val b - val a)) by ring.
      eapply Rle_trans; [apply Rabs_triang|]. lra. }
    assert (P0 : Rabs (D * K) <= K * (2 * M + 2 * (uro * M))).
    { rewrite Rabs_mult, (Rabs_pos_eq K), Rmult_comm by lra. apply Rmult_le_compat_l; lra. }
    assert (P5 : K * (2 * M + 2 * (uro * M)) <= K * (3 * M)) by (apply Rmult_le_compat_l; lra).
    destruct (mul_ok (s_sub b a) k D1 Hk) as [P1 P2]; [fold D; rewrite EK; lra|].
    rewrite EK in P2. fold D in P2. split; [exact P1|]. rewrite P2.
    replace (rnd (D * K) - (val b - val a) * K)
      with ((rnd (D * K) - D * K) + (D - (val b - val a)) * K) by ring.
    eapply Rle_trans; [apply Rabs_triang|]. rewrite (Rabs_mult (D - _)), (Rabs_pos_eq K) by lra.
    pose proof (rnd_err (D * K)) as Er.
    assert (uro * Rabs (D * K) <= uro * (K * (2 * M + 2 * (uro * M)))) by (apply Rmult_le_compat_l; lra).
    assert (Rabs (D - (val b - val a)) * K <= 2 * (uro * M) * K) by (apply Rmult_le_compat_r; lra).
    assert (uro * (K * (2 * M + 2 * (uro * M))) <= 3 * (K * (uro * M))).
    { replace (uro * (K * (2 * M + 2 * (uro * M)))) with (2 * (K * (uro * M)) + uro * (2 * (K * (uro * M)))) by ring.
      assert (0 <= K * (uro * M)) by (apply Rmult_le_pos; lra).
      assert (uro * (2 * (K * (uro * M))) <= / 2048 * (2 * (K * (uro * M)))) by (apply Rmult_le_compat_r; lra).
      lra. }
    lra.
  Qed.

  (** the exact derivative of the exact curve *)
  Definition poly_deriv (l : list R) (s : R) : R :=
    INR (length l - 1) * bezier_poly (map (fun k => nth (k + 1) l 0 - nth k l 0) (seq 0 (length l - 1))) s.

  Lemma poly_deriv_ok (l : list R) s : (2 <= length l)%nat ->
    derivable_pt_lim (bezier_poly l) s (poly_deriv l s).
  Proof.
    intros Hl. assert (Hne : l <> []) by (destruct l; [simpl in Hl; lia|discriminate]).
    pose proof (dc_derivative (length l - 1) (fun k => nth k l 0) 0 s) as D.
    assert (G : forall x, dc x (length l - 1) (fun k => nth k l 0) 0 = bezier_poly l x)
      by (intros; now rewrite poly_dc).
    unfold poly_deriv.
    rewrite (poly_dc (map _ _)) by (apply map_seq_ne; lia).
    rewrite map_length, seq_length.
    replace (dc s (length l - 1 - 1) (fun k => nth k (map _ _) 0) 0)
      with (dc s (length l - 1 - 1) (fun i => nth (i + 1) l 0 - nth i l 0) 0).
    - intros e He. destruct (D e He) as [dl Hd]. exists dl. intros h Hh0 Hh. rewrite <- !G. now apply Hd.
    - apply dc_ext. intros k Hk.
      set (f := fun k => nth (k + 1) l 0 - nth k l 0).
      rewrite (nth_indep (map _ _) 0 (f 0%nat)) by (rewrite map_length, seq_length; lia).
      rewrite map_nth, seq_nth by lia. reflexivity.
  Qed.

  (** computed control values near [n (p_(k+1) - p_k)] give a curve near the derivative *)
  Lemma deriv_close (l m : list R) E s : (2 <= length l)%nat -> length m = (length l - 1)%nat -> 0 <= s <= 1 ->
    (forall k, (k < length l - 1)%nat ->
       Rabs (nth k m 0 - (nth (k + 1) l 0 - nth k l 0) * INR (length l - 1)) <= E) ->
    exists dv, derivable_pt_lim (bezier_poly l) s dv /\ Rabs (bezier_poly m s - dv) <= E.
  Proof.
    intros Hl Hm Hs H. exists (poly_deriv l s). split; [now apply poly_deriv_ok|].
    unfold poly_deriv. set (g := fun k => nth (k + 1) l 0 - nth k l 0).
    assert (Nm : m <> []) by (intros ->; simpl in Hm; lia).
    assert (Ng : map g (seq 0 (length l - 1)) <> []) by (apply map_seq_ne; lia).
    rewrite !poly_dc by assumption. rewrite map_length, seq_length, Hm.
    set (n := length l) in *.
    replace (INR (n - 1) * dc s (n - 1 - 1) (fun k => nth k (map g (seq 0 (n - 1))) 0) 0)
      with (dc s (n - 1 - 1) (fun k => g k * INR (n - 1)) 0).
    - apply dc_close; [exact Hs|]. intros k Hk. apply H. lia.
    - rewrite (dc_ext s _ (fun k => nth k (map g (seq 0 (n - 1))) 0) g).
      + rewrite (dc_ext s _ _ (fun i => INR (n - 1) * g i + 0 * g i)) by (intros; ring).
        rewrite dc_lin. ring.
      + intros k Hk. rewrite (nth_indep (map _ _) 0 (g 0%nat)) by (rewrite map_length, seq_length; lia).
        rewrite map_nth, seq_nth by lia. reflexivity.
  Qed.

  Theorem bezier_derivative_err (ps : list P) M i s : (2 <= length ps)%nat ->
    (Z.of_nat (length ps - 1) <= 2 ^ fprec)%Z -> 3 * INR (length ps - 1) * M <= fmax ->
    (i < p_dim (P := P))%nat -> 0 <= s <= 1 ->
    (forall p, In p ps -> fin (cw p i) /\ Rabs (val (cw p i)) <= M) ->
    exists qs dv, bezier_derivative (Bezier ps) = Ret (Bezier qs) /\ length qs = (length ps - 1)%nat /\
      (forall q, In q qs -> fin (cw q i)) /\
      derivable_pt_lim (bezier_poly (map (fun q => val (cw q i)) ps)) s dv /\
      Rabs (bezier_poly (map (fun q => val (cw q i)) qs) s - dv)
        <= 5 * INR (length ps - 1) * uro * M + eta.
  Proof.
    intros Hl Hn Ov Hi Hs HB.
    set (d := p_default (P := P)).
    rewrite (bezier_derivative_closed ps d Hl).
    set (n := (length ps - 1)%nat) in *.
    set (g := fun k => p_mul (p_sub (nth (k + 1) ps d) (nth k ps d)) (s_of_usize n)).
    destruct (usize_ok n Hn) as [U1 U2].
    assert (N1 : 1 <= INR n) by (change 1 with (INR 1); apply le_INR; unfold n; lia).
    assert (G : forall k, (k < n)%nat -> fin (cw (g k) i) /\
      Rabs (val (cw (g k) i) - (val (cw (nth (k + 1) ps d) i) - val (cw (nth k ps d) i)) * INR n)
        <= 5 * INR n * uro * M + eta).
    { intros k Hk. unfold g. rewrite cw_mul, cw_sub by exact Hi.
      destruct (HB (nth k ps d)) as [A1 A2]; [apply nth_In; lia|].
      destruct (HB (nth (k + 1) ps d)) as [B1 B2]; [apply nth_In; lia|].
      now apply fdiff_err. }
    destruct (deriv_close (map (fun q => val (cw q i)) ps) (map (fun q => val (cw q i)) (map g (seq 0 n)))
                (5 * INR n * uro * M + eta) s) as (dv & D1 & D2).
    - now rewrite map_length.
    - now rewrite !map_length, seq_length.
    - exact Hs.
    - rewrite map_length. fold n. intros k Hk. rewrite map_map.
      rewrite (nth_indep (map _ (seq 0 n)) 0 (val (cw (g 0%nat) i))) by (rewrite map_length, seq_length; lia).
      rewrite (map_nth (fun q => val (cw (g q) i))), seq_nth by lia. cbn [Nat.add].
      rewrite !(nth_indep (map _ ps) 0 (val (cw d i))) by (rewrite map_length; lia).
      rewrite !(map_nth (fun q => val (cw q i))). now apply G.
    - exists (map g (seq 0 n)), dv. split; [reflexivity|].
      split; [now rewrite map_length, seq_length|]. split; [|split; [exact D1|exact D2]].
      intros q Hq. apply in_map_iff in Hq. destruct Hq as (k & <- & Hk). apply in_seq in Hk. apply G. lia.
  Qed.
End Bezier.

Section Curves.
  Context {F : Format} {P : Type} {PT : Point float P} {CP : CwPoint float P}.
  Variable M : R.
  Hypothesis HM : 0 <= M.

  Section Split.
  Hypothesis H4 : 4 * M <= fmax.

  Lemma near_err x r a b a' b' : near M x r 1 a b -> a <= a' -> b <= b' ->
    fin x /\ Rabs (val x - r) <= a' * uro * M + b' * eta.
  Proof.
    intros (A & B & _) Ha Hb. split; [exact A|]. pose proof (uM_ge0 M HM). pose proof eta_pos.
    eapply Rle_trans; [exact B|]. apply Rplus_le_compat.
    - rewrite Rmult_assoc. apply Rmult_le_compat_r; lra.
    - apply Rmult_le_compat_r; lra.
  Qed.

  Theorem quad_split_err (q : quad P) t i : (i < p_dim (P := P))%nat -> fin t -> 0 <= val t <= 1 ->
    bounded_at M (q_start q) i -> bounded_at M (q_ctrl q) i -> bounded_at M (q_end q) i ->
    forall l r, quad_split q t = (l, r) ->
    (forall p, In p (quad_control_points l ++ quad_control_points r) -> fin (cw p i)) /\
    forall s, 0 <= s <= 1 ->
      Rabs (bezier_poly (map (fun p => val (cw p i)) (quad_control_points l)) s
            - bezier_poly (map (fun p => val (cw p i)) (quad_control_points q)) (val t * s))
        <= 11 * uro * M + 3 * eta /\
      Rabs (bezier_poly (map (fun p => val (cw p i)) (quad_control_points r)) s
            - bezier_poly (map (fun p => val (cw p i)) (quad_control_points q)) (val t + s * (1 - val t)))
        <= 11 * uro * M + 3 * eta.
  Proof.
    intros Hi Ht Hr B1 B2 B3 l r Hs. unfold quad_split in Hs. injection Hs as <- <-.
    unfold quad_control_points. cbn [q_start q_ctrl q_end map app].
    rewrite !cw_mix by exact Hi.
    apply (bounded_near M) in B1, B2, B3.
    pose proof (near_mix M HM H4 t _ _ _ _ 0 0 Ht Hr B1 B2 ltac:(lra) ltac:(lra)) as N1.
    pose proof (near_mix M HM H4 t _ _ _ _ 0 0 Ht Hr B2 B3 ltac:(lra) ltac:(lra)) as N2.
    pose proof (near_mix M HM H4 t _ _ _ _ _ _ Ht Hr N1 N2 ltac:(lra) ltac:(lra)) as N3.
    destruct (near_err _ _ _ _ 11 3 B1 ltac:(lra) ltac:(lra)) as [F1 E1].
    destruct (near_err _ _ _ _ 11 3 B3 ltac:(lra) ltac:(lra)) as [F2 E2].
    destruct (near_err _ _ _ _ 11 3 N1 ltac:(lra) ltac:(lra)) as [F3 E3].
    destruct (near_err _ _ _ _ 11 3 N2 ltac:(lra) ltac:(lra)) as [F4 E4].
    destruct (near_err _ _ _ _ 11 3 N3 ltac:(lra) ltac:(lra)) as [F5 E5].
    set (T := val t) in *. set (a := val (cw (q_start q) i)) in *.
    set (b := val (cw (q_ctrl q) i)) in *. set (c := val (cw (q_end q) i)) in *.
    split.
    - intros p [<-|[<-|[<-|[<-|[<-|[<-|[]]]]]]]; rewrite ?cw_mix by exact Hi; assumption.
    - intros s Hs. split.
      + replace (bezier_poly [a; b; c] (T * s))
          with (bezier_poly [a; a + (b - a) * T; a + (b - a) * T + (b + (c - b) * T - (a + (b - a) * T)) * T] s)
          by (rewrite !quad_poly; ring).
        apply poly_close; [exact Hs|reflexivity|discriminate|].
        intros [|[|[|k]]] Hk; cbn [nth]; try assumption. cbn [length] in Hk. lia.
      + replace (bezier_poly [a; b; c] (T + s * (1 - T)))
          with (bezier_poly [a + (b - a) * T + (b + (c - b) * T - (a + (b - a) * T)) * T; b + (c - b) * T; c] s)
          by (rewrite !quad_poly; ring).
        apply poly_close; [exact Hs|reflexivity|discriminate|].
        intros [|[|[|k]]] Hk; cbn [nth]; try assumption. cbn [length] in Hk. lia.
  Qed.

  Theorem cubic_split_err (c : cubic P) t i : (i < p_dim (P := P))%nat -> fin t -> 0 <= val t <= 1 ->
    bounded_at M (c_start c) i -> bounded_at M (c_ctrl1 c) i -> bounded_at M (c_ctrl2 c) i -> bounded_at M (c_end c) i ->
    forall l r, cubic_split c t = (l, r) ->
    (forall p, In p (cubic_control_points l ++ cubic_control_points r) -> fin (cw p i)) /\
    forall s, 0 <= s <= 1 ->
      Rabs (bezier_poly (map (fun p => val (cw p i)) (cubic_control_points l)) s
            - bezier_poly (map (fun p => val (cw p i)) (cubic_control_points c)) (val t * s))
        <= 16 * uro * M + 4 * eta /\
      Rabs (bezier_poly (map (fun p => val (cw p i)) (cubic_control_points r)) s
            - bezier_poly (map (fun p => val (cw p i)) (cubic_control_points c)) (val t + s * (1 - val t)))
        <= 16 * uro * M + 4 * eta.
  Proof.
    intros Hi Ht Hr B1 B2 B3 B4 l r Hs. unfold cubic_split in Hs. injection Hs as <- <-.
    unfold cubic_control_points. cbn [c_start c_ctrl1 c_ctrl2 c_end map app].
    rewrite !cw_mix by exact Hi.
    apply (bounded_near M) in B1, B2, B3, B4.
    pose proof (near_mix M HM H4 t _ _ _ _ 0 0 Ht Hr B1 B2 ltac:(lra) ltac:(lra)) as N1.
    pose proof (near_mix M HM H4 t _ _ _ _ 0 0 Ht Hr B2 B3 ltac:(lra) ltac:(lra)) as N2.
    pose proof (near_mix M HM H4 t _ _ _ _ 0 0 Ht Hr B3 B4 ltac:(lra) ltac:(lra)) as N3.
    pose proof (near_mix M HM H4 t _ _ _ _ _ _ Ht Hr N1 N2 ltac:(lra) ltac:(lra)) as N4.
    pose proof (near_mix M HM H4 t _ _ _ _ _ _ Ht Hr N2 N3 ltac:(lra) ltac:(lra)) as N5.
    pose proof (near_mix M HM H4 t _ _ _ _ _ _ Ht Hr N4 N5 ltac:(lra) ltac:(lra)) as N6.
    destruct (near_err _ _ _ _ 16 4 B1 ltac:(lra) ltac:(lra)) as [F1 E1].
    destruct (near_err _ _ _ _ 16 4 B4 ltac:(lra) ltac:(lra)) as [F2 E2].
    destruct (near_err _ _ _ _ 16 4 N1 ltac:(lra) ltac:(lra)) as [F3 E3].
    destruct (near_err _ _ _ _ 16 4 N3 ltac:(lra) ltac:(lra)) as [F4 E4].
    destruct (near_err _ _ _ _ 16 4 N4 ltac:(lra) ltac:(lra)) as [F5 E5].
    destruct (near_err _ _ _ _ 16 4 N5 ltac:(lra) ltac:(lra)) as [F6 E6].
    destruct (near_err _ _ _ _ 16 4 N6 ltac:(lra) ltac:(lra)) as [F7 E7].
    set (T := val t) in *. set (a := val (cw (c_start c) i)) in *.
    set (b := val (cw (c_ctrl1 c) i)) in *. set (e := val (cw (c_ctrl2 c) i)) in *.
    set (d := val (cw (c_end c) i)) in *.
    split.
    - intros p [<-|[<-|[<-|[<-|[<-|[<-|[<-|[<-|[]]]]]]]]]; rewrite ?cw_mix by exact Hi; assumption.
    - intros s Hs.
      set (ab := a + (b - a) * T) in *. set (be := b + (e - b) * T) in *. set (ed := e + (d - e) * T) in *.
      set (abe := ab + (be - ab) * T) in *. set (bed := be + (ed - be) * T) in *.
      split.
      + replace (bezier_poly [a; b; e; d] (T * s))
          with (bezier_poly [a; ab; abe; abe + (bed - abe) * T] s)
          by (rewrite !cubic_poly; unfold bed, abe, ab, be, ed; ring).
        apply poly_close; [exact Hs|reflexivity|discriminate|].
        intros [|[|[|[|k]]]] Hk; cbn [nth]; try assumption. cbn [length] in Hk. lia.
      + replace (bezier_poly [a; b; e; d] (T + s * (1 - T)))
          with (bezier_poly [abe + (bed - abe) * T; bed; ed; d] s)
          by (rewrite !cubic_poly; unfold bed, abe, ab, be, ed; ring).
        apply poly_close; [exact Hs|reflexivity|discriminate|].
        intros [|[|[|[|k]]]] Hk; cbn [nth]; try assumption. cbn [length] in Hk. lia.
  Qed.
  End Split.

  Theorem quad_derivative_err (q : quad P) i s : (i < p_dim (P := P))%nat -> 0 <= s <= 1 -> 6 * M <= fmax ->
    bounded_at M (q_start q) i -> bounded_at M (q_ctrl q) i -> bounded_at M (q_end q) i ->
    let l := quad_derivative q in
    fin (cw (l_start l) i) /\ fin (cw (l_end l) i) /\
    exists dv, derivable_pt_lim (bezier_poly (map (fun p => val (cw p i)) (quad_control_points q))) s dv /\
      Rabs (bezier_poly [val (cw (l_start l) i); val (cw (l_end l) i)] s - dv) <= 10 * uro * M + eta.
  Proof.
    intros Hi Hs Ov [A1 A2] [B1 B2] [C1 C2] l. unfold l, quad_derivative. cbn [l_start l_end].
    rewrite !cw_mul, !cw_sub by exact Hi.
    destruct (lit_small 2) as [U1 U2]; [lia|].
    destruct (fdiff_err (cw (q_start q) i) (cw (q_ctrl q) i) (s_lit 2) M 2) as [G1 G2]; auto; try lra.
    destruct (fdiff_err (cw (q_ctrl q) i) (cw (q_end q) i) (s_lit 2) M 2) as [H1 H2]; auto; try lra.
    split; [exact G1|]. split; [exact H1|].
    apply deriv_close; [cbn; lia|reflexivity|exact Hs|]. cbn [quad_control_points map length]. intros [|[|k]] Hk; [| |lia]; cbn [nth].
    - replace (INR (3 - 1)) with 2 by (simpl; lra). eapply Rle_trans; [exact G2|lra].
    - replace (INR (3 - 1)) with 2 by (simpl; lra). eapply Rle_trans; [exact H2|lra].
  Qed.

  Theorem cubic_derivative_err (c : cubic P) i s : (i < p_dim (P := P))%nat -> 0 <= s <= 1 -> 9 * M <= fmax ->
    bounded_at M (c_start c) i -> bounded_at M (c_ctrl1 c) i -> bounded_at M (c_ctrl2 c) i -> bounded_at M (c_end c) i ->
    let q := cubic_derivative c in
    fin (cw (q_start q) i) /\ fin (cw (q_ctrl q) i) /\ fin (cw (q_end q) i) /\
    exists dv, derivable_pt_lim (bezier_poly (map (fun p => val (cw p i)) (cubic_control_points c))) s dv /\
      Rabs (bezier_poly [val (cw (q_start q) i); val (cw (q_ctrl q) i); val (cw (q_end q) i)] s - dv)
        <= 15 * uro * M + eta.
  Proof.
    intros Hi Hs Ov [A1 A2] [B1 B2] [C1 C2] [D1 D2] q. unfold q, cubic_derivative. cbn [q_start q_ctrl q_end].
    rewrite !cw_mul, !cw_sub by exact Hi.
    destruct (lit_small 3) as [U1 U2]; [lia|].
    destruct (fdiff_err (cw (c_start c) i) (cw (c_ctrl1 c) i) (s_lit 3) M 3) as [G1 G2]; auto; try lra.
    destruct (fdiff_err (cw (c_ctrl1 c) i) (cw (c_ctrl2 c) i) (s_lit 3) M 3) as [H1 H2]; auto; try lra.
    destruct (fdiff_err (cw (c_ctrl2 c) i) (cw (c_end c) i) (s_lit 3) M 3) as [I1 I2]; auto; try lra.
    split; [exact G1|]. split; [exact H1|]. split; [exact I1|].
    apply deriv_close; [cbn; lia|reflexivity|exact Hs|]. cbn [cubic_control_points map length]. intros [|[|[|k]]] Hk; [| | |lia]; cbn [nth];
      replace (INR (4 - 1)) with 3 by (simpl; lra).
    - eapply Rle_trans; [exact G2|lra].
    - eapply Rle_trans; [exact H2|lra].
    - eapply Rle_trans; [exact I2|lra].
  Qed.

  Theorem line_derivative_err (l : line P) i : (i < p_dim (P := P))%nat -> 2 * M <= fmax ->
    bounded_at M (l_start l) i -> bounded_at M (l_end l) i ->
    fin (cw (line_derivative l) i) /\
    Rabs (val (cw (line_derivative l) i) - (val (cw (l_end l) i) - val (cw (l_start l) i))) <= 2 * uro * M.
  Proof.
    intros Hi Ov [A1 A2] [B1 B2]. unfold line_derivative. rewrite cw_sub by exact Hi.
    pose proof uro_pos.
    assert (D0 : Rabs (val (cw (l_end l) i) - val (cw (l_start l) i)) <= 2 * M).
    { unfold Rminus. eapply Rle_trans; [apply Rabs_triang|]. rewrite Rabs_Ropp. lra. }
    destruct (sub_ok _ _ B1 A1) as [D1 D2]; [lra|]. split; [exact D1|]. rewrite D2.
    eapply Rle_trans; [apply (rnd_sum_err _ (- _)); [apply val_float|apply float_opp, val_float]|].
    fold (val (cw (l_end l) i) - val (cw (l_start l) i)).
    rewrite (Rmult_comm 2), Rmult_assoc. apply Rmult_le_compat_l; lra.
  Qed.
End Curves.
