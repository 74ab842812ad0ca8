(** C95-C96: the same curve in two floating-point formats; the range of a curve in
    floating point. *)
From Coq Require Import Reals ZArith List Arith Lia Lra Bool.
From Flocq Require Import Core.Core IEEE754.BinarySingleNaN.
From Verif Require Import Base.Outcome Base.Scalar Model.Point Model.Line Model.Quadratic
  Model.Cubic Model.Bezier Inst.FloatInst Spec.Sums Spec.Bernstein
  Spec.Rounding Spec.Componentwise Spec.FloatPoints Spec.TwoFormats
  Proofs.FloatFacts Proofs.BezierReal Proofs.FloatBound Proofs.FloatNear Proofs.FloatSplit Proofs.FloatCurve
  Proofs.FloatPoint Proofs.FloatEval.
Import ListNotations.
Local Open Scope R_scope.

Lemma poly_range (l : list R) lo hi s : l <> [] -> 0 <= s <= 1 ->
  (forall x, In x l -> lo <= x <= hi) -> lo <= bezier_poly l s <= hi.
Proof.
  intros Hl Hs H. assert (0 < length l)%nat by (destruct l; [contradiction|simpl; lia]).
  rewrite poly_dc by exact Hl. apply dc_between; [exact Hs|]. intros k Hk. apply H, nth_In. lia.
Qed.

Lemma poly_two (l m : list R) M x y d : l <> [] -> length l = length m -> 0 <= x <= 1 -> 0 <= y <= 1 ->
  (forall z, In z m -> Rabs z <= M) -> (forall k, (k < length l)%nat -> Rabs (nth k l 0 - nth k m 0) <= d) ->
  Rabs (bezier_poly l x - bezier_poly m y) <= d + 2 * INR (length l - 1) * M * Rabs (x - y).
Proof.
  intros Hl Hlen Hx Hy Hm Hd.
  assert (A : Rabs (bezier_poly l x - bezier_poly m x) <= d) by (apply poly_close; auto).
  assert (B : Rabs (bezier_poly m x - bezier_poly m y) <= 2 * INR (length l - 1) * M * Rabs (x - y)).
  { destruct (le_lt_dec 2 (length l)) as [H2|H2].
    - rewrite Hlen. apply poly_lip; auto. lia.
    - assert (H1 : length l = 1%nat) by (destruct l; [contradiction|simpl in *; lia]).
      destruct m as [|z [|]]; try (simpl in *; lia). rewrite H1. simpl (INR (1 - 1)).
      unfold bezier_poly, bernstein. simpl.
      match goal with |- Rabs ?e <= _ => replace e with 0 by ring end. rewrite Rabs_R0.
      assert (0 <= M) by (eapply Rle_trans; [apply Rabs_pos|apply (Hm z); now left]). nra. }
  replace (bezier_poly l x - bezier_poly m y) with ((bezier_poly l x - bezier_poly m x) + (bezier_poly m x - bezier_poly m y)) by ring.
  eapply Rle_trans; [apply Rabs_triang|]. lra.
Qed.

Lemma three_way a b x y e f g : Rabs (a - x) <= e -> Rabs (b - y) <= f -> Rabs (x - y) <= g -> Rabs (a - b) <= e + f + g.
Proof. intros A B C. apply Rabs_le_inv in A, B, C. apply Rabs_le. lra. Qed.

(** ** Two formats *)
Section Two.
  Context {F G : Format} {P Q : Type} {PT : Point (@float F) P} {QT : Point (@float G) Q}
          {CP : CwPoint (@float F) P} {CQ : CwPoint (@float G) Q}.

  Variables (M d tau : R) (t : @float F) (u : @float G).
  Hypotheses (HM : 0 <= M) (H4F : 4 * M <= @fmax F) (H4G : 4 * M <= @fmax G)
    (Hdim : p_dim (P := P) = p_dim (P := Q))
    (Ht : fin t) (Htr : 0 <= val t <= 1) (Hu : fin u) (Hur : 0 <= val u <= 1) (Htu : Rabs (val t - val u) <= tau).

  Lemma lip_tau (n : nat) : 2 * INR n * M * Rabs (val t - val u) <= 2 * INR n * M * tau.
  Proof. apply Rmult_le_compat_l; [|exact Htu]. pose proof (pos_INR n). nra. Qed.

  Theorem bezier_two (ps : list P) (qs : list Q) : ps <> [] -> length ps = length qs ->
    6 * INR (length ps - 1) * @uro F <= 1 -> 6 * INR (length ps - 1) * @uro G <= 1 ->
    (forall p, In p ps -> bounded M p) -> (forall q, In q qs -> bounded M q) ->
    (forall k p q, nth_error ps k = Some p -> nth_error qs k = Some q -> close_points d p q) ->
    exists p q, bezier_eval (Bezier ps) t = Ret p /\ bezier_eval (Bezier qs) u = Ret q /\
      close_points (d + 2 * INR (length ps - 1) * M * tau + 6 * INR (length ps - 1) * (@uro F + @uro G) * M
                    + 5 * INR (length ps - 1) * (@eta F + @eta G)) p q.
  Proof.
    intros Hne Hlen HuF HuG Bp Bq Hc. assert (Hqe : qs <> []) by (destruct ps, qs; try discriminate; contradiction).
    destruct (bezier_eval_err_lin ps t M Hne HuF H4F Ht Htr (fun p i H Hi => Bp p H i Hi)) as (p & Ep & Vp).
    rewrite Hlen in HuG.
    destruct (bezier_eval_err_lin qs u M Hqe HuG H4G Hu Hur (fun p i H Hi => Bq p H i Hi)) as (q & Eq & Vq).
    exists p, q. split; [exact Ep|]. split; [exact Eq|]. intros i Hi.
    destruct (Vp i Hi) as [_ Ap]. rewrite Hdim in Hi. destruct (Vq i Hi) as [_ Aq]. rewrite <- Hdim in Hi. rewrite <- Hlen in Aq.
    set (n := INR (length ps - 1)) in *.
    assert (T : Rabs (bezier_poly (map (fun q => val (cw q i)) ps) (val t) - bezier_poly (map (fun q => val (cw q i)) qs) (val u))
                <= d + 2 * n * M * Rabs (val t - val u)).
    { unfold n. rewrite <- (map_length (fun q => val (cw q i)) ps). apply poly_two; auto.
      - destruct ps; [contradiction|discriminate].
      - now rewrite !map_length.
      - intros z Hz. apply in_map_iff in Hz. destruct Hz as (q0 & <- & Hq0). rewrite Hdim in Hi. apply (Bq q0 Hq0 i Hi).
      - intros k Hk. rewrite map_length in Hk.
        destruct (nth_error ps k) as [a|] eqn:Ea; [|apply nth_error_None in Ea; lia].
        destruct (nth_error qs k) as [b|] eqn:Eb; [|apply nth_error_None in Eb; lia].
        rewrite (nth_error_nth (map _ ps) k 0 (x := val (cw a i))) by (rewrite nth_error_map, Ea; reflexivity).
        rewrite (nth_error_nth (map _ qs) k 0 (x := val (cw b i))) by (rewrite nth_error_map, Eb; reflexivity).
        now apply (Hc k a b). }
    pose proof (lip_tau (length ps - 1)) as L. fold n in L.
    eapply Rle_trans; [apply (three_way _ _ _ _ _ _ _ Ap Aq T)|]. nra.
  Qed.

  Section Fixed.
    Variable i : nat.
    Hypothesis Hi : (i < p_dim (P := P))%nat.
    Let Hi' : (i < p_dim (P := Q))%nat. Proof. now rewrite <- Hdim. Qed.

    Lemma list_two (ps : list P) (qs : list Q) (a b eF eG : R) : ps <> [] -> length ps = length qs ->
      (forall q, In q qs -> bounded M q) ->
      (forall k p q, nth_error ps k = Some p -> nth_error qs k = Some q -> close_points d p q) ->
      Rabs (a - bezier_poly (map (fun q => val (cw q i)) ps) (val t)) <= eF ->
      Rabs (b - bezier_poly (map (fun q => val (cw q i)) qs) (val u)) <= eG ->
      Rabs (a - b) <= d + 2 * INR (length ps - 1) * M * tau + eF + eG.
    Proof.
      intros Hne Hlen Bq Hc A B.
      assert (T : Rabs (bezier_poly (map (fun q => val (cw q i)) ps) (val t) - bezier_poly (map (fun q => val (cw q i)) qs) (val u))
                <= d + 2 * INR (length ps - 1) * M * Rabs (val t - val u)).
      { rewrite <- (map_length (fun q => val (cw q i)) ps). apply poly_two; auto.
        - destruct ps; [contradiction|discriminate].
        - now rewrite !map_length.
        - intros z Hz. apply in_map_iff in Hz. destruct Hz as (q0 & <- & Hq0). apply (Bq q0 Hq0 i Hi').
        - intros k Hk. rewrite map_length in Hk.
          destruct (nth_error ps k) as [x|] eqn:Ea; [|apply nth_error_None in Ea; lia].
          destruct (nth_error qs k) as [y|] eqn:Eb; [|apply nth_error_None in Eb; lia].
          rewrite (nth_error_nth (map _ ps) k 0 (x := val (cw x i))) by (rewrite nth_error_map, Ea; reflexivity).
          rewrite (nth_error_nth (map _ qs) k 0 (x := val (cw y i))) by (rewrite nth_error_map, Eb; reflexivity).
          now apply (Hc k x y). }
      pose proof (lip_tau (length ps - 1)) as L.
      pose proof (three_way _ _ _ _ _ _ _ A B T). lra.
    Qed.
  End Fixed.

  Lemma close4 (l : list P) (m : list Q) : length l = length m ->
    Forall2 (close_points d) l m ->
    forall k p q, nth_error l k = Some p -> nth_error m k = Some q -> close_points d p q.
  Proof.
    intros _ H. induction H as [|x y l m Hxy Hlm IH]; intros [|k] p q; simpl; try discriminate.
    - intros [= <-] [= <-]. exact Hxy.
    - apply IH.
  Qed.

  Theorem line_two (l : line P) (m : line Q) :
    bounded M (l_start l) -> bounded M (l_end l) -> bounded M (l_start m) -> bounded M (l_end m) ->
    close_points d (l_start l) (l_start m) -> close_points d (l_end l) (l_end m) ->
    close_points (d + 2 * M * tau + 6 * (@uro F + @uro G) * M + 2 * (@eta F + @eta G)) (line_eval l t) (line_eval m u).
  Proof.
    intros A1 A2 B1 B2 C1 C2 i Hi. assert (Hi' : (i < p_dim (P := Q))%nat) by now rewrite <- Hdim.
    destruct (line_eval_err M HM H4F l t i Hi Ht Htr (A1 i Hi) (A2 i Hi)) as [_ VA].
    destruct (line_eval_err M HM H4G m u i Hi' Hu Hur (B1 i Hi') (B2 i Hi')) as [_ VB].
    assert (X := list_two i Hi [l_start l; l_end l] [l_start m; l_end m] _ _ _ _ ltac:(discriminate) eq_refl
      ltac:(intros q [<-|[<-|[]]]; assumption)
      ltac:(apply close4; [reflexivity|repeat (apply Forall2_cons; [assumption|]); apply Forall2_nil]) VA VB).
    cbn [length Nat.sub INR] in X. lra.
  Qed.

  Theorem quad_two (l : quad P) (m : quad Q) :
    bounded M (q_start l) -> bounded M (q_ctrl l) -> bounded M (q_end l) ->
    bounded M (q_start m) -> bounded M (q_ctrl m) -> bounded M (q_end m) ->
    close_points d (q_start l) (q_start m) -> close_points d (q_ctrl l) (q_ctrl m) -> close_points d (q_end l) (q_end m) ->
    close_points (d + 4 * M * tau + 17 * (@uro F + @uro G) * M + 5 * (@eta F + @eta G)) (quad_eval l t) (quad_eval m u).
  Proof.
    intros A1 A2 A3 B1 B2 B3 C1 C2 C3 i Hi. assert (Hi' : (i < p_dim (P := Q))%nat) by now rewrite <- Hdim.
    destruct (quad_eval_err M HM H4F l t i Hi Ht Htr (A1 i Hi) (A2 i Hi) (A3 i Hi)) as [_ VA].
    destruct (quad_eval_err M HM H4G m u i Hi' Hu Hur (B1 i Hi') (B2 i Hi') (B3 i Hi')) as [_ VB].
    assert (X := list_two i Hi [q_start l; q_ctrl l; q_end l] [q_start m; q_ctrl m; q_end m] _ _ _ _ ltac:(discriminate) eq_refl
      ltac:(intros q [<-|[<-|[<-|[]]]]; assumption)
      ltac:(apply close4; [reflexivity|repeat (apply Forall2_cons; [assumption|]); apply Forall2_nil]) VA VB).
    cbn [length Nat.sub INR] in X. lra.
  Qed.

  Theorem quad_casteljau_two (l : quad P) (m : quad Q) :
    bounded M (q_start l) -> bounded M (q_ctrl l) -> bounded M (q_end l) ->
    bounded M (q_start m) -> bounded M (q_ctrl m) -> bounded M (q_end m) ->
    close_points d (q_start l) (q_start m) -> close_points d (q_ctrl l) (q_ctrl m) -> close_points d (q_end l) (q_end m) ->
    close_points (d + 4 * M * tau + 11 * (@uro F + @uro G) * M + 3 * (@eta F + @eta G))
      (quad_eval_casteljau l t) (quad_eval_casteljau m u).
  Proof.
    intros A1 A2 A3 B1 B2 B3 C1 C2 C3 i Hi. assert (Hi' : (i < p_dim (P := Q))%nat) by now rewrite <- Hdim.
    destruct (quad_casteljau_err M HM H4F l t i Hi Ht Htr (A1 i Hi) (A2 i Hi) (A3 i Hi)) as [_ VA].
    destruct (quad_casteljau_err M HM H4G m u i Hi' Hu Hur (B1 i Hi') (B2 i Hi') (B3 i Hi')) as [_ VB].
    assert (X := list_two i Hi [q_start l; q_ctrl l; q_end l] [q_start m; q_ctrl m; q_end m] _ _ _ _ ltac:(discriminate) eq_refl
      ltac:(intros q [<-|[<-|[<-|[]]]]; assumption)
      ltac:(apply close4; [reflexivity|repeat (apply Forall2_cons; [assumption|]); apply Forall2_nil]) VA VB).
    cbn [length Nat.sub INR] in X. lra.
  Qed.

  Theorem cubic_casteljau_two (l : cubic P) (m : cubic Q) :
    bounded M (c_start l) -> bounded M (c_ctrl1 l) -> bounded M (c_ctrl2 l) -> bounded M (c_end l) ->
    bounded M (c_start m) -> bounded M (c_ctrl1 m) -> bounded M (c_ctrl2 m) -> bounded M (c_end m) ->
    close_points d (c_start l) (c_start m) -> close_points d (c_ctrl1 l) (c_ctrl1 m) ->
    close_points d (c_ctrl2 l) (c_ctrl2 m) -> close_points d (c_end l) (c_end m) ->
    close_points (d + 6 * M * tau + 16 * (@uro F + @uro G) * M + 4 * (@eta F + @eta G))
      (cubic_eval_casteljau l t) (cubic_eval_casteljau m u).
  Proof.
    intros A1 A2 A3 A4 B1 B2 B3 B4 C1 C2 C3 C4 i Hi. assert (Hi' : (i < p_dim (P := Q))%nat) by now rewrite <- Hdim.
    destruct (cubic_casteljau_err M HM H4F l t i Hi Ht Htr (A1 i Hi) (A2 i Hi) (A3 i Hi) (A4 i Hi)) as [_ VA].
    destruct (cubic_casteljau_err M HM H4G m u i Hi' Hu Hur (B1 i Hi') (B2 i Hi') (B3 i Hi') (B4 i Hi')) as [_ VB].
    assert (X := list_two i Hi [c_start l; c_ctrl1 l; c_ctrl2 l; c_end l] [c_start m; c_ctrl1 m; c_ctrl2 m; c_end m]
      _ _ _ _ ltac:(discriminate) eq_refl
      ltac:(intros q [<-|[<-|[<-|[<-|[]]]]]; assumption)
      ltac:(apply close4; [reflexivity|repeat (apply Forall2_cons; [assumption|]); apply Forall2_nil]) VA VB).
    cbn [length Nat.sub INR] in X. lra.
  Qed.

  Theorem cubic_two (l : cubic P) (m : cubic Q) :
    bounded M (c_start l) -> bounded M (c_ctrl1 l) -> bounded M (c_ctrl2 l) -> bounded M (c_end l) ->
    bounded M (c_start m) -> bounded M (c_ctrl1 m) -> bounded M (c_ctrl2 m) -> bounded M (c_end m) ->
    close_points d (c_start l) (c_start m) -> close_points d (c_ctrl1 l) (c_ctrl1 m) ->
    close_points d (c_ctrl2 l) (c_ctrl2 m) -> close_points d (c_end l) (c_end m) ->
    close_points (d + 6 * M * tau + 39 * (@uro F + @uro G) * M + 5 * (@eta F + @eta G)) (cubic_eval l t) (cubic_eval m u).
  Proof.
    intros A1 A2 A3 A4 B1 B2 B3 B4 C1 C2 C3 C4 i Hi. assert (Hi' : (i < p_dim (P := Q))%nat) by now rewrite <- Hdim.
    destruct (cubic_eval_err M HM H4F l t i Hi Ht Htr (A1 i Hi) (A2 i Hi) (A3 i Hi) (A4 i Hi)) as [_ VA].
    destruct (cubic_eval_err M HM H4G m u i Hi' Hu Hur (B1 i Hi') (B2 i Hi') (B3 i Hi') (B4 i Hi')) as [_ VB].
    assert (X := list_two i Hi [c_start l; c_ctrl1 l; c_ctrl2 l; c_end l] [c_start m; c_ctrl1 m; c_ctrl2 m; c_end m]
      _ _ _ _ ltac:(discriminate) eq_refl
      ltac:(intros q [<-|[<-|[<-|[<-|[]]]]]; assumption)
      ltac:(apply close4; [reflexivity|repeat (apply Forall2_cons; [assumption|]); apply Forall2_nil]) VA VB).
    cbn [length Nat.sub INR] in X. lra.
  Qed.
End Two.

(** ** Storing in another format *)
Section Store.
  Context {F G : Format}.

  Lemma float_of_rnd (x : R) : Rabs x <= @fmax G -> exists z : @float G, fin z /\ val z = rnd x.
  Proof.
    intros H. set (m := ZnearestE (scaled_mantissa radix2 (@fx G) x)).
    set (e := cexp radix2 (@fx G) x).
    pose proof (binary_normalize_correct (@fprec G) (@femax G) _ _ mode_NE m e false) as C.
    cbv zeta in C. change (round_mode mode_NE) with ZnearestE in C.
    assert (Hv : F2R (Float radix2 m e) = rnd x) by reflexivity.
    rewrite Hv in C. fold (@fx G) in C. fold (rnd (rnd x)) in C.
    assert (Hf : is_float (rnd x)) by (apply generic_format_round; [apply fexp_correct; apply _|apply valid_rnd_N]).
    rewrite (rnd_float _ Hf) in C. rewrite no_overflow in C by exact H.
    destruct C as (C1 & C2 & _). eexists. split; [exact C2|exact C1].
  Qed.

  Lemma nearest_err (x : @float F) (y : @float G) M : Rabs (val x) <= M -> M <= @fmax G -> nearest x y ->
    Rabs (val x - val y) <= @uro G * M + @eta G.
  Proof.
    intros Hx HM [_ N]. destruct (float_of_rnd (val x)) as (z & Fz & Vz); [lra|].
    eapply Rle_trans; [apply (N z Fz)|]. rewrite Vz, Rabs_minus_sym. eapply Rle_trans; [apply rnd_err|].
    pose proof (@uro_pos G). nra.
  Qed.

  Lemma nearest_rnd (x : @float F) (y : @float G) : fin y -> val y = rnd (val x) -> nearest x y.
  Proof.
    intros Fy E. split; [exact Fy|]. intros z _. rewrite E.
    assert (V : Valid_exp (@fx G)) by (apply fexp_correct; apply _).
    destruct (round_N_pt radix2 (@fx G) (fun x => negb (Z.even x)) (val x)) as [_ N].
    fold (rnd (F := G) (val x)) in N.
    rewrite (Rabs_minus_sym (val x) (rnd _)), (Rabs_minus_sym (val x) (val z)). apply N, val_float.
  Qed.

  Lemma nearest_flt m e : val (@flt F m e) = F2R (Float radix2 m e) -> Rabs (F2R (Float radix2 m e)) <= @fmax G ->
    nearest (@flt F m e) (@flt G m e).
  Proof.
    intros E H. pose proof (binary_normalize_correct (@fprec G) (@femax G) _ _ mode_NE m e false) as C.
    cbv zeta in C. change (round_mode mode_NE) with ZnearestE in C. fold (@fx G) in C.
    fold (rnd (F := G) (F2R (Float radix2 m e))) in C. rewrite no_overflow in C by exact H. destruct C as (C1 & C2 & _).
    apply nearest_rnd; [exact C2|]. rewrite E. exact C1.
  Qed.

  Lemma nearest_between (x : @float F) (y : @float G) (a b : @float G) : fin a -> fin b ->
    val a <= val x <= val b -> nearest x y -> val a <= val y <= val b.
  Proof.
    intros Fa Fb H [_ N]. pose proof (N a Fa) as A. pose proof (N b Fb) as B.
    unfold Rabs in A, B. repeat destruct Rcase_abs; split; lra.
  Qed.

  Lemma nearest_unit (x : @float F) (y : @float G) : 0 <= val x <= 1 -> nearest x y -> 0 <= val y <= 1.
  Proof.
    destruct (lit_small (F := G) 0 ltac:(lia)) as [F0 V0]. destruct (lit_small (F := G) 1 ltac:(lia)) as [F1 V1].
    intros H N. pose proof (nearest_between x y _ _ F0 F1) as X. rewrite V0, V1 in X. now apply X.
  Qed.

  Context {P Q : Type} {PT : Point (@float F) P} {QT : Point (@float G) Q}
          {CP : CwPoint (@float F) P} {CQ : CwPoint (@float G) Q}.

  Lemma stored_close (p : P) (q : Q) M : bounded M p -> M <= @fmax G -> stored p q ->
    close_points (@uro G * M + @eta G) p q.
  Proof. intros B HM S i Hi. apply nearest_err; [apply (B i Hi)|exact HM|apply (S i Hi)]. Qed.

  (** the polygon and the parameter moved to the format G *)
  Theorem bezier_stored (ps : list P) (qs : list Q) (t : @float F) (u : @float G) M :
    0 <= M -> 4 * M <= @fmax F -> 4 * M <= @fmax G -> p_dim (P := P) = p_dim (P := Q) ->
    fin t -> 0 <= val t <= 1 -> nearest t u -> ps <> [] -> length ps = length qs ->
    6 * INR (length ps - 1) * @uro F <= 1 -> 6 * INR (length ps - 1) * @uro G <= 1 ->
    (forall p, In p ps -> bounded M p) -> (forall q, In q qs -> bounded M q) ->
    (forall k p q, nth_error ps k = Some p -> nth_error qs k = Some q -> stored p q) ->
    exists p q, bezier_eval (Bezier ps) t = Ret p /\ bezier_eval (Bezier qs) u = Ret q /\
      close_points (@uro G * M + @eta G + 2 * INR (length ps - 1) * M * (@uro G + @eta G)
                    + 6 * INR (length ps - 1) * (@uro F + @uro G) * M
                    + 5 * INR (length ps - 1) * (@eta F + @eta G)) p q.
  Proof.
    intros HM H4F H4G Hdim Ht Htr Htu Hne Hlen HuF HuG Bp Bq Hst.
    pose proof (@fmax_ge G) as FM. apply bezier_two; auto.
    - exact (proj1 Htu).
    - now apply (nearest_unit t).
    - pose proof (nearest_err t u 1) as X. rewrite Rmult_1_r in X. apply X; [apply Rabs_le; lra|lra|exact Htu].
    - intros k p q Ep Eq. apply stored_close; [apply Bp; now apply nth_error_In in Ep|lra|now apply (Hst k)].
  Qed.
End Store.

(** ** Range *)
Section Range.
  Context {F : Format} {P : Type} {PT : Point float P} {CP : CwPoint float P}.
  Variables (M lo hi : R) (t : float) (i : nat).
  Hypotheses (HM : 0 <= M) (H4 : 4 * M <= fmax) (Hi : (i < p_dim (P := P))%nat) (Ht : fin t) (Htr : 0 <= val t <= 1).

  Lemma near_range (ps : list P) x e : ps <> [] -> (forall p, In p ps -> lo <= val (cw p i) <= hi) ->
    Rabs (x - bezier_poly (map (fun q => val (cw q i)) ps) (val t)) <= e -> lo - e <= x <= hi + e.
  Proof.
    intros Hne H V. assert (R : lo <= bezier_poly (map (fun q => val (cw q i)) ps) (val t) <= hi).
    { apply poly_range; auto; [destruct ps; [contradiction|discriminate]|].
      intros z Hz. apply in_map_iff in Hz. destruct Hz as (p & <- & Hp). now apply H. }
    apply Rabs_le_inv in V. lra.
  Qed.

  Theorem bezier_range (ps : list P) : ps <> [] -> 6 * INR (length ps - 1) * uro <= 1 ->
    (forall p, In p ps -> bounded M p) -> (forall p, In p ps -> lo <= val (cw p i) <= hi) ->
    exists p, bezier_eval (Bezier ps) t = Ret p /\
      let e := 6 * INR (length ps - 1) * uro * M + 5 * INR (length ps - 1) * eta in
      lo - e <= val (cw p i) <= hi + e.
  Proof.
    intros Hne HuF Bp Hr.
    destruct (bezier_eval_err_lin ps t M Hne HuF H4 Ht Htr (fun p i H Hi => Bp p H i Hi)) as (p & Ep & Vp).
    exists p. split; [exact Ep|]. destruct (Vp i Hi) as [_ V]. apply near_range with (ps := ps); auto.
  Qed.
  Theorem line_range (l : line P) : bounded M (l_start l) -> bounded M (l_end l) ->
    (forall p, In p [l_start l; l_end l] -> lo <= val (cw p i) <= hi) ->
    lo - (6 * uro * M + 2 * eta) <= val (cw (line_eval l t) i) <= hi + (6 * uro * M + 2 * eta).
  Proof.
    intros A1 A2 Hr. destruct (line_eval_err M HM H4 l t i Hi Ht Htr (A1 i Hi) (A2 i Hi)) as [_ V].
    apply near_range with (ps := [l_start l; l_end l]); auto. discriminate.
  Qed.
  Theorem quad_range (l : quad P) : bounded M (q_start l) -> bounded M (q_ctrl l) -> bounded M (q_end l) ->
    (forall p, In p [q_start l; q_ctrl l; q_end l] -> lo <= val (cw p i) <= hi) ->
    lo - (17 * uro * M + 5 * eta) <= val (cw (quad_eval l t) i) <= hi + (17 * uro * M + 5 * eta).
  Proof.
    intros A1 A2 A3 Hr. destruct (quad_eval_err M HM H4 l t i Hi Ht Htr (A1 i Hi) (A2 i Hi) (A3 i Hi)) as [_ V].
    apply near_range with (ps := [q_start l; q_ctrl l; q_end l]); auto. discriminate.
  Qed.
  Theorem cubic_range (l : cubic P) : bounded M (c_start l) -> bounded M (c_ctrl1 l) -> bounded M (c_ctrl2 l) -> bounded M (c_end l) ->
    (forall p, In p [c_start l; c_ctrl1 l; c_ctrl2 l; c_end l] -> lo <= val (cw p i) <= hi) ->
    lo - (39 * uro * M + 5 * eta) <= val (cw (cubic_eval l t) i) <= hi + (39 * uro * M + 5 * eta).
  Proof.
    intros A1 A2 A3 A4 Hr.
    destruct (cubic_eval_err M HM H4 l t i Hi Ht Htr (A1 i Hi) (A2 i Hi) (A3 i Hi) (A4 i Hi)) as [_ V].
    apply near_range with (ps := [c_start l; c_ctrl1 l; c_ctrl2 l; c_end l]); auto. discriminate.
  Qed.
End Range.

(** ** A constant curve that is not constant *)
Section Constant.
  Local Existing Instance Binary64.
  (** 0x1.e90a7d5185401p+0 and 53/128 *)
  Definition flat_c : @float Binary64 := flt 8603143466947585 (-52).
  Definition flat_t : @float Binary64 := flt 53 (-7).

  Lemma flat_above : match bezier_eval (Bezier [fpt1 flat_c; fpt1 flat_c]) flat_t with
    | Ret p => s_ltb flat_c (cw p 0) && is_finite (cw p 0) | _ => false end = true.
  Proof. vm_compute. reflexivity. Qed.

  Theorem range_refuted : ~ (forall (ps : list (PointN float 1)) t p lo hi, fin t -> 0 <= val t <= 1 ->
    (forall q, In q ps -> bounded 2 q /\ lo <= val (cw q 0) <= hi) ->
    bezier_eval (Bezier ps) t = Ret p -> lo <= val (cw p 0) <= hi).
  Proof.
    intros H. pose proof flat_above as A.
    destruct (bezier_eval (Bezier [fpt1 flat_c; fpt1 flat_c]) flat_t) as [p| |] eqn:E; try discriminate.
    apply andb_prop in A. destruct A as [A Fp].
    assert (L2 : is (flt 2 0) 2) by apply (lit_small 2 ltac:(lia)).
    assert (L1 : is (flt 1 0) 1) by apply (lit_small 1 ltac:(lia)).
    assert (Fc : fin flat_c) by (vm_compute; reflexivity). assert (Ft : fin flat_t) by (vm_compute; reflexivity).
    assert (Bc : 0 <= val flat_c <= 2).
    { assert (X : s_leb flat_c (flt 2 0) = true) by (vm_compute; reflexivity).
      assert (Y : s_leb (flt 0 0) flat_c = true) by (vm_compute; reflexivity).
      rewrite leb_val in X, Y by (vm_compute; reflexivity). rewrite (proj2 L2) in X. change (val (flt 0 0)) with 0 in Y.
      destruct (Rle_bool_spec (val flat_c) 2); [|discriminate]. destruct (Rle_bool_spec 0 (val flat_c)); [|discriminate]. lra. }
    assert (Bt : 0 <= val flat_t <= 1).
    { assert (X : s_leb flat_t (flt 1 0) = true) by (vm_compute; reflexivity).
      assert (Y : s_leb (flt 0 0) flat_t = true) by (vm_compute; reflexivity).
      rewrite leb_val in X, Y by (vm_compute; reflexivity). rewrite (proj2 L1) in X. change (val (flt 0 0)) with 0 in Y.
      destruct (Rle_bool_spec (val flat_t) 1); [|discriminate]. destruct (Rle_bool_spec 0 (val flat_t)); [|discriminate]. lra. }
    assert (X : val flat_c <= val (cw p 0) <= val flat_c).
    { apply (H [fpt1 flat_c; fpt1 flat_c] flat_t p (val flat_c) (val flat_c) Ft Bt); [|exact E].
      intros q [<-|[<-|[]]]; (split; [|change (val flat_c <= val flat_c <= val flat_c); lra]);
        (intros [|i] Hi; [|cbn in Hi; lia]); (split; [exact Fc|]); change (Rabs (val flat_c) <= 2); apply Rabs_le; lra. }
    rewrite ltb_val in A by assumption. destruct (Rlt_bool_spec (val flat_c) (val (cw p 0))); [lra|discriminate].
  Qed.
End Constant.
