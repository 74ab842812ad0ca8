(** The functions of src/bezier.rs and src/bspline.rs that compute with [usize], over the
    arithmetic of the build profile: a debug build panics when an addition or subtraction leaves
    [0, M), a release build wraps modulo M (M = 2^64, or 2^32 and so on with the pointer width).
    Model/Bezier.v and Model/BSpline.v add without a bound and treat every underflow as a panic;
    C118 proves that both profiles do what they do.  Const generic expressions ([{N - 1}],
    [{D - 1}]) are evaluated by the compiler and stay as they are.  [count] of the unclamped search
    is an [isize] and never negative. *)
From Coq Require Import ZArith List Arith Bool.
From Verif Require Import Base.Outcome Base.Scalar Model.Point Model.Bezier Model.BSpline.
Import ListNotations.
Local Open Scope scalar_scope.
Local Open Scope point_scope.

Record profile := Profile {
  u_add : nat -> nat -> outcome nat;
  u_sub : nat -> nat -> outcome nat
}.

(** overflow checks on *)
Definition debug (M : nat) : profile :=
  Profile (fun a b => if (a + b <? M)%nat then Ret (a + b)%nat else Panic)
          (fun a b => if (b <=? a)%nat then Ret (a - b)%nat else Panic).

(** two's complement wrapping *)
Definition release (M : nat) : profile :=
  Profile (fun a b => Ret ((a + b) mod M)%nat)
          (fun a b => Ret ((a + (M - b mod M)) mod M)%nat).

Section Profiles.
  Context {T P : Type} {ST : Scalar T} {PT : Point T P} (pr : profile).

  (** bezier.rs:77-81, 133-137 *)
  Definition pr_casteljau_level (t : T) (i : nat) (p : list P) : outcome (list P) :=
    let! m := u_sub pr (length p) i in
    for_in (range 0 m) p (fun j p =>
      let! a := idx p j in
      let! j1 := u_add pr j 1 in
      let! b := idx p j1 in
      set_idx p j (a *^ ((- t) + s_lit 1) +^ b *^ t)).

  (** bezier.rs:72-83 *)
  Definition pr_bezier_eval (self : bezier P) (t : T) : outcome P :=
    let p := bz_points self in
    let! p := for_in (range_incl 1 (length p)) p (fun i p => pr_casteljau_level t i p) in
    idx p 0.

  (** bezier.rs:128-138 *)
  Definition pr_split_body (t : T) (i : nat) (st : list P * list P * list P)
    : outcome (list P * list P * list P) :=
    let '(lft, rgt, cp) := st in
    let! im1 := u_sub pr i 1 in
    let! c0 := idx cp 0 in
    let! lft := set_idx lft im1 c0 in
    let! r := u_sub pr (length rgt) i in
    let! cr := idx cp r in
    let! r' := u_sub pr (length rgt) i in
    let! rgt := set_idx rgt r' cr in
    let! cp := pr_casteljau_level t i cp in
    Ret (lft, rgt, cp).

  (** bezier.rs:120-148 *)
  Definition pr_bezier_split (self : bezier P) (t : T) : outcome (bezier P * bezier P) :=
    let ps := bz_points self in
    let! st := for_in (range_incl 1 (length ps)) (ps, ps, ps) (pr_split_body t) in
    let '(lft, rgt, _) := st in
    Ret (Bezier lft, Bezier rgt).

  (** bezier.rs:156-166 *)
  Definition pr_bezier_derivative (self : bezier P) : outcome (bezier P) :=
    let ps := bz_points self in
    let! nm1 := usub (length ps) 1 in
    let! new_points :=
      for_break (range 0 (length ps)) (repeat p_default nm1) (fun i new_points =>
        let! i1 := u_add pr i 1 in
        let! a := idx ps i1 in
        let! b := idx ps i in
        let! n := u_sub pr (length ps) 1 in
        let! new_points := set_idx new_points i ((a -^ b) *^ s_of_usize n) in
        let! last := u_sub pr (length ps) 2 in
        Ret (new_points, (i =? last)%nat)) in
    Ret (Bezier new_points).

  (** bezier.rs:241-252 *)
  Definition pr_bezier_arclen (self : bezier P) (nsteps : nat) : outcome T :=
    let stepsize := s_lit 1 / s_of_usize nsteps in
    for_in (range 1 nsteps) (s_lit 0) (fun i arclen =>
      let t := s_of_usize i * s_lit 1 / s_of_usize nsteps in
      let! p1 := pr_bezier_eval self t in
      let! p2 := pr_bezier_eval self (t + stepsize) in
      Ret (arclen + s_sqrt (p_sqlen (p1 -^ p2)))).

  (** bspline.rs:75-110 *)
  Definition pr_bspline_new (D : nat) (knots : list T) (control_points : list P)
    : outcome (result (bspline T P) BSplineError) :=
    if (length control_points <=? D)%nat then Ret (Err TooFewControlPoints)
    else
      let! n1 := u_add pr (length control_points) 1 in
      let! n := u_add pr n1 D in
      if (length knots <? n)%nat then Ret (Err TooFewKnots)
      else
        let! n1 := u_add pr (length control_points) 1 in
        let! n := u_add pr n1 D in
        if (n <? length knots)%nat then Ret (Err TooManyKnots)
        else if any_decreasing knots then Ret (Err DecreasingKnots)
        else
          let! first := idx knots 0 in
          let is_clamped_front := all_close first (firstn (D + 1) knots) in
          let! kd := u_sub pr (length knots) D in
          let! from := u_sub pr kd 1 in
          let! km1 := u_sub pr (length knots) 1 in
          let! last := idx knots km1 in
          let is_clamped_back := all_close last (skipn from knots) in
          let knot_kind :=
            match is_clamped_front, is_clamped_back with
            | false, false => Unclamped
            | true, false => ClampedStart
            | false, true => ClampedEnd
            | true, true => Clamped
            end in
          Ret (Ok (BSpline D knots knot_kind control_points)).

  (** bspline.rs:146-180 *)
  Definition pr_knot_domain (self : bspline T P) : outcome (T * T) :=
    match bs_kind self with
    | Clamped =>
        let! a := idx (bs_knots self) (bs_degree self) in
        let! m := u_sub pr (length (bs_knots self)) 1 in
        let! m := u_sub pr m (bs_degree self) in
        let! b := idx (bs_knots self) m in
        Ret (a, b)
    | ClampedStart =>
        let! a := idx (bs_knots self) (bs_degree self) in
        let! m := u_sub pr (length (bs_knots self)) 1 in
        let! b := idx (bs_knots self) m in
        Ret (a, b)
    | ClampedEnd =>
        let! a := idx (bs_knots self) 0 in
        let! m := u_sub pr (length (bs_knots self)) 1 in
        let! m := u_sub pr m (bs_degree self) in
        let! b := idx (bs_knots self) m in
        Ret (a, b)
    | Unclamped => knot_domain_unclamped self
    end.

  (** bspline.rs:325-339 *)
  Fixpoint pr_search_unclamped_loop (fuel : nat) (knots : list T) (t : T) (first count : nat)
    : outcome (option nat) :=
    if (0 <? count)%nat then
      match fuel with
      | O => Stuck
      | S fuel' =>
          let step := (count / 2)%nat in
          let! it := u_add pr first step in
          let! it1 := u_add pr it 1 in
          let! k1 := idx knots it1 in
          let! hit :=
            if t <? k1 then Ret true
            else
              let! it1 := u_add pr it 1 in
              let! m := u_sub pr (length knots) 2 in
              if (it1 =? m)%nat then
                let! it1 := u_add pr it 1 in
                let! k1' := idx knots it1 in Ret (t =? k1')
              else Ret false in
          if hit then Ret (Some it)
          else
            let! k0 := idx knots it in
            if t >=? k0
            then
              let! first := u_add pr it 1 in
              pr_search_unclamped_loop fuel' knots t first (count - (step + 1))
            else pr_search_unclamped_loop fuel' knots t first step
      end
    else Ret None.

  (** bspline.rs:321-340 *)
  Definition pr_span_unclamped (self : bspline T P) (t : T) : outcome (option nat) :=
    pr_search_unclamped_loop (S (length (bs_knots self))) (bs_knots self) t
      0 (length (bs_knots self)).

  (** bspline.rs:355-364, 388-397, 420-429 *)
  Fixpoint pr_search_loop (fuel : nat) (knots : list T) (t : T) (low high : nat)
    : outcome (option nat) :=
    if (low <=? high)%nat then
      match fuel with
      | O => Stuck
      | S fuel' =>
          let! s := u_add pr low high in
          let mid := (s / 2)%nat in
          let! km := idx knots mid in
          let! inside :=
            if t >=? km then
              let! mid1 := u_add pr mid 1 in
              let! km1 := idx knots mid1 in Ret (t <? km1)
            else Ret false in
          if inside then Ret (Some mid)
          else
            let! km := idx knots mid in
            if t <? km then
              let! high := u_sub pr mid 1 in
              pr_search_loop fuel' knots t low high
            else
              let! low := u_add pr mid 1 in
              pr_search_loop fuel' knots t low high
      end
    else Ret None.

  (** bspline.rs:347-366 *)
  Definition pr_span_clamped (self : bspline T P) (t : T) : outcome (option nat) :=
    let! n := u_sub pr (length (bs_points self)) 1 in
    let p := bs_degree self in
    let! n1 := u_add pr n 1 in
    let! kn1 := idx (bs_knots self) n1 in
    if t =? kn1 then Ret (Some n)
    else pr_search_loop (S (length (bs_knots self))) (bs_knots self) t p n.

  (** bspline.rs:368-400 *)
  Definition pr_span_clamped_start (self : bspline T P) (t : T) : outcome (option nat) :=
    let! n := u_sub pr (length (bs_points self)) 1 in
    let p := bs_degree self in
    let! m := u_sub pr (length (bs_knots self)) 1 in
    let! km := idx (bs_knots self) m in
    if t =? km then Ret (Some n)
    else
      let! kp := idx (bs_knots self) p in
      let! km := idx (bs_knots self) m in
      if (t <? kp) || (t >? km) then Ret None
      else
        let! high := u_sub pr m 1 in
        pr_search_loop (S (length (bs_knots self))) (bs_knots self) t p high.

  (** bspline.rs:402-432 *)
  Definition pr_span_clamped_end (self : bspline T P) (t : T) : outcome (option nat) :=
    let! n := u_sub pr (length (bs_points self)) 1 in
    let! n1 := u_add pr n 1 in
    let! kn1 := idx (bs_knots self) n1 in
    if t =? kn1 then Ret (Some n)
    else
      let! k0 := idx (bs_knots self) 0 in
      let! n1 := u_add pr n 1 in
      let! kn1 := idx (bs_knots self) n1 in
      if (t <? k0) || (t >? kn1) then Ret None
      else pr_search_loop (S (length (bs_knots self))) (bs_knots self) t 0 n.

  (** bspline.rs:307-314 *)
  Definition pr_knot_span_start_for_t (self : bspline T P) (t : T) : outcome (option nat) :=
    match bs_kind self with
    | Unclamped => pr_span_unclamped self t
    | ClampedStart => pr_span_clamped_start self t
    | Clamped => pr_span_clamped self t
    | ClampedEnd => pr_span_clamped_end self t
    end.

  (** bspline.rs:281-295 *)
  Definition pr_alpha_of (knots : list T) (D : nat) (t : T) (k r j : nat) : outcome T :=
    let! s := u_add pr j k in
    let! a := u_sub pr s D in
    let! ka := idx knots a in
    let numerator := t - ka in
    let! s := u_add pr j 1 in
    let! s := u_add pr s k in
    let! b := u_sub pr s r in
    let! kb := idx knots b in
    let! s := u_add pr j k in
    let! a := u_sub pr s D in
    let! ka' := idx knots a in
    let denominator := kb - ka' in
    Ret (if numerator <? s_eps then s_lit 0
         else if s_abs denominator <? s_eps then s_lit 1
         else numerator / denominator).

  (** bspline.rs:280-302 *)
  Definition pr_de_boor_body (knots : list T) (D : nat) (t : T) (k r j : nat) (d : list P)
    : outcome (result (list P) BSplineError) :=
    let! alpha := pr_alpha_of knots D t k r j in
    if s_is_nan alpha then Ret (Err EvaluationAlphaIsNaN)
    else
      let! jm1 := u_sub pr j 1 in
      let! dl := idx d jm1 in
      let! dr := idx d j in
      let! d := set_idx d j (dl *^ (s_lit 1 - alpha) +^ dr *^ alpha) in
      Ret (Ok d).

  (** bspline.rs:262-264 *)
  Definition pr_de_boor_load (self : bspline T P) (k : nat) : outcome (list P) :=
    let D := bs_degree self in
    for_in (range 0 D) (repeat p_default (D + 1)) (fun j d =>
      let! s := u_add pr j k in
      let! i := u_sub pr s D in
      let! c := idx (bs_points self) i in
      set_idx d j c).

  (** bspline.rs:241-305 *)
  Definition pr_de_boor_iterative (self : bspline T P) (t : T) : outcome (result P BSplineError) :=
    let D := bs_degree self in
    let! kc := idx (bs_knots self) (length (bs_points self)) in
    if t =? kc then
      let! last := u_sub pr (length (bs_points self)) 1 in
      let! c := idx (bs_points self) last in
      Ret (Ok c)
    else
      let! ko := pr_knot_span_start_for_t self t in
      match ko with
      | None => Ret (Err KnotDomainViolation)
      | Some k =>
          let! d := pr_de_boor_load self k in
          let! rd :=
            for_result (range_incl 1 D) d (fun r d =>
              for_result (rev (range_incl r D)) d (fun j d =>
                pr_de_boor_body (bs_knots self) D t k r j d)) in
          match rd with
          | Err e => Ret (Err e)
          | Ok d => let! p := idx d D in Ret (Ok p)
          end
      end.

  (** bspline.rs:115-129 *)
  Definition pr_bspline_eval (self : bspline T P) (t : T) : outcome (result P BSplineError) :=
    let! dom := pr_knot_domain self in
    if (t <? fst dom) || (t >? snd dom) then Ret (Err KnotDomainViolation)
    else pr_de_boor_iterative self t.

  (** bspline.rs:436-460 *)
  Definition pr_bspline_arclen (self : bspline T P) (nsteps : nat) : outcome T :=
    let stepsize := s_lit 1 / s_of_usize nsteps in
    let! dom := pr_knot_domain self in
    let kmin := fst dom in
    let kmax := snd dom in
    let eval_or_default t :=
      let! r := pr_bspline_eval self t in
      match r with
      | Ok p => Ret p
      | Err _ => Ret p_default
      end in
    for_in (range_incl 0 nsteps) (s_lit 0) (fun i arclen =>
      let t := kmin + (s_of_usize i / s_of_usize nsteps) * (kmax - kmin) in
      let! p1 := eval_or_default t in
      let! p2 := eval_or_default (t + stepsize) in
      Ret (arclen + s_sqrt (p_sqlen (p1 -^ p2)))).

  (** bspline.rs:471-485 *)
  Definition pr_bspline_derivative (self : bspline T P) : outcome (bspline T P) :=
    let ps := bs_points self in
    let D := bs_degree self in
    let! cm1 := usub (length ps) 1 in
    let! dm1 := usub D 1 in
    let! new_points :=
      for_break (range 0 (length ps)) (repeat p_default cm1) (fun i new_points =>
        let! i1 := u_add pr i 1 in
        let! a := idx ps i1 in
        let! b := idx ps i in
        let! iD := u_add pr i D in
        let! iD1 := u_add pr iD 1 in
        let! ka := idx (bs_knots self) iD1 in
        let! i1 := u_add pr i 1 in
        let! kb := idx (bs_knots self) i1 in
        let! new_points := set_idx new_points i ((a -^ b) *^ (s_of_usize D / (ka - kb))) in
        let! last := u_sub pr (length ps) 2 in
        Ret (new_points, (i =? last)%nat)) in
    Ret (BSpline dm1 (bs_knots self) (bs_kind self) new_points).
End Profiles.
