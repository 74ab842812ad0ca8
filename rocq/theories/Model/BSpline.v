(** Model of src/bspline.rs. *)
From Coq Require Import ZArith List Arith Bool.
From Verif Require Import Base.Outcome Base.Scalar Model.Point.
Import ListNotations.
Local Open Scope scalar_scope.
Local Open Scope point_scope.

(** bspline.rs:7-14 *)
Inductive BSplineError :=
| TooFewControlPoints
| TooFewKnots
| TooManyKnots
| DecreasingKnots
| KnotDomainViolation
| EvaluationAlphaIsNaN.

(** bspline.rs:17-22 *)
Inductive KnotVectorKind := Unclamped | ClampedStart | ClampedEnd | Clamped.

(** [struct BSpline<P, K, C, D>] (bspline.rs:51-61).  The const generics K and C
    are the lengths of the two lists; D is kept as a field. *)
Record bspline (T P : Type) := BSpline {
  bs_degree : nat;
  bs_knots : list T;
  bs_kind : KnotVectorKind;
  bs_points : list P
}.
Arguments BSpline {T P} bs_degree bs_knots bs_kind bs_points.
Arguments bs_degree {T P} b : rename.
Arguments bs_knots {T P} b : rename.
Arguments bs_kind {T P} b : rename.
Arguments bs_points {T P} b : rename.

Section BSpline.
  Context {T P : Type} {ST : Scalar T} {PT : Point T P}.

  (** [knots.windows(2).any(|w| w[0] > w[1])] (bspline.rs:87) *)
  Fixpoint any_decreasing (knots : list T) : bool :=
    match knots with
    | a :: ((b :: _) as rest) => (a >? b) || any_decreasing rest
    | _ => false
    end.

  (** bspline.rs:90-92 and 93-95: every knot of the slice is within EPSILON of [ref] *)
  Definition all_close (ref : T) (slice : list T) : bool :=
    forallb (fun knot => s_abs (knot - ref) <? s_eps) slice.

  (** bspline.rs:75-110 *)
  Definition bspline_new (D : nat) (knots : list T) (control_points : list P)
    : outcome (result (bspline T P) BSplineError) :=
    if (length control_points <=? D)%nat then Ret (Err TooFewControlPoints)
    else if (length knots <? length control_points + 1 + D)%nat then Ret (Err TooFewKnots)
    else if (length control_points + 1 + D <? length knots)%nat then Ret (Err TooManyKnots)
    else if any_decreasing knots then Ret (Err DecreasingKnots)
    else
      let! first := idx knots 0 in
      let is_clamped_front := all_close first (firstn (D + 1) knots) in
      let! kd := usub (length knots) D in
      let! from := usub kd 1 in
      let! km1 := usub (length knots) 1 in
      let! last := idx knots km1 in
      let is_clamped_back := all_close last (skipn from knots) in
      let knot_kind :=
        match is_clamped_front, is_clamped_back with
        | false, false => Unclamped
        | true, false => ClampedStart
        | false, true => ClampedEnd
        | true, true => Clamped
        end in
      Ret (Ok (BSpline D knots knot_kind control_points)).

  (** bspline.rs:132-134, 137-139: the iterators, as the lists they yield *)
  Definition bspline_control_points (self : bspline T P) : list P := bs_points self.
  Definition bspline_knots (self : bspline T P) : list T := bs_knots self.

  (** bspline.rs:155-158 *)
  Definition knot_domain_clamped_start (self : bspline T P) : outcome (T * T) :=
    let! a := idx (bs_knots self) (bs_degree self) in
    let! m := usub (length (bs_knots self)) 1 in
    let! b := idx (bs_knots self) m in
    Ret (a, b).

  (** bspline.rs:160-163 *)
  Definition knot_domain_clamped_end (self : bspline T P) : outcome (T * T) :=
    let! a := idx (bs_knots self) 0 in
    let! m := usub (length (bs_knots self)) 1 in
    let! m := usub m (bs_degree self) in
    let! b := idx (bs_knots self) m in
    Ret (a, b).

  (** bspline.rs:167-170 *)
  Definition knot_domain_clamped (self : bspline T P) : outcome (T * T) :=
    let! a := idx (bs_knots self) (bs_degree self) in
    let! m := usub (length (bs_knots self)) 1 in
    let! m := usub m (bs_degree self) in
    let! b := idx (bs_knots self) m in
    Ret (a, b).

  (** bspline.rs:177-180 *)
  Definition knot_domain_unclamped (self : bspline T P) : outcome (T * T) :=
    let! a := idx (bs_knots self) (bs_degree self) in
    let! b := idx (bs_knots self) (length (bs_points self)) in
    Ret (a, b).

  (** bspline.rs:146-153 *)
  Definition knot_domain (self : bspline T P) : outcome (T * T) :=
    match bs_kind self with
    | Clamped => knot_domain_clamped self
    | ClampedStart => knot_domain_clamped_start self
    | ClampedEnd => knot_domain_clamped_end self
    | Unclamped => knot_domain_unclamped self
    end.

  (** bspline.rs:325-339: the [while count > 0] loop.  [count] is an [isize] in
      the code; it never becomes negative ([count - (count/2 + 1) >= 0] when
      [count > 0]), so [nat] is exact.  One unit of fuel per iteration. *)
  Fixpoint search_unclamped_loop (fuel : nat) (knots : list T) (t : T) (first count : nat)
    : outcome (option nat) :=
    if (0 <? count)%nat then
      match fuel with
      | O => Stuck
      | S fuel' =>
          let step := (count / 2)%nat in
          let it := (first + step)%nat in
          let! k1 := idx knots (it + 1) in
          let! hit :=
            if t <? k1 then Ret true
            else
              let! m := usub (length knots) 2 in
              if (it + 1 =? m)%nat then
                let! k1' := idx knots (it + 1) in Ret (t =? k1')
              else Ret false in
          if hit then Ret (Some it)
          else
            let! k0 := idx knots it in
            if t >=? k0
            then search_unclamped_loop fuel' knots t (it + 1) (count - (step + 1))
            else search_unclamped_loop fuel' knots t first step
      end
    else Ret None.

  (** bspline.rs:321-340 *)
  Definition knot_span_start_for_t_unclamped (self : bspline T P) (t : T) : outcome (option nat) :=
    search_unclamped_loop (S (length (bs_knots self))) (bs_knots self) t
      0 (length (bs_knots self)).

  (** bspline.rs:355-364, 388-397, 420-429: the same [while low <= high] loop in
      the three other searches *)
  Fixpoint search_loop (fuel : nat) (knots : list T) (t : T) (low high : nat)
    : outcome (option nat) :=
    if (low <=? high)%nat then
      match fuel with
      | O => Stuck
      | S fuel' =>
          let mid := ((low + high) / 2)%nat in
          let! km := idx knots mid in
          let! inside :=
            if t >=? km then let! km1 := idx knots (mid + 1) in Ret (t <? km1)
            else Ret false in
          if inside then Ret (Some mid)
          else
            let! km := idx knots mid in
            if t <? km then
              let! high := usub mid 1 in
              search_loop fuel' knots t low high
            else search_loop fuel' knots t (mid + 1) high
      end
    else Ret None.

  (** bspline.rs:347-366 *)
  Definition knot_span_start_for_t_clamped (self : bspline T P) (t : T) : outcome (option nat) :=
    let! n := usub (length (bs_points self)) 1 in
    let p := bs_degree self in
    let! kn1 := idx (bs_knots self) (n + 1) in
    if t =? kn1 then Ret (Some n)
    else search_loop (S (length (bs_knots self))) (bs_knots self) t p n.

  (** bspline.rs:368-400 *)
  Definition knot_span_start_for_t_clamped_start (self : bspline T P) (t : T)
    : outcome (option nat) :=
    let! n := usub (length (bs_points self)) 1 in
    let p := bs_degree self in
    let! m := usub (length (bs_knots self)) 1 in
    let! km := idx (bs_knots self) m in
    if t =? km then Ret (Some n)
    else
      let! kp := idx (bs_knots self) p in
      let! km := idx (bs_knots self) m in
      if (t <? kp) || (t >? km) then Ret None
      else
        let! high := usub m 1 in
        search_loop (S (length (bs_knots self))) (bs_knots self) t p high.

  (** bspline.rs:402-432 *)
  Definition knot_span_start_for_t_clamped_end (self : bspline T P) (t : T)
    : outcome (option nat) :=
    let! n := usub (length (bs_points self)) 1 in
    let! kn1 := idx (bs_knots self) (n + 1) in
    if t =? kn1 then Ret (Some n)
    else
      let! k0 := idx (bs_knots self) 0 in
      let! kn1 := idx (bs_knots self) (n + 1) in
      if (t <? k0) || (t >? kn1) then Ret None
      else search_loop (S (length (bs_knots self))) (bs_knots self) t 0 n.

  (** bspline.rs:307-314 *)
  Definition knot_span_start_for_t (self : bspline T P) (t : T) : outcome (option nat) :=
    match bs_kind self with
    | Unclamped => knot_span_start_for_t_unclamped self t
    | ClampedStart => knot_span_start_for_t_clamped_start self t
    | Clamped => knot_span_start_for_t_clamped self t
    | ClampedEnd => knot_span_start_for_t_clamped_end self t
    end.

  (** bspline.rs:281-295: the interpolation weight *)
  Definition alpha_of (knots : list T) (D : nat) (t : T) (k r j : nat) : outcome T :=
    let! a := usub (j + k) D in
    let! ka := idx knots a in
    let numerator := t - ka in
    let! b := usub (j + 1 + k) r in
    let! kb := idx knots b in
    let! ka' := idx knots a in
    let denominator := kb - ka' in
    Ret (if numerator <? s_eps then s_lit 0
         else if s_abs denominator <? s_eps then s_lit 1
         else numerator / denominator).

  (** bspline.rs:280-302: body of the inner loop *)
  Definition de_boor_body (knots : list T) (D : nat) (t : T) (k r j : nat) (d : list P)
    : outcome (result (list P) BSplineError) :=
    let! alpha := alpha_of knots D t k r j in
    if s_is_nan alpha then Ret (Err EvaluationAlphaIsNaN)
    else
      let! jm1 := usub j 1 in
      let! dl := idx d jm1 in
      let! dr := idx d j in
      let! d := set_idx d j (dl *^ (s_lit 1 - alpha) +^ dr *^ alpha) in
      Ret (Ok d).

  (** bspline.rs:262-264: loads control points j+k-D for j in 0..D *)
  Definition de_boor_load (self : bspline T P) (k : nat) : outcome (list P) :=
    let D := bs_degree self in
    for_in (range 0 D) (repeat p_default (D + 1)) (fun j d =>
      let! i := usub (j + k) D in
      let! c := idx (bs_points self) i in
      set_idx d j c).

  (** bspline.rs:241-305 *)
  Definition de_boor_iterative (self : bspline T P) (t : T) : outcome (result P BSplineError) :=
    let D := bs_degree self in
    let! kc := idx (bs_knots self) (length (bs_points self)) in
    if t =? kc then
      let! last := usub (length (bs_points self)) 1 in
      let! c := idx (bs_points self) last in
      Ret (Ok c)
    else
      let! ko := knot_span_start_for_t self t in
      match ko with
      | None => Ret (Err KnotDomainViolation)
      | Some k =>
          let! d := de_boor_load self k in
          let! rd :=
            for_result (range_incl 1 D) d (fun r d =>
              for_result (rev (range_incl r D)) d (fun j d =>
                de_boor_body (bs_knots self) D t k r j d)) in
          match rd with
          | Err e => Ret (Err e)
          | Ok d => let! p := idx d D in Ret (Ok p)
          end
      end.

  (** bspline.rs:115-129 *)
  Definition bspline_eval (self : bspline T P) (t : T) : outcome (result P BSplineError) :=
    let! dom := knot_domain self in
    if (t <? fst dom) || (t >? snd dom) then Ret (Err KnotDomainViolation)
    else de_boor_iterative self t.

  (** [.unwrap_or_else(|_| P::default())] (bspline.rs:449-456) *)
  Definition eval_or_default (self : bspline T P) (t : T) : outcome P :=
    let! r := bspline_eval self t in
    match r with
    | Ok p => Ret p
    | Err _ => Ret p_default
    end.

  (** bspline.rs:436-460 *)
  Definition bspline_arclen (self : bspline T P) (nsteps : nat) : outcome T :=
    let stepsize := s_lit 1 / s_of_usize nsteps in
    let! dom := knot_domain self in
    let kmin := fst dom in
    let kmax := snd dom in
    for_in (range_incl 0 nsteps) (s_lit 0) (fun i arclen =>
      let t := kmin + (s_of_usize i / s_of_usize nsteps) * (kmax - kmin) in
      let! p1 := eval_or_default self t in
      let! p2 := eval_or_default self (t + stepsize) in
      Ret (arclen + s_sqrt (p_sqlen (p1 -^ p2)))).

  (** bspline.rs:471-485.  [{C - 1}], [{D - 1}] do not compile for C = 0 or
      D = 0; modelled as [Panic]. *)
  Definition bspline_derivative (self : bspline T P) : outcome (bspline T P) :=
    let ps := bs_points self in
    let D := bs_degree self in
    let! cm1 := usub (length ps) 1 in
    let! dm1 := usub D 1 in
    let! new_points :=
      for_break (range 0 (length ps)) (repeat p_default cm1) (fun i new_points =>
        let! a := idx ps (i + 1) in
        let! b := idx ps i in
        let! ka := idx (bs_knots self) (i + D + 1) in
        let! kb := idx (bs_knots self) (i + 1) in
        let! new_points := set_idx new_points i ((a -^ b) *^ (s_of_usize D / (ka - kb))) in
        let! last := usub (length ps) 2 in
        Ret (new_points, (i =? last)%nat)) in
    Ret (BSpline dm1 (bs_knots self) (bs_kind self) new_points).
End BSpline.
