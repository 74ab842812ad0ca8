(** NOT the code: evaluation of a B-spline with one line of /repo changed, bspline.rs:262,
    where the loop that loads the control points runs over [0..=D] instead of [0..D].
    The EPSILON tests, the search of each kind, the reported domain and the early return
    of the last control point are those of the code, unlike in Model/Repairs.v.  Used by
    C124 to say which of the violated properties have this line as their only cause. *)
From Coq Require Import List Bool Arith.
From Verif Require Import Base.Outcome Base.Scalar Model.Point Model.BSpline Model.Repairs.
Import ListNotations.
Local Open Scope scalar_scope.

Section Load.
  Context {T : Type} {ST : Scalar T} {P : Type} {PT : Point T P}.

  (** bspline.rs:241-305, line 262 changed *)
  Definition loaded_de_boor (self : bspline T P) (t : T) : outcome (result P BSplineError) :=
    let D := bs_degree self in
    let! kc := idx (bs_knots self) (length (bs_points self)) in
    if t =? kc then
      let! last := usub (length (bs_points self)) 1 in
      let! c := idx (bs_points self) last in
      Ret (Ok c)
    else
      let! ko := knot_span_start_for_t self t in
      match ko with
      | None => Ret (Err KnotDomainViolation)
      | Some k =>
          let! d := fixed_load self k in
          let! rd :=
            for_result (range_incl 1 D) d (fun r d =>
              for_result (rev (range_incl r D)) d (fun j d =>
                de_boor_body (bs_knots self) D t k r j d)) in
          match rd with
          | Err e => Ret (Err e)
          | Ok d => let! p := idx d D in Ret (Ok p)
          end
      end.

  (** bspline.rs:115-129 *)
  Definition loaded_eval (self : bspline T P) (t : T) : outcome (result P BSplineError) :=
    let! dom := knot_domain self in
    if (t <? fst dom) || (t >? snd dom) then Ret (Err KnotDomainViolation)
    else loaded_de_boor self t.
End Load.
