(** Model of src/line.rs. *)
From Coq Require Import ZArith List Arith Bool.
From Verif Require Import Base.Outcome Base.Scalar Model.Point.
Import ListNotations.
Local Open Scope scalar_scope.
Local Open Scope point_scope.

(** [struct LineSegment<P>] (line.rs:8-12) and [new] (line.rs:18-20). *)
Record line (P : Type) := Line { l_start : P; l_end : P }.
Arguments Line {P} l_start l_end.
Arguments l_start {P} l : rename.
Arguments l_end {P} l : rename.

Section Line.
  Context {T P : Type} {ST : Scalar T} {PT : Point T P}.

  (** line.rs:22-24 *)
  Definition line_eval (self : line P) (t : T) : P :=
    l_start self +^ (l_end self -^ l_start self) *^ t.

  (** line.rs:26-40 *)
  Definition line_split (self : line P) (t : T) : line P * line P :=
    let ctrl_ab := l_start self +^ (l_start self -^ l_end self) *^ t in
    (Line (l_start self) ctrl_ab, Line ctrl_ab (l_end self)).

  (** line.rs:59-62: the dot product loop *)
  Definition dot_loop (v1 v2 : P) : outcome T :=
    for_in (range 0 p_dim) (s_lit 0) (fun i dot =>
      let! a := p_axis v1 i in
      let! b := p_axis v2 i in
      Ret (dot + a * b)).

  (** line.rs:51-79 *)
  Definition line_distance_to_point (self : line P) (p : P) : outcome T :=
    let l2 := p_sqlen (l_end self -^ l_start self) in
    if l2 <? s_eps then
      Ret (s_sqrt (p_sqlen (l_start self -^ p)))
    else
      let v1 := p -^ l_start self in
      let v2 := l_end self -^ l_start self in
      let! dot := dot_loop v1 v2 in
      let t := s_lit 0 in
      let t := if dot / l2 <? s_lit 1 then dot / l2 else t in
      let t := if t <? s_lit 0 then s_lit 0 else t in
      let projection := l_start self +^ (l_end self -^ l_start self) *^ t in
      Ret (s_sqrt (p_sqlen (p -^ projection))).

  (** line.rs:82-84 *)
  Definition line_axis (self : line P) (t : T) (axis : nat) : outcome T :=
    let! s := p_axis (l_start self) axis in
    let! e := p_axis (l_end self) axis in
    let! s' := p_axis (l_start self) axis in
    Ret (s + (e - s') * t).

  (** line.rs:88-90 *)
  Definition line_derivative (self : line P) : P := l_end self -^ l_start self.

  (** line.rs:92-99: an [ArrayVec] of capacity 1 *)
  Definition line_root (a b : T) : outcome (list T) :=
    if s_abs a <? s_eps then Ret []
    else av_push 1 [] ((- b) / a).

  (** line.rs:102-116 *)
  Definition line_bounding_box (self : line P) : outcome (list (T * T)) :=
    for_in (range 0 p_dim) (repeat (s_lit 0, s_lit 0) p_dim) (fun i bounds =>
      let! s := p_axis (l_start self) i in
      let! e := p_axis (l_end self) i in
      if s <? e then set_idx bounds i (s, e) else set_idx bounds i (e, s)).
End Line.
