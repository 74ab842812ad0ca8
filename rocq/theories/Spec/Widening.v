(** When a scalar of the user's own agrees with [NativeFloat]. *)
From Coq Require Import ZArith List Arith Bool.
From Verif Require Import Base.Outcome Base.Scalar Model.Point Model.TwoScalars.
Local Open Scope scalar_scope.

(** the same scalar with another [epsilon()] *)
Definition with_eps {S : Type} (SS : Scalar S) (e : S) : Scalar S := {|
  s_add := s_add; s_sub := s_sub; s_mul := s_mul; s_div := s_div; s_neg := s_neg; s_abs := s_abs; s_sqrt := s_sqrt;
  s_ltb := s_ltb; s_leb := s_leb; s_eqb := s_eqb; s_is_nan := s_is_nan;
  s_lit := s_lit; s_half := s_half; s_of_usize := s_of_usize; s_eps := e |}.

Section Laws.
  Context (T S P : Type) {NT : Scalar T} {SS : Scalar S} {MX : Mixed T S} {PT : Point S P} {PS : Scaled T P}.

  (** a scalar at least as wide as [NativeFloat]: a native operand is converted first, and the
      constants of the crate convert exactly.  Nothing is said of [into], nor of [from] elsewhere. *)
  Record widening : Prop := {
    wd_add : forall (x : S) (c : T), m_add x c = x + m_from c;
    wd_sub : forall (x : S) (c : T), m_sub x c = x - m_from c;
    wd_mul : forall (x : S) (c : T), m_mul x c = x * m_from c;
    wd_div : forall (x : S) (c : T), m_div x c = x / m_from c;
    wd_scale : forall (p : P) (c : T), p_scale p c = p_mul p (m_from c);
    wd_default : m_default (T := T) = s_lit 0 :> S;
    wd_lit : forall z, (Z.abs z <= 54)%Z -> m_from (s_lit z : T) = s_lit z :> S;
    wd_half : m_from (s_half : T) = s_half :> S;
    wd_32 : m_from (s_of_usize 64 / s_lit 2 : T) = s_of_usize 64 / s_lit 2 :> S;
    wd_coarse : forall i, (i < 64)%nat ->
      m_from (s_of_usize i * s_lit 1 / s_of_usize 64 : T) = s_of_usize i * s_lit 1 / s_of_usize 64 :> S;
    wd_fine : forall i, (i < 64)%nat ->
      m_from (s_of_usize i * s_lit 1 / s_of_usize (64 * 64) : T) = s_of_usize i * s_lit 1 / s_of_usize (64 * 64) :> S
  }.

  (** a wrapper around [NativeFloat]: converting there and back changes nothing, and converting
      commutes with the arithmetic *)
  Record newtype : Prop := {
    nt_widening : widening;
    nt_round_trip : forall x : S, m_from (m_into x : T) = x;
    nt_sub : forall a b : T, m_from (a - b) = m_from a - m_from b :> S;
    nt_mul : forall a b : T, m_from (a * b) = m_from a * m_from b :> S;
    nt_div : forall a b : T, m_from (a / b) = m_from a / m_from b :> S;
    nt_usize : forall n, m_from (s_of_usize n : T) = s_of_usize n :> S;
    nt_eps : m_from (s_eps : T) = s_eps :> S
  }.
End Laws.
