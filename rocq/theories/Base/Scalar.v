(** The float operations used by the crate, without any law.

    Models the bounds of [Point::Scalar] and [NativeFloat]
    (src/point.rs:23-32, src/lib.rs:61-72).  Conversions between [P::Scalar]
    and [NativeFloat] ([into], [from]) are the identity: see DESIGN.md. *)
From Coq Require Import ZArith List Bool.
From Verif Require Import Base.Outcome.
Import ListNotations.

Class Scalar (T : Type) := {
  s_add : T -> T -> T;
  s_sub : T -> T -> T;
  s_mul : T -> T -> T;
  s_div : T -> T -> T;
  s_neg : T -> T;
  s_abs : T -> T;
  s_sqrt : T -> T;
  s_ltb : T -> T -> bool;       (* a < b *)
  s_leb : T -> T -> bool;       (* a <= b *)
  s_eqb : T -> T -> bool;       (* a == b *)
  s_is_nan : T -> bool;
  s_lit : Z -> T;               (* float literals with integral value: 1.0, -2.0 ... *)
  s_half : T;                   (* the literal 0.5 *)
  s_of_usize : nat -> T;        (* n as NativeFloat *)
  s_eps : T                     (* EPSILON, Float::epsilon() : src/lib.rs:66, 72 *)
}.

Declare Scope scalar_scope.
Delimit Scope scalar_scope with S.
Notation "x + y" := (s_add x y) : scalar_scope.
Notation "x - y" := (s_sub x y) : scalar_scope.
Notation "x * y" := (s_mul x y) : scalar_scope.
Notation "x / y" := (s_div x y) : scalar_scope.
Notation "- x" := (s_neg x) : scalar_scope.
Notation "x <? y" := (s_ltb x y) : scalar_scope.
Notation "x <=? y" := (s_leb x y) : scalar_scope.
Notation "x >? y" := (s_ltb y x) : scalar_scope.
Notation "x >=? y" := (s_leb y x) : scalar_scope.
Notation "x =? y" := (s_eqb x y) : scalar_scope.

(** [sort_unstable_by(|a, b| a.partial_cmp(b).unwrap())] on a small slice
    (used at src/quadratic_bezier.rs:320 and src/cubic_bezier.rs:401).
    A comparison with NaN yields [None] and the unwrap panics; sorting two or
    more elements compares every element at least once, and sorting fewer
    compares nothing.  Otherwise the result is the sorted slice; the relative
    order of equal elements (such as 0.0 and -0.0) is not specified by Rust, the
    model uses insertion sort. *)
Section Sort.
  Context {T : Type} {ST : Scalar T}.
  Fixpoint s_insert (x : T) (l : list T) : list T :=
    match l with
    | [] => [x]
    | y :: l' => if s_leb x y then x :: y :: l' else y :: s_insert x l'
    end.
  Fixpoint s_isort (l : list T) : list T :=
    match l with
    | [] => []
    | x :: l' => s_insert x (s_isort l')
    end.
  Definition sort_by_partial_cmp (l : list T) : outcome (list T) :=
    match l with
    | [] | [_] => Ret l
    | _ => if existsb s_is_nan l then Panic else Ret (s_isort l)
    end.
End Sort.
