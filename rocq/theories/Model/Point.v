(** Model of src/point.rs and src/point_generic.rs. *)
From Coq Require Import ZArith List Arith Bool Lia.
From Verif Require Import Base.Outcome Base.Scalar.
Import ListNotations.
Local Open Scope scalar_scope.

(** Trait [Point] (src/point.rs:12-42), restricted to what the crate calls.
    [p_dim] is the associated constant [DIM]; [into_iter().enumerate()] is
    modelled as the indices [0..DIM]; a user type whose iterator has another length
    is covered by Model/Iterators.v. *)
Class Point (T P : Type) := {
  p_add : P -> P -> P;                (* Add<Self>     point.rs:13 *)
  p_sub : P -> P -> P;                (* Sub<Self>     point.rs:14 *)
  p_mul : P -> T -> P;                (* Mul<Scalar>   point.rs:15-16 *)
  p_eqb : P -> P -> bool;             (* PartialEq     point.rs:18 *)
  p_default : P;                      (* Default       point.rs:20 *)
  p_dim : nat;                        (* DIM           point.rs:33 *)
  p_axis : P -> nat -> outcome T;     (* axis          point.rs:37, may panic *)
  p_sqlen : P -> T                    (* squared_length point.rs:41 *)
}.

Declare Scope point_scope.
Delimit Scope point_scope with P.
Notation "p +^ q" := (p_add p q) (at level 50, left associativity) : point_scope.
Notation "p -^ q" := (p_sub p q) (at level 50, left associativity) : point_scope.
Notation "p *^ s" := (p_mul p s) (at level 40, left associativity) : point_scope.

(** [struct PointN<T, const N: usize>([T; N])] (src/point_generic.rs:16): an
    array of exactly [N] scalars. *)
Record PointN (T : Type) (N : nat) : Type := mkPointN {
  pn_arr : list T;
  pn_len : (length pn_arr =? N)%nat = true
}.
Arguments mkPointN {T N} pn_arr pn_len.
Arguments pn_arr {T N} p : rename.
Arguments pn_len {T N} p : rename.

Section PointN.
  Context {T : Type} {ST : Scalar T} {N : nat}.

  Fixpoint map2 (f : T -> T -> T) (a b : list T) : list T :=
    match a, b with
    | x :: a', y :: b' => f x y :: map2 f a' b'
    | _, _ => []
    end.

  Lemma map2_len f (a b : list T) :
    (length a =? N)%nat = true -> (length b =? N)%nat = true ->
    (length (map2 f a b) =? N)%nat = true.
  Proof.
    rewrite !Nat.eqb_eq. intros Ha Hb. revert a b Ha Hb. revert N.
    induction N as [|n IH]; intros [|x a] [|y b] Ha Hb; simpl in *; try discriminate; auto.
  Qed.

  Lemma map_len (f : T -> T) (a : list T) :
    (length a =? N)%nat = true -> (length (map f a) =? N)%nat = true.
  Proof. now rewrite map_length. Qed.

  Lemma repeat_len (x : T) : (length (repeat x N) =? N)%nat = true.
  Proof. rewrite repeat_length. apply Nat.eqb_refl. Qed.

  (** [impl Add for PointN] (point_generic.rs:45-58): the loop writes
      [res[i] = self[i] + other[i]] for each [i in 0..N]. *)
  Definition pn_add (p q : PointN T N) : PointN T N :=
    mkPointN (map2 s_add (pn_arr p) (pn_arr q)) (map2_len _ _ _ (pn_len p) (pn_len q)).

  (** [impl Add<T> for PointN] (point_generic.rs:62-75): adds a scalar to every coordinate. *)
  Definition pn_add_scalar (p : PointN T N) (s : T) : PointN T N :=
    mkPointN (map (fun x => x + s) (pn_arr p)) (map_len _ _ (pn_len p)).

  (** [impl Sub for PointN] (point_generic.rs:77-90). *)
  Definition pn_sub (p q : PointN T N) : PointN T N :=
    mkPointN (map2 s_sub (pn_arr p) (pn_arr q)) (map2_len _ _ _ (pn_len p) (pn_len q)).

  (** [impl Sub<T> for PointN] (point_generic.rs:94-107). *)
  Definition pn_sub_scalar (p : PointN T N) (s : T) : PointN T N :=
    mkPointN (map (fun x => x - s) (pn_arr p)) (map_len _ _ (pn_len p)).

  (** [impl Mul<U> for PointN] (point_generic.rs:109-126), at [U = T]. *)
  Definition pn_mul (p : PointN T N) (s : T) : PointN T N :=
    mkPointN (map (fun x => x * s) (pn_arr p)) (map_len _ _ (pn_len p)).

  (** [impl Default for PointN] (point_generic.rs:25-29): [T::default()] is 0.0. *)
  Definition pn_default : PointN T N :=
    mkPointN (repeat (s_lit 0) N) (repeat_len _).

  (** [impl PartialEq for PointN] (point_generic.rs:31-43): false as soon as
      [self[i] != other[i]] for some i, true otherwise. *)
  Fixpoint arr_eqb (a b : list T) : bool :=
    match a, b with
    | x :: a', y :: b' => if negb (x =? y) then false else arr_eqb a' b'
    | _, _ => true
    end.
  Definition pn_eqb (p q : PointN T N) : bool := arr_eqb (pn_arr p) (pn_arr q).

  (** [Point::axis] (point_generic.rs:164-167): [assert!(index <= N)] and then a
      bounds-checked array read. *)
  Definition pn_axis (p : PointN T N) (index : nat) : outcome T :=
    if (index <=? N)%nat then idx (pn_arr p) index else Panic.

  (** [Point::squared_length] (point_generic.rs:169-175). *)
  Definition pn_sqlen (p : PointN T N) : T :=
    fold_left (fun sqr_dist x => sqr_dist + x * x) (pn_arr p) (s_lit 0).

  (** [impl Point for PointN] (point_generic.rs:146-176). *)
  #[global] Instance PointN_Point : Point T (PointN T N) := {
    p_add := pn_add;
    p_sub := pn_sub;
    p_mul := pn_mul;
    p_eqb := pn_eqb;
    p_default := pn_default;
    p_dim := N;
    p_axis := pn_axis;
    p_sqlen := pn_sqlen
  }.
End PointN.
