(** Outcomes of Rust code, arrays and loops.

    A Rust expression either returns, panics, or (for a [while] loop in the
    model) runs out of fuel.  Panics are explicit values so that theorems can
    speak about them. *)
From Coq Require Import List Arith Bool Lia.
Import ListNotations.

Inductive outcome (A : Type) : Type :=
| Ret (a : A)      (* normal return *)
| Panic            (* index out of bounds, usize underflow, assert!, unwrap *)
| Stuck.           (* fuel of a [while] loop exhausted: never happens, see theorems *)
Arguments Ret {A} a.
Arguments Panic {A}.
Arguments Stuck {A}.

Definition bind {A B : Type} (x : outcome A) (f : A -> outcome B) : outcome B :=
  match x with
  | Ret a => f a
  | Panic => Panic
  | Stuck => Stuck
  end.

Notation "'let!' x ':=' e 'in' k" := (bind e (fun x => k))
  (at level 200, x pattern, e at level 100, k at level 200, right associativity).

(** Array read [l[i]]: bounds checked. *)
Definition idx {A : Type} (l : list A) (i : nat) : outcome A :=
  match nth_error l i with
  | Some a => Ret a
  | None => Panic
  end.

Fixpoint replace_nth {A : Type} (l : list A) (i : nat) (v : A) : list A :=
  match l, i with
  | [], _ => []
  | _ :: l', O => v :: l'
  | x :: l', S i' => x :: replace_nth l' i' v
  end.

(** Array write [l[i] = v]: bounds checked. *)
Definition set_idx {A : Type} (l : list A) (i : nat) (v : A) : outcome (list A) :=
  if i <? length l then Ret (replace_nth l i v) else Panic.

(** [usize] subtraction.  Debug builds panic on underflow; release builds wrap,
    and every use in the crate feeds the wrapped value to an array index, which
    panics. *)
Definition usub (a b : nat) : outcome nat :=
  if b <=? a then Ret (a - b) else Panic.

(** [a..b] and [a..=b] over usize: empty when the start exceeds the end. *)
Definition range (a b : nat) : list nat := seq a (b - a).
Definition range_incl (a b : nat) : list nat := seq a (S b - a).

(** [for i in is { body }] with mutable state [s]. *)
Fixpoint for_in {S : Type} (is : list nat) (s : S) (body : nat -> S -> outcome S) : outcome S :=
  match is with
  | [] => Ret s
  | i :: is' => let! s' := body i s in for_in is' s' body
  end.

(** The same with a [break]: the body also returns whether to leave the loop. *)
Fixpoint for_break {S : Type} (is : list nat) (s : S) (body : nat -> S -> outcome (S * bool))
  : outcome S :=
  match is with
  | [] => Ret s
  | i :: is' =>
      let! r := body i s in
      if snd r then Ret (fst r) else for_break is' (fst r) body
  end.

(** [Result<A, E>] *)
Inductive result (A E : Type) : Type :=
| Ok (a : A)
| Err (e : E).
Arguments Ok {A E} a.
Arguments Err {A E} e.

(** A loop whose body can leave the enclosing function with [return Err(e)]. *)
Fixpoint for_result {S E : Type} (is : list nat) (s : S)
  (body : nat -> S -> outcome (result S E)) : outcome (result S E) :=
  match is with
  | [] => Ret (Ok s)
  | i :: is' =>
      let! r := body i s in
      match r with
      | Ok s' => for_result is' s' body
      | Err e => Ret (Err e)
      end
  end.

(** tinyvec's [ArrayVec<[T; cap]>]: a list with a capacity; [push] and [extend]
    panic when the capacity is exceeded. *)
Definition av_push {A : Type} (cap : nat) (l : list A) (x : A) : outcome (list A) :=
  if length l <? cap then Ret (l ++ [x]) else Panic.

Fixpoint av_extend {A : Type} (cap : nat) (l : list A) (xs : list A) : outcome (list A) :=
  match xs with
  | [] => Ret l
  | x :: xs' => let! l' := av_push cap l x in av_extend cap l' xs'
  end.
