(** The knot indices inspected by a binary search over K knots that only ever
    goes right: the middle of what is left, again and again. *)
From Coq Require Import Arith Lia.

Fixpoint probe (K i : nat) : nat :=
  match i with
  | O => K / 2
  | S i' => let f := probe K i' + 1 in f + (K - f) / 2
  end.

(** for 14 knots: 7, 11, 13 *)
Example probe_ex : probe 14 0 = 7 /\ probe 14 1 = 11 /\ probe 14 2 = 13.
Proof. repeat split. Qed.
