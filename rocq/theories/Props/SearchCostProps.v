(** C100: the knot searches take logarithmically many iterations.  [search_loop] and
    [search_unclamped_loop] get one unit of fuel per iteration and return [Stuck] when it is used up;
    [Nat.log2 k] is the rounded-down binary logarithm. *)
From Coq Require Import Reals List Arith Lia Lra.
From Verif Require Import Base.Outcome Base.Scalar Model.Point Model.BSpline Inst.RealInst Spec.Points Proofs.SearchCost.
Import ListNotations.

Section Cost.
  Context {T : Type} {ST : Scalar T}.

  (** the search of clamped splines: on K knots log2 K + 1 iterations suffice, and with more the result is the same;
      no knot has to be ordered, t may be anything *)
  Theorem C100_search (knots : list T) t low high fuel : high < length knots -> S (Nat.log2 (length knots)) <= fuel ->
    search_loop fuel knots t low high = search_loop (S (Nat.log2 (length knots))) knots t low high /\
    search_loop (S (Nat.log2 (length knots))) knots t low high <> Stuck.
  Proof. exact (search_log knots t low high fuel). Qed.

  Theorem C100_search_unclamped (knots : list T) t fuel : S (Nat.log2 (length knots)) <= fuel ->
    search_unclamped_loop fuel knots t 0 (length knots)
    = search_unclamped_loop (S (Nat.log2 (length knots))) knots t 0 (length knots) /\
    search_unclamped_loop (S (Nat.log2 (length knots))) knots t 0 (length knots) <> Stuck.
  Proof. exact (unclamped_log knots t fuel). Qed.

  (** the number is exact: for a parameter right of every knot, n = high + 1 - low knots take log2 n + 1 iterations *)
  Theorem C100_exact (knots : list T) t low high fuel : S high < length knots -> low <= high ->
    (forall k x, nth_error knots k = Some x -> s_leb x t = true /\ s_ltb t x = false) ->
    search_loop fuel knots t low high = Stuck <-> fuel <= Nat.log2 (S high - low).
  Proof. exact (search_exact knots t low high fuel). Qed.
End Cost.

(** three knots to search, all left of 5: one iteration is not enough, two are *)
Example C100_case : forall fuel,
  @search_loop R (@RScalar Eps64) fuel [0; 1; 2; 3]%R 5%R 0 2 = Stuck <-> fuel <= 1.
Proof.
  intros fuel. rewrite (@C100_exact R (@RScalar Eps64) [0; 1; 2; 3]%R 5%R 0 2 fuel); [reflexivity|cbn; lia|lia|].
  intros k x E. do 4 (destruct k as [|k]; [injection E as <-; split; [apply Rleb_true|apply Rltb_false]; lra|]).
  now destruct k.
Qed.

Print Assumptions C100_search.
Print Assumptions C100_search_unclamped.
Print Assumptions C100_exact.
