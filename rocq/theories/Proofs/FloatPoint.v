(** [PointN] is componentwise over every scalar type. *)
From Coq Require Import ZArith List Arith Lia Bool.
From Verif Require Import Base.Outcome Base.Scalar Model.Point Spec.Componentwise
  Proofs.OutcomeFacts Proofs.PointFacts Proofs.PointGeneric.
Import ListNotations.

Section Cw.
  Context {T : Type} {ST : Scalar T} {N : nat}.

  Definition pn_nth (p : PointN T N) (i : nat) : T := nth i (pn_arr p) (s_lit 0).

  Lemma axis_pn_nth (p : PointN T N) i :
    p_axis p i = if i <? N then Ret (pn_nth p i) else Panic.
  Proof.
    rewrite axis_nth. unfold pn_nth. destruct (Nat.ltb_spec i N) as [H|H].
    - rewrite (nth_error_nth' (pn_arr p) (s_lit 0)); [reflexivity|now rewrite pn_length].
    - rewrite (proj2 (nth_error_None (pn_arr p) i)); [reflexivity|]. now rewrite pn_length.
  Qed.

  Lemma pn_nth_axis (p : PointN T N) i : i < N -> p_axis p i = Ret (pn_nth p i).
  Proof. intros H. rewrite axis_pn_nth. now rewrite (proj2 (Nat.ltb_lt i N) H). Qed.

  Lemma fold_nth (l : list T) d acc :
    fold_left (fun a x => s_add a (s_mul x x)) l acc
    = fold_left (fun a i => s_add a (s_mul (nth i l d) (nth i l d))) (seq 0 (length l)) acc.
  Proof.
    revert acc. induction l as [|x l IH]; intros acc; [reflexivity|].
    cbn [fold_left length seq nth]. rewrite <- seq_shift, IH.
    generalize (s_add acc (s_mul x x)). generalize (seq 0 (length l)).
    intros s. induction s as [|k s IHs]; intros a; [reflexivity|].
    cbn [fold_left map nth]. apply IHs.
  Qed.

  #[global] Program Instance PointN_cw : CwPoint T (PointN T N) := {
    cw := pn_nth
  }.
  Next Obligation.
    pose proof (add_axis p q i _ _ (pn_nth_axis p i H) (pn_nth_axis q i H)) as E.
    rewrite pn_nth_axis in E by exact H. now injection E.
  Qed.
  Next Obligation.
    pose proof (sub_axis p q i _ _ (pn_nth_axis p i H) (pn_nth_axis q i H)) as E.
    rewrite pn_nth_axis in E by exact H. now injection E.
  Qed.
  Next Obligation.
    pose proof (mul_axis p s i _ (pn_nth_axis p i H)) as E.
    rewrite pn_nth_axis in E by exact H. now injection E.
  Qed.
  Next Obligation. unfold pn_nth. cbn. apply nth_repeat. Qed.
  Next Obligation. apply axis_pn_nth. Qed.
  Next Obligation.
    change (pn_eqb p q) with (p_eqb p q). rewrite (eqb_iff p q). split.
    - intros H i Hi. apply (H i); now apply pn_nth_axis.
    - intros H i x y Hx Hy.
      assert (Hi : i < N).
      { destruct (Nat.lt_ge_cases i N) as [L|L]; auto.
        rewrite (proj2 (axis_panic_iff p i) L) in Hx. discriminate. }
      rewrite pn_nth_axis in Hx, Hy by exact Hi. injection Hx as <-. injection Hy as <-.
      now apply H.
  Qed.
  Next Obligation.
    unfold pn_sqlen. rewrite (fold_nth (pn_arr p) (s_lit 0)). now rewrite pn_length.
  Qed.
End Cw.
