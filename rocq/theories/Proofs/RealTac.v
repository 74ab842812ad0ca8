(** Tactics for reasoning about lawful points over R. *)
From Coq Require Import Reals List Arith Lia Lra.
From Verif Require Import Base.Outcome Base.Scalar Model.Point Inst.RealInst
  Spec.Sums Spec.Lawful.
Local Open Scope R_scope.

(** Replace the abstract scalar operations by those of R. *)
Ltac rs := cbn [s_add s_sub s_mul s_div s_neg s_abs s_sqrt s_ltb s_leb s_eqb s_is_nan
                s_lit s_half s_of_usize s_eps RScalar].
Ltac rs_in H := cbn [s_add s_sub s_mul s_div s_neg s_abs s_sqrt s_ltb s_leb s_eqb s_is_nan
                s_lit s_half s_of_usize s_eps RScalar] in H.

(** Push [coord _ i] through the point operations; needs [i < p_dim] in context. *)
Ltac coords := repeat first [rewrite lp_add by assumption | rewrite lp_sub by assumption
                            | rewrite lp_mul by assumption | rewrite lp_default by assumption].

(** Prove an equation between points coordinate by coordinate. *)
Ltac pext := apply lp_ext; let i := fresh "i" in let Hi := fresh "Hi" in
             intros i Hi; coords; rs.

Lemma axis_lt {P} {PT : Point R P} {LP : LawfulPoint P} (p : P) i :
  (i < p_dim (P := P))%nat -> p_axis p i = Ret (coord p i).
Proof. intros H. rewrite lp_axis. destruct (Nat.ltb_spec i (p_dim (P := P))); [auto|lia]. Qed.

Lemma axis_ge {P} {PT : Point R P} {LP : LawfulPoint P} (p : P) i :
  (p_dim (P := P) <= i)%nat -> p_axis p i = Panic.
Proof. intros H. rewrite lp_axis. destruct (Nat.ltb_spec i (p_dim (P := P))); [lia|auto]. Qed.
