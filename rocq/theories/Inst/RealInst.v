(** The exact instance of [Scalar]: real numbers.

    [EPSILON] is an arbitrary positive real, so a theorem over this instance
    covers f64 (2^-52) and f32 (2^-23) builds of the crate alike.  Exact
    arithmetic has no NaN; [x / 0] and [sqrt] of a negative number are the
    standard library's arbitrary values, theorems never rely on them. *)
From Coq Require Import Reals ZArith Lra.
From Verif Require Import Base.Outcome Base.Scalar Model.Roots.
Local Open Scope R_scope.

Class Eps := { eps : R; eps_pos : 0 < eps }.

Definition Rltb (x y : R) : bool := if Rlt_dec x y then true else false.
Definition Rleb (x y : R) : bool := if Rle_dec x y then true else false.
Definition Reqb (x y : R) : bool := if Req_EM_T x y then true else false.

#[global] Instance RScalar {E : Eps} : Scalar R := {
  s_add := Rplus;
  s_sub := Rminus;
  s_mul := Rmult;
  s_div := Rdiv;
  s_neg := Ropp;
  s_abs := Rabs;
  s_sqrt := sqrt;
  s_ltb := Rltb;
  s_leb := Rleb;
  s_eqb := Reqb;
  s_is_nan := fun _ => false;
  s_lit := IZR;
  s_half := 1 / 2;
  s_of_usize := INR;
  s_eps := eps
}.

(** The transcendental functions of the cubic solver.  [powf] is only used with
    a non-negative base: [Rpower x y] for positive [x], 0 for [x = 0] (Rust's
    [0.0.powf(1/3)] is 0).  [signum] of Rust is 1.0 at +0.0.  The constant is
    [core::f32::consts::PI], the binary32 number 13176795 / 2^22. *)
#[global] Instance RScalarTrans : ScalarTrans R := {
  s_powf := fun x y => if Rlt_dec 0 x then Rpower x y else 0;
  s_acos := acos;
  s_cos := cos;
  s_signum := fun x => if Rlt_dec x 0 then -1 else 1;
  s_pi_f32 := 13176795 / 4194304
}.

(** The two values of [EPSILON] in the crate (src/lib.rs:66, 72). *)
Lemma eps64_pos : 0 < / 2 ^ 52. Proof. apply Rinv_0_lt_compat, pow_lt; lra. Qed.
Lemma eps32_pos : 0 < / 2 ^ 23. Proof. apply Rinv_0_lt_compat, pow_lt; lra. Qed.
Definition Eps64 : Eps := {| eps := / 2 ^ 52; eps_pos := eps64_pos |}.
Definition Eps32 : Eps := {| eps := / 2 ^ 23; eps_pos := eps32_pos |}.

Lemma Rltb_spec x y : Bool.reflect (x < y) (Rltb x y).
Proof. unfold Rltb. destruct (Rlt_dec x y); constructor; assumption. Qed.
Lemma Rleb_spec x y : Bool.reflect (x <= y) (Rleb x y).
Proof. unfold Rleb. destruct (Rle_dec x y); constructor; assumption. Qed.
Lemma Reqb_spec x y : Bool.reflect (x = y) (Reqb x y).
Proof. unfold Reqb. destruct (Req_EM_T x y); constructor; assumption. Qed.

Lemma Rltb_true x y : x < y -> Rltb x y = true.
Proof. intros. destruct (Rltb_spec x y); [reflexivity|lra]. Qed.
Lemma Rltb_false x y : y <= x -> Rltb x y = false.
Proof. intros. destruct (Rltb_spec x y); [lra|reflexivity]. Qed.
Lemma Rleb_true x y : x <= y -> Rleb x y = true.
Proof. intros. destruct (Rleb_spec x y); [reflexivity|lra]. Qed.
Lemma Rleb_false x y : y < x -> Rleb x y = false.
Proof. intros. destruct (Rleb_spec x y); [lra|reflexivity]. Qed.
Lemma Reqb_true x y : x = y -> Reqb x y = true.
Proof. intros. destruct (Reqb_spec x y); [reflexivity|lra]. Qed.
Lemma Reqb_false x y : x <> y -> Reqb x y = false.
Proof. intros. destruct (Reqb_spec x y); [lra|reflexivity]. Qed.

Lemma eps64_le_1 : @eps Eps64 <= 1.
Proof.
  cbn [eps Eps64]. apply Rle_trans with (/ 1); [|lra]. apply Rinv_le_contravar; [lra|].
  apply pow_R1_Rle. lra.
Qed.
