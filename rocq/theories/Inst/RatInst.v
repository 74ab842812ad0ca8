(** A computable instance: rational numbers, with [Qred] after each operation.

    It exists to run the model on concrete inputs inside Coq and carry the
    result over to the real instance (Proofs/Transfer.v).  [s_sqrt] is a dummy:
    the transfer lemmas never use it. *)
From Coq Require Import QArith Qabs ZArith.
From Verif Require Import Base.Outcome Base.Scalar.

Class QEps := { qeps : Q; qeps_pos : Qlt 0 qeps }.

#[global] Instance QScalar {E : QEps} : Scalar Q := {
  s_add := fun x y => Qred (x + y);
  s_sub := fun x y => Qred (x - y);
  s_mul := fun x y => Qred (x * y);
  s_div := fun x y => Qred (x / y);
  s_neg := Qopp;
  s_abs := Qabs;
  s_sqrt := fun x => x;
  s_ltb := fun x y => negb (Qle_bool y x);
  s_leb := Qle_bool;
  s_eqb := Qeq_bool;
  s_is_nan := fun _ => false;
  s_lit := fun z => inject_Z z;
  s_half := 1 # 2;
  s_of_usize := fun n => inject_Z (Z.of_nat n);
  s_eps := qeps
}.

(** [EPSILON] of f64 and f32 builds *)
Definition QEps64 : QEps := {| qeps := 1 # (2 ^ 52); qeps_pos := eq_refl |}.
Definition QEps32 : QEps := {| qeps := 1 # (2 ^ 23); qeps_pos := eq_refl |}.
