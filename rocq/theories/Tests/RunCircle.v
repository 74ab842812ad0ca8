(** Unit tests of the crate run on the f64 model (definitions in UnitTests.v).
    Each line is type-checked by computing the test in the virtual machine; the file does
    not compile if one fails.  Nothing is named: these are runs, not theorems. *)
From Verif Require Import Base.Outcome Tests.UnitTests.
Local Notation passes t := (@eq_refl (outcome bool) (Ret true) <: t = Ret true).
Check passes circle_approximation_error.
Check passes circle_circumference_approximation.
