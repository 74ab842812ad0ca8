(** Unit tests of the crate run on the f64 model (definitions in UnitTests.v).
    Each line is type-checked by computing the test in the virtual machine; the file does
    not compile if one fails.  Nothing is named: these are runs, not theorems. *)
From Verif Require Import Base.Outcome Tests.UnitTests.
Local Notation passes t := (@eq_refl (outcome bool) (Ret true) <: t = Ret true).
Check passes bezier_eval_endpoints.
Check passes bezier_distance.
Check passes bezier_split_equivalence.
Check passes equivalence_cubic_specialization.
Check passes equivalence_quadratic_specialization.
