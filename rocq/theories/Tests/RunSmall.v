(** Unit tests of the crate run on the f64 model (definitions in UnitTests.v).
    Each line is type-checked by computing the test in the virtual machine; the file does
    not compile if one fails.  Nothing is named: these are runs, not theorems. *)
From Verif Require Import Base.Outcome Tests.UnitTests.
Local Notation passes t := (@eq_refl (outcome bool) (Ret true) <: t = Ret true).
Check passes line_segment_interpolation.
Check passes line_segment_distance_to_point.
Check passes quad_eval_equivalence.
Check passes quad_split_equivalence.
Check passes quad_bounding_box_contains.
Check passes quad_distance.
Check passes degree_1_clamped.
Check passes degree_1_unclamped.
Check passes degree_2_clamped.
Check passes degree_2_unclamped.
Check passes degree_3_clamped.
Check passes degree_3_unclamped.
Check passes degree_4_clamped.
Check passes degree_4_unclamped.
