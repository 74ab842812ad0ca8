(** examples/plotters_cubic_bezier.rs run on the f64 model: every point of the curve it draws
    lies within the box and the chart.  As in the other runs, the file does not compile if this fails. *)
From Coq Require Import List ZArith Bool.
From Verif Require Import Base.Outcome Base.Scalar Model.Point Model.Example Inst.FloatInst.
Import ListNotations.

Section Run.
  Local Existing Instance Binary64.
  Definition within (r : float * float) (x : float) : bool := s_leb (fst r) x && s_leb x (snd r).
  Definition example_draws : outcome bool :=
    let! pl := ex_main in
    let xs := map fst (pl_box pl) in let ys := map snd (pl_box pl) in
    let bx := (nth 0 xs (s_lit 0), nth 2 xs (s_lit 0)) in
    let by_ := (nth 0 ys (s_lit 0), nth 1 ys (s_lit 0)) in
    Ret ((length (pl_curve pl) =? 1000)%nat
         && forallb (fun p => within bx (fst p) && within by_ (snd p)) (pl_curve pl)
         && forallb (fun p => within (pl_x pl) (fst p) && within (pl_y pl) (snd p))
              (pl_points pl ++ pl_curve pl ++ pl_box pl ++ pl_hull pl)).
End Run.
Check (@eq_refl (outcome bool) (Ret true) <: example_draws = Ret true).
