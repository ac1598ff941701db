(* compute_spline_length (flut/math/catmull_rom.hpp:48-59) for curves of vectors:
   the parameters and the distances are of format f (float), the length is of
   format g (double), with the arithmetic of Model/Ieee.v. *)
From Coq Require Import ZArith.
From Verif Require Import Model.Base Model.FloatText Model.Ieee Model.FloatMath Model.FloatInterp Model.FloatFilter Model.FloatVec.
Local Open Scope Z_scope.

(* the conversion of float to double in dist += distance( pos, new_pos )
   (flut/math/catmull_rom.hpp:55) *)
Definition f_widen (f g : fmt) (x : fnum) : fnum :=
  match x with
  | FFin s n => FFin s (n * 2 ^ (fm_low g - fm_low f))
  | _ => x
  end.
(* t0 + ( t1 - t0 ) * i / steps (flut/math/catmull_rom.hpp:54); i and steps are
   converted to float *)
Definition fl_parameter (f : fmt) (t0 t1 : fnum) (steps i : Z) : fnum :=
  f_add f t0 (f_div f (f_mul f (f_sub f t1 t0) (f_of_int f i)) (f_of_int f steps)).
(* the loop (flut/math/catmull_rom.hpp:52-57); n iterations are left *)
Fixpoint fl_loop (f g : fmt) (spline : fnum -> f_vec) (t0 t1 : fnum) (steps i : Z) (n : nat) (pos : f_vec) (dist : fnum) : fnum :=
  match n with
  | O => dist
  | S n' =>
    let new_pos := spline (fl_parameter f t0 t1 steps i) in
    fl_loop f g spline t0 t1 steps (i + 1) n' new_pos (f_add g dist (f_widen f g (fv_distance f pos new_pos)))
  end.
(* compute_spline_length (flut/math/catmull_rom.hpp:48-59) *)
Definition f_spline_length (f g : fmt) (spline : fnum -> f_vec) (t0 t1 : fnum) (steps : Z) : fnum :=
  fl_loop f g spline t0 t1 steps 1 (Z.to_nat steps) (spline t0) f_zero.
