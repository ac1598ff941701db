(* flut/math/polynomial.hpp for float and double, with the arithmetic of
   Model/Ieee.v. *)
From Coq Require Import List ZArith.
From Verif Require Import Model.Base Model.FloatText Model.Ieee.
Import ListNotations.
Local Open Scope Z_scope.

(* the loop of polynomial::operator() (flut/math/polynomial.hpp:17); the last
   factor is computed and not used *)
Fixpoint f_poly_loop (f : fmt) (v result factor : fnum) (coeff : list fnum) : fnum :=
  match coeff with
  | [] => result
  | c :: coeff' => f_poly_loop f v (f_add f result (f_mul f factor c)) (f_mul f factor v) coeff'
  end.
(* polynomial::operator() (flut/math/polynomial.hpp:14-19); coeff has D + 1 > 1
   elements, so that coeff[ 0 ] exists *)
Definition f_poly_eval (f : fmt) (coeff : list fnum) (v : fnum) : res fnum :=
  let* c0 := vget coeff 0 in
  Ok (f_poly_loop f v c0 v (tl coeff)).
(* offset, slope (flut/math/polynomial.hpp:24-25), for linear_function *)
Record f_linear := mkFl { fl_offset : fnum; fl_slope : fnum }.
Definition fl_eval (f : fmt) (l : f_linear) (v : fnum) : res fnum := f_poly_eval f [fl_offset l; fl_slope l] v.
(* intersect_y (flut/math/polynomial.hpp:35): a division by zero is inf or nan *)
Definition f_intersect_y (f : fmt) (l : f_linear) (y : fnum) : fnum := f_div f (f_sub f y (fl_offset l)) (fl_slope l).
