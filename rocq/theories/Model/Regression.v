(* flut/math/polynomial.hpp, flut/math/linear_regression.hpp and average of
   flut/container_tools.hpp over exact reals; UB: the result is not finite *)
From Coq Require Import Reals List.
From Verif Require Import Model.Base.
Import ListNotations.
Local Open Scope R_scope.

(* x / y *)
Definition rdiv (x y : R) : res R := if Req_EM_T y 0 then UB else Ok (x / y).

(* polynomial::operator() (flut/math/polynomial.hpp:14-19); coeff has D + 1 > 1
   elements, so that coeff[ 0 ] exists *)
Definition poly_eval (coeff : list R) (v : R) : res R :=
  let* c0 := vget coeff 0 in
  Ok (fst (fold_left (fun '(result, factor) c => (result + factor * c, factor * v)) (tl coeff) (c0, v))).

(* linear_function, offset, slope (flut/math/polynomial.hpp:24-31) *)
Record linear := mkLinear { offset : R; slope : R }.
Definition linear_eval (f : linear) (v : R) : res R := poly_eval [offset f; slope f] v.
(* intersect_y (flut/math/polynomial.hpp:35) *)
Definition intersect_y (f : linear) (y : R) : res R := rdiv (y - offset f) (slope f).

(* average (flut/container_tools.hpp:33-37) *)
Definition average (l : list R) : res R := rdiv (fold_left Rplus l 0) (INR (length l)).

(* linear_regression of two ranges (flut/math/linear_regression.hpp:10-29, 48-50) *)
Definition linear_regression (xs ys : list R) : res linear :=
  let* _ := assert_ (length xs =? length ys)%nat in
  let* avgx := average xs in
  let* avgy := average ys in
  let '(num, den) := fold_left (fun '(num, den) '(x, y) => (num + (x - avgx) * (y - avgy), den + (x - avgx) * (x - avgx)))
                       (combine xs ys) (0, 0) in
  let* slope := rdiv num den in
  Ok (mkLinear (avgy - slope * avgx) slope).

(* linear_regression with fixed steps (flut/math/linear_regression.hpp:31-46);
   n - 1 wraps around for n = 0, where the average is not finite anyway *)
Definition linear_regression_step (x_begin x_step : R) (ys : list R) : res linear :=
  let n := length ys in
  let* avgy := average ys in
  let avgx := x_begin + INR (n - 1) * x_step / 2 in
  let '(num, _) := fold_left (fun '(num, xval) y => (num + (xval - avgx) * (y - avgy), xval + x_step)) ys (0, x_begin) in
  let x_hsiz := INR (n - 1) * x_step / 2 in
  let* den := rdiv (x_hsiz * (x_hsiz + x_step) * (2 * x_hsiz + x_step)) (3 * x_step) in
  let* slope := rdiv num den in
  Ok (mkLinear (avgy - slope * avgx) slope).
