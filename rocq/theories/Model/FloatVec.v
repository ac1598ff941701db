(* flut/math/vec3.hpp and flut/math/vec3_type.hpp for float and double, with the
   arithmetic of Model/Ieee.v, and the roots of flut/math/math.hpp. *)
From Verif Require Import Model.Base Model.FloatText Model.Math Model.Ieee Model.FloatMath.
Local Open Scope Z_scope.

(* sqrt (flut/math/math.hpp:48-51) is correctly rounded, as IEEE 754 demands: the
   whole part r of the root of n * 2^low decides, with half a unit added if there
   is a rest *)
Definition f_sqrt (f : fmt) (x : fnum) : fnum :=
  match x with
  | FNan => FNan
  | FInf a => if a then FNan else FInf false
  | FFin a n =>
      if n =? 0 then FFin a 0
      else if a then FNan
      else
        let r := Z.sqrt (n * 2 ^ fm_low f) in
        to_fnum f false (VNum (2 * r + (if r * r =? n * 2 ^ fm_low f then 0 else 1)) (2 * 2 ^ fm_low f))
  end.
(* inv, invsqrt, signed_sqrt, squared (flut/math/math.hpp:45-54) *)
Definition f_inv (f : fmt) (v : fnum) : fnum := f_div f (f_one f) v.
Definition f_invsqrt (f : fmt) (v : fnum) : fnum := f_div f (f_one f) (f_sqrt f v).
Definition f_signed_sqrt (f : fmt) (v : fnum) : fnum := if f_ge v f_zero then f_sqrt f v else f_neg (f_sqrt f (f_neg v)).
Definition f_squared (f : fmt) (v : fnum) : fnum := f_mul f v v.

(* + , - , negation, products with a scalar, / (flut/math/vec3.hpp:12-44) *)
Definition fv_add (f : fmt) (a b : f_vec) : f_vec := mkFv (f_add f (fv_x a) (fv_x b)) (f_add f (fv_y a) (fv_y b)) (f_add f (fv_z a) (fv_z b)).
Definition fv_sub (f : fmt) (a b : f_vec) : f_vec := mkFv (f_sub f (fv_x a) (fv_x b)) (f_sub f (fv_y a) (fv_y b)) (f_sub f (fv_z a) (fv_z b)).
Definition fv_neg (a : f_vec) : f_vec := mkFv (f_neg (fv_x a)) (f_neg (fv_y a)) (f_neg (fv_z a)).
Definition fv_scale (f : fmt) (a : f_vec) (s : fnum) : f_vec := mkFv (f_mul f (fv_x a) s) (f_mul f (fv_y a) s) (f_mul f (fv_z a) s).
Definition fv_div (f : fmt) (a : f_vec) (s : fnum) : f_vec := fv_scale f a (f_inv f s).
(* squared_length, length, is_normalized (flut/math/vec3.hpp:54-63,
   flut/math/vec3_type.hpp:40-41) *)
Definition fv_squared_length (f : fmt) (v : f_vec) : fnum :=
  f_add f (f_add f (f_mul f (fv_x v) (fv_x v)) (f_mul f (fv_y v) (fv_y v))) (f_mul f (fv_z v) (fv_z v)).
Definition fv_length (f : fmt) (v : f_vec) : fnum := f_sqrt f (fv_squared_length f v).
Definition fv_is_normalized (f : fmt) (v : f_vec) : bool := f_equals f (fv_squared_length f v) (f_one f) (f_relaxed_eps f).
(* distance (flut/math/vec3.hpp:66-67) *)
Definition fv_distance (f : fmt) (a b : f_vec) : fnum :=
  f_sqrt f (f_add f (f_add f (f_squared f (f_sub f (fv_x a) (fv_x b))) (f_squared f (f_sub f (fv_y a) (fv_y b)))) (f_squared f (f_sub f (fv_z a) (fv_z b)))).
(* == (flut/math/vec3.hpp:70-73), is_null (flut/math/vec3_type.hpp:42) *)
Definition fv_eq (a b : f_vec) : bool := f_eq (fv_x a) (fv_x b) && f_eq (fv_y a) (fv_y b) && f_eq (fv_z a) (fv_z b).
Definition fv_is_null (a : f_vec) : bool := f_eq (fv_x a) f_zero && f_eq (fv_y a) f_zero && f_eq (fv_z a) f_zero.
(* normalize, normalized (flut/math/vec3.hpp:76-81) *)
Definition fv_normalized (f : fmt) (v : f_vec) : f_vec :=
  let l := fv_length f v in if f_gt l (f_eps f) then fv_scale f v (f_inv f l) else v.
(* the member normalized (flut/math/vec3_type.hpp:44) *)
Definition fv_m_normalized (f : fmt) (v : f_vec) : f_vec := fv_scale f v (f_inv f (fv_length f v)).
(* dot_product, cross_product (flut/math/vec3.hpp:84-89) *)
Definition fv_dot (f : fmt) (a b : f_vec) : fnum :=
  f_add f (f_add f (f_mul f (fv_x a) (fv_x b)) (f_mul f (fv_y a) (fv_y b))) (f_mul f (fv_z a) (fv_z b)).
Definition fv_cross (f : fmt) (a b : f_vec) : f_vec :=
  mkFv (f_sub f (f_mul f (fv_y a) (fv_z b)) (f_mul f (fv_z a) (fv_y b)))
       (f_sub f (f_mul f (fv_z a) (fv_x b)) (f_mul f (fv_x a) (fv_z b)))
       (f_sub f (f_mul f (fv_x a) (fv_y b)) (f_mul f (fv_y a) (fv_x b))).
