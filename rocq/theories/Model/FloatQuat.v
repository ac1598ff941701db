(* flut/math/quat.hpp, flut/math/quat_type.hpp, flut/math/transform.hpp,
   flut/math/vec4.hpp and flut/math/vec4_type.hpp for float and double, with the
   arithmetic of Model/Ieee.v. *)
From Verif Require Import Model.Base Model.FloatText Model.Math Model.Ieee Model.FloatMath Model.FloatVec.
Local Open Scope Z_scope.

(* quat_, identity (flut/math/quat_type.hpp:11-31) *)
Record f_quat := mkFq { fq_w : fnum; fq_x : fnum; fq_y : fnum; fq_z : fnum }.
Definition fq_identity (f : fmt) : f_quat := mkFq (f_one f) f_zero f_zero f_zero.
(* T(2) (flut/math/quat.hpp:34-35) *)
Definition f_two (f : fmt) : fnum := FFin false (2 * 2 ^ fm_low f).

(* a * b + c * d + e * g - h * i and a * b - c * d - e * g - h * i, from the left *)
Definition f_sum4 (f : fmt) (a b c d e g h i : fnum) : fnum := f_sub f (f_add f (f_add f (f_mul f a b) (f_mul f c d)) (f_mul f e g)) (f_mul f h i).
Definition f_diff4 (f : fmt) (a b c d e g h i : fnum) : fnum := f_sub f (f_sub f (f_sub f (f_mul f a b) (f_mul f c d)) (f_mul f e g)) (f_mul f h i).
(* operator* (flut/math/quat.hpp:19-26) *)
Definition fq_mul (f : fmt) (a b : f_quat) : f_quat :=
  mkFq (f_diff4 f (fq_w a) (fq_w b) (fq_x a) (fq_x b) (fq_y a) (fq_y b) (fq_z a) (fq_z b))
       (f_sum4 f (fq_w a) (fq_x b) (fq_x a) (fq_w b) (fq_y a) (fq_z b) (fq_z a) (fq_y b))
       (f_sum4 f (fq_w a) (fq_y b) (fq_y a) (fq_w b) (fq_z a) (fq_x b) (fq_x a) (fq_z b))
       (f_sum4 f (fq_w a) (fq_z b) (fq_z a) (fq_w b) (fq_x a) (fq_y b) (fq_y a) (fq_x b)).
(* operator* with a vector (flut/math/quat.hpp:29-37) *)
Definition fq_rotate (f : fmt) (q : f_quat) (v : f_vec) : f_vec :=
  let qv := mkFv (fq_x q) (fq_y q) (fq_z q) in
  let uv := fv_cross f qv v in
  let uuv := fv_cross f qv uv in
  fv_add f (fv_add f v (fv_scale f uv (f_mul f (f_two f) (fq_w q)))) (fv_scale f uuv (f_two f)).
(* operator- (flut/math/quat.hpp:40-41) *)
Definition fq_conj (q : f_quat) : f_quat := mkFq (fq_w q) (f_neg (fq_x q)) (f_neg (fq_y q)) (f_neg (fq_z q)).
(* a * a + b * b + c * c + d * d, from the left *)
Definition f_squares (f : fmt) (a b c d : fnum) : fnum := f_add f (f_add f (f_add f (f_mul f a a) (f_mul f b b)) (f_mul f c c)) (f_mul f d d).
(* length, is_normalized (flut/math/quat.hpp:44-49) *)
Definition fq_length (f : fmt) (q : f_quat) : fnum := f_sqrt f (f_squares f (fq_w q) (fq_x q) (fq_y q) (fq_z q)).
Definition fq_is_normalized (f : fmt) (q : f_quat) : bool := f_equals f (f_squares f (fq_w q) (fq_x q) (fq_y q) (fq_z q)) (f_one f) (f_relaxed_eps f).
(* normalize, normalized (flut/math/quat.hpp:52-67) *)
Definition fq_normalized (f : fmt) (q : f_quat) : f_quat :=
  let l := f_sqrt f (f_squares f (fq_x q) (fq_y q) (fq_z q) (fq_w q)) in
  if f_gt l (f_eps f) then
    let invl := f_inv f l in
    mkFq (f_mul f (fq_w q) invl) (f_mul f (fq_x q) invl) (f_mul f (fq_y q) invl) (f_mul f (fq_z q) invl)
  else q.
(* quat_from_quats (flut/math/quat.hpp:155-156) *)
Definition fq_from_quats (f : fmt) (source target : f_quat) : f_quat := fq_mul f (fq_conj source) target.

(* transform_ (flut/math/transform.hpp:12-43) *)
Record f_transform := mkFt { ft_p : f_vec; ft_q : f_quat }.
Definition ft_identity (f : fmt) : f_transform := mkFt (mkFv f_zero f_zero f_zero) (fq_identity f).
Definition ft_inverse (f : fmt) (t : f_transform) : f_transform := let iq := fq_conj (ft_q t) in mkFt (fq_rotate f iq (fv_neg (ft_p t))) iq.
Definition ft_apply (f : fmt) (t : f_transform) (v : f_vec) : f_vec := fv_add f (ft_p t) (fq_rotate f (ft_q t) v).
Definition ft_inv_apply (f : fmt) (t : f_transform) (v : f_vec) : f_vec := fq_rotate f (fq_conj (ft_q t)) (fv_sub f v (ft_p t)).
Definition ft_mul (f : fmt) (t u : f_transform) : f_transform := mkFt (fv_add f (ft_p t) (fq_rotate f (ft_q t) (ft_p u))) (fq_mul f (ft_q t) (ft_q u)).
Definition ft_inv_mul (f : fmt) (t u : f_transform) : f_transform := mkFt (fq_rotate f (fq_conj (ft_q t)) (fv_sub f (ft_p u) (ft_p t))) (fq_mul f (fq_conj (ft_q t)) (ft_q u)).

(* vec4_: +, -=, negation, products with a scalar, /, squared_length, length,
   is_null (flut/math/vec4.hpp:11-44, flut/math/vec4_type.hpp:21-23) *)
Record f_vec4 := mkF4 { f4_x : fnum; f4_y : fnum; f4_z : fnum; f4_w : fnum }.
Definition f4_add (f : fmt) (a b : f_vec4) : f_vec4 := mkF4 (f_add f (f4_x a) (f4_x b)) (f_add f (f4_y a) (f4_y b)) (f_add f (f4_z a) (f4_z b)) (f_add f (f4_w a) (f4_w b)).
Definition f4_sub (f : fmt) (a b : f_vec4) : f_vec4 := mkF4 (f_sub f (f4_x a) (f4_x b)) (f_sub f (f4_y a) (f4_y b)) (f_sub f (f4_z a) (f4_z b)) (f4_w a).
Definition f4_neg (a : f_vec4) : f_vec4 := mkF4 (f_neg (f4_x a)) (f_neg (f4_y a)) (f_neg (f4_z a)) (f4_w a).
Definition f4_scale (f : fmt) (a : f_vec4) (s : fnum) : f_vec4 := mkF4 (f_mul f (f4_x a) s) (f_mul f (f4_y a) s) (f_mul f (f4_z a) s) (f4_w a).
Definition f4_div (f : fmt) (a : f_vec4) (s : fnum) : f_vec4 := f4_scale f a (f_inv f s).
Definition f4_squared_length (f : fmt) (a : f_vec4) : fnum := f_squares f (f4_x a) (f4_y a) (f4_z a) (f4_w a).
Definition f4_length (f : fmt) (a : f_vec4) : fnum := f_sqrt f (f4_squared_length f a).
Definition f4_is_null (a : f_vec4) : bool := f_eq (f4_x a) f_zero && f_eq (f4_y a) f_zero && f_eq (f4_z a) f_zero && f_eq (f4_w a) f_zero.
